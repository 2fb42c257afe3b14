(** [final_exponentiation] is the power (q^12 - 1) / r. *)
From Coq Require Import List Bool Field_theory Field Ring ZArith Znumtheory Lia.
From Verif Require Import Base Moduli Field FieldFacts LimbModel CurveModel CurveSpec G1Group XiChain TowerModel TowerSpec TowerFacts PowerFacts TowerFq TowerFrob PairingModel.
Import ListNotations.
Add Field fq12r' : f12_field.
Local Notation fr i := (frob12 K1 tbl i).
Local Notation Fq12 := (ext2 (ext3 (ext2 Fq))).
Local Notation "x ^^ n" := (zpow K12 x n) (at level 30).
Local Notation "x * y" := (f12_mul K1 x y).
Local Notation "1" := (f12_one K1).
Local Notation "0" := (f12_zero K1).
Definition Q : Z := q_modulus.
Lemma Q_nq i : Z.of_nat (nq ^ i) = (Q ^ Z.of_nat i)%Z.
Proof. rewrite Nat2Z.inj_pow, nq_Z. reflexivity. Qed.

Lemma mul12_assign s t : f12_mul_assign K1 s t = t * s. Proof. reflexivity. Qed.
Lemma zp_add x n m : x <> 0 -> x ^^ (n + m) = x ^^ n * x ^^ m. Proof. exact (zpow_add K12 fq12_fld x n m). Qed.
Lemma zp_mul x n m : x <> 0 -> x ^^ (n * m) = (x ^^ n) ^^ m. Proof. exact (zpow_mul K12 fq12_fld x n m). Qed.
Lemma zp_nz x n : x <> 0 -> x ^^ n <> 0. Proof. exact (zpow_nz K12 fq12_fld x n). Qed.
Lemma zp_1 x : x ^^ 1 = x. Proof. exact (zpow_1 K12 fq12_fld x). Qed.
Lemma one_nz : 1 <> 0. Proof. exact (a_one K12 fq12_fld). Qed.
Lemma zp_one n : 1 ^^ n = 1.
Proof. pose proof (zp_mul 1 0 n one_nz) as E. change (1 ^^ 0) with 1 in E. rewrite Z.mul_0_l in E. symmetry. exact E. Qed.
Lemma fr_zp i x : fr i x = x ^^ (Q ^ Z.of_nat i).
Proof. rewrite fr_power, <- Q_nq. symmetry. exact (zpow_nat K12 x _). Qed.
Lemma zp_order x : x <> 0 -> x ^^ (Q ^ 12 - 1) = 1.
Proof.
  intros X. apply (a_cancel K12 fq12_fld x _ _ X). transitivity (x ^^ (Q ^ 12)).
  - replace (Q ^ 12)%Z with (1 + (Q ^ 12 - 1))%Z at 2 by ring. rewrite zp_add, zp_1 by exact X. reflexivity.
  - change (Q ^ 12)%Z with (Q ^ Z.of_nat 12)%Z. rewrite <- fr_zp, fr_12. cbn [f12_base bmul bone]. ring.
Qed.
Lemma easy_part q : ((q ^ 6 - 1) * (q ^ 2 + 1) * (q ^ 4 - q ^ 2 + 1) = q ^ 12 - 1)%Z. Proof. ring. Qed.
(** the subgroup of order q^4 - q^2 + 1 *)
Definition cyc (x : Fq12) : Prop := x <> 0 /\ x ^^ (Q ^ 4 - Q ^ 2 + 1) = 1.
Lemma cyc_cyclotomic x : cyc x -> cyclotomic x.
Proof.
  intros [X E]. unfold cyclotomic. rewrite !fr_zp. change (Z.of_nat 4) with 4%Z. change (Z.of_nat 2) with 2%Z.
  transitivity (x ^^ (Q ^ 4 - Q ^ 2 + 1) * x ^^ (Q ^ 2)); [|rewrite E; ring]. rewrite <- zp_add by exact X. rewrite <- (zp_1 x) at 2. rewrite <- zp_add by exact X. apply (f_equal (zpow K12 x)). ring.
Qed.
Lemma cyc_zp x n : cyc x -> cyc (x ^^ n).
Proof. intros [X E]. split; [exact (zp_nz x n X)|]. rewrite <- zp_mul, Z.mul_comm, zp_mul, E by exact X. apply zp_one. Qed.
Section Power.
Variable g : Fq12.
Hypothesis G : cyc g.
Lemma gm n m : f12_mul_assign K1 (g ^^ n) (g ^^ m) = g ^^ (n + m).
Proof. rewrite mul12_assign, zp_add by (apply G). ring. Qed.
Lemma gs n : f12_cyclotomic_square K1 (g ^^ n) = g ^^ (2 * n).
Proof. rewrite cyclotomic_square_is by (apply cyc_cyclotomic, cyc_zp; exact G). rewrite <- zp_add by (apply G). apply (f_equal (zpow K12 g)). ring. Qed.
Lemma gf i n : fr i (g ^^ n) = g ^^ (n * Q ^ Z.of_nat i).
Proof. rewrite fr_zp, <- zp_mul by (apply G). reflexivity. Qed.
Lemma gc n : f12_conjugate K1 (g ^^ n) = g ^^ (- n).
Proof.
  rewrite <- fr_6, gf. replace (n * Q ^ Z.of_nat 6)%Z with ((Q ^ 4 - Q ^ 2 + 1) * ((Q ^ 2 + 1) * n) + - n)%Z by (change (Z.of_nat 6) with 6%Z; ring).
  rewrite zp_add, zp_mul by (apply G). rewrite (proj2 G), zp_one. ring.
Qed.
Lemma exp_steps n l k : fold_left (fun res i => let res := f12_cyclotomic_square K1 res in if Z.testbit bn_x (Z.of_nat i) then f12_mul_assign K1 res (g ^^ n) else res) l (g ^^ (n * k)) =
  g ^^ (n * fold_left (fun k i => 2 * k + (if Z.testbit bn_x (Z.of_nat i) then 1 else 0))%Z l k).
Proof.
  revert k. induction l as [|i l IH]; intros k; [reflexivity|]. cbn [fold_left]. rewrite gs. destruct (Z.testbit bn_x (Z.of_nat i)).
  - rewrite gm. replace (2 * (n * k) + n)%Z with (n * (2 * k + 1))%Z by ring. apply IH.
  - replace (2 * (n * k))%Z with (n * (2 * k + 0))%Z by ring. apply IH.
Qed.
Lemma gx n : exp_by_x K1 (g ^^ n) = g ^^ (n * bn_x).
Proof.
  unfold exp_by_x. change (f12_one K1) with (g ^^ 0). replace 0%Z with (n * 0)%Z at 1 by ring. rewrite exp_steps. apply (f_equal (fun k => g ^^ (n * k))). vm_compute. reflexivity.
Qed.
End Power.
Theorem final_exponentiation_is s n : s <> 0 -> (Z.of_nat n * r_modulus = Q ^ 12 - 1)%Z -> final_exponentiation K1 tbl s = Ok (power K12 s n).
Proof.
  intros X N. unfold final_exponentiation. destruct (f12_invert K1 s) as [f2|] eqn:I; [|exfalso; apply X; exact (proj1 (fd_invert _ fq12_fld s) I)].
  assert (V : f2 = s ^^ (-1)).
  { replace (s ^^ (-1)) with (binv K12 (s ^^ 1)) by (symmetry; exact (zpow_opp K12 fq12_fld s 1 X)). rewrite zp_1. unfold binv. cbn [f12_base binvert]. rewrite I. reflexivity. }
  set (g := s ^^ ((Q ^ 6 - 1) * (Q ^ 2 + 1))).
  assert (G : cyc g).
  { split; [apply zp_nz; exact X|]. unfold g. rewrite <- zp_mul by exact X. rewrite easy_part. apply zp_order. exact X. }
  assert (R : f12_mul_assign K1 (fr 2 (f12_mul_assign K1 (f12_conjugate K1 s) f2)) (f12_mul_assign K1 (f12_conjugate K1 s) f2) = g).
  { rewrite !mul12_assign, <- fr_6, V, !fr_zp. rewrite <- !(zp_add s), <- zp_mul, <- zp_add by exact X. unfold g. apply (f_equal (zpow K12 s)). change (Z.of_nat 2) with 2%Z. change (Z.of_nat 6) with 6%Z. ring. }
  cbv zeta. rewrite R. clear R. rewrite <- (zp_1 g).
  repeat (rewrite !(gx g G) || rewrite !(gf g G) || rewrite !(gc g G) || rewrite !(gm g G) || rewrite !(gs g G)).
  apply f_equal. unfold g. rewrite <- zp_mul by exact X. rewrite <- (zpow_nat K12). apply (f_equal (zpow K12 s)).
  apply (Z.mul_reg_r _ _ r_modulus); [discriminate|]. rewrite N. vm_compute. reflexivity.
Qed.
Lemma final_exponentiation_panics : final_exponentiation K1 tbl 0 = Panic.
Proof. unfold final_exponentiation. rewrite (proj2 (fd_invert _ fq12_fld 0) eq_refl : f12_invert K1 0 = None). reflexivity. Qed.
