(** Square roots in Fq2. *)
From Coq Require Import List Bool Field_theory Field Ring ZArith Znumtheory Lia.
From Verif Require Import Base Moduli Field FieldFacts LimbModel LimbSpec CurveModel CurveSpec G1Group XiChain TowerModel TowerSpec TowerFacts PowerFacts TowerFq TowerFrob.
Import ListNotations.
Add Field fq2r'' : (f2_field K1 fq2_fld).
Local Notation Fq2 := (ext2 Fq).
Transparent W.
Local Notation "0" := (f2_zero K1). Local Notation "1" := (f2_one K1).
Local Notation "x + y" := (f2_add K1 x y). Local Notation "x * y" := (f2_mul K1 x y). Local Notation "- x" := (f2_neg K1 x).
Local Notation pw := (power K2).
Lemma sq2 x : f2_square_assign K1 x = x * x. Proof. apply (f2_square_is K1 fq_fld). Qed.

Lemma pow_bits_is n : forall e x k, f2_pow_bits K1 n e x (pw x k) = pw x (Z.to_nat (2 ^ Z.of_nat n * Z.of_nat k + e mod 2 ^ Z.of_nat n)).
Proof.
  induction n as [|n IH]; intros e x k; cbn [f2_pow_bits].
  - change (2 ^ Z.of_nat 0)%Z with 1%Z. rewrite Z.mod_1_r. f_equal. lia.
  - cbv zeta. rewrite sq2. replace (pw x k * pw x k) with (pw x (2 * k)) by (replace (2 * k)%nat with (k + k)%nat by lia; exact (pw_add K2 fq2_fld x k k)).
    assert (M : (e mod 2 ^ Z.of_nat (S n) = e mod 2 ^ Z.of_nat n + 2 ^ Z.of_nat n * (if Z.testbit e (Z.of_nat n) then 1 else 0))%Z).
    { rewrite Nat2Z.inj_succ, Z.pow_succ_r, Z.mul_comm, Z.rem_mul_r by lia. f_equal. f_equal. pose proof (Z.testbit_spec' e (Z.of_nat n) (Nat2Z.is_nonneg n)) as T. rewrite <- T. destruct (Z.testbit e (Z.of_nat n)); reflexivity. }
    rewrite M, Nat2Z.inj_succ, Z.pow_succ_r by lia. destruct (Z.testbit e (Z.of_nat n)).
    + replace (pw x (2 * k) * x) with (pw x (2 * k + 1)) by (etransitivity; [exact (pw_add K2 fq2_fld x (2 * k) 1)|]; rewrite (pw_1 K2 fq2_fld); reflexivity). rewrite IH. f_equal. f_equal. lia.
    + rewrite IH. f_equal. f_equal. lia.
Qed.
Lemma pow_is x e m : words4 e -> Z.of_nat m = v4 e -> f2_pow K1 x e = pw x m.
Proof.
  intros (A & B & C & D) M. unfold f2_pow. cbv zeta. change (f2_one K1) with (pw x 0). rewrite !pow_bits_is. f_equal. apply Nat2Z.inj. rewrite M. unfold word, W in *. change (2 ^ Z.of_nat 64)%Z with 18446744073709551616%Z.
  rewrite !Z.mod_small by assumption. unfold v4, W. rewrite !Z2Nat.id by (repeat apply Z.add_nonneg_nonneg; try apply Z.mul_nonneg_nonneg; lia). lia.
Qed.
Definition e_quarter : limbs := L4 0x4f082305b61f3f51 0x65e05aa45a1c72a3 0x6e14116da0605617 0x0c19139cb84c680a.
Definition e_half : limbs := L4 0x9e10460b6c3e7ea3 0xcbc0b548b438e546 0xdc2822db40c0ac2e 0x183227397098d014.
Lemma frob_1 x : f2_frobenius K1 (t_2 tbl) 1 x = pw x nq.
Proof. rewrite f2_frob_is, conj_frob. reflexivity. Qed.
Lemma neg_one_val : val negative_one = bopp K1 (bone K1).
Proof. apply feqb_eq. vm_compute. reflexivity. Qed.
Lemma fq2_order x : pw x (nq * nq) = x.
Proof. rewrite <- (pw_pw K2 fq2_fld), !conj_frob. apply cj_cj. Qed.
Section Root.
Variables (m : nat) (s : Fq2).
Hypothesis M : nq = (4 * m + 3)%nat.
Hypothesis S0 : s <> 0.
Definition al : Fq2 := pw s (2 * m + 1).
Lemma al_norm : pw al nq * al = pw s ((2 * m + 1) * (nq + 1)).
Proof. unfold al. rewrite (pw_pw K2 fq2_fld). replace (pw s ((2 * m + 1) * (nq + 1))) with (pw s ((2 * m + 1) * nq + (2 * m + 1))) by (f_equal; lia). symmetry. exact (pw_add K2 fq2_fld s _ _). Qed.
Lemma full_power x : x <> 0 -> pw x ((2 * m + 1) * (nq + 1) * 2) = 1.
Proof.
  intros X. apply (a_cancel K2 fq2_fld x _ _ X). transitivity (pw x (nq * nq)); [|rewrite fq2_order; cbn [f2_base bmul bone]; ring].
  replace (nq * nq)%nat with (S ((2 * m + 1) * (nq + 1) * 2)); [reflexivity|]. rewrite M. nia.
Qed.
Lemma norm_sign : pw al nq * al = 1 \/ pw al nq * al = - (1).
Proof.
  rewrite al_norm. set (t := pw s _). assert (T : t * t = 1). { rewrite <- (full_power s S0). unfold t. rewrite <- (pw_pw K2 fq2_fld _ _ 2). symmetry. exact (pw_2 K2 fq2_fld _). }
  destruct (a_prod K2 fq2_fld (f2_sub K1 t 1) (t + 1)) as [E|E].
  - cbn [f2_base bmul bzero]. transitivity (f2_sub K1 (t * t) 1); [ring|]. rewrite T. ring.
  - left. transitivity (f2_sub K1 t 1 + 1); [ring|]. rewrite E. cbn [f2_base bzero]. ring.
  - right. transitivity (f2_sub K1 (t + 1) 1); [ring|]. rewrite E. cbn [f2_base bzero]. ring.
Qed.
Lemma two_nz : 1 <> - (1).
Proof.
  intros E. apply (base_two _ _ fq_is_base). unfold two. apply (f_equal e0) in E. cbn [f2_one f2_neg e0] in E. transitivity (badd K1 (bone K1) (bopp K1 (bone K1))); [f_equal; exact E|]. cbn [fq_base badd bopp bone bzero]. qring.
Qed.
Lemma square_norm y : s = y * y -> pw al nq * al = 1.
Proof.
  intros E. assert (Y : y <> 0) by (intros X; apply S0; rewrite E, X; ring). rewrite al_norm, <- (full_power y Y), E. replace (y * y) with (pw y 2) by exact (pw_2 K2 fq2_fld y). rewrite (pw_pw K2 fq2_fld). f_equal. lia.
Qed.
Lemma root_square : pw al nq * al = 1 -> al <> - (1) -> let y := (pw (al + 1) (2 * m + 1)) * (s * pw s m) in y * y = s.
Proof.
  intros N A y. assert (B : al + 1 <> 0). { intros E. apply A. transitivity (f2_sub K1 (al + 1) 1); [ring|]. rewrite E. ring. }
  assert (Al : al <> 0). { intros E. apply (a_one K2 fq2_fld). cbn [f2_base bone bzero]. rewrite <- N, E. ring. }
  assert (X : (s * pw s m) * (s * pw s m) = al * s). { unfold al. replace (2 * m + 1)%nat with (m + m + 1)%nat by lia. rewrite !(pw_add K2 fq2_fld), (pw_1 K2 fq2_fld). cbn [f2_base bmul]. ring. }
  assert (Z : (al * pw (al + 1) (2 * m + 1 + (2 * m + 1))) * (al + 1) = al + 1).
  { transitivity (al * pw (al + 1) nq).
    - replace (pw (al + 1) nq) with (pw (al + 1) (2 * m + 1 + (2 * m + 1) + 1)) by (f_equal; rewrite M; lia). rewrite (pw_add K2 fq2_fld _ _ 1%nat), (pw_1 K2 fq2_fld). cbn [f2_base bmul]. ring.
    - replace (pw (al + 1) nq) with (pw al nq + 1).
      + transitivity (pw al nq * al + al); [ring|]. rewrite N. ring.
      + symmetry. etransitivity; [exact (hom_add _ _ _ frob2 al 1)|]. cbv beta. rewrite (pw_one K2 fq2_fld). reflexivity. }
  assert (V : al * pw (al + 1) (2 * m + 1 + (2 * m + 1)) = 1).
  { apply (a_cancel K2 fq2_fld (al + 1) _ _ B). cbn [f2_base bmul bone]. transitivity ((al * pw (al + 1) (2 * m + 1 + (2 * m + 1))) * (al + 1)); [ring|]. rewrite Z. ring. }
  unfold y. transitivity (pw (al + 1) (2 * m + 1) * pw (al + 1) (2 * m + 1) * ((s * pw s m) * (s * pw s m))); [ring|]. rewrite X.
  replace (pw (al + 1) (2 * m + 1) * pw (al + 1) (2 * m + 1)) with (pw (al + 1) (2 * m + 1 + (2 * m + 1))) by exact (pw_add K2 fq2_fld _ _ _).
  transitivity ((al * pw (al + 1) (2 * m + 1 + (2 * m + 1))) * s); [ring|]. rewrite V. ring.
Qed.
Lemma root_minus : al = - (1) -> let y := (s * pw s m) * uu in y * y = s.
Proof.
  intros A y. assert (X : (s * pw s m) * (s * pw s m) = al * s). { unfold al. replace (2 * m + 1)%nat with (m + m + 1)%nat by lia. rewrite !(pw_add K2 fq2_fld), (pw_1 K2 fq2_fld). cbn [f2_base bmul]. ring. }
  unfold y. transitivity ((s * pw s m) * (s * pw s m) * (uu * uu)); [ring|]. rewrite X, A. replace (uu * uu) with (- (1)); [ring|].
  unfold uu. rewrite (f2_mul_is K1 fq_fld). unfold times2, f2_neg, f2_one. cbn [e0 e1 fq_base bmul badd bopp bzero bone]. f_equal; qring.
Qed.
End Root.
Lemma half_Z m : nq = (4 * m + 3)%nat -> Z.of_nat m = v4 e_quarter /\ Z.of_nat (2 * m + 1) = v4 e_half.
Proof.
  intros M. assert (Z : (4 * Z.of_nat m + 3 = q_modulus)%Z) by (rewrite <- nq_Z, M; lia). split.
  - assert (E : (4 * v4 e_quarter + 3 = q_modulus)%Z) by reflexivity. lia.
  - assert (E : (2 * v4 e_half + 1 = q_modulus)%Z) by reflexivity. lia.
Qed.
Theorem f2_sqrt_is s : match f2_sqrt K1 (t_2 tbl) (val negative_one) s with Some y => f2_mul K1 y y = s | None => forall y, f2_mul K1 y y <> s end.
Proof.
  unfold f2_sqrt. destruct (f2_is_zero K1 s) eqn:Z.
  - apply (f2_is_zero_iff K1 fq_fld) in Z. subst s. ring.
  - assert (S0 : s <> 0) by (intros E; apply (f2_is_zero_iff K1 fq_fld) in E; rewrite E in Z; discriminate). cbv zeta. destruct nq_4 as [m M]. destruct (half_Z m M) as [Q1 Q2].
    fold e_quarter e_half. assert (W1 : words4 e_quarter) by (unfold words4, word, W; cbn [LimbModel.l0 LimbModel.l1 LimbModel.l2 LimbModel.l3 e_quarter]; lia). assert (W2 : words4 e_half) by (unfold words4, word, W; cbn [LimbModel.l0 LimbModel.l1 LimbModel.l2 LimbModel.l3 e_half]; lia).
    rewrite !(pow_is _ e_quarter m W1 Q1), !(pow_is _ e_half (2 * m + 1) W2 Q2), neg_one_val.
    change (Ext2 (bopp K1 (bone K1)) (bzero K1)) with (Ext2 (bopp K1 (bone K1)) (bzero K1)).
    replace (Ext2 (bopp K1 (bone K1)) (bzero K1)) with (- (1)) by (unfold f2_neg, f2_one; cbn [e0 e1 fq_base bopp bone bzero]; f_equal; qring).
    rewrite !(f2_mul_assign_mul K1 fq_fld), !sq2, !frob_1.
    replace (pw s m * pw s m * s) with (al m s) by (unfold al; replace (2 * m + 1)%nat with (m + m + 1)%nat by lia; rewrite !(pw_add K2 fq2_fld), (pw_1 K2 fq2_fld); reflexivity).
    destruct (f2_eqb K1 (pw (al m s) nq * al m s) (- (1))) eqn:E1.
    + apply (f2_eqb_iff K1 fq_fld) in E1. intros y Y. apply two_nz. rewrite <- E1. symmetry. apply (square_norm m s M S0 y). symmetry. exact Y.
    + assert (N : pw (al m s) nq * al m s = 1). { destruct (norm_sign m s M S0) as [N|N]; [exact N|]. apply (f2_eqb_iff K1 fq_fld) in N. rewrite N in E1. discriminate. }
      destruct (f2_eqb K1 (al m s) (- (1))) eqn:E2.
      * apply (f2_eqb_iff K1 fq_fld) in E2. change (Ext2 (bzero K1) (bone K1)) with uu. pose proof (root_minus m s M E2) as R. cbv zeta in R. refine (eq_trans _ R). ring.
      * assert (A : al m s <> - (1)) by (intros E; apply (f2_eqb_iff K1 fq_fld) in E; rewrite E in E2; discriminate). pose proof (root_square m s M N A) as R. cbv zeta in R. refine (eq_trans _ R). ring.
Qed.
