(** The group of the values of the pairing: halo2curves/src/bn256/engine.rs Gt. *)
From Coq Require Import List Bool Field_theory Field Ring ZArith Lia.
From Verif Require Import Base Moduli Field FieldFacts LimbModel LimbSpec LimbConst LimbField LimbFacts FieldClaims CurveModel CurveSpec CurveTimes G1Group G1Code TowerModel TowerSpec TowerFacts PowerFacts TowerFq TowerFrob PairingModel FinalExp MillerFacts.
Import ListNotations.
Add Field fq12rg : f12_field.
Local Notation Fq12 := (ext2 (ext3 (ext2 Fq))).
Local Notation "x * y" := (f12_mul K1 x y).
Local Notation "1" := (f12_one K1).
Local Notation "0" := (f12_zero K1).

(** a root of unity of order dividing r *)
Definition r_root (v : Fq12) : Prop := forall n, Z.of_nat n = r_modulus -> power K12 v n = 1.
Lemma r_nat_sig : { n | Z.of_nat n = r_modulus }.
Proof. exists (Z.to_nat r_modulus). apply Z2Nat.id. discriminate. Qed.
Lemma root_nz v : r_root v -> v <> 0.
Proof.
  intros H ->. destruct r_nat_sig as [n E]. specialize (H n E). change 0 with (bzero K12) in H. rewrite (pw_zero K12 fq12_fld) in H; [exact (one_nz (eq_sym H))|]. intros ->. discriminate E.
Qed.
Lemma r_divides : ((Q ^ 6 + 1) / r_modulus * r_modulus = Q ^ 6 + 1)%Z. Proof. vm_compute. reflexivity. Qed.
Lemma gt_neg_root v : r_root v -> gt_neg K1 v * v = 1.
Proof.
  intros H. pose proof (root_nz v H) as N. unfold gt_neg. rewrite <- fr_6, fr_zp. change (Z.of_nat 6) with 6%Z.
  transitivity (zpow K12 v (Q ^ 6 + 1)). { rewrite zp_add, zp_1 by exact N. reflexivity. }
  rewrite <- r_divides, Z.mul_comm, zp_mul by exact N. destruct r_nat_sig as [n E]. rewrite <- E, (zpow_nat K12), (H n E). apply zp_one.
Qed.
Lemma root_mul v w : r_root v -> r_root w -> r_root (v * w).
Proof. intros V W n E. change (power K12 (bmul K12 v w) n = 1). rewrite (pw_prod K12 fq12_fld), (V n E), (W n E). cbn [f12_base bmul]. ring. Qed.
Lemma root_one : r_root 1.
Proof. intros n _. exact (pw_one K12 fq12_fld n). Qed.

(** [gt_mul] *)
Definition bstep (a : nat) (c : bool) : nat := if c then (S (a + a))%nat else (a + a)%nat.
Lemma gt_fold s l : forall k, fold_left (fun acc (bit : bool) => let acc := gt_double K1 acc in if bit then gt_add K1 acc s else acc) l (power K12 s k) = power K12 s (fold_left bstep l k).
Proof.
  induction l as [|c l IH]; intros k; [reflexivity|]. cbn [fold_left]. rewrite <- IH. f_equal. cbv zeta. unfold gt_double, gt_add. rewrite square_12. unfold bstep. destruct c.
  - cbn [power]. rewrite (pw_add K12 fq12_fld). cbn [f12_base bmul]. ring.
  - rewrite (pw_add K12 fq12_fld). reflexivity.
Qed.
Lemma fold_large l : forall k, (k * 2 ^ length l <= fold_left bstep l k)%nat.
Proof.
  induction l as [|c l IH]; intros k; cbn [fold_left length Nat.pow]; [lia|]. specialize (IH (bstep k c)). unfold bstep in *. destruct c; lia.
Qed.
Lemma bits_length repr : length (scalar_bits repr) = (length repr * 8)%nat.
Proof.
  unfold scalar_bits. rewrite <- (rev_length repr). generalize (rev repr). clear. intros l. induction l as [|x l IH]; [reflexivity|]. cbn [flat_map length]. rewrite app_length, IH. reflexivity.
Qed.
Lemma skip_top (l : list bool) n : length l = S n -> (bits_value l < 2 ^ n)%nat -> fold_left bstep (skipn 1 l) 0%nat = bits_value l.
Proof.
  intros E H. destruct l as [|c l]; [discriminate E|]. injection E as E. cbn [skipn]. destruct c; [|reflexivity]. exfalso.
  pose proof (fold_large l 1) as G. rewrite E, Nat.mul_1_l in G. change (bits_value (true :: l)) with (fold_left bstep l 1%nat) in H. lia.
Qed.
Lemma below (m : nat) (k : Z) (B : Z) n : Z.of_nat m = k -> (k < B)%Z -> (B < 2 ^ Z.of_nat n)%Z -> (m < 2 ^ n)%nat.
Proof. intros <- H K. apply Nat2Z.inj_lt. rewrite Nat2Z.inj_pow. change (Z.of_nat 2) with 2%Z. lia. Qed.
Lemma r_small : (Z.pos r_pos < 2 ^ Z.of_nat 255)%Z. Proof. vm_compute. reflexivity. Qed.
Lemma to_nat_of m k : (0 <= k)%Z -> Z.of_nat m = k -> m = Z.to_nat k.
Proof. intros _ <-. symmetry. apply Nat2Z.id. Qed.
Lemma gt_mul_is v s (k : Fr) : represents s k -> gt_mul K1 v (to_repr fr_params s) = power K12 v (Z.to_nat (fval k)).
Proof.
  intros S. destruct (proj1 (repr_holds fr_params r_pos good_fr) s k S) as (L & B & V & _).
  pose proof (bits_length (to_repr fr_params s)) as E. rewrite L in E. pose proof (scalar_bits_value _ B) as W. rewrite V in W. pose proof (fval_range k) as R.
  rewrite <- (to_nat_of _ _ (proj1 R) W). rewrite <- (skip_top _ 255 E (below _ _ _ 255 W (proj2 R) r_small)). exact (gt_fold v (skipn 1 (scalar_bits (to_repr fr_params s))) 0).
Qed.
Lemma gt_sum_is l : gt_sum K1 l = product K12 l.
Proof.
  unfold gt_sum, product. change (bone K12) with 1. change (gt_identity K1) with 1. transitivity (1 * fold_right (bmul K12) 1 l); [|change (bmul K12) with (f12_mul K1); ring].
  generalize 1 at 1 2. induction l as [|x l IH]; intros a; cbn [fold_left fold_right].
  - ring.
  - rewrite IH. unfold gt_add. change (bmul K12) with (f12_mul K1). ring.
Qed.
