(** Fq2, Fq6 and Fq12 over Fq are fields, and [frobenius_map] is the q-th power. *)
From Coq Require Import List Bool Field_theory Field Ring ZArith Znumtheory Lia.
From Verif Require Import Base Moduli Field FieldFacts LimbModel LimbSpec LimbConst CurveModel CurveSpec CurveTimes G1Chain G1Group XiChain TowerModel TowerSpec TowerFacts PowerFacts.
Import ListNotations.

(** the tables on values *)
Definition rinv : Z := 0x2e67157159e5c639cf63e9cfb74492d9eb2022850278edf8ed84884a014afa37.
Definition val (l : limbs) : Fq := FqZ (v4 l * rinv).
Definition tbl : tables Fq := map_tables val limb_tables.
Notation K1 := fq_base.
Notation K2 := (f2_base fq_base).
Notation K6 := (f6_base fq_base).
Notation K12 := (f12_base fq_base).
Definition fq_fld : is_field K1 := base_is_field _ _ fq_is_base.

Lemma nq_ex : exists n, Z.of_nat n = q_modulus. Proof. exact q_nat. Qed.
Lemma nq_sig : { n | Z.of_nat n = q_modulus }.
Proof. exists (Z.to_nat q_modulus). apply Z2Nat.id. discriminate. Qed.
Definition nq : nat := proj1_sig nq_sig.
Lemma nq_Z : Z.of_nat nq = q_modulus. Proof. exact (proj2_sig nq_sig). Qed.
Lemma nq_prime : prime (Z.of_nat nq). Proof. rewrite nq_Z. exact prime_q. Qed.
Definition n6 : nat := (nq - 1) / 6.
Lemma n6_Z : Z.of_nat n6 = ((q_modulus - 1) / 6)%Z.
Proof. unfold n6. rewrite Nat2Z.inj_div, Nat2Z.inj_sub, nq_Z; [reflexivity|]. apply Nat2Z.inj_le. rewrite nq_Z. discriminate. Qed.
Lemma nq_n6 : nq = (6 * n6 + 1)%nat.
Proof. apply Nat2Z.inj. rewrite Nat2Z.inj_add, Nat2Z.inj_mul, n6_Z, nq_Z. reflexivity. Qed.
Lemma nq_4 : exists m, nq = (4 * m + 3)%nat.
Proof.
  exists (nq / 4)%nat. apply Nat2Z.inj. rewrite Nat2Z.inj_add, Nat2Z.inj_mul, Nat2Z.inj_div, nq_Z. reflexivity.
Qed.

(** Fq *)
Lemma ones_Z n : ones K1 n = FqZ (Z.of_nat n).
Proof.
  induction n as [|n IH]; [reflexivity|]. cbn [ones]. rewrite IH, Nat2Z.inj_succ. unfold Z.succ. rewrite FqZ_add. cbn [fq_base badd bone]. change (FqZ 1) with (@f1 q_pos). qring.
Qed.
Lemma fq_char : ones K1 nq = bzero K1.
Proof. rewrite ones_Z, nq_Z. exact FqZ_q. Qed.
Lemma power_fpow (x : Fq) n : power K1 x n = fpow x (Z.of_nat n).
Proof.
  induction n as [|n IH]; [reflexivity|]. cbn [power]. rewrite IH, Nat2Z.inj_succ. unfold Z.succ. rewrite fpow_S by (exact q_prime || lia). reflexivity.
Qed.
Lemma fq_fermat (x : Fq) : power K1 x nq = x.
Proof.
  destruct (fe_dec x f0) as [->|N]; [apply (pw_zero K1 fq_fld); pose proof (prime_ge_2 _ nq_prime); lia|].
  rewrite power_fpow, nq_Z. replace q_modulus with (Zpos q_pos - 1 + 1)%Z by (rewrite q_pos_eq; ring). rewrite fpow_S by (exact q_prime || (rewrite q_pos_eq; discriminate)). rewrite (fpow_fermat q_pos q_prime x N). qring.
Qed.
Lemma minus_one_not (x : Fq) : bmul K1 x x <> bopp K1 (bone K1).
Proof.
  destruct nq_4 as [m E]. intros X. pose proof (fq_fermat x) as Y. rewrite E, (pw_add K1 fq_fld), <- (pw_pw K1 fq_fld) in Y.
  assert (A : power K1 x 4 = bone K1). { transitivity (bmul K1 (bmul K1 x x) (bmul K1 x x)); [cbn [power K1 bmul bone]; qring|]. rewrite X. cbn [K1 bmul bopp bone]. qring. }
  assert (B : power K1 x 3 = bopp K1 x). { transitivity (bmul K1 (bmul K1 x x) x); [cbn [power K1 bmul bone]; qring|]. rewrite X. cbn [K1 bmul bopp bone]. qring. }
  rewrite A, B, (pw_one K1 fq_fld) in Y. assert (Z : x = bzero K1).
  { destruct (a_prod K1 fq_fld (two K1) x) as [T|T]; [|exfalso; exact (base_two _ _ fq_is_base T)|exact T]. unfold two. transitivity (badd K1 (bmul K1 (bone K1) (bopp K1 x)) x); [rewrite Y|]; cbn [K1 bmul badd bone bopp bzero]; qring. }
  subst x. assert (O : bone K1 = bzero K1). { transitivity (bopp K1 (bopp K1 (bone K1))); [cbn [K1 bopp bone]; qring|]. rewrite <- X. cbn [K1 bmul bopp bzero]. qring. }
  exact (a_one K1 fq_fld O).
Qed.
(** Fq2 *)
Definition fq2_fld : is_field K2 := f2_is_field K1 fq_fld minus_one_not.
Lemma r2 : ring_theory (bzero K2) (bone K2) (badd K2) (bmul K2) (bsub K2) (bopp K2) eq. Proof. exact (F_R (fd_field _ fq2_fld)). Qed.
Notation Fq2 := (ext2 Fq).
Notation Fq6 := (ext3 (ext2 Fq)).
Notation Fq12 := (ext2 (ext3 (ext2 Fq))).
Definition i2 (a : Fq) : Fq2 := Ext2 a (bzero K1).
Ltac pairs := rewrite ?(f2_mul_is K1 fq_fld); unfold times2, f2_add, f2_sub, f2_neg, f2_zero, f2_one, i2, f2_conjugate; cbn [e0 e1 fq_base bmul badd bsub bopp bzero bone].
Lemma i2_hom : hom K1 K2 i2.
Proof. constructor; [reflexivity|reflexivity| |]; intros x y; cbn [f2_base bmul badd]; pairs; f_equal; qring. Qed.
Lemma char2 : ones K2 nq = bzero K2.
Proof. rewrite <- (hom_ones _ _ _ i2_hom), fq_char. reflexivity. Qed.
Definition frob2 : hom K2 K2 (fun x => power K2 x nq) := frob_hom K2 fq2_fld nq nq_prime char2.
Definition uu : Fq2 := Ext2 (bzero K1) (bone K1).
Lemma split2 (s : Fq2) : s = badd K2 (i2 (e0 s)) (bmul K2 (i2 (e1 s)) uu).
Proof. destruct s as [x y]. cbn [f2_base bmul badd]. unfold uu. pairs. f_equal; qring. Qed.
Lemma uu_frob : power K2 uu nq = bopp K2 uu.
Proof.
  destruct nq_4 as [m E]. rewrite E, (pw_add K2 fq2_fld), <- (pw_pw K2 fq2_fld).
  replace (power K2 uu 4) with (bone K2). 2:{ cbn [power f2_base bmul bone]. unfold uu. pairs. f_equal; qring. }
  rewrite (pw_one K2 fq2_fld). cbn [power f2_base bmul bone bopp]. unfold uu. pairs. f_equal; qring.
Qed.
Lemma conj_frob (s : Fq2) : power K2 s nq = f2_conjugate K1 s.
Proof.
  rewrite (split2 s) at 1. pose proof (hom_add _ _ _ frob2) as A. cbv beta in A. rewrite A. pose proof (hom_mul _ _ _ frob2) as M. cbv beta in M. rewrite M, uu_frob, <- !(hom_power _ _ _ i2_hom), !fq_fermat.
  destruct s as [x y]. cbn [f2_base bmul badd bopp]. unfold uu. pairs. f_equal; qring.
Qed.

(** xi^((q-1)/6) *)
Definition of_pair (s : Z * Z) : Fq2 := Ext2 (FqZ (fst s)) (FqZ (snd s)).
Lemma xi_val : xi K1 = of_pair (9, 1)%Z.
Proof. unfold xi. rewrite ones_Z. reflexivity. Qed.
Lemma xstep_val s c : of_pair (xstep s c) = (let t := bmul K2 (of_pair s) (of_pair s) in if c then bmul K2 (xi K1) t else t).
Proof.
  destruct s as [a b]. rewrite xi_val. cbv zeta. cbn [f2_base bmul]. unfold xstep. cbv zeta.
  assert (S0 : FqZ (red ((a + b) * (a + (q_modulus - b)))) = (FqZ a * FqZ a - FqZ b * FqZ b)%F). { rewrite red_is, FqZ_mul, !FqZ_add, FqZ_sub, FqZ_q. qring. }
  assert (S1 : FqZ (red (2 * (a * b))) = (FqZ a * FqZ b + FqZ a * FqZ b)%F). { rewrite red_is, !FqZ_mul. rewrite FqZ_2. qring. }
  assert (N : FqZ 9 = (f1 + f1 + f1 + f1 + f1 + f1 + f1 + f1 + f1)%F). { change 9%Z with (1 + 1 + 1 + 1 + 1 + 1 + 1 + 1 + 1)%Z. rewrite !FqZ_add. reflexivity. }
  assert (O : FqZ 1 = f1) by reflexivity.
  destruct c; unfold of_pair; cbn [fst snd]; pairs.
  - f_equal; rewrite red_is, FqZ_add, ?FqZ_mul, ?FqZ_sub, ?S0, ?S1, ?FqZ_q, ?N, ?O; rewrite ?S0, ?S1; qring.
  - f_equal; rewrite ?S0, ?S1; qring.
Qed.
Lemma fold_val bits : forall s n, of_pair s = power K2 (xi K1) n -> of_pair (fold_left xstep bits s) = power K2 (xi K1) (fold_left bits_step bits n).
Proof.
  induction bits as [|c bits IH]; intros s n E; cbn [fold_left]; [exact E|]. apply IH. rewrite xstep_val, E. cbv zeta. unfold bits_step. destruct c; cbn [power]; rewrite (pw_add K2 fq2_fld); reflexivity.
Qed.
Definition g6 : Fq2 := of_pair xi_end.
Lemma xi_bits_value : bitsZ 1 xi_bits = ((q_modulus - 1) / 6)%Z.
Proof. vm_compute. reflexivity. Qed.
Lemma xi_power : power K2 (xi K1) n6 = g6.
Proof.
  assert (E : n6 = fold_left bits_step xi_bits 1%nat). { apply Nat2Z.inj. rewrite bits_step_Z, n6_Z. change (Z.of_nat 1) with 1%Z. symmetry. exact xi_bits_value. }
  rewrite E. unfold g6. rewrite <- xi_chain. symmetry. apply fold_val. rewrite xi_val. symmetry. apply (pw_1 K2 fq2_fld).
Qed.
(** so xi is no cube and its norm no square *)
Definition nrm (s : Fq2) : Fq := badd K1 (bmul K1 (e0 s) (e0 s)) (bmul K1 (e1 s) (e1 s)).
Lemma nrm_mul s t : nrm (bmul K2 s t) = bmul K1 (nrm s) (nrm t).
Proof. unfold nrm. cbn [f2_base bmul]. pairs. destruct s as [x y], t as [z w]. cbn [e0 e1]. qring. Qed.
Lemma nrm_one : nrm (bone K2) = bone K1.
Proof. unfold nrm. cbn [f2_base bone]. pairs. qring. Qed.
Lemma nrm_power s n : nrm (power K2 s n) = power K1 (nrm s) n.
Proof. induction n as [|n IH]; cbn [power]; [exact nrm_one|]. rewrite nrm_mul, IH. reflexivity. Qed.
Lemma nrm_zero s : nrm s = bzero K1 -> s = bzero K2.
Proof. intros E. destruct (norm_zero K1 fq_fld minus_one_not _ _ E). apply f2_eq; assumption. Qed.
Lemma sixth (z : Fq) : z <> bzero K1 -> power K1 z (6 * n6)%nat = bone K1.
Proof.
  intros N. apply (a_cancel K1 fq_fld z _ _ N). pose proof (fq_fermat z) as E. rewrite nq_n6, Nat.add_1_r in E. cbn [power] in E. rewrite E. cbn [K1 bmul bone]. qring.
Qed.
Lemma g6_norm2 : power K1 (nrm g6) 2 <> bone K1.
Proof. intros E. apply feqb_eq in E. revert E. vm_compute. discriminate. Qed.
Lemma g6_norm3 : power K1 (nrm g6) 3 <> bone K1.
Proof. intros E. apply feqb_eq in E. revert E. vm_compute. discriminate. Qed.
Lemma nz_of_prod (z : Fq) n : n <> O -> power K1 z n <> bzero K1 -> z <> bzero K1.
Proof. intros N P E. apply P. rewrite E. apply (pw_zero K1 fq_fld). exact N. Qed.
Lemma xi_norm_nz : nrm (xi K1) <> bzero K1.
Proof. intros E. apply nrm_zero in E. apply (f_equal e1) in E. exact (a_one K1 fq_fld E). Qed.
Lemma xi_not_cube (z : Fq2) : bmul K2 (bmul K2 z z) z <> xi K1.
Proof.
  intros E. apply g6_norm2. rewrite <- xi_power, nrm_power, <- E, !nrm_mul. set (m := nrm z).
  replace (bmul K1 (bmul K1 m m) m) with (power K1 m 3) by (cbn [power K1 bmul bone]; qring). rewrite !(pw_pw K1 fq_fld). replace (3 * (n6 * 2))%nat with (6 * n6)%nat by lia. apply sixth.
  apply (nz_of_prod m 3); [discriminate|]. replace (power K1 m 3) with (nrm (xi K1)); [exact xi_norm_nz|]. rewrite <- E, !nrm_mul. fold m. cbn [power K1 bmul bone]. qring.
Qed.
Lemma xi_norm_not_square (m : Fq) : bmul K1 m m <> nrm (xi K1).
Proof.
  intros E. apply g6_norm3. rewrite <- xi_power, nrm_power, <- E, <- (pw_2 K1 fq_fld), !(pw_pw K1 fq_fld). replace (2 * (n6 * 3))%nat with (6 * n6)%nat by lia. apply sixth.
  intros Z. apply xi_norm_nz. rewrite <- E, Z. cbn [K1 bmul bzero]. qring.
Qed.
(** Fq6 *)
Definition fq6_fld : is_field K6 := f6_is_field K1 fq_fld fq2_fld xi_not_cube.
Add Field fq2r : (f2_field K1 fq2_fld).
Definition i6 (a : Fq2) : Fq6 := Ext3 a (f2_zero K1) (f2_zero K1).
Ltac triples := rewrite ?(f6_mul_is K1 fq_fld fq2_fld), ?t3_def; unfold f6_add, f6_sub, f6_neg, f6_zero, f6_one, i6, vv; cbn [h0 h1 h2].
Lemma i6_hom : hom K2 K6 i6.
Proof. constructor; [reflexivity|reflexivity| |]; intros x y; cbn [f2_base f6_base bmul badd]; triples; f_equal; ring. Qed.
Lemma char6 : ones K6 nq = bzero K6.
Proof. rewrite <- (hom_ones _ _ _ i6_hom), char2. reflexivity. Qed.
Definition frob6 : hom K6 K6 (fun x => power K6 x nq) := frob_hom K6 fq6_fld nq nq_prime char6.
Lemma split6 (s : Fq6) : s = badd K6 (badd K6 (i6 (h0 s)) (bmul K6 (i6 (h1 s)) (vv K1))) (bmul K6 (i6 (h2 s)) (bmul K6 (vv K1) (vv K1))).
Proof. destruct s as [x y z]. cbn [f6_base bmul badd]. triples. f_equal; ring. Qed.
Lemma vv_cube : bmul K6 (bmul K6 (vv K1) (vv K1)) (vv K1) = i6 (xi K1).
Proof. cbn [f6_base bmul]. triples. f_equal; ring. Qed.
Lemma xi_power2 : power K2 (xi K1) (2 * n6) = f2_mul K1 g6 g6.
Proof. rewrite Nat.mul_comm, <- (pw_pw K2 fq2_fld), xi_power. apply (pw_2 K2 fq2_fld). Qed.
Lemma vv_frob : power K6 (vv K1) nq = bmul K6 (i6 (f2_mul K1 g6 g6)) (vv K1).
Proof.
  rewrite nq_n6. replace (6 * n6 + 1)%nat with (3 * (2 * n6) + 1)%nat by lia. rewrite (pw_add K6 fq6_fld), <- (pw_pw K6 fq6_fld), (pw_1 K6 fq6_fld).
  replace (power K6 (vv K1) 3) with (i6 (xi K1)). 2:{ rewrite <- vv_cube. cbn [power f6_base bmul bone]. triples. f_equal; ring. }
  rewrite <- (hom_power _ _ _ i6_hom), xi_power2. reflexivity.
Qed.
Lemma frob6_is (s : Fq6) : power K6 s nq = Ext3 (f2_conjugate K1 (h0 s)) (f2_mul K1 (f2_conjugate K1 (h1 s)) (f2_mul K1 g6 g6)) (f2_mul K1 (f2_conjugate K1 (h2 s)) (f2_mul K1 (f2_mul K1 g6 g6) (f2_mul K1 g6 g6))).
Proof.
  rewrite (split6 s) at 1. pose proof (hom_add _ _ _ frob6) as A. cbv beta in A. rewrite !A. pose proof (hom_mul _ _ _ frob6) as M. cbv beta in M. rewrite !M, vv_frob, <- !(hom_power _ _ _ i6_hom), !conj_frob.
  generalize (f2_mul K1 g6 g6) (f2_conjugate K1 (h0 s)) (f2_conjugate K1 (h1 s)) (f2_conjugate K1 (h2 s)). intros g x y z. cbn [f6_base bmul badd]. triples. f_equal; ring.
Qed.
Lemma vv_not_square (x : Fq6) : f6_mul K1 x x <> vv K1.
Proof.
  intros E. apply (f_equal (norm3 K1)) in E. rewrite (norm3_mul K1 fq_fld fq2_fld) in E. 
  assert (V : norm3 K1 (vv K1) = xi K1). { unfold norm3, adj, vv. cbn [h0 h1 h2]. ring. }
  rewrite V in E. apply (f_equal nrm) in E. change (f2_mul K1) with (bmul K2) in E. rewrite nrm_mul in E. exact (xi_norm_not_square _ E).
Qed.
(** Fq12 *)
Definition fq12_fld : is_field K12 := f12_is_field K1 fq_fld fq2_fld fq6_fld vv_not_square.
Add Field fq6r : (f6_field K1 fq6_fld).
Definition i12 (a : Fq6) : Fq12 := Ext2 a (f6_zero K1).
Definition ww : Fq12 := Ext2 (f6_zero K1) (f6_one K1).
Ltac twelve := rewrite ?(f12_mul_is K1 fq_fld fq2_fld fq6_fld), ?t2_def; unfold f12_add, f12_sub, f12_neg, f12_zero, f12_one, i12, ww; cbn [e0 e1].
Lemma i12_hom : hom K6 K12 i12.
Proof. constructor; [reflexivity|reflexivity| |]; intros x y; cbn [f6_base f12_base bmul badd]; twelve; f_equal; ring. Qed.
Lemma char12 : ones K12 nq = bzero K12.
Proof. rewrite <- (hom_ones _ _ _ i12_hom), char6. reflexivity. Qed.
Definition frob12_hom : hom K12 K12 (fun x => power K12 x nq) := frob_hom K12 fq12_fld nq nq_prime char12.
Lemma split12 (s : Fq12) : s = badd K12 (i12 (e0 s)) (bmul K12 (i12 (e1 s)) ww).
Proof. destruct s as [x y]. cbn [f12_base bmul badd]. twelve. f_equal; ring. Qed.
Lemma ww_square : bmul K12 ww ww = i12 (vv K1).
Proof. cbn [f12_base bmul]. twelve. f_equal; ring. Qed.
Lemma ww_frob : power K12 ww nq = bmul K12 (i12 (i6 g6)) ww.
Proof.
  rewrite nq_n6. rewrite (pw_add K12 fq12_fld), <- (pw_pw K12 fq12_fld), (pw_1 K12 fq12_fld).
  replace (power K12 ww 6) with (i12 (i6 (xi K1))).
  2:{ change 6%nat with (2 * 3)%nat. rewrite <- (pw_pw K12 fq12_fld), (pw_2 K12 fq12_fld), ww_square, <- (hom_power _ _ _ i12_hom). apply (f_equal i12). rewrite <- vv_cube. cbn [power f6_base bmul bone]. ring. }
  rewrite <- (hom_power _ _ _ i12_hom), <- (hom_power _ _ _ i6_hom), xi_power. reflexivity.
Qed.
Lemma frob12_is (s : Fq12) : power K12 s nq = Ext2 (power K6 (e0 s) nq) (f6_mul K1 (power K6 (e1 s) nq) (i6 g6)).
Proof.
  rewrite (split12 s) at 1. pose proof (hom_add _ _ _ frob12_hom) as A. cbv beta in A. rewrite !A. pose proof (hom_mul _ _ _ frob12_hom) as M. cbv beta in M. rewrite !M, ww_frob, <- !(hom_power _ _ _ i12_hom).
  destruct s as [x y]. cbn [f12_base bmul badd e0 e1]. twelve. f_equal; ring.
Qed.
(** the tables *)
Definition tab (t : list Fq2) (i : nat) : Fq2 := nth i t (f2_zero K1).
Definition steps (t : list Fq2) (n : nat) : bool :=
  forallb (fun i => f2_eqb K1 (tab t (S i mod n)) (f2_mul K1 (f2_conjugate K1 (tab t i)) (tab t 1))) (seq 0 n).
Definition tables_ok : bool :=
  f2_eqb K1 (tab (t_12 tbl) 0) (f2_one K1) && f2_eqb K1 (tab (t_6a tbl) 0) (f2_one K1) && f2_eqb K1 (tab (t_6b tbl) 0) (f2_one K1) &&
  f2_eqb K1 (tab (t_12 tbl) 1) g6 && f2_eqb K1 (tab (t_6a tbl) 1) (f2_mul K1 g6 g6) && f2_eqb K1 (tab (t_6b tbl) 1) (f2_mul K1 (f2_mul K1 g6 g6) (f2_mul K1 g6 g6)) &&
  steps (t_12 tbl) 12 && steps (t_6a tbl) 6 && steps (t_6b tbl) 6 &&
  feqb (nth 0 (t_2 tbl) f0) f1 && feqb (nth 1 (t_2 tbl) f0) (- f1)%F.
Lemma tables_right : tables_ok = true.
Proof. vm_compute. reflexivity. Qed.
