(** [frobenius_map(i)] is the power q^i, and [cyclotomic_square] squares in the
    cyclotomic subgroup. *)
From Coq Require Import List Bool Field_theory Field Ring ZArith Znumtheory Lia.
From Verif Require Import Base Moduli Field FieldFacts LimbModel CurveModel CurveSpec G1Group XiChain TowerModel TowerSpec TowerFacts PowerFacts TowerFq.
Import ListNotations.
Add Field fq2r' : (f2_field K1 fq2_fld).
Add Field fq6r' : (f6_field K1 fq6_fld).
Definition f12_field : field_theory (f12_zero K1) (f12_one K1) (f12_add K1) (f12_mul K1) (f12_sub K1) (f12_neg K1) (bdiv K12) (binv K12) eq := fd_field _ fq12_fld.
Add Field fq12r : f12_field.

Local Notation fr i := (frob12 K1 tbl i).
Local Notation cj := (f2_conjugate K1).
Lemma cj_cj x : cj (cj x) = x.
Proof. destruct x as [a b]. unfold f2_conjugate. cbn [e0 e1 fq_base bopp]. f_equal. qring. Qed.
Lemma cj_mul x y : cj (f2_mul K1 x y) = f2_mul K1 (cj x) (cj y).
Proof. destruct x as [a b], y as [c d]. rewrite !(f2_mul_is K1 fq_fld). unfold f2_conjugate, times2. cbn [e0 e1 fq_base bmul badd bopp bone]. f_equal; qring. Qed.
Lemma cj_0 : cj (f2_zero K1) = f2_zero K1.
Proof. unfold f2_conjugate, f2_zero. cbn [e0 e1 fq_base bopp bzero]. f_equal; qring. Qed.
(** what [tables_right] says *)
Definition tab_at (t : list (ext2 Fq)) n i := tab t (i mod n).
Lemma steps_at t n i : n <> O -> steps t n = true -> tab_at t n (S i) = f2_mul K1 (cj (tab_at t n i)) (tab t 1).
Proof.
  intros N T. unfold steps in T. rewrite forallb_forall in T. pose proof (Nat.mod_upper_bound i n N) as B. specialize (T (i mod n)%nat). rewrite in_seq in T. specialize (T (conj (Nat.le_0_l _) B)).
  apply (f2_eqb_iff K1 fq_fld) in T. unfold tab_at. rewrite <- T. f_equal. replace (S i) with (i + 1)%nat by lia. replace (S (i mod n)%nat) with (i mod n + 1)%nat by lia. rewrite Nat.add_mod_idemp_l by exact N. reflexivity.
Qed.
Lemma tables_say : (tab (t_12 tbl) 0 = f2_one K1 /\ tab (t_6a tbl) 0 = f2_one K1 /\ tab (t_6b tbl) 0 = f2_one K1) /\
  (tab (t_12 tbl) 1 = g6 /\ tab (t_6a tbl) 1 = f2_mul K1 g6 g6 /\ tab (t_6b tbl) 1 = f2_mul K1 (f2_mul K1 g6 g6) (f2_mul K1 g6 g6)) /\
  (steps (t_12 tbl) 12 = true /\ steps (t_6a tbl) 6 = true /\ steps (t_6b tbl) 6 = true) /\
  nth 0 (t_2 tbl) f0 = f1 /\ nth 1 (t_2 tbl) f0 = (- f1)%F.
Proof.
  pose proof tables_right as T. unfold tables_ok in T. destruct (andb_prop _ _ T) as [T' L]. clear T. rename T' into T. destruct (andb_prop _ _ T) as [T' J]. clear T. rename T' into T. destruct (andb_prop _ _ T) as [T' I]. clear T. rename T' into T. destruct (andb_prop _ _ T) as [T' H]. clear T. rename T' into T. destruct (andb_prop _ _ T) as [T' G]. clear T. rename T' into T. destruct (andb_prop _ _ T) as [T' F]. clear T. rename T' into T. destruct (andb_prop _ _ T) as [T' E]. clear T. rename T' into T. destruct (andb_prop _ _ T) as [T' D]. clear T. rename T' into T. destruct (andb_prop _ _ T) as [T' C]. clear T. rename T' into T. destruct (andb_prop _ _ T) as [A B].
  apply (f2_eqb_iff K1 fq_fld) in A, B, C, D, E, F. apply feqb_eq in J, L. exact (conj (conj A (conj B C)) (conj (conj D (conj E F)) (conj (conj G (conj H I)) (conj J L)))).
Qed.
Fixpoint cjn (i : nat) (x : ext2 Fq) : ext2 Fq := match i with O => x | S i => cj (cjn i x) end.
Lemma cjn_mod i x : cjn i x = if Nat.even i then x else cj x.
Proof. induction i as [|i IH]; [reflexivity|]. cbn [cjn]. rewrite IH, Nat.even_succ, <- Nat.negb_even. destruct (Nat.even i); cbn [negb]; [reflexivity|apply cj_cj]. Qed.
Lemma f2_frob_is i x : f2_frobenius K1 (t_2 tbl) i x = cjn i x.
Proof.
  destruct tables_say as (_ & _ & _ & Z & O). rewrite cjn_mod. unfold f2_frobenius. change (bzero K1) with (@f0 q_pos).
  destruct (Nat.even i) eqn:P.
  - apply Nat.even_spec in P. destruct P as [k ->]. replace (2 * k)%nat with (k * 2)%nat by lia. rewrite Nat.mod_mul by discriminate. rewrite Z. destruct x as [a b]. cbn [e0 e1 fq_base bmul]. f_equal. qring.
  - assert (Q : Nat.odd i = true) by (rewrite <- Nat.negb_even, P; reflexivity). apply Nat.odd_spec in Q. destruct Q as [k ->]. replace (2 * k + 1)%nat with (1 + k * 2)%nat by lia. rewrite Nat.mod_add by discriminate.
    change (1 mod 2)%nat with 1%nat. rewrite O. destruct x as [a b]. unfold f2_conjugate. cbn [e0 e1 fq_base bmul bopp]. f_equal. qring.
Qed.
(** frobenius_map in one form *)
Definition fr_form (i : nat) (s : ext2 (ext3 (ext2 Fq))) : ext2 (ext3 (ext2 Fq)) :=
  let a := tab_at (t_6a tbl) 6 i in let b := tab_at (t_6b tbl) 6 i in let c := tab_at (t_12 tbl) 12 i in
  Ext2 (Ext3 (cjn i (h0 (e0 s))) (f2_mul K1 (cjn i (h1 (e0 s))) a) (f2_mul K1 (cjn i (h2 (e0 s))) b))
       (Ext3 (f2_mul K1 (cjn i (h0 (e1 s))) c) (f2_mul K1 (f2_mul K1 (cjn i (h1 (e1 s))) a) c) (f2_mul K1 (f2_mul K1 (cjn i (h2 (e1 s))) b) c)).
Lemma fr_is i s : fr i s = fr_form i s.
Proof.
  unfold frob12, f12_frobenius, f6_frobenius. cbv zeta. cbn [h0 h1 h2]. rewrite !f2_frob_is, !(f2_mul_assign_mul K1 fq_fld). reflexivity.
Qed.
Lemma fr_0 s : fr 0 s = s.
Proof.
  destruct tables_say as ((A & B & C) & _). rewrite fr_is. unfold fr_form, tab_at. change (0 mod 6)%nat with 0%nat. change (0 mod 12)%nat with 0%nat. rewrite A, B, C. destruct s as [[x y z] [x' y' z']]. cbn [cjn e0 e1 h0 h1 h2]. f_equal; f_equal; ring.
Qed.
Lemma fr_1 s : fr 1 s = power K12 s nq.
Proof.
  destruct tables_say as (_ & (A & B & C) & _). rewrite fr_is. unfold fr_form, tab_at. change (1 mod 6)%nat with 1%nat. change (1 mod 12)%nat with 1%nat. rewrite A, B, C, frob12_is, !frob6_is.
  rewrite (f6_mul_is K1 fq_fld fq2_fld), t3_def. unfold i6. cbn [cjn e0 e1 h0 h1 h2]. generalize (f2_mul K1 g6 g6) g6. intros g2 g. generalize (cj (h0 (e0 s))) (cj (h1 (e0 s))) (cj (h2 (e0 s))) (cj (h0 (e1 s))) (cj (h1 (e1 s))) (cj (h2 (e1 s))). intros y1 y2 y3 y4 y5 y6.
  f_equal; f_equal; ring.
Qed.
Lemma fr_S i s : fr (S i) s = fr 1 (fr i s).
Proof.
  destruct tables_say as (_ & _ & (A & B & C) & _). rewrite !fr_is. unfold fr_form. rewrite (steps_at _ 12 i), (steps_at _ 6 i), (steps_at (t_6b tbl) 6 i) by (assumption || discriminate).
  replace (tab_at (t_12 tbl) 12 1) with (tab (t_12 tbl) 1) by reflexivity. replace (tab_at (t_6a tbl) 6 1) with (tab (t_6a tbl) 1) by reflexivity. replace (tab_at (t_6b tbl) 6 1) with (tab (t_6b tbl) 1) by reflexivity.
  cbn [cjn e0 e1 h0 h1 h2]. rewrite !cj_mul.
  generalize (tab (t_12 tbl) 1) (tab (t_6a tbl) 1) (tab (t_6b tbl) 1) (tab_at (t_12 tbl) 12 i) (tab_at (t_6a tbl) 6 i) (tab_at (t_6b tbl) 6 i). intros k1 k2 k3 k4 k5 k6.
  generalize (cjn i (h0 (e0 s))) (cjn i (h1 (e0 s))) (cjn i (h2 (e0 s))) (cjn i (h0 (e1 s))) (cjn i (h1 (e1 s))) (cjn i (h2 (e1 s))). intros y1 y2 y3 y4 y5 y6.
  f_equal; f_equal; ring.
Qed.
(** the q^i-th power *)
Theorem fr_power i s : fr i s = power K12 s (nq ^ i).
Proof.
  induction i as [|i IH]; [rewrite fr_0; symmetry; apply (pw_1 K12 fq12_fld)|]. rewrite fr_S, IH, fr_1, (pw_pw K12 fq12_fld). f_equal. rewrite Nat.pow_succ_r', Nat.mul_comm. reflexivity.
Qed.
Lemma fr_add i j s : fr (i + j) s = fr i (fr j s).
Proof. rewrite !fr_power, (pw_pw K12 fq12_fld), Nat.pow_add_r, Nat.mul_comm. reflexivity. Qed.
Lemma fr_mul i s t : fr i (f12_mul K1 s t) = f12_mul K1 (fr i s) (fr i t).
Proof. rewrite !fr_power. apply (pw_prod K12 fq12_fld). Qed.
Lemma fr_12 s : fr 12 s = s.
Proof.
  rewrite <- (fr_0 s) at 2. rewrite !fr_is. unfold fr_form, tab_at. change (12 mod 6)%nat with (0 mod 6)%nat. change (12 mod 12)%nat with (0 mod 12)%nat. rewrite !cjn_mod. reflexivity.
Qed.
Theorem fq12_order s : power K12 s (nq ^ 12) = s.
Proof. rewrite <- fr_power. apply fr_12. Qed.
(** some entries *)
Definition entries_ok : bool :=
  f2_eqb K1 (tab (t_12 tbl) 6) (f2_neg K1 (f2_one K1)) &&
  f2_eqb K1 (f2_mul K1 (tab (t_12 tbl) 2) (tab (t_12 tbl) 2)) (tab (t_6a tbl) 2) && f2_eqb K1 (f2_mul K1 (tab (t_6a tbl) 2) (tab (t_6a tbl) 2)) (tab (t_6b tbl) 2) &&
  f2_eqb K1 (f2_sub K1 (tab (t_12 tbl) 2) (f2_one K1)) (tab (t_6a tbl) 2) && f2_eqb K1 (tab (t_12 tbl) 4) (tab (t_6a tbl) 2) && f2_eqb K1 (tab (t_6a tbl) 4) (tab (t_6b tbl) 2) && f2_eqb K1 (tab (t_6b tbl) 4) (tab (t_6a tbl) 2).
Lemma entries_right : entries_ok = true.
Proof. vm_compute. reflexivity. Qed.
Lemma fr_6 s : fr 6 s = f12_conjugate K1 s.
Proof.
  pose proof entries_right as R. unfold entries_ok in R. do 5 (apply andb_prop in R; destruct R as [R _]). apply andb_prop in R. destruct R as [R _]. apply (f2_eqb_iff K1 fq_fld) in R.
  destruct tables_say as ((_ & B & C) & _). rewrite fr_is. unfold fr_form, tab_at. change (6 mod 6)%nat with 0%nat. change (6 mod 12)%nat with 6%nat. rewrite R, B, C, !cjn_mod. change (Nat.even 6) with true. cbv iota.
  unfold f12_conjugate, f6_neg. destruct s as [[x y z] [x' y' z']]. cbn [e0 e1 h0 h1 h2]. f_equal; f_equal; ring.
Qed.
(** a sixth root of unity *)
Local Notation "0" := (f2_zero K1). Local Notation "1" := (f2_one K1).
Local Notation "x + y" := (f2_add K1 x y). Local Notation "x - y" := (f2_sub K1 x y). Local Notation "x * y" := (f2_mul K1 x y). Local Notation "- x" := (f2_neg K1 x).
Lemma zeta6 : exists z : ext2 Fq, z * z = z - 1 /\
  (forall s, fr 2 s = Ext2 (Ext3 (h0 (e0 s)) ((z - 1) * h1 (e0 s)) (- z * h2 (e0 s))) (Ext3 (z * h0 (e1 s)) (- h1 (e1 s)) ((1 - z) * h2 (e1 s)))) /\
  (forall s, fr 4 s = Ext2 (Ext3 (h0 (e0 s)) (- z * h1 (e0 s)) ((z - 1) * h2 (e0 s))) (Ext3 ((z - 1) * h0 (e1 s)) (h1 (e1 s)) (- z * h2 (e1 s)))).
Proof.
  pose proof entries_right as R. unfold entries_ok in R. destruct (andb_prop _ _ R) as [R' G]. clear R. rename R' into R. destruct (andb_prop _ _ R) as [R' E]. clear R. rename R' into R. destruct (andb_prop _ _ R) as [R' D]. clear R. rename R' into R. destruct (andb_prop _ _ R) as [R' C]. clear R. rename R' into R. destruct (andb_prop _ _ R) as [R' B]. clear R. rename R' into R. destruct (andb_prop _ _ R) as [_ A].
  apply (f2_eqb_iff K1 fq_fld) in A, B, C, D, E, G. exists (tab (t_12 tbl) 2). rewrite <- C in A, B. split; [exact A|].
  assert (Z3 : tab (t_12 tbl) 2 * (tab (t_12 tbl) 2 - 1) = - (1)). { transitivity (tab (t_12 tbl) 2 * tab (t_12 tbl) 2 - tab (t_12 tbl) 2); [ring|]. rewrite A. ring. }
  assert (Z4 : tab (t_6b tbl) 2 = - tab (t_12 tbl) 2). { rewrite <- B. transitivity (tab (t_12 tbl) 2 * tab (t_12 tbl) 2 - tab (t_12 tbl) 2 - tab (t_12 tbl) 2 + 1); [ring|]. rewrite A. ring. }
  split; intros s; rewrite fr_is; unfold fr_form, tab_at.
  - change (2 mod 6)%nat with 2%nat. change (2 mod 12)%nat with 2%nat. rewrite !cjn_mod. change (Nat.even 2) with true. cbv iota zeta. rewrite Z4, <- C. revert A Z3. generalize (tab (t_12 tbl) 2). clear. intros z A Z3.
    destruct s as [[x y w] [x' y' w']]. cbn [e0 e1 h0 h1 h2]. f_equal; f_equal; try ring.
    + transitivity (y' * (z * (z - 1))); [ring|]. rewrite Z3. ring.
    + transitivity (- (w' * (z * z))); [ring|]. rewrite A. ring.
  - change (4 mod 6)%nat with 4%nat. change (4 mod 12)%nat with 4%nat. rewrite !cjn_mod. change (Nat.even 4) with true. cbv iota zeta. rewrite D, E, G, Z4, <- C. revert A Z3. generalize (tab (t_12 tbl) 2). clear. intros z A Z3.
    destruct s as [[x y w] [x' y' w']]. cbn [e0 e1 h0 h1 h2]. f_equal; f_equal; try ring.
    + transitivity (- (y' * (z * (z - 1)))); [ring|]. rewrite Z3. ring.
    + transitivity (w' * (z * z - z - z + 1)); [ring|]. rewrite A. ring.
Qed.
(** The cyclotomic subgroup: z^(q^4) z = z^(q^2).  There z^2 has the form the code computes. *)
Definition cyclotomic (s : ext2 (ext3 (ext2 Fq))) : Prop := f12_mul K1 (fr 4 s) s = fr 2 s.
Lemma mul12_is (s t : ext2 (ext3 (ext2 Fq))) : f12_mul K1 s t = Ext2 (f6_add K1 (f6_mul K1 (e0 s) (e0 t)) (f6_mul K1 (vv K1) (f6_mul K1 (e1 s) (e1 t)))) (f6_add K1 (f6_mul K1 (e0 s) (e1 t)) (f6_mul K1 (e1 s) (e0 t))).
Proof. apply (f12_mul_is K1 fq_fld fq2_fld fq6_fld). Qed.
Lemma unit_cancel c a l r : c <> 0 -> l = r -> l - r = c * a -> a = 0.
Proof. intros N E P. destruct (a_prod _ fq2_fld c a) as [X|X]; [cbn [f2_base bmul bzero]; rewrite <- P, E; ring|contradiction|exact X]. Qed.
Lemma twice_zero a x y : a = 0 -> x - y = a + a -> x = y.
Proof. intros Z E. transitivity (x - y + y); [ring|]. rewrite E, Z. ring. Qed.
Theorem cyclotomic_square_is s : cyclotomic s -> f12_cyclotomic_square K1 s = f12_mul K1 s s.
Proof.
  unfold cyclotomic. destruct zeta6 as (z & Z & R2 & R4). rewrite R2, R4. clear R2 R4. destruct s as [[x0 x2 x4] [x1 x3 x5]]. cbn [e0 e1 h0 h1 h2]. intros E.
  rewrite mul12_is in E. cbn [e0 e1] in E. rewrite !(f6_mul_is K1 fq_fld fq2_fld), !t3_def in E. unfold f6_add, vv in E. cbn [h0 h1 h2] in E.
  pose proof (f_equal (fun s => h0 (e0 s)) E) as E0. pose proof (f_equal (fun s => h1 (e0 s)) E) as E2. pose proof (f_equal (fun s => h2 (e0 s)) E) as E4.
  pose proof (f_equal (fun s => h0 (e1 s)) E) as E1. pose proof (f_equal (fun s => h1 (e1 s)) E) as E3. pose proof (f_equal (fun s => h2 (e1 s)) E) as E5. clear E. cbn [e0 e1 h0 h1 h2] in *.
  assert (O : 1 <> 0) by exact (a_one _ fq2_fld).
  assert (I : z * (1 - z) = 1). { transitivity (z - z * z); [ring|]. rewrite Z. ring. }
  assert (Nz : z <> 0). { intros X. apply O. rewrite <- I, X. ring. }
  assert (Nw : 1 - z <> 0). { intros X. apply O. rewrite <- I, X. ring. }
  assert (No : - (1) <> 0). { intros X. apply O. transitivity (- - (1)); [ring|]. rewrite X. ring. }
  assert (Nz' : - z <> 0). { intros X. apply Nz. transitivity (- - z); [ring|]. rewrite X. ring. }
  assert (Nw' : z - 1 <> 0). { intros X. apply Nw. transitivity (- (z - 1)); [ring|]. rewrite X. ring. }
  rewrite mul12_is. unfold f12_cyclotomic_square, fp4_square. cbv zeta. cbn [e0 e1 h0 h1 h2]. rewrite !(f6_mul_is K1 fq_fld fq2_fld), !t3_def. unfold f6_add, vv. cbn [h0 h1 h2].
  rewrite !(f2_square_is K1 fq_fld), !(f2_nonresidue_is K1 fq_fld), !(f2_double_is K1).
  revert E0 E1 E2 E3 E4 E5. generalize (xi K1). intros b F0 F1 F2 F3 F4 F5.
  assert (A0 : x0 * x0 + b * x3 * x3 - b * (x1 * x5 + x2 * x4) - x0 = 0) by (apply (unit_cancel 1 _ _ _ O F0); ring).
  assert (A1 : x0 * x1 + b * x3 * x4 - b * x2 * x5 - b * x2 * x5 - x1 = 0) by (apply (unit_cancel z _ _ _ Nz F1); ring).
  assert (A2 : x1 * x1 + b * x4 * x4 - x0 * x2 - b * x3 * x5 - x2 = 0) by (apply (unit_cancel (z - 1) _ _ _ Nw' F2); ring).
  assert (A3 : x1 * x2 + b * x4 * x5 - x0 * x3 - x0 * x3 - x3 = 0) by (apply (unit_cancel (- (1)) _ _ _ No F3); ring).
  assert (A4 : x2 * x2 + b * x5 * x5 - x0 * x4 - x1 * x3 - x4 = 0) by (apply (unit_cancel (- z) _ _ _ Nz' F4); ring).
  assert (A5 : x0 * x5 + x2 * x3 - x1 * x4 - x1 * x4 - x5 = 0) by (apply (unit_cancel (1 - z) _ _ _ Nw F5); ring).
  clear F0 F1 F2 F3 F4 F5.
  f_equal; f_equal.
  - apply (twice_zero _ _ _ A0). ring.
  - apply (twice_zero _ _ _ A2). ring.
  - apply (twice_zero _ _ _ A4). ring.
  - symmetry. apply (twice_zero _ _ _ A1). ring.
  - symmetry. apply (twice_zero _ _ _ A3). ring.
  - symmetry. apply (twice_zero _ _ _ A5). ring.
Qed.
