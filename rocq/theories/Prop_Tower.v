(** C92 - C96: the extension fields of the pairing. *)
From Coq Require Import List Bool ZArith Znumtheory Field_theory Lia.
From Verif Require Import Base Moduli Field FieldFacts LimbModel LimbSpec LimbField LimbConst FieldClaims CurveModel CurveSpec CurveLimbs G1Group G1Code
  TowerModel TowerSpec TowerFacts PowerFacts TowerFq TowerFrob PairingModel FinalExp TowerLimbs G2Group Fq2Root.
Import ListNotations.
Local Open Scope Z_scope.
Local Notation Fq2 := (ext2 Fq).
Local Notation Fq6 := (ext3 (ext2 Fq)).
Local Notation Fq12 := (ext2 (ext3 (ext2 Fq))).
Local Notation minus_one := (bopp fq_base (bone fq_base)).

(** C92.  Fq2 = Fq[u]/(u^2 + 1), Fq6 = Fq2[v]/(v^3 - xi) with xi = 9 + u and
    Fq12 = Fq6[w]/(w^2 - v) are fields under the operations of the code: every
    product the code has is the product of polynomials, and inverses are inverses. *)
Theorem C92_fields : is_field K2 /\ is_field K6 /\ is_field K12.
Proof. exact (conj fq2_fld (conj fq6_fld fq12_fld)). Qed.
Print Assumptions C92_fields.
Theorem C92_fq2 : forall s o : Fq2,
  f2_mul K1 s o = times2 K1 minus_one s o /\ f2_mul_assign K1 s o = times2 K1 minus_one s o /\ f2_square_assign K1 s = times2 K1 minus_one s s /\
  f2_double K1 s = badd K2 s s /\ f2_nonresidue K1 s = times2 K1 minus_one (xi K1) s /\ (f2_is_zero K1 s = true <-> s = bzero K2) /\
  times2 K1 minus_one s (f2_conjugate K1 s) = Ext2 (f2_norm K1 s) (bzero K1).
Proof.
  intros s o. rewrite <- !(f2_mul_is K1 fq_fld). split; [reflexivity|]. split; [apply (f2_mul_assign_mul K1 fq_fld)|]. split; [apply (f2_square_is K1 fq_fld)|]. split; [reflexivity|].
  split; [apply (f2_nonresidue_is K1 fq_fld)|]. split; [apply (f2_is_zero_iff K1 fq_fld)|].
  rewrite (f2_mul_is K1 fq_fld). destruct s as [x y]. unfold times2, f2_conjugate, f2_norm. cbn [e0 e1 K1 bsquare badd bmul bopp bone bzero]. apply f2_eq; cbn [e0 e1]; qring.
Qed.
Print Assumptions C92_fq2.
Theorem C92_fq6 : forall (s o : Fq6) (c0 c1 : Fq2),
  let times := times3 K2 (xi K1) in let z := bzero K2 in
  f6_mul K1 s o = times s o /\ f6_mul_assign K1 s o = times s o /\ f6_square_assign K1 s = times s s /\ f6_double K1 s = badd K6 s s /\
  f6_nonresidue K1 s = times (vv K1) s /\ f6_mul_by_1 K1 s c1 = times s (Ext3 z c1 z) /\ f6_mul_by_01 K1 s c0 c1 = times s (Ext3 c0 c1 z).
Proof.
  intros s o c0 c1 times z. unfold times, z. rewrite <- !(f6_mul_is K1 fq_fld fq2_fld).
  split; [reflexivity|]. split; [apply (f6_mul_assign_mul K1 fq_fld fq2_fld)|]. split; [apply (f6_square_is K1 fq_fld fq2_fld)|]. split; [reflexivity|].
  split; [apply (f6_nonresidue_is K1 fq_fld fq2_fld)|]. split; [apply (f6_mul_by_1_is K1 fq_fld fq2_fld)|apply (f6_mul_by_01_is K1 fq_fld fq2_fld)].
Qed.
Print Assumptions C92_fq6.
Theorem C92_fq12 : forall (s o : Fq12) (c0 c1 c3 c4 : Fq2),
  let times := times2 K6 (vv K1) in let z := bzero K2 in
  f12_mul K1 s o = times s o /\ f12_mul_assign K1 s o = times s o /\ f12_square_assign K1 s = times s s /\ f12_double K1 s = badd K12 s s /\
  f12_mul_by_014 K1 s c0 c1 c4 = times s (Ext2 (Ext3 c0 c1 z) (Ext3 z c4 z)) /\ f12_mul_by_034 K1 s c0 c3 c4 = times s (Ext2 (Ext3 c0 z z) (Ext3 c3 c4 z)).
Proof.
  intros s o c0 c1 c3 c4 times z. unfold times, z. rewrite <- !(f12_mul_is K1 fq_fld fq2_fld fq6_fld).
  split; [reflexivity|]. split; [apply (f12_mul_assign_mul K1 fq_fld fq2_fld fq6_fld)|]. split; [apply (f12_square_is K1 fq_fld fq2_fld fq6_fld)|]. split; [reflexivity|].
  split; [apply (f12_mul_by_014_is K1 fq_fld fq2_fld fq6_fld)|apply (f12_mul_by_034_is K1 fq_fld fq2_fld fq6_fld)].
Qed.
Print Assumptions C92_fq12.
(** and so do the limb vectors the code has *)
Theorem C92_limbs : follows limb2 K2 R2 /\ follows (f6_base limb_base) K6 R6 /\ follows (f12_base limb_base) K12 R12 /\
  (forall x y a c, R2 x a -> R2 y c -> R2 (f2_mul_assign limb_base x y) (f2_mul K1 a c) /\ R2 (f2_double limb_base x) (f2_add K1 a a) /\ R2 (f2_nonresidue limb_base x) (f2_mul K1 (xi K1) a) /\ R2 (f2_conjugate limb_base x) (f2_conjugate K1 a)) /\
  (forall x y a c, R12 x a -> R12 y c -> R12 (f12_mul_assign limb_base x y) (f12_mul K1 a c) /\ R12 (f12_conjugate limb_base x) (f12_conjugate K1 a)) /\
  (forall x a c0 c3 c4 d0 d3 d4, R12 x a -> R2 c0 d0 -> R2 c3 d3 -> R2 c4 d4 ->
     R12 (f12_mul_by_014 limb_base x c0 c3 c4) (f12_mul K1 a (Ext2 (Ext3 d0 d3 (f2_zero K1)) (Ext3 (f2_zero K1) d4 (f2_zero K1)))) /\
     R12 (f12_mul_by_034 limb_base x c0 c3 c4) (f12_mul K1 a (Ext2 (Ext3 d0 (f2_zero K1) (f2_zero K1)) (Ext3 d3 d4 (f2_zero K1))))).
Proof.
  split; [exact follow2|]. split; [exact (follows6 _ _ _ limbs_follow)|]. split; [exact (follows12 _ _ _ limbs_follow)|]. split.
  { intros x y a c X Y. rewrite <- (f2_mul_assign_mul K1 fq_fld), <- (f2_nonresidue_is K1 fq_fld). split; [apply (mul_assign2 _ _ _ limbs_follow); assumption|].
    split; [apply (double2 _ _ _ limbs_follow); assumption|]. split; [apply (nonresidue2 _ _ _ limbs_follow)|apply (conjugate2 _ _ _ limbs_follow)]; assumption. }
  split.
  { intros x y a c X Y. rewrite <- (f12_mul_assign_mul K1 fq_fld fq2_fld fq6_fld). split; [apply (mul_assign12 _ _ _ limbs_follow)|apply (conjugate12 _ _ _ limbs_follow)]; assumption. }
  intros x a c0 c3 c4 d0 d3 d4 X C0 C3 C4. rewrite <- (f12_mul_by_014_is K1 fq_fld fq2_fld fq6_fld), <- (f12_mul_by_034_is K1 fq_fld fq2_fld fq6_fld).
  split; [apply (mul_by_014_12 _ _ _ limbs_follow)|apply (mul_by_034_12 _ _ _ limbs_follow)]; assumption.
Qed.
Print Assumptions C92_limbs.
Definition n2 (x y : Z) : Fq2 := Ext2 (FqZ x) (FqZ y).
Definition n6' (a b c d e f : Z) : Fq6 := Ext3 (n2 a b) (n2 c d) (n2 e f).
Definition show2 (s : Fq2) : Z * Z := (fval (e0 s), fval (e1 s)).
Definition show6 (s : Fq6) : list (Z * Z) := [show2 (h0 s); show2 (h1 s); show2 (h2 s)].
Example C92_case : show2 (f2_mul K1 (n2 1 2) (n2 3 5)) = (q_modulus - 7, 11) /\ show2 (f2_nonresidue K1 (n2 1 2)) = (7, 19) /\
  show6 (f6_mul K1 (n6' 1 0 2 0 0 1) (n6' 0 0 0 0 1 0)) = [(18, 2); (q_modulus - 1, 9); (1, 0)] /\
  (let s := f12_mul K1 (Ext2 (n6' 1 0 2 0 0 1) (n6' 3 0 0 0 0 0)) (Ext2 (n6' 0 0 0 0 1 0) (n6' 1 0 0 0 0 0)) in show6 (e0 s) = [(18, 2); (2, 9); (1, 0)] /\ show6 (e1 s) = [(1, 0); (2, 0); (3, 1)]) /\
  R2 (limb_raw raw_x2) x2.
Proof. split; [vm_compute; reflexivity|]. split; [vm_compute; reflexivity|]. split; [vm_compute; reflexivity|]. split; [vm_compute; split; reflexivity|exact x2_ok]. Qed.

(** C93.  [sqrt] of Fq2 returns a root of every square and [None] for every other
    element, also on limbs. *)
Theorem C93_sqrt : forall s : Fq2, match f2_sqrt K1 (t_2 tbl) (val negative_one) s with Some y => bmul K2 y y = s | None => forall y, bmul K2 y y <> s end.
Proof. exact f2_sqrt_is. Qed.
Print Assumptions C93_sqrt.
Lemma opt_case (o : option (ext2 limbs)) (o' : option Fq2) (s : Fq2) : orel R2 o o' -> match o' with Some y => f2_mul K1 y y = s | None => forall y, f2_mul K1 y y <> s end ->
  match o with Some z => exists y, R2 z y /\ bmul K2 y y = s | None => forall y, bmul K2 y y <> s end.
Proof. destruct o as [z|], o' as [y|]; cbn [orel]; try contradiction; [|intros _ S; exact S]. intros E S. exists y. exact (conj E S). Qed.
Theorem C93_limbs : forall x (s : Fq2), R2 x s ->
  match f2_sqrt limb_base frob2_c1 negative_one x with Some z => exists y, R2 z y /\ bmul K2 y y = s | None => forall y, bmul K2 y y <> s end.
Proof.
  intros x s X. pose proof (@sqrt2 limbs Fq _ _ _ limbs_follow _ _ _ _ x s (tr_2 _ _ _ tables_follow) neg_one_ok X) as E. pose proof (f2_sqrt_is s) as S.
  refine (opt_case (f2_sqrt limb_base frob2_c1 negative_one x) (f2_sqrt K1 (t_2 tbl) (val negative_one) s) s E S).
Qed.
Print Assumptions C93_limbs.
(** (1 + 2 u)^2 = 4 u - 3 has a root; xi has none *)
Example C93_case : f2_sqrt K1 (t_2 tbl) (val negative_one) (n2 (-3) 4) <> None /\ f2_sqrt K1 (t_2 tbl) (val negative_one) (xi K1) = None.
Proof.
  split.
  - intros E. pose proof (C93_sqrt (n2 (-3) 4)) as S. rewrite E in S. apply (S (n2 1 2)). apply f2_eq; vm_compute; reflexivity.
  - pose proof (C93_sqrt (xi K1)) as S. destruct (f2_sqrt K1 (t_2 tbl) (val negative_one) (xi K1)) as [y|]; [|reflexivity]. exfalso. apply (f_equal nrm) in S. rewrite nrm_mul in S. exact (xi_norm_not_square _ S).
Qed.

(** C94.  With the tables of the code [frobenius_map] of i is the power q^i in all
    three fields, and [cyclotomic_square] squares the elements whose order divides
    q^4 - q^2 + 1; both also on limbs. *)
Lemma f6_frob_power i (s : Fq6) : f6_frobenius K1 (t_2 tbl) (t_6a tbl) (t_6b tbl) i s = power K6 s (nq ^ i).
Proof.
  pose proof (fr_power i (i12 s)) as E. rewrite <- (hom_power _ _ _ i12_hom) in E. apply (f_equal e0) in E. exact E.
Qed.
Theorem C94_frobenius : forall n i, Z.of_nat n = q_modulus ->
  (forall s : Fq2, f2_frobenius K1 (t_2 tbl) i s = power K2 s (n ^ i)) /\ (forall s : Fq6, f6_frobenius K1 (t_2 tbl) (t_6a tbl) (t_6b tbl) i s = power K6 s (n ^ i)) /\
  (forall s : Fq12, frob12 K1 tbl i s = power K12 s (n ^ i)).
Proof.
  intros n i E. replace n with nq by (apply Nat2Z.inj; rewrite E; exact nq_Z). split; [|split; [apply f6_frob_power|apply fr_power]].
  intros s. pose proof (f6_frob_power i (i6 s)) as P. rewrite <- (hom_power _ _ _ i6_hom) in P. apply (f_equal h0) in P. exact P.
Qed.
Print Assumptions C94_frobenius.
Theorem C94_cyclotomic : forall (s : Fq12) m n, Z.of_nat n = q_modulus -> (m + n ^ 2 = n ^ 4 + 1)%nat -> power K12 s m = bone K12 -> f12_cyclotomic_square K1 s = bmul K12 s s.
Proof.
  intros s m n E M P. replace n with nq in M by (apply Nat2Z.inj; rewrite E; exact nq_Z). apply cyclotomic_square_is, cyc_cyclotomic.
  assert (Z : s <> bzero K12).
  { intros ->. rewrite (pw_zero K12 fq12_fld) in P; [exact (a_one K12 fq12_fld (eq_sym P))|]. intros ->. apply (f_equal Z.of_nat) in M. rewrite Nat2Z.inj_add, Nat2Z.inj_add, !Q_nq in M. vm_compute in M. discriminate M. }
  split; [exact Z|]. replace (Q ^ 4 - Q ^ 2 + 1) with (Z.of_nat m). { rewrite (zpow_nat K12). exact P. }
  apply (f_equal Z.of_nat) in M. rewrite !Nat2Z.inj_add, !Q_nq in M. change (Z.of_nat 2) with 2 in M. change (Z.of_nat 4) with 4 in M. change (Z.of_nat 1) with 1 in M. revert M. generalize (Q ^ 4) (Q ^ 2). lia.
Qed.
Print Assumptions C94_cyclotomic.
Theorem C94_limbs : forall i x s, R12 x s -> R12 (frob12 limb_base limb_tables i x) (frob12 K1 tbl i s) /\ R12 (f12_cyclotomic_square limb_base x) (f12_cyclotomic_square K1 s).
Proof. intros i x s X. split; [apply (frob_rel _ _ _ limbs_follow _ _ tables_follow)|apply (cyclotomic_square12 _ _ _ limbs_follow)]; exact X. Qed.
Print Assumptions C94_limbs.
(** w^q = w xi^((q - 1) / 6), which the third table has.  With t = (1 - w) / (1 + w)
    the element s94 = t^(q^2 + 1) meets the hypothesis of C94_cyclotomic, w does not. *)
Definition s94 : Fq12 := Ext2
  (n6' 1
    0
    1346968792113186169150395788740599270505818835151198025500331630843550401980
    10775750336905489339979403399036062635534928224255012078156977493467169304044
    2693937584226372336673251526910277737502514906369525635511964732052487399432
    21551500673810978680162249304393490371508496794001632958250042303138665283654)
  (n6' 21888242871839275221703892395066968154193270235986866857526138384767021740407
    67814168773788366812880115163869600645362438734775558522
    19194305287612902885030640868156690416690755329617341222014173652714534340975
    336742198028296542151970609637573084000694478460060305084358030241336483451
    20541274079726089054181036656897289687196574164768539247514505283558084742955
    11112492534933785882131374008673635719535622702715072383241335523708505787495).
Lemma cyclotomic_power (s : Fq12) m : s <> bzero K12 -> (m + nq ^ 2 = nq ^ 4 + 1)%nat -> f12_mul K1 (frob12 K1 tbl 4 s) s = frob12 K1 tbl 2 s -> power K12 s m = bone K12.
Proof.
  intros N M E. apply (a_cancel K12 fq12_fld (power K12 s (nq ^ 2))); [apply (pw_nz K12 fq12_fld); exact N|]. transitivity (power K12 s (nq ^ 4 + 1)).
  - rewrite <- M, (pw_add K12 fq12_fld). cbn [f12_base bmul]. apply (Rmul_comm (F_R (fd_field _ fq12_fld))).
  - rewrite (pw_add K12 fq12_fld), (pw_1 K12 fq12_fld), <- !fr_power. cbn [f12_base bmul bone]. rewrite E. symmetry. etransitivity; [apply (Rmul_comm (F_R (fd_field _ fq12_fld)))|apply (Rmul_1_l (F_R (fd_field _ fq12_fld)))].
Qed.
Example C94_case : frob12 K1 tbl 1 ww = Ext2 (bzero K6) (Ext3 (nth 1 (t_12 tbl) (bzero K2)) (bzero K2) (bzero K2)) /\
  (forall m, (m + nq ^ 2 = nq ^ 4 + 1)%nat -> power K12 s94 m = bone K12) /\ f12_eqb K1 s94 (f12_one K1) = false /\ f12_eqb K1 (f12_cyclotomic_square K1 ww) (f12_mul K1 ww ww) = false.
Proof.
  split; [apply (f12_eqb_iff K1 fq_fld); vm_compute; reflexivity|]. split; [|split; [vm_compute; reflexivity|vm_compute; reflexivity]].
  intros m M. apply cyclotomic_power; [|exact M|apply (f12_eqb_iff K1 fq_fld); vm_compute; reflexivity].
  intros E. apply (f_equal (fun s => fval (e0 (h0 (e0 s))))) in E. vm_compute in E. discriminate E.
Qed.

(** C95.  Elements of Fq2 survive [to_bytes] and [from_bytes]; but [from_bytes] and
    [from_repr], which return an option, do not return [None] for bytes that are not
    canonical: they panic. *)
Theorem C95_bytes_partial : forall x s, R2 x s -> length (f2_to_bytes x) = 64%nat /\ Forall byte (f2_to_bytes x) /\
  le_int (firstn 32 (f2_to_bytes x)) = fval (e0 s) /\ le_int (skipn 32 (f2_to_bytes x)) = fval (e1 s) /\ f2_from_bytes (f2_to_bytes x) = Ok (Some x).
Proof.
  intros x s [X Y]. destruct (proj1 (repr_holds fq_params q_pos good_fq) _ _ X) as (L & B & V & I). destruct (proj1 (repr_holds fq_params q_pos good_fq) _ _ Y) as (L' & B' & V' & I').
  unfold f2_to_bytes. assert (E1 : firstn 32 (to_repr fq_params (e0 x) ++ to_repr fq_params (e1 x)) = to_repr fq_params (e0 x)).
  { rewrite firstn_app, L, firstn_O, app_nil_r. apply firstn_all2. rewrite L. reflexivity. }
  assert (E2 : skipn 32 (to_repr fq_params (e0 x) ++ to_repr fq_params (e1 x)) = to_repr fq_params (e1 x)).
  { rewrite skipn_app, L, skipn_all2 by (rewrite L; reflexivity). reflexivity. }
  split; [rewrite app_length, L, L'; reflexivity|]. split; [apply Forall_app; exact (conj B B')|]. rewrite E1, E2. split; [exact V|]. split; [exact V'|].
  unfold f2_from_bytes. rewrite E1, E2, I, I'. destruct x. reflexivity.
Qed.
Print Assumptions C95_bytes_partial.
Theorem C95_reject_refuted : exists bytes, length bytes = 64%nat /\ Forall byte bytes /\ q_modulus <= le_int (firstn 32 bytes) /\ f2_from_bytes bytes <> Ok None /\ f2_from_bytes bytes = Panic.
Proof.
  exists (repeat 255 64). split; [reflexivity|]. split; [apply Forall_forall; intros x I; apply repeat_spec in I; subst x; split; [discriminate|reflexivity]|].
  split; [vm_compute; discriminate|]. assert (E : f2_from_bytes (repeat 255 64) = Panic).
  { unfold f2_from_bytes. destruct (proj2 (repr_holds fq_params q_pos good_fq) (firstn 32 (repeat 255 64))) as [_ N].
    - apply Forall_forall. intros x I. assert (J : In x (repeat 255 32)) by exact I. apply repeat_spec in J. subst x. split; [discriminate|reflexivity].
    - reflexivity.
    - rewrite N; [reflexivity|]. rewrite q_pos_eq. vm_compute. discriminate. }
  rewrite E. split; [discriminate|reflexivity].
Qed.
Print Assumptions C95_reject_refuted.
Example C95_case : R2 (limb_raw raw_x2) x2 /\ le_int (firstn 32 (f2_to_bytes (limb_raw raw_x2))) = v4 (e0 raw_x2) /\ fval (e0 x2) = v4 (e0 raw_x2).
Proof. split; [exact x2_ok|]. vm_compute. split; reflexivity. Qed.

(** C96.  [is_zero] of Fq6 and of Fq12 is true of elements that are not zero: it does
    not look at the third coefficient. *)
Theorem C96_is_zero_refuted : exists (s : Fq6) (t : Fq12), f6_is_zero K1 s = true /\ s <> bzero K6 /\ f12_is_zero K1 t = true /\ t <> bzero K12 /\ bmul K12 t t <> bzero K12.
Proof.
  exists (n6' 0 0 0 0 1 0), (Ext2 (n6' 0 0 0 0 1 0) (n6' 0 0 0 0 0 0)). split; [reflexivity|]. split; [intros E; apply (f_equal (fun s => fval (e0 (h2 s)))) in E; vm_compute in E; discriminate E|].
  split; [reflexivity|]. split; [intros E; apply (f_equal (fun s => fval (e0 (h2 (e0 s))))) in E; vm_compute in E; discriminate E|].
  intros E. apply (f_equal (fun s => fval (e1 (h1 (e0 s))))) in E. vm_compute in E. discriminate E.
Qed.
Print Assumptions C96_is_zero_refuted.
(** and this much of it is right *)
Theorem C96_is_zero_partial : forall (s : Fq6) (t : Fq12), (h2 s = bzero K2 -> (f6_is_zero K1 s = true <-> s = bzero K6)) /\ (t = bzero K12 -> f12_is_zero K1 t = true).
Proof.
  intros s t. split.
  - intros E. unfold f6_is_zero. rewrite andb_true_iff, !(f2_is_zero_iff K1 fq_fld). destruct s as [x y z]. cbn [h0 h1 h2] in *. subst z. split; [intros [-> ->]; reflexivity|]. intros E. injection E as -> ->. split; reflexivity.
  - intros ->. reflexivity.
Qed.
Print Assumptions C96_is_zero_partial.
