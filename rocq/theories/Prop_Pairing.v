(** C97 - C100: final exponentiation, Miller loops, the group of the values, and G2. *)
From Coq Require Import List Bool ZArith Znumtheory Field_theory Lia.
From Verif Require Import Base Moduli Field FieldFacts LimbModel LimbSpec LimbField LimbConst FieldClaims SerdeSpec CurveModel CurveSpec CurveLaw CurveFacts CurveTimes CurveLimbs G1Group G1Code
  TowerModel TowerSpec TowerFacts PowerFacts TowerFq TowerFrob PairingModel FinalExp MillerFacts TowerLimbs GtFacts G2Group.
Import ListNotations.
Local Open Scope Z_scope.
Local Notation Fq2 := (ext2 Fq).
Local Notation Fq12 := (ext2 (ext3 (ext2 Fq))).

(** C97.  [final_exponentiation] raises to the power (q^12 - 1) / r exactly, and
    panics on zero and on nothing else; also on limbs. *)
Theorem C97_final : forall (s : Fq12) n, Z.of_nat n * r_modulus = q_modulus ^ 12 - 1 ->
  (s <> bzero K12 -> final_exponentiation K1 tbl s = Ok (power K12 s n)) /\ final_exponentiation K1 tbl (bzero K12) = Panic.
Proof. intros s n E. split; [intros N; apply final_exponentiation_is; assumption|exact final_exponentiation_panics]. Qed.
Print Assumptions C97_final.
Theorem C97_limbs : forall x (s : Fq12) n, R12 x s -> Z.of_nat n * r_modulus = q_modulus ^ 12 - 1 ->
  (s <> bzero K12 -> exists z, final_exponentiation limb_base limb_tables x = Ok z /\ R12 z (power K12 s n)) /\ (s = bzero K12 -> final_exponentiation limb_base limb_tables x = Panic).
Proof.
  intros x s n X E. pose proof (final_rel _ _ _ limbs_follow _ _ tables_follow x s X) as Rr. split.
  - intros N. rewrite (proj1 (C97_final s n E) N) in Rr. destruct (final_exponentiation limb_base limb_tables x) as [z|]; [exists z; exact (conj eq_refl Rr)|contradiction].
  - intros ->. change (final_exponentiation (@fq_base) tbl (bzero K12)) with (final_exponentiation K1 tbl (f12_zero K1)) in Rr. rewrite final_exponentiation_panics in Rr. destruct (final_exponentiation limb_base limb_tables x); [contradiction|reflexivity].
Qed.
Print Assumptions C97_limbs.
(** there is such an n; the power of w, which is in no smaller field *)
Example C97_case : exists n, Z.of_nat n * r_modulus = q_modulus ^ 12 - 1 /\ ww <> bzero K12 /\ final_exponentiation K1 tbl ww = Ok (power K12 ww n).
Proof.
  exists n_final. split; [exact n_final_Z|]. assert (N : ww <> bzero K12). { intros E. apply (f_equal (fun s => fval (e0 (h0 (e1 s))))) in E. vm_compute in E. discriminate E. }
  split; [exact N|]. exact (proj1 (C97_final ww n_final n_final_Z) N).
Qed.

(** C98.  [multi_miller_loop] on prepared points never panics and is the product of
    the loops of its terms, so the check of the verifier, the final power of it,
    succeeds exactly if each pairing does and gives the product of the pairings. *)
Definition product_check {F} (K : base F) (t : tables F) (terms : list (aff F * aff (ext2 F))) : res (ext2 (ext3 (ext2 F))) :=
  match multi_miller_loop K (map (fun pq => (fst pq, from_affine K t (snd pq))) terms) with Ok f => final_exponentiation K t f | Panic => Panic end.
Theorem C98_miller : forall terms, exists fs,
  Forall2 (fun pq f => multi_miller_loop K1 [(fst pq, from_affine K1 tbl (snd pq))] = Ok f) terms fs /\
  multi_miller_loop K1 (map (fun pq => (fst pq, from_affine K1 tbl (snd pq))) terms) = Ok (product K12 fs).
Proof. exact multi_miller_product. Qed.
Print Assumptions C98_miller.
Theorem C98_check : forall terms v, product_check K1 tbl terms = Ok v <-> exists vs, Forall2 (fun pq w => pairing K1 tbl (fst pq) (snd pq) = Ok w) terms vs /\ v = product K12 vs.
Proof. exact pairing_product_is. Qed.
Print Assumptions C98_check.
Theorem C98_limbs : forall terms terms', Forall2 (fun x y => arel RQ (fst x) (fst y) /\ arel R2 (snd x) (snd y)) terms terms' ->
  match product_check K1 tbl terms' with
  | Ok v => exists z, product_check limb_base limb_tables terms = Ok z /\ R12 z v /\ (gt_is_identity limb_base z = true <-> v = bone K12)
  | Panic => product_check limb_base limb_tables terms = Panic
  end.
Proof.
  intros terms terms' H. unfold product_check.
  assert (M : rrel R12 (multi_miller_loop limb_base (map (fun pq => (fst pq, from_affine limb_base limb_tables (snd pq))) terms)) (multi_miller_loop K1 (map (fun pq => (fst pq, from_affine K1 tbl (snd pq))) terms'))).
  { apply (multi_rel _ _ _ limbs_follow). induction H as [|x y l l' [X Y] _ IH]; [constructor|]. cbn [map]. constructor; [|exact IH]. cbn [fst snd]. split; [exact X|]. apply (from_affine_rel _ _ _ limbs_follow _ _ tables_follow). exact Y. }
  destruct (multi_miller_loop limb_base _) as [f|], (multi_miller_loop K1 _) as [g|]; cbn [rrel] in M; try contradiction; [|reflexivity].
  pose proof (final_rel _ _ _ limbs_follow _ _ tables_follow f g M) as Rr.
  change (@final_exponentiation (fe q_pos)) with (@final_exponentiation Fq) in *.
  destruct (final_exponentiation limb_base limb_tables f) as [z|], (final_exponentiation K1 tbl g) as [v|]; cbn [rrel] in Rr; try contradiction; [|reflexivity].
  exists z. split; [reflexivity|]. split; [exact Rr|]. unfold gt_is_identity, gt_identity. rewrite (eqb12 _ _ _ limbs_follow _ _ _ _ Rr (one12 _ _ _ limbs_follow)). apply (f12_eqb_iff K1 fq_fld).
Qed.
Print Assumptions C98_limbs.
Definition g1_gen : aff Fq := Aff (FqZ 1) (FqZ 2).
Definition g2_gen : aff Fq2 := Aff x2 y2.
(** without terms the product is 1, and the loop of the generators has a value *)
Example C98_case : product_check K1 tbl [] = Ok (bone K12) /\ (exists f, multi_miller_loop K1 [(g1_gen, from_affine K1 tbl g2_gen)] = Ok f) /\ arel R2 (Aff (limb_raw raw_x2) (limb_raw raw_y2)) g2_gen.
Proof.
  split; [apply C98_check; exists []; split; [constructor|reflexivity]|]. split; [|exact (conj x2_ok y2_ok)].
  destruct (C98_miller [(g1_gen, g2_gen)]) as (fs & A & _). inversion A as [|? f ? ? M]. exists f. exact M.
Qed.

(** C99.  The values of the pairing are r-th roots of 1, and on these the operations
    of [Gt] are those of a multiplicative group: addition is the product, negation the
    inverse, multiplication by a scalar the power, and the identity is 1. *)
Theorem C99_root : forall p q v n, pairing K1 tbl p q = Ok v -> Z.of_nat n = r_modulus -> power K12 v n = bone K12.
Proof. exact pairing_order. Qed.
Print Assumptions C99_root.
Theorem C99_group : forall v w : Fq12, (forall n, Z.of_nat n = r_modulus -> power K12 v n = bone K12) -> (forall n, Z.of_nat n = r_modulus -> power K12 w n = bone K12) ->
  gt_add K1 v w = bmul K12 v w /\ (forall n, Z.of_nat n = r_modulus -> power K12 (gt_add K1 v w) n = bone K12) /\ bmul K12 (gt_neg K1 v) v = bone K12 /\
  bmul K12 (gt_sub K1 v w) w = v /\ gt_double K1 v = bmul K12 v v /\ (gt_is_identity K1 v = true <-> v = bone K12) /\
  (forall s (k : Fr), represents s k -> gt_mul K1 v (to_repr fr_params s) = power K12 v (Z.to_nat (fval k))) /\ (forall l, gt_sum K1 l = product K12 l).
Proof.
  intros v w V W. split; [reflexivity|]. split; [exact (root_mul v w V W)|]. split; [exact (gt_neg_root v V)|]. split.
  { unfold gt_sub, gt_add. pose proof (gt_neg_root w W) as E. cbn [f12_base bmul]. pose proof (F_R (fd_field _ fq12_fld)) as RT. cbn [f12_base bmul badd bsub bopp bzero bone] in RT.
    rewrite <- (Rmul_assoc RT), E, (Rmul_comm RT). apply (Rmul_1_l RT). }
  split; [exact (square_12 v)|]. split; [exact (f12_eqb_iff K1 fq_fld v (f12_one K1))|]. split; [intros s k S; exact (gt_mul_is v s k S)|exact gt_sum_is].
Qed.
Print Assumptions C99_group.
Example C99_case : (forall n, Z.of_nat n = r_modulus -> power K12 (bone K12) n = bone K12) /\ gt_mul K1 ww [3; 0] = power K12 ww 3 /\ gt_sum K1 [ww; ww; ww] = power K12 ww 3.
Proof. split; [intros n _; exact (pw_one K12 fq12_fld n)|]. split; apply (fd_eq _ fq12_fld); vm_compute; reflexivity. Qed.

(** C100.  G2 is the curve y^2 = x^3 + b over Fq2 with b xi = 3, its generator is on
    it, C86 - C88 hold of it, and the code computes its group law on limbs. *)
Theorem C100_curve : is_base K2 b2 /\ bmul K2 b2 (xi K1) = Ext2 (FqZ 3) (FqZ 0) /\ on_curve K2 b2 gen2 /\
  (forall P Q R, on_curve K2 b2 P -> on_curve K2 b2 Q -> on_curve K2 b2 R -> on_curve K2 b2 (pplus K2 P Q) /\ pplus K2 P (pplus K2 Q R) = pplus K2 (pplus K2 P Q) R /\ pplus K2 P Q = pplus K2 Q P /\ pplus K2 P (pneg K2 P) = Infinity).
Proof.
  split; [exact fq2_is_base|]. split; [exact twist|]. split; [exact gen2_on|]. intros P Q R HP HQ HR. split; [apply (pplus_on_curve K2 b2 fq2_is_base); assumption|].
  split; [symmetry; apply (pplus_assoc K2 b2 fq2_is_base); assumption|]. split; [apply (pplus_comm K2 b2 fq2_is_base); assumption|apply (pplus_pneg K2 b2 fq2_is_base)].
Qed.
Print Assumptions C100_curve.
Theorem C100_limbs : forall p q a (i j : jac Fq2) (c : aff Fq2), jrel R2 p i -> jrel R2 q j -> arel R2 a c ->
  let P := jac_point K2 i in let Q := jac_point K2 j in let A := aff_point K2 c in on_curve K2 b2 P -> on_curve K2 b2 Q -> on_curve K2 b2 A ->
  let stands r X := exists k, jrel R2 r k /\ jac_point K2 k = X in let stands_affine r X := exists k, arel R2 r k /\ aff_point K2 k = X in
  stands (jac_add limb2 p q) (pplus K2 P Q) /\ stands (jac_double limb2 p) (pplus K2 P P) /\ stands (jac_neg limb2 p) (pneg K2 P) /\ stands (jac_add_mixed limb2 p a) (pplus K2 P A) /\
  stands (aff_to_curve limb2 a) A /\ stands_affine (jac_to_affine limb2 p) P /\ stands_affine (aff_neg limb2 a) (pneg K2 A) /\
  (jac_eq limb2 p q = true <-> P = Q) /\ jac_on_curve limb2 (limb_raw raw_b2) p = true /\ aff_on_curve limb2 (limb_raw raw_b2) a = true /\
  forall s (k : Fr), represents s k -> stands (jac_mul limb2 p (to_repr fr_params s)) (ptimes K2 (Z.to_nat (fval k)) P) /\ stands (aff_mul limb2 a (to_repr fr_params s)) (ptimes K2 (Z.to_nat (fval k)) A).
Proof.
  intros p q a i j c I J C P Q A OP OQ OA stands stands_affine.
  split; [exists (jac_add K2 i j); split; [apply (add_rel _ _ _ follow2); assumption|apply (add_point K2 b2 fq2_is_base); assumption]|].
  split; [exists (jac_double K2 i); split; [apply (double_rel _ _ _ follow2); assumption|apply (double_point K2 b2 fq2_is_base); assumption]|].
  split; [exists (jac_neg K2 i); split; [apply (neg_rel _ _ _ follow2); assumption|apply (neg_point K2 b2 fq2_is_base)]|].
  split; [exists (jac_add_mixed K2 i c); split; [apply (add_mixed_rel _ _ _ follow2); assumption|apply (add_mixed_point K2 b2 fq2_is_base); assumption]|].
  split; [exists (aff_to_curve K2 c); split; [apply (to_curve_rel _ _ _ follow2); assumption|apply (to_curve_point K2 b2 fq2_is_base)]|].
  split; [exists (jac_to_affine K2 i); split; [apply (to_affine_rel _ _ _ follow2); assumption|apply (to_affine_point K2 b2 fq2_is_base); assumption]|].
  split; [exists (aff_neg K2 c); split; [apply (aff_neg_rel _ _ _ follow2); assumption|apply (aff_neg_point K2 b2 fq2_is_base)]|].
  split; [rewrite (jac_eq_rel _ _ _ follow2 _ _ _ _ I J); apply (jac_eq_iff K2 b2 fq2_is_base)|].
  split; [rewrite (on_curve_rel _ _ _ follow2 _ b2 b2_ok p i I); apply (jac_on_curve_iff K2 b2 fq2_is_base); exact OP|].
  split; [rewrite (aff_on_curve_rel _ _ _ follow2 _ b2 b2_ok a c C); apply (aff_on_curve_iff K2 b2 fq2_is_base); exact OA|].
  intros s k S. destruct (proj1 (repr_holds fr_params r_pos good_fr) s k S) as (_ & B & V & _).
  assert (N : bits_value (scalar_bits (to_repr fr_params s)) = Z.to_nat (fval k)). { apply Nat2Z.inj. rewrite scalar_bits_value by exact B. rewrite V, Z2Nat.id; [reflexivity|]. apply fval_range. }
  rewrite <- N. split; [exists (jac_mul K2 i (to_repr fr_params s)); split; [apply (mul_rel _ _ _ follow2); assumption|apply (mul_bits K2 b2 fq2_is_base); exact OP]|].
  exists (aff_mul K2 c (to_repr fr_params s)). split; [apply (aff_mul_rel _ _ _ follow2); assumption|apply (aff_mul_bits K2 b2 fq2_is_base); exact OA].
Qed.
Print Assumptions C100_limbs.
Definition gen2_limbs : aff (ext2 limbs) := Aff (limb_raw raw_x2) (limb_raw raw_y2).
Example C100_case : arel R2 gen2_limbs g2_gen /\ aff_point K2 g2_gen = gen2 /\ aff_on_curve limb2 (limb_raw raw_b2) gen2_limbs = true /\
  jac_on_curve limb2 (limb_raw raw_b2) (jac_double limb2 (aff_to_curve limb2 gen2_limbs)) = true /\ jac_eq limb2 (jac_double limb2 (aff_to_curve limb2 gen2_limbs)) (aff_to_curve limb2 gen2_limbs) = false.
Proof.
  split; [exact (conj x2_ok y2_ok)|]. split; [apply (aff_point_on K2 b2 fq2_is_base); exact gen2_on|]. vm_compute. repeat split; reflexivity.
Qed.
