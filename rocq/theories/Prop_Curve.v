(** C86 - C91: the curve arithmetic, and the proof system over the real G1. *)
From Coq Require Import List Bool ZArith Znumtheory Field_theory Lia.
From Verif Require Import Base Moduli Field FieldFacts LimbModel LimbSpec PolyFacts Halo2Model SelectorSpec CircuitModel VMModel BFSpec CompileSpec PermSpec SerdeModel SerdeSpec
  DomainModel VkModel VkSpec EntryModel EntrySpec IopModel IopSpec ProverModel ProverSpec ArithSpec KzgModel ShplonkSpec TranscriptModel VerifierModel VerifierSpec VerifierProject
  GraphModel CreateModel CreateSpec CreateThms CreateCase ArgueCase
  CurveModel CurveSpec CurveLaw CurveFacts CurveTimes CurveLimbs G1Group G1Code G1Case.
Import ListNotations.
Local Open Scope Z_scope.

(** C86.  Over any field in which the curve is not singular, what the code computes
    is the chord-and-tangent law on the points the coordinates stand for; the tests
    decide equality of points, infinity and membership in the curve; and the result
    is on the curve. *)
Theorem C86_law : forall (F : Type) (K : base F) (b : F), is_base K b -> forall p q : jac F,
  on_curve K b (jac_point K p) -> on_curve K b (jac_point K q) -> let P := jac_point K p in let Q := jac_point K q in
  jac_point K (jac_add K p q) = pplus K P Q /\ jac_point K (jac_double K p) = pplus K P P /\ jac_point K (jac_neg K p) = pneg K P /\
  jac_point K (jac_sub K p q) = pplus K P (pneg K Q) /\ aff_point K (jac_to_affine K p) = P /\ jac_point K (jac_identity K) = Infinity /\
  on_curve K b (pplus K P Q) /\ on_curve K b (pneg K P) /\ (jac_eq K p q = true <-> P = Q) /\ (jac_is_identity K p = true <-> P = Infinity).
Proof.
  intros F K b HK p q HP HQ P Q. split; [apply (add_point K b HK); assumption|]. split; [apply (double_point K b HK); assumption|]. split; [apply (neg_point K b HK)|].
  split. { unfold jac_sub. rewrite (add_point K b HK); [rewrite (neg_point K b HK); reflexivity|exact HP|]. rewrite (neg_point K b HK). apply (pneg_on_curve K b HK). exact HQ. }
  split; [apply (to_affine_point K b HK); assumption|]. split; [apply (identity_point K b HK)|]. split; [apply (pplus_on_curve K b HK); assumption|]. split; [apply (pneg_on_curve K b HK); assumption|].
  split; [apply (jac_eq_iff K b HK)|]. subst P. unfold jac_is_identity, bis_zero, jac_point. destruct (beqb K (jz p) (bzero K)); split; intros X; try reflexivity; discriminate X.
Qed.
Print Assumptions C86_law.
Theorem C86_affine : forall (F : Type) (K : base F) (b : F), is_base K b -> forall (p : jac F) (a c : aff F),
  on_curve K b (jac_point K p) -> on_curve K b (aff_point K a) -> on_curve K b (aff_point K c) -> let P := jac_point K p in let A := aff_point K a in let C := aff_point K c in
  jac_point K (jac_add_mixed K p a) = pplus K P A /\ jac_point K (jac_add_mixed' K a p) = pplus K A P /\ jac_point K (aff_add K a c) = pplus K A C /\
  jac_point K (jac_sub_mixed K p a) = pplus K P (pneg K A) /\ jac_point K (jac_sub_mixed' K a p) = pplus K A (pneg K P) /\ jac_point K (aff_sub K a c) = pplus K A (pneg K C) /\
  aff_point K (aff_neg K a) = pneg K A /\ jac_point K (aff_to_curve K a) = A /\ (aff_eq K a c = true <-> A = C) /\ (A = C -> a = c).
Proof.
  intros F K b HK p a c HP HA HC P A C. assert (NA : on_curve K b (aff_point K (aff_neg K a))) by (rewrite (aff_neg_point K b HK); apply (pneg_on_curve K b HK); exact HA).
  assert (NC : on_curve K b (aff_point K (aff_neg K c))) by (rewrite (aff_neg_point K b HK); apply (pneg_on_curve K b HK); exact HC).
  assert (NP : on_curve K b (jac_point K (jac_neg K p))) by (rewrite (neg_point K b HK); apply (pneg_on_curve K b HK); exact HP).
  split; [apply (add_mixed_point K b HK); assumption|].
  split. { unfold jac_add_mixed'. rewrite (add_mixed_point K b HK) by assumption. apply (pplus_comm K b HK); assumption. }
  split; [apply (aff_add_point K b HK); assumption|].
  split. { unfold jac_sub_mixed. rewrite (add_mixed_point K b HK) by assumption. rewrite (aff_neg_point K b HK). reflexivity. }
  split. { unfold jac_sub_mixed', jac_add_mixed'. rewrite (add_mixed_point K b HK) by assumption. rewrite (pplus_comm K b HK) by assumption. rewrite (neg_point K b HK). reflexivity. }
  split. { unfold aff_sub. rewrite (aff_add_point K b HK) by assumption. rewrite (aff_neg_point K b HK). reflexivity. }
  split; [apply (aff_neg_point K b HK)|]. split; [apply (to_curve_point K b HK)|].
  split; [|apply (aff_point_inj K b HK)]. rewrite (aff_eq_iff K b HK). split; [intros ->; reflexivity|apply (aff_point_inj K b HK)].
Qed.
Print Assumptions C86_affine.
(** the membership tests, and the constructors that use them *)
Theorem C86_membership : forall (F : Type) (K : base F) (b : F), is_base K b ->
  (forall p, jac_on_curve K b p = true <-> on_curve K b (jac_point K p)) /\ (forall a, aff_on_curve K b a = true <-> on_curve K b (aff_point K a)) /\
  (forall x y z, new_jacobian K b x y z <> None <-> on_curve K b (jac_point K (Jac x y z))) /\ (forall x y, from_xy K b x y <> None <-> on_curve K b (aff_point K (Aff x y))).
Proof.
  intros F K b HK. split; [apply (jac_on_curve_iff K b HK)|]. split; [apply (aff_on_curve_iff K b HK)|]. split.
  - intros x y z. rewrite <- (jac_on_curve_iff K b HK). unfold new_jacobian. destruct (jac_on_curve K b (Jac x y z)); split; congruence.
  - intros x y. rewrite <- (aff_on_curve_iff K b HK). unfold from_xy. destruct (aff_on_curve K b (Aff x y)); split; congruence.
Qed.
Print Assumptions C86_membership.

(** the field of 17 elements: (1, 2) is on y^2 = x^3 + 3, twice it is (6, 7) and
    nine times it is infinity *)
Definition base17 : base (fe 17) := Base f0 f1 fadd fsub fmul fopp (fun x => (x * x)%F) finvert feqb.
Definition e17 (z : Z) : fe 17 := of_Z 17 z.
Lemma prime17 : prime 17.
Proof.
  constructor; [lia|]. intros n Hn. assert (H : n = 1 \/ n = 2 \/ n = 3 \/ n = 4 \/ n = 5 \/ n = 6 \/ n = 7 \/ n = 8 \/ n = 9 \/ n = 10 \/ n = 11 \/ n = 12 \/ n = 13 \/ n = 14 \/ n = 15 \/ n = 16) by lia.
  repeat (destruct H as [->|H]; [apply Zgcd_1_rel_prime; reflexivity|]). subst n. apply Zgcd_1_rel_prime. reflexivity.
Qed.
Lemma base17_ok : is_base base17 (e17 3).
Proof.
  pose proof (fe_field_theory prime17) as H0. constructor.
  - constructor; [exact (F_R H0)|exact (F_1_neq_0 H0)|reflexivity|].
    intros x N. unfold binv, base17. cbn [binvert bmul bone]. unfold finvert. rewrite (proj2 (feqb_neq x f0) N). exact (Finv_l H0 x N).
  - reflexivity.
  - intros x. cbn [base17 binvert bzero]. unfold finvert. destruct (feqb x f0) eqn:E; [apply feqb_eq in E; split; auto|apply feqb_neq in E; split; [intros X; discriminate X|contradiction]].
  - intros x y. apply feqb_eq.
  - apply feqb_neq. reflexivity.
  - apply feqb_neq. reflexivity.
  - apply feqb_neq. reflexivity.
Qed.
Definition p17 (x y z : Z) : jac (fe 17) := Jac (e17 x) (e17 y) (e17 z).
Definition at17 (P : point (fe 17)) : option (Z * Z) := match P with Infinity => None | Point x y => Some (fval x, fval y) end.
Example C86_case : is_base base17 (e17 3) /\
  map (jac_on_curve base17 (e17 3)) [p17 1 2 1; p17 4 16 2; p17 7 7 0; p17 1 3 1] = [true; true; true; false] /\
  at17 (jac_point base17 (p17 4 16 2)) = Some (1, 2) /\ jac_eq base17 (p17 1 2 1) (p17 4 16 2) = true /\
  at17 (jac_point base17 (jac_add base17 (p17 1 2 1) (p17 4 16 2))) = Some (6, 7) /\ at17 (pplus base17 (Point (e17 6) (e17 7)) (Point (e17 1) (e17 2))) = Some (11, 5).
Proof. split; [exact base17_ok|]. vm_compute. repeat split. Qed.

(** C87.  The points of the curve are a commutative group under the operations of
    the code, and its equality test sees it. *)
Theorem C87_group : forall (F : Type) (K : base F) (b : F), is_base K b -> forall p q r : jac F,
  jac_on_curve K b p = true -> jac_on_curve K b q = true -> jac_on_curve K b r = true ->
  jac_on_curve K b (jac_add K p q) = true /\ jac_on_curve K b (jac_neg K p) = true /\ jac_on_curve K b (jac_identity K) = true /\
  jac_eq K (jac_add K (jac_add K p q) r) (jac_add K p (jac_add K q r)) = true /\ jac_eq K (jac_add K p q) (jac_add K q p) = true /\
  jac_add K (jac_identity K) p = p /\ jac_eq K (jac_add K p (jac_neg K p)) (jac_identity K) = true /\ jac_eq K (jac_double K p) (jac_add K p p) = true /\
  jac_eq K (jac_sub K (jac_add K p q) q) p = true.
Proof.
  intros F K b HK p q r HP HQ HR. rewrite !(jac_on_curve_iff K b HK) in *. rewrite !(jac_eq_iff K b HK).
  assert (A : forall u v, on_curve K b (jac_point K u) -> on_curve K b (jac_point K v) -> on_curve K b (jac_point K (jac_add K u v))).
  { intros u v U V. rewrite (add_point K b HK) by assumption. apply (pplus_on_curve K b HK); assumption. }
  assert (N : forall u, on_curve K b (jac_point K u) -> on_curve K b (jac_point K (jac_neg K u))) by (intros u U; rewrite (neg_point K b HK); apply (pneg_on_curve K b HK); assumption).
  split; [auto|]. split; [auto|]. split; [rewrite (identity_point K b HK); exact Logic.I|].
  split; [rewrite !(add_point K b HK) by auto; apply (pplus_assoc K b HK); assumption|]. split; [rewrite !(add_point K b HK) by auto; apply (pplus_comm K b HK); assumption|].
  split. { unfold jac_add at 1. rewrite (jac_id_true K b HK (jac_identity K) eq_refl). reflexivity. }
  split; [rewrite (add_point K b HK), (neg_point K b HK), (identity_point K b HK) by auto; apply (pplus_pneg K b HK)|].
  split; [rewrite (add_point K b HK), (double_point K b HK) by assumption; reflexivity|].
  unfold jac_sub. rewrite !(add_point K b HK), (neg_point K b HK) by auto. assert (N' := pneg_on_curve K b HK _ HQ).
  rewrite (pplus_assoc K b HK), (pplus_pneg K b HK) by assumption. apply pplus_zero_r.
Qed.
Print Assumptions C87_group.
Example C87_case : map (jac_on_curve base17 (e17 3)) [p17 1 2 1; p17 6 7 1; p17 9 16 1] = [true; true; true] /\
  at17 (jac_point base17 (jac_add base17 (jac_add base17 (p17 1 2 1) (p17 6 7 1)) (p17 9 16 1))) = Some (6, 10) /\
  at17 (jac_point base17 (jac_add base17 (p17 1 2 1) (jac_add base17 (p17 6 7 1) (p17 9 16 1)))) = Some (6, 10).
Proof. vm_compute. auto. Qed.

(** C88.  Multiplication by a scalar adds the point to itself as often as the
    little-endian bytes of the scalar say; [Sum] adds all points of a list; and
    [batch_normalize] gives each point's affine coordinates, also if some points
    are at infinity, and panics only on slices of different lengths. *)
Theorem C88_times : forall (F : Type) (K : base F) (b : F), is_base K b -> forall (p : jac F) (a : aff F) repr, Forall byte repr ->
  on_curve K b (jac_point K p) -> on_curve K b (aff_point K a) ->
  jac_point K (jac_mul K p repr) = ptimes K (Z.to_nat (le_int repr)) (jac_point K p) /\ jac_point K (aff_mul K a repr) = ptimes K (Z.to_nat (le_int repr)) (aff_point K a).
Proof.
  intros F K b HK p a repr HB HP HA. rewrite (mul_bits K b HK), (aff_mul_bits K b HK) by assumption. rewrite <- (scalar_bits_value repr HB), Nat2Z.id. auto.
Qed.
Print Assumptions C88_times.
Theorem C88_sum : forall (F : Type) (K : base F) (b : F), is_base K b -> forall l : list (jac F), (forall p, List.In p l -> on_curve K b (jac_point K p)) ->
  jac_point K (jac_sum K l) = psum K (map (jac_point K) l).
Proof. exact (fun F => @sum_point F). Qed.
Print Assumptions C88_sum.
Theorem C88_batch : forall (F : Type) (K : base F) (b : F), is_base K b -> forall (l : list (jac F)) n,
  (length l = n -> batch_normalize K l n = Ok (map (jac_to_affine K) l)) /\ (length l <> n -> batch_normalize K l n = Panic).
Proof. intros F K b HK l n. split; [intros <-; apply (batch_normalize_is K b HK)|apply (batch_normalize_panic K)]. Qed.
Print Assumptions C88_batch.
Example C88_case : at17 (jac_point base17 (jac_mul base17 (p17 1 2 1) [0; 1])) = Some (9, 16) /\ at17 (ptimes base17 256 (Point (e17 1) (e17 2))) = Some (9, 16) /\
  at17 (jac_point base17 (jac_sum base17 [p17 1 2 1; p17 6 7 1; p17 3 3 0; p17 9 16 1])) = Some (6, 10) /\
  match batch_normalize base17 [p17 4 16 2; p17 3 3 0; p17 6 7 1] 3 with Ok l => map (fun a => (fval (ax a), fval (ay a))) l | Panic => [] end = [(1, 2); (0, 0); (6, 7)].
Proof. vm_compute. auto. Qed.

(** C89.  On G1 every point of the curve is a multiple of the generator (1, 2), all
    points have order dividing the prime r, and they are a vector space over the
    field of scalars; so what C60 - C85 assume of the first group holds of G1.  What
    they assume of the pairing holds of every bilinear map that does not vanish at
    the generators. *)
Theorem C89_g1 : is_base fq_base b1 /\ on_curve fq_base b1 gen1 /\
  (forall P, on_curve fq_base b1 P -> (exists i, P = ptimes fq_base i gen1) /\ forall n, Z.of_nat n = r_modulus -> ptimes fq_base n P = Infinity) /\
  prime r_modulus /\ is_module zero1 add1 sub1 scale_g1 /\ gen_g1 <> zero1.
Proof.
  split; [exact fq_is_base|]. split; [exact gen1_on|]. split; [|split; [exact prime_r|split; [exact g1_module|exact gen_not_zero]]].
  intros P HP. split; [exact (g1_cyclic P HP)|]. intros n E. replace n with r_nat; [exact (g1_order P HP)|]. apply Nat2Z.inj. rewrite E. exact r_nat_Z.
Qed.
Print Assumptions C89_g1.
Theorem C89_points : (forall g, exists x y, g1_point (to_affine1 g) x y) /\ (forall g, of_affine1 (to_affine1 g) = g) /\
  (forall a x y, g1_point a x y -> pt1 (of_affine1 a) = aff_point fq_base (Aff x y)).
Proof. split; [exact to_affine_valid|]. split; [exact of_to_affine|exact of_affine_point]. Qed.
Print Assumptions C89_points.
Theorem C89_pairing : forall (T : Type) (one : T) mul teqb scale2 gen2 e, bilinear one mul scale2 gen2 e -> (forall a c, teqb a c = true <-> a = c) ->
  is_pairing scale_g1 scale2 gen2 (pairing_check is_zero1 (product_is_one one mul teqb e)).
Proof. intros. apply bilinear_pairing; assumption. Qed.
Print Assumptions C89_pairing.
Example C89_case : bilinear zero1 add1 times2 (point2 f1) toy_e /\ (forall a c, g1_eqb a c = true <-> a = c).
Proof. split; [exact toy_bilinear|exact g1_eqb_iff]. Qed.

(** C90.  The same on limb vectors: the code on Montgomery limbs of G1 computes the
    law, and its affine results are the coordinates keys and proofs store. *)
Theorem C90_limbs : forall p q P Q, stands p P -> stands q Q -> on_curve fq_base b1 P -> on_curve fq_base b1 Q ->
  stands (jac_add limb_base p q) (pplus fq_base P Q) /\ stands (jac_double limb_base p) (pplus fq_base P P) /\ stands (jac_neg limb_base p) (pneg fq_base P) /\
  stands (jac_sub limb_base p q) (pplus fq_base P (pneg fq_base Q)) /\ (jac_eq limb_base p q = true <-> P = Q) /\ (jac_is_identity limb_base p = true <-> P = Infinity) /\
  stands_aff (jac_to_affine limb_base p) P /\
  forall s (k : Fr), represents s k -> stands (jac_mul limb_base p (to_repr fr_params s)) (ptimes fq_base (Z.to_nat (fval k)) P).
Proof.
  intros p q P Q HP HQ OP OQ. split; [apply limb_add; assumption|]. split; [apply limb_double; assumption|]. split; [apply limb_neg; assumption|].
  split; [apply limb_add; [assumption|apply limb_neg; assumption|assumption|apply (pneg_on_curve fq_base b1 fq_is_base); assumption]|]. split; [apply limb_eq; assumption|]. split; [apply limb_identity; assumption|].
  split; [apply limb_to_affine; assumption|]. intros s k S. apply limb_mul; assumption.
Qed.
Print Assumptions C90_limbs.
Theorem C90_affine : forall p a c P A C, stands p P -> stands_aff a A -> stands_aff c C -> on_curve fq_base b1 P -> on_curve fq_base b1 A -> on_curve fq_base b1 C ->
  stands (jac_add_mixed limb_base p a) (pplus fq_base P A) /\ stands (aff_add limb_base a c) (pplus fq_base A C) /\ stands_aff (aff_neg limb_base a) (pneg fq_base A) /\
  stands (aff_to_curve limb_base a) A /\ (aff_eq limb_base a c = true <-> A = C) /\ (A = C -> a = c) /\ (aff_is_identity limb_base a = true <-> A = Infinity) /\
  forall s (k : Fr), represents s k -> stands (aff_mul limb_base a (to_repr fr_params s)) (ptimes fq_base (Z.to_nat (fval k)) A).
Proof.
  intros p a c P A C HP HA HC OP OA OC. split; [apply limb_add_mixed; assumption|]. split; [apply limb_aff_add; assumption|]. split; [apply limb_aff_neg; assumption|].
  split; [apply limb_to_curve; assumption|]. split; [apply limb_aff_eq; assumption|]. split; [apply (limb_aff_eq a c A C HA HC)|]. split; [apply limb_aff_identity; assumption|].
  intros s k S. apply limb_aff_mul; assumption.
Qed.
Print Assumptions C90_affine.
Theorem C90_lists : forall l Ps, Forall2 stands l Ps -> Forall (on_curve fq_base b1) Ps ->
  stands (jac_sum limb_base l) (psum fq_base Ps) /\ exists q, batch_normalize limb_base l (length l) = Ok q /\ Forall2 stands_aff q Ps.
Proof. intros l Ps H O. split; [apply limb_sum; assumption|apply limb_normalize; assumption]. Qed.
Print Assumptions C90_lists.
Theorem C90_stored : forall p g, stands p (pt1 g) -> jac_to_affine limb_base p = Aff (g1_x (to_affine1 g)) (g1_y (to_affine1 g)).
Proof. exact limb_to_affine1. Qed.
Print Assumptions C90_stored.
(** the generator, and a point not at infinity with z = 1 in Montgomery form *)
Definition gen_limbs : jac limbs := Jac (enc (FqZ 1)) (enc (FqZ 2)) (lone fq_params).
Example C90_case : stands gen_limbs gen1 /\ on_curve fq_base b1 gen1 /\ jac_on_curve limb_base (enc b1) (jac_add limb_base gen_limbs (jac_double limb_base gen_limbs)) = true /\
  jac_eq limb_base (jac_add limb_base gen_limbs (jac_double limb_base gen_limbs)) (jac_sum limb_base [gen_limbs; gen_limbs; gen_limbs]) = true /\
  jac_eq limb_base (jac_double limb_base gen_limbs) gen_limbs = false.
Proof.
  split; [|split; [exact gen1_on|vm_compute; repeat split; reflexivity]].
  apply (stands_iff gen_limbs gen1). exists (aff_to_curve fq_base (Aff (FqZ 1) (FqZ 2))).
  assert (Z : aff_is_identity fq_base (Aff (FqZ 1) (FqZ 2)) = false) by reflexivity.
  split.
  - unfold aff_to_curve. rewrite Z. split; [apply enc_ok|]. split; [apply enc_ok|exact (f_one _ _ _ limbs_follow)].
  - rewrite (to_curve_point fq_base b1 fq_is_base). apply (aff_point_on fq_base b1 fq_is_base). exact gen1_on.
Qed.

(** C91.  C81 for the real G1: for every set-up secret that the set-up accepts the
    parameters exist, and every completed run that fits gets keys and, unless the
    challenges are unlucky, a proof the on-chain program accepts. *)
Theorem C91_accepted : forall hash transcript_repr (T : Type) (one : T) mul teqb scale2 gen2 e k t,
  digest64 hash -> bilinear one mul scale2 gen2 e -> (forall a c, teqb a c = true <-> a = c) -> g2_coords gen2 -> g2_coords (scale2 t gen2) ->
  9 <= k <= 24 -> fpow t (2 ^ k) <> f1 ->
  let product := product_is_one one mul teqb e in let n := Z.to_nat (2 ^ k) in
  exists p, setup scale_g1 gen_g1 scale2 gen2 k t = Ok (srs_of of_affine1 p) /\ valid_params p /\
  exists p', shrink p SHRINK_K = Ok p' /\
  forall pr stack src b inp cfg ws fuel s,
  parses src b -> 1 <= program_words b < 1024 -> in_range 8 inp -> (length inp < 1024)%nat -> exec 8 b (initial inp) (Done cfg) -> unread cfg = [] ->
  compile_to_u16 pr src = Ok ws -> VMModel.run pr fuel (start (map FrZ ws) (easygen inp)) = Finished s -> lenZ (instruction_matrix (mat s)) + 6 < 2 ^ k -> (18 <= stack)%nat ->
  exists v pk, keygen_vk (commit_or_identity zero1 add1 of_affine1 to_affine1 p) pr k (mat s) = EOk v /\ keygen_pk pr k v (mat s) = EOk pk /\
  forall co, let insts := statement ws inp in let synth := bf_synth v n (mat s) insts in
  exists a st bytes, write_first hash transcript_repr zero1 add1 of_affine1 to_affine1 p pk synth insts co ([], []) = POk (a, (st, bytes)) /\ Forall byte bytes /\
  (exists ms st rest, read_messages hash transcript_repr v insts [] bytes = TOk ms st rest) /\
  (unlucky hash transcript_repr of_affine1 p v insts bytes \/
   exists last, create_proof hash transcript_repr zero1 add1 of_affine1 to_affine1 pr p pk synth insts co = POk (bytes ++ last) /\
     (fortunate hash transcript_repr pk n (mat s) insts bytes ->
        bf_program hash transcript_repr zero1 add1 of_affine1 is_zero1 product pr stack
          (tx_witness (write_kzg p') (write_vk RawBytes v) (bytes ++ last) (code_bytes ws) inp) = Exit 0)).
Proof.
  intros hash tr T one mul teqb scale2 gen2 e k t Dh B E H2 HS Hk Ht product n.
  destruct (setup_params scale2 gen2 k t) as (p & Es & Vp & Kp); [lia|intros [X|X]; [lia|exact (Ht X)]|exact H2|exact HS|].
  exists p. split; [exact Es|]. split; [exact Vp|]. destruct (ParamsFacts.params_round Wrapping p Vp) as (p' & Sp & _); [lia|]. exists p'. split; [exact Sp|].
  intros pr stack src b inp cfg ws fuel s P1 P2 P3 P4 P5 P6 P7 P8 P9 P10.
  exact (run_accepted hash tr zero1 add1 sub1 scale_g1 gen_g1 scale2 gen2 of_affine1 to_affine1 is_zero1 product p k t Dh g1_module to_affine_valid of_to_affine
    (bilinear_pairing one mul teqb scale2 gen2 e B E) Es Hk pr stack src b inp cfg ws fuel s p' P1 P2 P3 P4 P5 P6 P7 P8 P9 Vp Sp P10).
Qed.
Print Assumptions C91_accepted.
(** ",+." on "a" with 512 rows and commitments in G1 *)
Example C91_case : exists p hash s p' v pk proof,
  let insts := statement [44; 43; 46] [97] in
  setup scale_g1 gen_g1 times2 (point2 f1) 9 toy_t = Ok (srs_of of_affine1 p) /\ valid_params p /\
  digest64 hash /\ VMModel.run Wrapping 10 (start (map FrZ [44; 43; 46]) (easygen [97])) = Finished s /\ shrink p SHRINK_K = Ok p' /\
  keygen_vk (commit_or_identity zero1 add1 of_affine1 to_affine1 p) Wrapping 9 (mat s) = EOk v /\ keygen_pk Wrapping 9 v (mat s) = EOk pk /\
  create_proof hash (fun _ => f0) zero1 add1 of_affine1 to_affine1 Wrapping p pk (bf_synth v (Z.to_nat (2 ^ 9)) (mat s) insts) insts no_coins = POk proof /\
  bf_program hash (fun _ => f0) zero1 add1 of_affine1 is_zero1 toy_product Wrapping 18
    (tx_witness (write_kzg p') (write_vk RawBytes v) proof (code_bytes [44; 43; 46]) [97]) = Exit 0.
Proof.
  destruct toy_setup as (p & Es & Vp & _). exists p.
  destruct (small_accepted_in zero1 add1 sub1 scale_g1 gen_g1 times2 (point2 f1) of_affine1 to_affine1 is_zero1 toy_product p toy_t g1_module to_affine_valid of_to_affine toy_pairing Es Vp)
    as (hash & s & p' & v & pk & proof & H).
  exists hash, s, p', v, pk, proof. split; [exact Es|]. split; [exact Vp|exact H].
Qed.
