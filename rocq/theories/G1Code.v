(** G1 as the code has it: limb vectors that stand for points, and affine points
    as keys, parameters and proofs store them. *)
From Coq Require Import List Bool ZArith Lia.
From Verif Require Import Base Moduli Field FieldFacts LimbModel LimbSpec LimbFacts LimbField LimbConst FieldClaims PolyFacts SerdeModel SerdeSpec
  CurveModel CurveSpec CurveLaw CurveFacts CurveTimes CurveLimbs G1Group ArithSpec KzgModel KzgFacts ArithThms ShplonkSpec VerifierModel.
Import ListNotations.
Local Open Scope Z_scope.

(** the operations of Fq on limb vectors (bn256/fq.rs, derive/field.rs) *)
Definition limb_base : base limbs :=
  Base lzero (lone fq_params) (ladd fq_params) (lsub fq_params) (lmul fq_params) (lneg fq_params) (lsquare fq_params) (linvert fq_params) leqb.
Local Notation K := fq_base.
Local Notation HK := fq_is_base.
Local Notation R := (@represents q_pos).
Local Notation jr := (@jrel limbs Fq R).
Local Notation ar := (@arel limbs Fq R).

Lemma limbs_follow : follows limb_base fq_base R.
Proof.
  destruct (arithmetic_holds fq_params q_pos good_fq) as (_ & E & Z & O & A & U). destruct (inverse_holds fq_params q_pos good_fq) as (_ & I & N).
  constructor; cbn [limb_base fq_base bzero bone badd bsub bmul bopp bsquare binvert beqb].
  - exact Z.
  - exact O.
  - intros x y a c X Y. apply (A x y a c X Y).
  - intros x y a c X Y. apply (A x y a c X Y).
  - intros x y a c X Y. apply (A x y a c X Y).
  - intros x a X. apply (U x a X).
  - intros x a X. pose proof (proj2 (proj2 (U x a X))) as S. rewrite Z.pow_2_r in S. exact S.
  - intros x a X. unfold orel, finvert. destruct (feqb a f0) eqn:F.
    + apply feqb_eq in F. subst a. rewrite (N x X). exact Logic.I.
    + apply feqb_neq in F. destruct (I x a X F) as (y & c & Ey & Yc & Ec). rewrite Ey. replace (finv a) with c; [exact Yc|].
      apply (inv_unique K b1 HK c (finv a) a); [exact Ec|exact (finv_l q_prime a F)].
  - intros x y a c X Y. destruct (leqb x y) eqn:F, (feqb a c) eqn:G; try reflexivity.
    + apply leqb_eq in F. apply (E x y a c X Y) in F. apply feqb_neq in G. contradiction.
    + apply feqb_eq in G. apply (E x y a c X Y) in G. apply leqb_eq in G. congruence.
Qed.

(** ** Limb vectors that stand for a point *)
Definition stands (p : jac limbs) (P : point Fq) : Prop :=
  exists x y z : Fq, represents (jx p) x /\ represents (jy p) y /\ represents (jz p) z /\ jac_point K (Jac x y z) = P.
Definition stands_aff (p : aff limbs) (P : point Fq) : Prop :=
  exists x y : Fq, represents (ax p) x /\ represents (ay p) y /\ aff_point K (Aff x y) = P.
Local Notation oc := (on_curve K b1).
Local Notation L := limb_base.

Lemma stands_iff p P : stands p P <-> exists j : jac Fq, jr p j /\ jac_point K j = P.
Proof.
  split.
  - intros (x & y & z & X & Y & Z & E). exists (Jac x y z). exact (conj (conj X (conj Y Z)) E).
  - intros ([x y z] & (X & Y & Z) & E). exists x, y, z. cbn [jx jy jz] in *. auto.
Qed.
Lemma stands_aff_iff p P : stands_aff p P <-> exists j : aff Fq, ar p j /\ aff_point K j = P.
Proof.
  split.
  - intros (x & y & X & Y & E). exists (Aff x y). exact (conj (conj X Y) E).
  - intros ([x y] & (X & Y) & E). exists x, y. cbn [ax ay] in *. auto.
Qed.
Local Notation LF := limbs_follow.

Section One.
Variables (p : jac limbs) (P : point Fq).
Hypotheses (HP : stands p P) (OP : oc P).
Lemma limb_double : stands (jac_double L p) (pplus K P P).
Proof. apply stands_iff in HP. destruct HP as (j & J & E). apply stands_iff. exists (jac_double K j). split; [apply (double_rel L K R LF); exact J|]. subst P. apply (double_point K b1 HK). exact OP. Qed.
Lemma limb_neg : stands (jac_neg L p) (pneg K P).
Proof. apply stands_iff in HP. destruct HP as (j & J & E). apply stands_iff. exists (jac_neg K j). split; [apply (neg_rel L K R LF); exact J|]. subst P. apply (neg_point K b1 HK). Qed.
Lemma limb_identity : jac_is_identity L p = true <-> P = Infinity.
Proof.
  apply stands_iff in HP. destruct HP as (j & J & E). rewrite (identity_rel L K R LF p j J). subst P. unfold jac_is_identity, bis_zero, jac_point.
  destruct (beqb K (jz j) (bzero K)); split; intros X; try reflexivity; discriminate X.
Qed.
Lemma limb_on_curve b : represents b b1 -> jac_on_curve L b p = true.
Proof. apply stands_iff in HP. destruct HP as (j & J & E). intros B. rewrite (on_curve_rel L K R LF b b1 B p j J). apply (jac_on_curve_iff K b1 HK). rewrite E. exact OP. Qed.
Lemma limb_to_affine : stands_aff (jac_to_affine L p) P.
Proof. apply stands_iff in HP. destruct HP as (j & J & E). apply stands_aff_iff. exists (jac_to_affine K j). split; [apply (to_affine_rel L K R LF); exact J|]. subst P. apply (to_affine_point K b1 HK). exact OP. Qed.
Lemma limb_mul s (k : Fr) : represents s k -> stands (jac_mul L p (to_repr fr_params s)) (ptimes K (Z.to_nat (fval k)) P).
Proof.
  intros S. apply stands_iff in HP. destruct HP as (j & J & E). apply stands_iff. exists (jac_mul K j (to_repr fr_params s)). split; [apply (mul_rel L K R LF); exact J|]. subst P.
  rewrite (mul_bits K b1 HK) by exact OP. f_equal. destruct (proj1 (repr_holds fr_params r_pos good_fr) s k S) as (_ & B & V & _). apply Nat2Z.inj.
  rewrite scalar_bits_value by exact B. rewrite V, Z2Nat.id; [reflexivity|]. apply fval_range.
Qed.
End One.
Section OneAffine.
Variables (p : aff limbs) (P : point Fq).
Hypotheses (HP : stands_aff p P) (OP : oc P).
Lemma limb_aff_neg : stands_aff (aff_neg L p) (pneg K P).
Proof. apply stands_aff_iff in HP. destruct HP as (j & J & E). apply stands_aff_iff. exists (aff_neg K j). split; [apply (aff_neg_rel L K R LF); exact J|]. subst P. apply (aff_neg_point K b1 HK). Qed.
Lemma limb_to_curve : stands (aff_to_curve L p) P.
Proof. apply stands_aff_iff in HP. destruct HP as (j & J & E). apply stands_iff. exists (aff_to_curve K j). split; [apply (to_curve_rel L K R LF); exact J|]. subst P. apply (to_curve_point K b1 HK). Qed.
Lemma limb_aff_on_curve b : represents b b1 -> aff_on_curve L b p = true.
Proof. apply stands_aff_iff in HP. destruct HP as (j & J & E). intros B. rewrite (aff_on_curve_rel L K R LF b b1 B p j J). apply (aff_on_curve_iff K b1 HK). rewrite E. exact OP. Qed.
Lemma limb_aff_identity : aff_is_identity L p = true <-> P = Infinity.
Proof.
  apply stands_aff_iff in HP. destruct HP as (j & J & E). rewrite (aff_identity_rel L K R LF p j J). subst P. unfold aff_is_identity, bis_zero, aff_point.
  destruct (beqb K (ax j) (bzero K) && beqb K (ay j) (bzero K)); split; intros X; try reflexivity; discriminate X.
Qed.
Lemma limb_aff_mul s (k : Fr) : represents s k -> stands (aff_mul L p (to_repr fr_params s)) (ptimes K (Z.to_nat (fval k)) P).
Proof.
  intros S. apply stands_aff_iff in HP. destruct HP as (j & J & E). apply stands_iff. exists (aff_mul K j (to_repr fr_params s)). split; [apply (aff_mul_rel L K R LF); exact J|]. subst P.
  rewrite (aff_mul_bits K b1 HK) by exact OP. f_equal. destruct (proj1 (repr_holds fr_params r_pos good_fr) s k S) as (_ & B & V & _). apply Nat2Z.inj.
  rewrite scalar_bits_value by exact B. rewrite V, Z2Nat.id; [reflexivity|]. apply fval_range.
Qed.
End OneAffine.
Lemma limb_add p q P Q : stands p P -> stands q Q -> oc P -> oc Q -> stands (jac_add L p q) (pplus K P Q).
Proof.
  intros HP HQ OP OQ. apply stands_iff in HP, HQ. destruct HP as (j & J & E), HQ as (i & I & D). apply stands_iff. exists (jac_add K j i).
  split; [apply (add_rel L K R LF); assumption|]. subst P Q. apply (add_point K b1 HK); assumption.
Qed.
Lemma limb_add_mixed p q P Q : stands p P -> stands_aff q Q -> oc P -> oc Q -> stands (jac_add_mixed L p q) (pplus K P Q).
Proof.
  intros HP HQ OP OQ. apply stands_iff in HP. apply stands_aff_iff in HQ. destruct HP as (j & J & E), HQ as (i & I & D). apply stands_iff. exists (jac_add_mixed K j i).
  split; [apply (add_mixed_rel L K R LF); assumption|]. subst P Q. apply (add_mixed_point K b1 HK); assumption.
Qed.
Lemma limb_aff_add p q P Q : stands_aff p P -> stands_aff q Q -> oc P -> oc Q -> stands (aff_add L p q) (pplus K P Q).
Proof.
  intros HP HQ OP OQ. apply stands_aff_iff in HP, HQ. destruct HP as (j & J & E), HQ as (i & I & D). apply stands_iff. exists (aff_add K j i).
  split; [apply (aff_add_rel L K R LF); assumption|]. subst P Q. apply (aff_add_point K b1 HK); assumption.
Qed.
Lemma limb_eq p q P Q : stands p P -> stands q Q -> (jac_eq L p q = true <-> P = Q).
Proof.
  intros HP HQ. apply stands_iff in HP, HQ. destruct HP as (j & J & E), HQ as (i & I & D). rewrite (jac_eq_rel L K R LF _ _ _ _ J I). subst P Q. apply (jac_eq_iff K b1 HK).
Qed.
Lemma limb_aff_eq p q P Q : stands_aff p P -> stands_aff q Q -> (aff_eq L p q = true <-> P = Q) /\ (P = Q -> p = q).
Proof.
  intros HP HQ. apply stands_aff_iff in HP, HQ. destruct HP as (j & J & E), HQ as (i & I & D). rewrite (aff_eq_rel L K R LF _ _ _ _ J I), (aff_eq_iff K b1 HK). subst P Q.
  split; [split; [intros ->; reflexivity|apply (aff_point_inj K b1 HK)]|]. intros H. apply (aff_point_inj K b1 HK) in H. subst i.
  destruct (arithmetic_holds fq_params q_pos good_fq) as (_ & U & _). destruct p as [x y], q as [x' y'], j as [c d]. destruct J as [J1 J2], I as [I1 I2]. cbn [ax ay] in *.
  f_equal; [apply (U _ _ c c)|apply (U _ _ d d)]; auto.
Qed.
Lemma limb_sum l Ps : Forall2 stands l Ps -> Forall (on_curve K b1) Ps -> stands (jac_sum L l) (psum K Ps).
Proof.
  intros H O. assert (exists js : list (jac Fq), Forall2 jr l js /\ map (jac_point K) js = Ps) as (js & J & E).
  { clear O. induction H as [|p P l Ps HP H (js & J & E)]; [exists []; split; [constructor|reflexivity]|]. apply stands_iff in HP. destruct HP as (j & J' & E'). exists (j :: js).
    split; [constructor; assumption|]. cbn [map]. rewrite E, E'. reflexivity. }
  apply stands_iff. exists (jac_sum K js). split; [apply (sum_rel L K R LF); exact J|]. rewrite (sum_point K b1 HK); [rewrite E; reflexivity|].
  intros j I. rewrite Forall_forall in O. apply O. rewrite <- E. apply in_map. exact I.
Qed.
Lemma limb_normalize l Ps : Forall2 stands l Ps -> Forall (on_curve K b1) Ps -> exists q, batch_normalize L l (length l) = Ok q /\ Forall2 stands_aff q Ps.
Proof.
  intros H O. assert (exists js : list (jac Fq), Forall2 jr l js /\ map (jac_point K) js = Ps) as (js & J & E).
  { clear O. induction H as [|p P l Ps HP H (js & J & E)]; [exists []; split; [constructor|reflexivity]|]. apply stands_iff in HP. destruct HP as (j & J' & E'). exists (j :: js).
    split; [constructor; assumption|]. cbn [map]. rewrite E, E'. reflexivity. }
  rewrite (rel_length _ _ _ J). pose proof (normalize_rel L K R LF l js (length js) J) as N. rewrite (batch_normalize_is K b1 HK) in N.
  destruct (batch_normalize L l (length js)) as [q|]; [|contradiction]. exists q. split; [reflexivity|]. subst Ps. clear J H. revert q N. induction js as [|j js IH]; intros q N; inversion N; subst; [constructor|].
  cbn [map] in *. inversion O; subst. constructor; [|apply IH; assumption]. apply stands_aff_iff. eexists. split; [eassumption|]. apply (to_affine_point K b1 HK). assumption.
Qed.

(** ** Affine points in keys, parameters and proofs *)
(** the limbs of a number below 2^256 and of the Montgomery form of a value *)
Definition words_of (z : Z) : limbs := L4 (z mod W) (z / W mod W) (z / W / W mod W) (z / W / W / W mod W).
Definition enc (a : Fq) : limbs := words_of ((fval a * 2 ^ 256) mod q_modulus).
Definition dec (x : limbs) : Fq := FqZ (le_int (to_repr fq_params x)).
Definition to_affine1 (g : g1_group) : g1 := match pt1 g with Infinity => g1_identity | Point x y => G1 (enc x) (enc y) end.
Definition lift_point (P : point Fq) : g1_group := match bool_dec (on_curveb P) true with left e => G1pt P e | right _ => zero1 end.
Definition of_affine1 (a : g1) : g1_group := lift_point (aff_point K (Aff (dec (g1_x a)) (dec (g1_y a)))).
Definition is_zero1 (g : g1_group) : bool := match pt1 g with Infinity => true | Point _ _ => false end.

Lemma words_of_ok z : 0 <= z < W * (W * (W * W)) -> words4 (words_of z) /\ v4 (words_of z) = z.
Proof.
  intros Hz. assert (HW : 0 < W) by reflexivity. unfold words_of, words4, word, v4. cbn [l0 l1 l2 l3].
  split; [repeat split; apply Z.mod_pos_bound; exact HW|].
  assert (S : z / W / W / W < W) by (repeat (apply Z.div_lt_upper_bound; [exact HW|]); lia). assert (0 <= z / W / W / W) by (repeat (apply Z.div_pos; [|exact HW]); lia).
  rewrite (Z.mod_small (z / W / W / W)) by lia. pose proof (Z.div_mod z W). pose proof (Z.div_mod (z / W) W). pose proof (Z.div_mod (z / W / W) W). lia.
Qed.
Lemma enc_ok a : represents (enc a) a.
Proof.
  unfold represents, enc. rewrite q_pos_eq. apply words_of_ok. pose proof (Z.mod_pos_bound (fval a * 2 ^ 256) q_modulus eq_refl) as B.
  assert (q_modulus < W * (W * (W * W))) by reflexivity. lia.
Qed.
Lemma dec_ok x a : represents x a -> dec x = a.
Proof. intros H. destruct (proj1 (repr_holds fq_params q_pos good_fq) x a H) as (_ & _ & V & _). unfold dec, FqZ. rewrite V. apply of_Z_fval. Qed.
Lemma zero_ok : represents lzero (f0 : Fq).
Proof. exact (f_zero _ _ _ limbs_follow). Qed.
Lemma b1_three : b1 = of_Z q_pos 3. Proof. reflexivity. Qed.
Lemma g1_aff g : exists x y : Fq, represents (g1_x (to_affine1 g)) x /\ represents (g1_y (to_affine1 g)) y /\ aff_point K (Aff x y) = pt1 g.
Proof.
  unfold to_affine1. pose proof (g1_on g) as O. destruct (pt1 g) as [|x y].
  - exists f0, f0. cbn [g1_identity g1_x g1_y]. split; [exact zero_ok|]. split; [exact zero_ok|reflexivity].
  - exists x, y. cbn [g1_x g1_y]. split; [apply enc_ok|]. split; [apply enc_ok|]. apply (aff_point_on K b1 HK). exact O.
Qed.
Theorem to_affine_valid g : exists x y, g1_point (to_affine1 g) x y.
Proof.
  destruct (g1_aff g) as (x & y & X & Y & E). exists x, y. split; [exact X|]. split; [exact Y|]. pose proof (g1_on g) as O. rewrite <- E in O. unfold aff_point in O. cbn [ax ay] in O.
  destruct (beqb K x (bzero K)) eqn:Ex; [destruct (beqb K y (bzero K)) eqn:Ey|]; cbn [andb on_curve] in O; [left|right; exact O..].
  apply feqb_eq in Ex, Ey. split; assumption.
Qed.
Lemma lift_point_ok P : oc P -> pt1 (lift_point P) = P.
Proof. intros H. unfold lift_point. destruct (bool_dec (on_curveb P) true) as [e|n]; [reflexivity|]. destruct n. apply on_curveb_iff. exact H. Qed.
Theorem of_affine_point a (x y : Fq) : g1_point a x y -> pt1 (of_affine1 a) = aff_point K (Aff x y).
Proof.
  intros (X & Y & H). unfold of_affine1. rewrite (dec_ok _ _ X), (dec_ok _ _ Y). apply lift_point_ok. apply (aff_on_curve_iff K b1 HK). unfold aff_on_curve, aff_is_identity, bis_zero. cbn [ax ay].
  apply orb_true_iff. destruct H as [[-> ->]|H]; [right; reflexivity|left]. cbn [fq_base bsquare bsub bmul beqb]. apply feqb_eq. rewrite H. change (of_Z q_pos 3) with b1. generalize b1. intros c. qring.
Qed.
Theorem of_to_affine g : of_affine1 (to_affine1 g) = g.
Proof.
  apply g1_eq. destruct (g1_aff g) as (x & y & X & Y & E). unfold of_affine1. rewrite (dec_ok _ _ X), (dec_ok _ _ Y), E. apply lift_point_ok. apply g1_on.
Qed.
(** the affine coordinates the code computes *)
Theorem limb_to_affine1 p g : stands p (pt1 g) -> jac_to_affine L p = Aff (g1_x (to_affine1 g)) (g1_y (to_affine1 g)).
Proof.
  intros H. pose proof (limb_to_affine p _ H (g1_on g)) as A. destruct (g1_aff g) as (x & y & X & Y & E).
  apply (proj2 (limb_aff_eq _ (Aff (g1_x (to_affine1 g)) (g1_y (to_affine1 g))) _ _ A (ex_intro _ x (ex_intro _ y (conj X (conj Y E)))))). reflexivity.
Qed.

(** ** A pairing from a bilinear map *)
Lemma gen_g1_all g : exists k : Fr, g = scale_g1 k gen_g1.
Proof.
  destruct (g1_cyclic (pt1 g) (g1_on g)) as [i E]. exists (FrZ (Z.of_nat i)). apply g1_eq. rewrite E. cbn [scale_g1 scale1_nat put1 pt1 gen_g1]. unfold FrZ.
  rewrite fval_of_Z, r_pos_eq, to_nat_mod by lia. rewrite Nat2Z.id. symmetry. apply times_mod. exact gen1_on.
Qed.
(** a map into a group of order dividing r, linear in both arguments, that does not
    vanish at the generators *)
Record bilinear {T : Type} (one : T) (mul : T -> T -> T) (scale2 : Fr -> g2 -> g2) (gen2 : g2) (e : g1_group -> g2 -> T) : Prop := {
  bl_mul_assoc : forall a c d, mul (mul a c) d = mul a (mul c d);
  bl_mul_comm : forall a c, mul a c = mul c a;
  bl_mul_one : forall a, mul one a = a;
  bl_inverse : forall a, exists c, mul c a = one;
  bl_left : forall a c q, e (add1 a c) q = mul (e a q) (e c q);
  bl_right : forall s a, e a (scale2 s gen2) = e (scale_g1 s a) gen2;
  bl_neg : forall a, mul (e a (g2_neg gen2)) (e a gen2) = one;
  bl_infinity : forall a q, g2_is_identity q = true -> e a q = one;
  bl_nonzero : e gen_g1 gen2 <> one
}.

Definition product_is_one {T : Type} (one : T) (mul : T -> T -> T) (teqb : T -> T -> bool) (e : g1_group -> g2 -> T) (ps : list (g1_group * g2)) : bool :=
  teqb (fold_right mul one (map (fun pq => e (fst pq) (snd pq)) ps)) one.

Section Bilinear.
Context {T : Type}.
Variables (one : T) (mul : T -> T -> T) (teqb : T -> T -> bool) (scale2 : Fr -> g2 -> g2) (gen2 : g2) (e : g1_group -> g2 -> T).
Hypothesis B : bilinear one mul scale2 gen2 e.
Hypothesis E : forall a c, teqb a c = true <-> a = c.
Local Notation M := g1_module.
Lemma cancel_mul a c d : mul a c = mul a d -> c = d.
Proof.
  intros H. destruct (bl_inverse _ _ _ _ _ B a) as [i I]. rewrite <- (bl_mul_one _ _ _ _ _ B c), <- (bl_mul_one _ _ _ _ _ B d), <- I, !(bl_mul_assoc _ _ _ _ _ B), H. reflexivity.
Qed.
Lemma mul_one_r a : mul a one = a.
Proof. rewrite (bl_mul_comm _ _ _ _ _ B). apply (bl_mul_one _ _ _ _ _ B). Qed.
Lemma e_zero q : e zero1 q = one.
Proof.
  apply (cancel_mul (e zero1 q)). rewrite <- (bl_left _ _ _ _ _ B), mul_one_r. f_equal. apply g1_eq. reflexivity.
Qed.
Lemma e_times n a q : e a q = one -> e (scale1_nat n a) q = one.
Proof.
  intros H. induction n as [|n IH].
  - replace (scale1_nat 0 a) with zero1 by (apply g1_eq; reflexivity). apply e_zero.
  - replace (scale1_nat (S n) a) with (add1 a (scale1_nat n a)) by (apply g1_eq; reflexivity). rewrite (bl_left _ _ _ _ _ B), H, IH. apply (bl_mul_one _ _ _ _ _ B).
Qed.
Lemma e_nonzero a : e a gen2 = one -> a = zero1.
Proof.
  intros H. destruct (gen_g1_all a) as [k Ek]. destruct (feqb k f0) eqn:F.
  - apply feqb_eq in F. subst k. rewrite Ek. apply (mod_zero_scale _ _ _ _ M).
  - apply feqb_neq in F. exfalso. apply (bl_nonzero _ _ _ _ _ B). replace gen_g1 with (scale_g1 (finv k) a); [apply e_times; exact H|].
    rewrite Ek, <- (mod_mul_scale _ _ _ _ M). replace (finv k * k)%F with (f1 : Fr) by (symmetry; apply (finv_l r_prime); exact F). apply (mod_one_scale _ _ _ _ M).
Qed.
Lemma e_equal a c : e a gen2 = e c gen2 <-> a = c.
Proof.
  split; [|intros ->; reflexivity]. intros H. assert (Z : sub1 a c = zero1).
  { apply e_nonzero. unfold sub1. rewrite (bl_left _ _ _ _ _ B), H, <- (bl_left _ _ _ _ _ B). rewrite <- (e_zero gen2). f_equal. apply g1_eq. apply (pplus_pneg K b1 HK). }
  apply (f_equal (fun z => add1 z c)) in Z. apply (f_equal pt1) in Z. cbn [sub1 add1 neg1 put1 pt1 zero1] in Z. rewrite pplus_zero_l in Z. apply g1_eq. rewrite <- Z.
  rewrite (pplus_assoc K b1 HK); try apply g1_on; [|apply (pneg_on_curve K b1 HK); apply g1_on]. rewrite (pplus_comm K b1 HK (pneg K (pt1 c))), (pplus_pneg K b1 HK); try apply g1_on; [|apply (pneg_on_curve K b1 HK); apply g1_on].
  symmetry. apply pplus_zero_r.
Qed.
Lemma skip_one ps : fold_right mul one (map (fun pq => e (fst pq) (snd pq)) (filter (fun pq : g1_group * g2 => negb (is_zero1 (fst pq)) && negb (g2_is_identity (snd pq))) ps)) =
  fold_right mul one (map (fun pq => e (fst pq) (snd pq)) ps).
Proof.
  induction ps as [|[a q] ps IH]; [reflexivity|]. cbn [filter map fold_right fst snd]. rewrite <- IH. destruct (is_zero1 a) eqn:Za; [|destruct (g2_is_identity q) eqn:Zq]; cbn [negb andb map fold_right fst snd].
  - replace a with zero1; [rewrite e_zero, (bl_mul_one _ _ _ _ _ B); reflexivity|]. apply g1_eq. unfold is_zero1 in Za. destruct (pt1 a); [reflexivity|discriminate Za].
  - rewrite (bl_infinity _ _ _ _ _ B _ _ Zq), (bl_mul_one _ _ _ _ _ B). reflexivity.
  - reflexivity.
Qed.
Theorem bilinear_pairing : is_pairing scale_g1 scale2 gen2 (pairing_check is_zero1 (product_is_one one mul teqb e)).
Proof.
  intros s l r. unfold pairing_check, product_is_one. rewrite skip_one, E. cbn [map fold_right fst snd]. rewrite mul_one_r, (bl_right _ _ _ _ _ B).
  rewrite <- (e_equal (scale_g1 s l) r). split; intros H.
  - apply (cancel_mul (e r (g2_neg gen2))). rewrite (bl_mul_comm _ _ _ _ _ B), H, (bl_neg _ _ _ _ _ B). reflexivity.
  - rewrite H, (bl_mul_comm _ _ _ _ _ B). apply (bl_neg _ _ _ _ _ B).
Qed.
End Bilinear.

(** ** Parameters from the set-up *)
Lemma map_res_length {A C} (f : A -> res C) l : forall r, map_res f l = Ok r -> length r = length l.
Proof.
  induction l as [|a l IH]; intros r; cbn [map_res]; [intros X; injection X as <-; reflexivity|]. destruct (f a) as [c|]; cbn [bind]; [|intros X; discriminate X].
  destruct (map_res f l) as [cs|]; cbn [bind]; [|intros X; discriminate X]. intros X. injection X as <-. cbn [length]. f_equal. apply IH. reflexivity.
Qed.
Theorem setup_params scale2 gen2 k t : 0 <= k -> ~ (28 < k \/ fpow t (2 ^ k) = f1) -> g2_coords gen2 -> g2_coords (scale2 t gen2) ->
  exists p, setup scale_g1 gen_g1 scale2 gen2 k t = Ok (srs_of of_affine1 p) /\ valid_params p /\ kz_k p = k.
Proof.
  intros Hk N H2 HS. destruct (setup scale_g1 gen_g1 scale2 gen2 k t) as [s|] eqn:Es; [|apply (setup_spec scale_g1 gen_g1 scale2 gen2 k t Hk) in Es; contradiction].
  exists (Kzg (sr_k s) (sr_n s) (map to_affine1 (sr_g s)) (map to_affine1 (sr_gl s)) (sr_g2 s) (sr_s_g2 s)).
  assert (W : s = srs_of of_affine1 (Kzg (sr_k s) (sr_n s) (map to_affine1 (sr_g s)) (map to_affine1 (sr_gl s)) (sr_g2 s) (sr_s_g2 s))).
  { destruct s as [a c g gl x y]. unfold srs_of. cbn [sr_k sr_n sr_g sr_gl sr_g2 sr_s_g2 kz_k kz_n kz_g kz_gl kz_g2 kz_sg2]. rewrite !map_map. f_equal; symmetry; (erewrite map_ext; [apply map_id|]); intros u; apply of_to_affine. }
  split; [f_equal; exact W|]. clear W. unfold setup in Es. match type of Es with context [if ?c then _ else _] => destruct c; [|discriminate Es] end. cbv zeta in Es. destruct (map_res _ _) as [gl|] eqn:Eg; cbn [bind] in Es; [|discriminate Es].
  injection Es as <-. cbn [sr_k sr_n sr_g sr_gl sr_g2 sr_s_g2]. apply map_res_length in Eg. rewrite seq_length in Eg. split; [|reflexivity].
  constructor; cbn [kz_k kz_n kz_g kz_gl kz_g2 kz_sg2].
  - reflexivity.
  - rewrite !map_length, seq_length. reflexivity.
  - rewrite map_length. exact Eg.
  - assert (C : forall g, g1_coords (to_affine1 g)).
    { intros g. destruct (g1_aff g) as (x & y & X & Y & _). destruct (arithmetic_holds fq_params q_pos good_fq) as (Q & _). split; apply Q; eauto. }
    intros a [I|I]; apply in_map_iff in I; destruct I as (g & <- & _); apply C.
  - exact H2.
  - exact HS.
Qed.
