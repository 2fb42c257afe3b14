(** The code of the curve macro computes the law of CurveSpec. *)
From Coq Require Import List Bool Field_theory Field ZArith Lia.
From Verif Require Import Base CurveModel CurveSpec CurveLaw.
Import ListNotations.

Section Facts.
Context {F : Type}.
Variables (K : base F) (b : F).
Hypothesis HK : is_base K b.
Local Notation "x + y" := (badd K x y).
Local Notation "x - y" := (bsub K x y).
Local Notation "x * y" := (bmul K x y).
Local Notation "x / y" := (bdiv K x y).
Local Notation "- x" := (bopp K x).
Local Notation O := (bzero K).
Local Notation I := (bone K).
Let Kf' := Kfield K b HK.
Add Field Kf : Kf'.
Local Notation sq := (base_square K b HK).
Local Notation btrue := (beq_true K b HK).
Local Notation bfalse := (beq_false K b HK).
Local Notation dec := (bdec K b HK).
Local Notation two_neq := (CurveLaw.two_neq K b HK).
Local Notation prod_zero := (CurveLaw.prod_zero K b HK).
Local Notation minus_zero := (CurveLaw.minus_zero K b HK).
Local Notation cancel := (CurveLaw.cancel K b HK).

Lemma nonzero_mul x y : x <> O -> y <> O -> x * y <> O.
Proof. intros X Y E. destruct (prod_zero _ _ E); contradiction. Qed.
Lemma one_neq : I <> O. Proof. exact (F_1_neq_0 Kf'). Qed.

(** [p] stands for (x, y) *)
Lemma jac_infinity p : jz p = O -> jac_point K p = Infinity.
Proof. intros E. unfold jac_point. rewrite (proj2 (btrue _ _) E). reflexivity. Qed.
Lemma jac_finite p : jz p <> O -> jac_point K p = Point (jx p / (jz p * jz p)) (jy p / (jz p * jz p * jz p)).
Proof. intros N. unfold jac_point. rewrite (proj2 (bfalse _ _) N). reflexivity. Qed.
Lemma jac_is p x y : jz p <> O -> jx p = x * (jz p * jz p) -> jy p = y * (jz p * jz p * jz p) -> jac_point K p = Point x y.
Proof. intros N X Y. rewrite (jac_finite p N), X, Y. f_equal; field; exact N. Qed.
Lemma jac_cases p : (jz p = O /\ jac_point K p = Infinity) \/
  (jz p <> O /\ exists x y, jac_point K p = Point x y /\ p = Jac (x * (jz p * jz p)) (y * (jz p * jz p * jz p)) (jz p)).
Proof.
  destruct (dec (jz p) O) as [E|N]; [left; split; [exact E|apply jac_infinity; exact E]|right; split; [exact N|]].
  exists (jx p / (jz p * jz p)), (jy p / (jz p * jz p * jz p)). split; [apply jac_finite; exact N|]. destruct p as [x y z]. cbn [jx jy jz] in *. f_equal; field; exact N.
Qed.
Lemma aff_cases p : (p = aff_identity K /\ aff_point K p = Infinity) \/ (aff_is_identity K p = false /\ aff_point K p = Point (ax p) (ay p)).
Proof.
  unfold aff_point, aff_is_identity, bis_zero. destruct (beqb K (ax p) O && beqb K (ay p) O) eqn:E; [left; split; [|reflexivity]|right; split; reflexivity].
  apply andb_true_iff in E. destruct E as [E1 E2]. apply btrue in E1, E2. destruct p as [x y]. cbn [ax ay] in *. rewrite E1, E2. reflexivity.
Qed.
Lemma aff_id_true : aff_is_identity K (aff_identity K) = true.
Proof. unfold aff_is_identity, aff_identity, bis_zero. cbn [ax ay]. rewrite (proj2 (btrue O O) eq_refl). reflexivity. Qed.
Lemma jac_id_true p : jz p = O -> jac_is_identity K p = true.
Proof. intros E. apply (btrue _ _). exact E. Qed.
Lemma jac_id_false p : jz p <> O -> jac_is_identity K p = false.
Proof. intros E. apply (bfalse _ _). exact E. Qed.

Theorem identity_point : jac_point K (jac_identity K) = Infinity.
Proof. apply jac_infinity. reflexivity. Qed.
Theorem to_curve_point p : jac_point K (aff_to_curve K p) = aff_point K p.
Proof.
  destruct (aff_cases p) as [[E1 E2]|[E1 E2]]; rewrite E2; unfold aff_to_curve.
  - rewrite E1, aff_id_true. apply jac_infinity. reflexivity.
  - rewrite E1. apply jac_is; cbn [jx jy jz]; [exact one_neq|ring|ring].
Qed.
(** curve equations *)
Theorem jac_on_curve_iff p : jac_on_curve K b p = true <-> on_curve K b (jac_point K p).
Proof.
  unfold jac_on_curve, bis_zero. rewrite !sq, orb_true_iff, !btrue. destruct (jac_cases p) as [[Z E]|[N (x & y & E & P)]]; rewrite E; cbn [on_curve].
  - split; auto.
  - rewrite P. cbn [jx jy jz]. set (z := jz p) in *. split.
    + intros [H|H]; [|contradiction]. apply (cancel (z * z * z * z * z * z)); [repeat apply nonzero_mul; exact N|].
      transitivity (y * (z * z * z) * (y * (z * z * z)) - x * (z * z) * (x * (z * z)) * (x * (z * z)) + z * z * z * z * z * z * (x * x * x)); [ring|rewrite H; ring].
    + intros H. left. transitivity (z * z * z * z * z * z * (y * y - x * x * x)); [ring|]. rewrite H. ring.
Qed.
Theorem aff_on_curve_iff p : aff_on_curve K b p = true <-> on_curve K b (aff_point K p).
Proof.
  unfold aff_on_curve. rewrite !sq, orb_true_iff, !btrue. destruct (aff_cases p) as [[Z E]|[N E]]; rewrite E; cbn [on_curve].
  - rewrite Z, aff_id_true. split; auto.
  - rewrite N. split; [intros [H|H]; [|discriminate H]|intros H; left]; [transitivity (ay p * ay p - ax p * ax p * ax p + ax p * ax p * ax p); [ring|rewrite H; ring]|rewrite H; ring].
Qed.
(** an affine point on the curve is given by its coordinates *)
Lemma aff_point_on x y : on_curve K b (Point x y) -> aff_point K (Aff x y) = Point x y.
Proof.
  intros H. unfold aff_point. cbn [ax ay]. destruct (beqb K x O && beqb K y O) eqn:E; [|reflexivity].
  apply andb_true_iff in E. destruct E as [E1 E2]. apply btrue in E1, E2. cbn [on_curve] in H. destruct (base_b K b HK). subst x y. transitivity (O * O - O * O * O); [rewrite H; ring|ring].
Qed.
Theorem aff_point_inj p q : aff_point K p = aff_point K q -> p = q.
Proof.
  destruct (aff_cases p) as [[E1 E2]|[E1 E2]], (aff_cases q) as [[G1 G2]|[G1 G2]]; rewrite E2, G2; intros H; try discriminate H; [congruence|].
  destruct p as [x1 y1], q as [x2 y2]. cbn [ax ay] in H. injection H as -> ->. reflexivity.
Qed.
Theorem jac_eq_iff p q : jac_eq K p q = true <-> jac_point K p = jac_point K q.
Proof.
  unfold jac_eq. rewrite !sq, orb_true_iff, !andb_true_iff, !negb_true_iff, !btrue.
  destruct (jac_cases p) as [[Z E]|[N (x & y & E & P)]], (jac_cases q) as [[Z' E']|[N' (x' & y' & E' & P')]]; rewrite E, E'.
  - rewrite (jac_id_true p Z), (jac_id_true q Z'). split; auto.
  - rewrite (jac_id_true p Z), (jac_id_false q N'). split; [intros [[_ H]|[[[H _] _] _]]; discriminate H|intros H; discriminate H].
  - rewrite (jac_id_false p N), (jac_id_true q Z'). split; [intros [[H _]|[[[_ H] _] _]]; discriminate H|intros H; discriminate H].
  - rewrite (jac_id_false p N), (jac_id_false q N'). rewrite P, P'. cbn [jx jy jz]. set (z := jz p) in *. set (z' := jz q) in *. split.
    + intros [[H _]|[[_ H1] H2]]; [discriminate H|]. f_equal.
      * apply (cancel (z * z * (z' * z'))); [repeat apply nonzero_mul; assumption|]. transitivity (x * (z * z) * (z' * z')); [ring|rewrite H1; ring].
      * apply (cancel (z * z * z * (z' * z' * z'))); [repeat apply nonzero_mul; assumption|]. transitivity (y * (z * z * z) * (z' * z' * z')); [ring|rewrite H2; ring].
    + intros H. injection H as -> ->. right. repeat split; ring.
Qed.
Theorem aff_eq_iff p q : aff_eq K p q = true <-> p = q.
Proof.
  split.
  - unfold aff_eq. rewrite orb_true_iff, !andb_true_iff, !negb_true_iff, !btrue. intros [[H1 H2]|[[[_ _] H1] H2]]; [|destruct p as [x1 y1], q as [x2 y2]; cbn [ax ay] in *; congruence].
    apply aff_point_inj. unfold aff_point. unfold aff_is_identity, bis_zero in H1, H2. rewrite H1, H2. reflexivity.
  - intros <-. unfold aff_eq. destruct (aff_is_identity K p); [reflexivity|]. rewrite !(proj2 (btrue _ _) eq_refl). reflexivity.
Qed.

(** to_affine *)
Lemma inv_cases x : (x = O /\ binvert K x = None) \/ (x <> O /\ exists y, binvert K x = Some y /\ y * x = I /\ y <> O).
Proof.
  destruct (dec x O) as [E|N]; [left; split; [exact E|apply (base_invert K b HK); exact E]|right; split; [exact N|]].
  destruct (binvert K x) as [y|] eqn:E; [|apply (base_invert K b HK) in E; contradiction]. exists y. split; [reflexivity|].
  pose proof (Finv_l Kf' x N) as H. unfold binv in H. rewrite E in H. split; [exact H|]. intros Y. apply one_neq. rewrite <- H, Y. ring.
Qed.
Theorem to_affine_point p : on_curve K b (jac_point K p) -> aff_point K (jac_to_affine K p) = jac_point K p.
Proof.
  intros H. unfold jac_to_affine. destruct (inv_cases (jz p)) as [[Z E]|[N (y & E & Y & Yn)]]; rewrite E.
  - unfold bis_zero. rewrite (proj2 (btrue O O) eq_refl), (jac_infinity p Z). unfold aff_point, aff_identity. cbn [ax ay]. rewrite (proj2 (btrue O O) eq_refl). reflexivity.
  - unfold bis_zero. rewrite (proj2 (bfalse y O) Yn), !sq.
    assert (P : jac_point K p = Point (jx p * (y * y)) (jy p * (y * y * y))).
    { apply jac_is; [exact N| |].
      - transitivity (jx p * ((y * jz p) * (y * jz p))); [rewrite Y; ring|ring].
      - transitivity (jy p * ((y * jz p) * (y * jz p) * (y * jz p))); [rewrite Y; ring|ring]. }
    rewrite P in *. apply aff_point_on. exact H.
Qed.

(** negation *)
Theorem neg_point p : jac_point K (jac_neg K p) = pneg K (jac_point K p).
Proof.
  destruct (jac_cases p) as [[Z E]|[N (x & y & E & P)]]; rewrite E.
  - apply jac_infinity. exact Z.
  - rewrite P. apply jac_is; cbn [jac_neg jx jy jz]; [exact N|reflexivity|ring].
Qed.
Theorem aff_neg_point p : aff_point K (aff_neg K p) = pneg K (aff_point K p).
Proof.
  unfold aff_point, aff_neg. cbn [ax ay]. replace (beqb K (- ay p) O) with (beqb K (ay p) O); [destruct (beqb K (ax p) O && beqb K (ay p) O); reflexivity|].
  destruct (beqb K (ay p) O) eqn:E; symmetry; [apply btrue in E; apply btrue; rewrite E; ring|apply bfalse in E; apply bfalse; intros X; apply E; transitivity (- - ay p); [ring|rewrite X; ring]].
Qed.

(** doubling *)
Theorem double_point p : on_curve K b (jac_point K p) -> jac_point K (jac_double K p) = pplus K (jac_point K p) (jac_point K p).
Proof.
  intros H. unfold jac_double. destruct (jac_cases p) as [[Z E]|[N (x & y & E & P)]]; rewrite E in *.
  - rewrite (jac_id_true p Z). apply identity_point.
  - rewrite (jac_id_false p N), !sq. rewrite P. cbn [jx jy jz]. set (z := jz p) in *. clearbody z. clear P E p. cbn [on_curve] in H.
    destruct (dec y O) as [Y|Y].
    + rewrite jac_infinity by (cbn [jz]; rewrite Y; ring). symmetry. apply (pplus_not_apart K b HK); [reflexivity|rewrite Y; ring].
    + assert (A : apart K x y x y).
      { intros [_ A]. destruct (prod_zero (I + I) y) as [X|X]; [transitivity (y + y); [ring|exact A]|exact (two_neq X)|exact (Y X)]. }
      assert (L : line K x y x y ((I + I + I) * (x * x) / ((I + I) * y))). { split; field; split; try exact Y; exact two_neq. }
      rewrite (pplus_line K b HK _ _ _ _ _ H H A L). apply jac_is; cbn [jx jy jz].
      * intros X. assert (X' : (I + I) * (z * (z * z * z) * y) = O) by (rewrite <- X; ring). destruct (prod_zero _ _ X') as [Q|Q]; [exact (two_neq Q)|revert Q; repeat apply nonzero_mul; assumption].
      * field. split; [exact Y|exact two_neq].
      * field. split; [exact Y|exact two_neq].
Qed.

(** addition *)
Theorem add_point p q : on_curve K b (jac_point K p) -> on_curve K b (jac_point K q) -> jac_point K (jac_add K p q) = pplus K (jac_point K p) (jac_point K q).
Proof.
  intros HP HQ. unfold jac_add. destruct (jac_cases p) as [[Z E]|[N (x & y & E & P)]].
  { rewrite (jac_id_true p Z), E, pplus_zero_l. reflexivity. }
  rewrite (jac_id_false p N). destruct (jac_cases q) as [[Z' E']|[N' (x' & y' & E' & P')]].
  { rewrite (jac_id_true q Z'), E', pplus_zero_r. reflexivity. }
  rewrite (jac_id_false q N'), !sq. pose proof (double_point p HP) as HD. rewrite E, E' in *. set (dp := jac_double K p) in *. clearbody dp.
  rewrite P, P'. cbn [jx jy jz]. set (z := jz p) in *. set (w := jz q) in *. clearbody z w. clear P P' E E' p q. cbn [on_curve] in HP, HQ.
  destruct (beqb K (x * (z * z) * (w * w)) (x' * (w * w) * (z * z))) eqn:EX.
  - apply btrue in EX. assert (X : x = x').
    { apply (cancel (z * z * (w * w))); [repeat apply nonzero_mul; assumption|]. transitivity (x * (z * z) * (w * w)); [ring|rewrite EX; ring]. }
    subst x'. destruct (beqb K (y * (z * z * z) * (w * w) * w) (y' * (w * w * w) * (z * z) * z)) eqn:EY.
    + apply btrue in EY. assert (Y : y = y').
      { apply (cancel (z * z * z * (w * w * w))); [repeat apply nonzero_mul; assumption|]. transitivity (y * (z * z * z) * (w * w) * w); [ring|rewrite EY; ring]. }
      subst y'. exact HD.
    + apply bfalse in EY. rewrite identity_point. symmetry. apply (pplus_not_apart K b HK); [reflexivity|].
      destruct (prod_zero (y - y') (y + y')) as [X|X]; [transitivity (y * y - y' * y'); [ring|rewrite HP, HQ; ring]| |exact X].
      apply minus_zero in X. subst y'. destruct EY. ring.
  - apply bfalse in EX. assert (D : x' - x <> O).
    { intros X. apply minus_zero in X. subst x'. apply EX. ring. }
    assert (A : apart K x y x' y'). { intros [A _]. apply D. rewrite A. ring. }
    assert (L : line K x y x' y' ((y' - y) / (x' - x))).
    { pose proof (line_slope K b HK _ _ _ _ HP HQ A) as L. unfold slope in L. rewrite (proj2 (bfalse x x')) in L; [exact L|intros X; apply D; rewrite X; ring]. }
    rewrite (pplus_line K b HK _ _ _ _ _ HP HQ A L). apply jac_is; cbn [jx jy jz].
    + intros X. assert (X' : (I + I) * (z * w * (z * z) * (w * w) * (x' - x)) = O) by (rewrite <- X; ring).
      destruct (prod_zero _ _ X') as [Q|Q]; [exact (two_neq Q)|revert Q; repeat apply nonzero_mul; assumption].
    + field. exact D.
    + field. exact D.
Qed.
Theorem add_mixed_point p q : on_curve K b (jac_point K p) -> on_curve K b (aff_point K q) -> jac_point K (jac_add_mixed K p q) = pplus K (jac_point K p) (aff_point K q).
Proof.
  intros HP HQ. unfold jac_add_mixed. destruct (jac_cases p) as [[Z E]|[N (x & y & E & P)]].
  { rewrite (jac_id_true p Z), E, pplus_zero_l. apply to_curve_point. }
  rewrite (jac_id_false p N). destruct (aff_cases q) as [[Z' E']|[N' E']].
  { rewrite Z', aff_id_true, <- Z', E', pplus_zero_r. reflexivity. }
  rewrite N', !sq. pose proof (double_point p HP) as HD. rewrite E, E' in *. set (dp := jac_double K p) in *. clearbody dp.
  rewrite P. cbn [jx jy jz]. set (z := jz p) in *. set (x' := ax q) in *. set (y' := ay q) in *. clearbody z x' y'. clear P E E' N' p q. cbn [on_curve] in HP, HQ.
  destruct (beqb K (x * (z * z)) (x' * (z * z))) eqn:EX.
  - apply btrue in EX. assert (X : x = x').
    { apply (cancel (z * z)); [repeat apply nonzero_mul; assumption|]. transitivity (x * (z * z)); [ring|rewrite EX; ring]. }
    subst x'. destruct (beqb K (y * (z * z * z)) (y' * (z * z) * z)) eqn:EY.
    + apply btrue in EY. assert (Y : y = y').
      { apply (cancel (z * z * z)); [repeat apply nonzero_mul; assumption|]. transitivity (y * (z * z * z)); [ring|rewrite EY; ring]. }
      subst y'. exact HD.
    + apply bfalse in EY. rewrite identity_point. symmetry. apply (pplus_not_apart K b HK); [reflexivity|].
      destruct (prod_zero (y - y') (y + y')) as [X|X]; [transitivity (y * y - y' * y'); [ring|rewrite HP, HQ; ring]| |exact X].
      apply minus_zero in X. subst y'. destruct EY. ring.
  - apply bfalse in EX. assert (D : x' - x <> O).
    { intros X. apply minus_zero in X. subst x'. apply EX. ring. }
    assert (A : apart K x y x' y'). { intros [A _]. apply D. rewrite A. ring. }
    assert (L : line K x y x' y' ((y' - y) / (x' - x))).
    { pose proof (line_slope K b HK _ _ _ _ HP HQ A) as L. unfold slope in L. rewrite (proj2 (bfalse x x')) in L; [exact L|intros X; apply D; rewrite X; ring]. }
    rewrite (pplus_line K b HK _ _ _ _ _ HP HQ A L). apply jac_is; cbn [jx jy jz].
    + intros X. assert (X' : (I + I) * (z * (z * z) * (x' - x)) = O) by (rewrite <- X; ring).
      destruct (prod_zero _ _ X') as [Q|Q]; [exact (two_neq Q)|revert Q; repeat apply nonzero_mul; assumption].
    + field. exact D.
    + field. exact D.
Qed.
Theorem aff_add_point p q : on_curve K b (aff_point K p) -> on_curve K b (aff_point K q) -> jac_point K (aff_add K p q) = pplus K (aff_point K p) (aff_point K q).
Proof.
  intros HP HQ. unfold aff_add. destruct (aff_cases p) as [[Z E]|[N E]].
  { rewrite Z at 1. rewrite aff_id_true, E, pplus_zero_l. apply to_curve_point. }
  rewrite N. destruct (aff_cases q) as [[Z' E']|[N' E']].
  { rewrite Z' at 1. rewrite aff_id_true, E', pplus_zero_r. apply to_curve_point. }
  rewrite N', !sq. assert (HD : jac_point K (jac_double K (aff_to_curve K p)) = pplus K (aff_point K p) (aff_point K p)).
  { rewrite double_point, to_curve_point; [reflexivity|rewrite to_curve_point; exact HP]. }
  rewrite E, E' in *. set (dp := jac_double K (aff_to_curve K p)) in *. clearbody dp.
  set (x := ax p) in *. set (y := ay p) in *. set (x' := ax q) in *. set (y' := ay q) in *. clearbody x y x' y'. clear E E' N N' p q. cbn [on_curve] in HP, HQ.
  destruct (beqb K x x') eqn:EX.
  - apply btrue in EX. subst x'. destruct (beqb K y y') eqn:EY.
    + apply btrue in EY. subst y'. exact HD.
    + apply bfalse in EY. rewrite identity_point. symmetry. apply (pplus_not_apart K b HK); [reflexivity|].
      destruct (prod_zero (y - y') (y + y')) as [X|X]; [transitivity (y * y - y' * y'); [ring|rewrite HP, HQ; ring]| |exact X].
      apply minus_zero in X. contradiction.
  - apply bfalse in EX. assert (D : x' - x <> O) by (intros X; apply minus_zero in X; congruence).
    assert (A : apart K x y x' y') by (intros [A _]; contradiction).
    assert (L : line K x y x' y' ((y' - y) / (x' - x))).
    { pose proof (line_slope K b HK _ _ _ _ HP HQ A) as L. unfold slope in L. rewrite (proj2 (bfalse x x') EX) in L. exact L. }
    rewrite (pplus_line K b HK _ _ _ _ _ HP HQ A L). apply jac_is; cbn [jx jy jz].
    + intros X. assert (X' : (I + I) * (x' - x) = O) by (rewrite <- X; ring).
      destruct (prod_zero _ _ X') as [Q|Q]; [exact (two_neq Q)|contradiction].
    + field. exact D.
    + field. exact D.
Qed.
End Facts.
