(** The points of y^2 = x^3 + b are a commutative group.

    The slope of a chord or tangent is the only solution of two equations, which
    make no difference between chords and tangents.  With the middle point as
    origin, associativity is a small identity between slopes. *)
From Coq Require Import List Bool Field_theory Field ZArith Lia.
From Verif Require Import CurveModel CurveSpec.

Section Law.
Context {F : Type}.
Variables (K : base F) (b : F).
Hypothesis HK : is_base K b.
Local Notation "x + y" := (badd K x y).
Local Notation "x - y" := (bsub K x y).
Local Notation "x * y" := (bmul K x y).
Local Notation "x / y" := (bdiv K x y).
Local Notation "- x" := (bopp K x).
Local Notation O := (bzero K).
Local Notation I := (bone K).
Lemma Kfield : field_theory O I (badd K) (bmul K) (bsub K) (bopp K) (bdiv K) (binv K) eq.
Proof. exact (base_field K b HK). Qed.
Add Field Kf : Kfield.

Lemma beq_true x y : beqb K x y = true <-> x = y.
Proof. exact (base_eq K b HK x y). Qed.
Lemma beq_false x y : beqb K x y = false <-> x <> y.
Proof. destruct (beqb K x y) eqn:E; split; intros H; try discriminate H; auto. apply beq_true in E. contradiction. intros E'. apply beq_true in E'. congruence. Qed.
Lemma bdec (x y : F) : x = y \/ x <> y.
Proof. destruct (beqb K x y) eqn:E; [left; apply beq_true; exact E|right; apply beq_false; exact E]. Qed.
Lemma prod_zero x y : x * y = O -> x = O \/ y = O.
Proof.
  intros H. destruct (bdec x O) as [E|N]; [left; exact E|right].
  transitivity ((x * y) / x); [field; exact N|rewrite H; field; exact N].
Qed.
Lemma minus_zero x y : x - y = O -> x = y.
Proof. intros H. transitivity ((x - y) + y); [ring|rewrite H; ring]. Qed.
Lemma cancel x y z : x <> O -> x * y = x * z -> y = z.
Proof. intros N H. apply minus_zero. destruct (prod_zero x (y - z)) as [E|E]; [transitivity (x * y - x * z); [ring|rewrite H; ring]|contradiction|exact E]. Qed.
Lemma two_neq : I + I <> O. Proof. exact (base_two K b HK). Qed.
Lemma three_neq : I + I + I <> O. Proof. exact (base_three K b HK). Qed.

(** both equations of a slope *)
Definition line (x1 y1 x2 y2 l : F) : Prop := l * (x2 - x1) = y2 - y1 /\ l * (y1 + y2) = x1 * x1 + x1 * x2 + x2 * x2.
Definition apart (x1 y1 x2 y2 : F) : Prop := ~ (x1 = x2 /\ y1 + y2 = O).
Lemma line_slope x1 y1 x2 y2 : y1 * y1 = x1 * x1 * x1 + b -> y2 * y2 = x2 * x2 * x2 + b -> apart x1 y1 x2 y2 -> line x1 y1 x2 y2 (slope K x1 y1 x2 y2).
Proof.
  intros H1 H2 N. unfold slope. destruct (beqb K x1 x2) eqn:E.
  - apply beq_true in E. subst x2. assert (y1 = y2).
    { apply minus_zero. destruct (prod_zero (y1 - y2) (y1 + y2)) as [X|X]; [transitivity (y1 * y1 - y2 * y2); [ring|rewrite H1, H2; ring]|exact X|].
      exfalso. apply N. split; [reflexivity|exact X]. }
    subst y2. assert (y1 <> O). { intros E. apply N. split; [reflexivity|rewrite E; ring]. }
    unfold line, three, two. split; [field; split; [assumption|exact two_neq]|field; split; [assumption|exact two_neq]].
  - apply beq_false in E. assert (D : x2 - x1 <> O). { intros X. apply minus_zero in X. congruence. }
    split; [field; exact D|].
    transitivity ((y2 * y2 - y1 * y1) / (x2 - x1)); [field; exact D|]. rewrite H1, H2. field. exact D.
Qed.
Lemma line_unique x1 y1 x2 y2 l m : apart x1 y1 x2 y2 -> line x1 y1 x2 y2 l -> line x1 y1 x2 y2 m -> l = m.
Proof.
  intros N [L1 L2] [M1 M2]. destruct (bdec x1 x2) as [E|E].
  - apply (cancel (y1 + y2)); [intros X; apply N; split; assumption|].
    transitivity (l * (y1 + y2)); [ring|]. rewrite L2, <- M2. ring.
  - apply (cancel (x2 - x1)); [intros X; apply minus_zero in X; congruence|].
    transitivity (l * (x2 - x1)); [ring|]. rewrite L1, <- M1. ring.
Qed.
Lemma pplus_line x1 y1 x2 y2 l : y1 * y1 = x1 * x1 * x1 + b -> y2 * y2 = x2 * x2 * x2 + b -> apart x1 y1 x2 y2 -> line x1 y1 x2 y2 l ->
  pplus K (Point x1 y1) (Point x2 y2) = Point (l * l - x1 - x2) (l * (x1 - (l * l - x1 - x2)) - y1).
Proof.
  intros H1 H2 N L. unfold pplus. destruct (beqb K x1 x2 && beqb K (y1 + y2) O) eqn:E.
  - apply andb_true_iff in E. destruct E as [E1 E2]. apply beq_true in E1, E2. exfalso. apply N. split; assumption.
  - cbv zeta. rewrite (line_unique x1 y1 x2 y2 l (slope K x1 y1 x2 y2) N L (line_slope _ _ _ _ H1 H2 N)). reflexivity.
Qed.
Lemma pplus_not_apart x1 y1 x2 y2 : x1 = x2 -> y1 + y2 = O -> pplus K (Point x1 y1) (Point x2 y2) = Infinity.
Proof. intros E1 E2. unfold pplus. rewrite (proj2 (beq_true _ _) E1), (proj2 (beq_true _ _) E2). reflexivity. Qed.
Lemma apart_dec x1 y1 x2 y2 : apart x1 y1 x2 y2 \/ (x1 = x2 /\ y1 + y2 = O).
Proof. unfold apart. destruct (bdec x1 x2) as [E|E]; destruct (bdec (y1 + y2) O) as [E'|E']; tauto. Qed.
Lemma apart_sym x1 y1 x2 y2 : apart x1 y1 x2 y2 -> apart x2 y2 x1 y1.
Proof. unfold apart. intros N [E1 E2]. apply N. split; [congruence|rewrite <- E2; ring]. Qed.
Lemma line_sym x1 y1 x2 y2 l : line x1 y1 x2 y2 l -> line x2 y2 x1 y1 l.
Proof.
  intros [L1 L2]. split; [transitivity (- (l * (x2 - x1))); [ring|rewrite L1; ring]|].
  transitivity (l * (y1 + y2)); [ring|rewrite L2; ring].
Qed.

(** on the line the curve's equation splits *)
Lemma pplus_on_curve P Q : on_curve K b P -> on_curve K b Q -> on_curve K b (pplus K P Q).
Proof.
  destruct P as [|x1 y1], Q as [|x2 y2]; try (intros; assumption). intros H1 H2. cbn [on_curve] in H1, H2.
  destruct (apart_dec x1 y1 x2 y2) as [N|[E1 E2]]; [|rewrite (pplus_not_apart _ _ _ _ E1 E2); exact Logic.I].
  pose proof (line_slope _ _ _ _ H1 H2 N) as L. rewrite (pplus_line _ _ _ _ _ H1 H2 N L). destruct L as [L1 L2]. set (l := slope K x1 y1 x2 y2) in *. clearbody l.
  cbn [on_curve]. assert (B : b = y1 * y1 - x1 * x1 * x1) by (rewrite H1; ring). rewrite B.
  assert (E : y2 = y1 + l * (x2 - x1)) by (rewrite L1; ring). subst y2.
  assert (E : x1 * x1 + x1 * x2 + x2 * x2 - l * (y1 + (y1 + l * (x2 - x1))) = O) by (rewrite L2; ring).
  apply minus_zero. set (x3 := l * l - x1 - x2).
  transitivity ((x1 - x3) * (x1 * x1 + x1 * x2 + x2 * x2 - l * (y1 + (y1 + l * (x2 - x1))))); [unfold x3; ring|rewrite E; ring].
Qed.
Lemma pneg_on_curve P : on_curve K b P -> on_curve K b (pneg K P).
Proof. destruct P as [|x y]; [auto|]. cbn [on_curve pneg]. intros H. rewrite <- H. ring. Qed.
Lemma pplus_comm P Q : on_curve K b P -> on_curve K b Q -> pplus K P Q = pplus K Q P.
Proof.
  destruct P as [|x1 y1], Q as [|x2 y2]; try reflexivity. intros H1 H2. cbn [on_curve] in H1, H2.
  destruct (apart_dec x1 y1 x2 y2) as [N|[E1 E2]].
  - pose proof (line_slope _ _ _ _ H1 H2 N) as L.
    rewrite (pplus_line _ _ _ _ _ H1 H2 N L), (pplus_line _ _ _ _ _ H2 H1 (apart_sym _ _ _ _ N) (line_sym _ _ _ _ _ L)).
    destruct L as [L1 _]. set (l := slope K x1 y1 x2 y2) in *. clearbody l. assert (E : y2 = y1 + l * (x2 - x1)) by (rewrite L1; ring). subst y2. f_equal; ring.
  - rewrite (pplus_not_apart _ _ _ _ E1 E2), pplus_not_apart; [reflexivity|congruence|rewrite <- E2; ring].
Qed.
Lemma pplus_zero_l P : pplus K Infinity P = P. Proof. destruct P; reflexivity. Qed.
Lemma pplus_zero_r P : pplus K P Infinity = P. Proof. destruct P; reflexivity. Qed.
Lemma pplus_pneg P : pplus K P (pneg K P) = Infinity.
Proof. destruct P as [|x y]; [reflexivity|]. cbn [pneg]. apply pplus_not_apart; [reflexivity|ring]. Qed.
Lemma pneg_pneg P : pneg K (pneg K P) = P.
Proof. destruct P as [|x y]; [reflexivity|]. cbn [pneg]. f_equal. ring. Qed.

(** -Q + (Q + R) = R *)
Lemma minus_plus Q R : on_curve K b Q -> on_curve K b R -> pplus K (pneg K Q) (pplus K Q R) = R.
Proof.
  destruct Q as [|s t], R as [|x3 y3]; try reflexivity.
  - intros _ _. change (pplus K (Point s t) Infinity) with (Point s t). cbn [pneg]. apply pplus_not_apart; [reflexivity|ring].
  - intros H2 H3. cbn [on_curve] in H2, H3. destruct (apart_dec s t x3 y3) as [N|[E1 E2]].
    + pose proof (line_slope _ _ _ _ H2 H3 N) as L. pose proof (pplus_on_curve (Point s t) (Point x3 y3) H2 H3) as HB.
      rewrite (pplus_line _ _ _ _ _ H2 H3 N L) in *. destruct L as [L1 L2]. set (m := slope K s t x3 y3) in *. clearbody m.
      set (xb := m * m - s - x3) in *. set (yb := m * (s - xb) - t) in *. cbn [on_curve pneg] in HB |- *.
      assert (E : y3 = t + m * (x3 - s)) by (rewrite L1; ring).
      assert (C : s * s + s * x3 + x3 * x3 - m * (t + y3) = O) by (rewrite L2; ring).
      assert (LL : line s (- t) xb yb (- m)).
      { split; [unfold yb; ring|]. apply minus_zero. transitivity (O - (s * s + s * x3 + x3 * x3 - m * (t + y3))); [subst y3; unfold yb, xb; ring|rewrite C; ring]. }
      assert (HN : - t * - t = s * s * s + b) by (rewrite <- H2; ring).
      assert (A : apart s (- t) xb yb).
      { intros [X Y]. assert (T : t = O).
        { destruct (prod_zero (I + I) t) as [Z|Z]; [|destruct (two_neq Z)|exact Z].
          transitivity (O - (- t + yb)); [unfold yb; rewrite <- X; ring|rewrite Y; ring]. }
        assert (S : s * s = O).
        { destruct (prod_zero (I + I + I) (s * s)) as [Z|Z]; [|destruct (three_neq Z)|exact Z].
          destruct LL as [_ LL]. rewrite <- X in LL. transitivity (- m * (- t + yb)); [rewrite LL; ring|rewrite Y; ring]. }
        assert (S' : s = O) by (destruct (prod_zero s s S); assumption).
        apply (base_b K b HK). transitivity (t * t - s * s * s); [rewrite H2; ring|rewrite T, S'; ring]. }
      rewrite (pplus_line _ _ _ _ _ HN HB A LL). f_equal; [unfold xb; ring|rewrite E; unfold xb; ring].
    + rewrite (pplus_not_apart _ _ _ _ E1 E2). cbn [pneg pplus]. subst x3. f_equal. transitivity ((t + y3) - t); [rewrite E2; ring|ring].
Qed.

(** Associativity when P <> -Q and Q <> -R, with Q as the origin: P = (s+u, t+lu),
    R = (s+v, t+mv), -(P+Q) = (s+a, t+la), -(Q+R) = (s+c, t+mc). *)
Lemma assoc_apart x1 y1 s t x3 y3 : y1 * y1 = x1 * x1 * x1 + b -> t * t = s * s * s + b -> y3 * y3 = x3 * x3 * x3 + b -> apart s t x1 y1 -> apart s t x3 y3 ->
  pplus K (pplus K (Point x1 y1) (Point s t)) (Point x3 y3) = pplus K (Point x1 y1) (pplus K (Point s t) (Point x3 y3)).
Proof.
  intros H1 H2 H3 N1 N3. pose proof (line_slope _ _ _ _ H2 H1 N1) as L. pose proof (line_slope _ _ _ _ H2 H3 N3) as M.
  pose proof (pplus_on_curve (Point x1 y1) (Point s t) H1 H2) as HA. pose proof (pplus_on_curve (Point s t) (Point x3 y3) H2 H3) as HB.
  rewrite (pplus_line _ _ _ _ _ H1 H2 (apart_sym _ _ _ _ N1) (line_sym _ _ _ _ _ L)) in *. rewrite (pplus_line _ _ _ _ _ H2 H3 N3 M) in *.
  set (l := slope K s t x1 y1) in *. set (m := slope K s t x3 y3) in *. clearbody l m. destruct L as [L1 L2], M as [M1 M2].
  assert (X1 : exists u, x1 = s + u) by (exists (x1 - s); ring). destruct X1 as [u X1].
  assert (X3 : exists v, x3 = s + v) by (exists (x3 - s); ring). destruct X3 as [v X3].
  assert (Y1 : y1 = t + l * u) by (transitivity (t + l * (x1 - s)); [rewrite L1; ring|rewrite X1; ring]).
  assert (Y3 : y3 = t + m * v) by (transitivity (t + m * (x3 - s)); [rewrite M1; ring|rewrite X3; ring]).
  subst x1 y1 x3 y3. set (xa := l * l - (s + u) - s) in *. set (ya := l * (s + u - xa) - (t + l * u)) in *. set (xb := m * m - s - (s + v)) in *. set (yb := m * (s - xb) - t) in *.
  cbn [on_curve] in HA, HB.
  assert (XA : exists a, xa = s + a) by (exists (xa - s); ring). destruct XA as [a XA]. assert (XB : exists c, xb = s + c) by (exists (xb - s); ring). destruct XB as [c XB].
  assert (YA : ya = O - t - l * a) by (unfold ya; rewrite XA; ring). assert (YB : yb = O - t - m * c) by (unfold yb; rewrite XB; ring).
  assert (SA : a = l * l - (I + I + I) * s - u) by (transitivity (xa - s); [rewrite XA; ring|unfold xa; ring]).
  assert (SB : c = m * m - (I + I + I) * s - v) by (transitivity (xb - s); [rewrite XB; ring|unfold xb; ring]).
  clearbody xa ya xb yb. subst xa ya xb yb.
  assert (PA : u * a = (I + I + I) * (s * s) - (I + I) * t * l).
  { apply minus_zero. transitivity (l * (t + (t + l * u)) - (s * s + s * (s + u) + (s + u) * (s + u))); [rewrite SA; ring|rewrite L2; ring]. }
  assert (PB : v * c = (I + I + I) * (s * s) - (I + I) * t * m).
  { apply minus_zero. transitivity (m * (t + (t + m * v)) - (s * s + s * (s + v) + (s + v) * (s + v))); [rewrite SB; ring|rewrite M2; ring]. }
  destruct (bdec l m) as [E|D].
  - subst m. assert (Q : (u - v) * (u - c) = O).
    { transitivity (u * u - u * (v + c) + v * c); [ring|]. rewrite PB, <- PA, SA, SB. ring. }
    destruct (prod_zero _ _ Q) as [U|U]; apply minus_zero in U.
    + assert (AC : a = c) by (rewrite SA, SB, U; ring). subst v. rewrite <- AC. apply pplus_comm; [exact HA|exact H1].
    + assert (AV : a = v) by (rewrite SA; transitivity (l * l - (I + I + I) * s - c); [rewrite U; ring|rewrite SB; ring]). rewrite <- U, AV. rewrite !pplus_not_apart; [reflexivity| | | |]; try reflexivity; ring.
  - set (d := m - l). assert (Dn : d <> O) by (intros Z; apply minus_zero in Z; congruence).
    assert (TD : (I + I) * t * d = u * a - v * c) by (rewrite PA, PB; unfold d; ring).
    assert (CC : c = d * (l + m) + u + a - v).
    { rewrite SA, SB. unfold d. ring. }
    assert (SS : (I + I + I) * s = l * l - u - a) by (rewrite SA; ring).
    assert (S2 : (I + I + I) * (s * s) * d = m * u * a - l * v * c).
    { transitivity ((u * a + (I + I) * t * l) * d); [rewrite PA; ring|]. transitivity (u * a * d + l * ((I + I) * t * d)); [ring|]. rewrite TD. unfold d. ring. }
    assert (D2 : (I + I) * d <> O) by (intros Z; destruct (prod_zero _ _ Z) as [Z'|Z']; [exact (two_neq Z')|exact (Dn Z')]).
    assert (NA : apart (s + a) (O - t - l * a) (s + v) (t + m * v)).
    { intros [Z1 Z2]. assert (Z0 : a = v) by (transitivity ((s + a) - s); [ring|rewrite Z1; ring]). rewrite Z0 in Z2, TD.
      assert (V : v = O). { destruct (prod_zero d v) as [Z|Z]; [transitivity (O - t - l * v + (t + m * v)); [unfold d; ring|exact Z2]|contradiction|exact Z]. }
      apply N3. split; [rewrite V; ring|]. destruct (prod_zero d ((I + I) * t)) as [Z|Z]; [transitivity ((I + I) * t * d); [ring|rewrite TD, V; ring]|contradiction|].
      rewrite V. transitivity ((I + I) * t); [ring|exact Z]. }
    assert (NB : apart (s + u) (t + l * u) (s + c) (O - t - m * c)).
    { intros [Z1 Z2]. assert (Z0 : u = c) by (transitivity ((s + u) - s); [ring|rewrite Z1; ring]).
      assert (V : u = O). { destruct (prod_zero d u) as [Z|Z]; [transitivity (O - (t + l * u + (O - t - m * c))); [rewrite <- Z0; unfold d; ring|rewrite Z2; ring]|contradiction|exact Z]. }
      apply N1. split; [rewrite V; ring|]. destruct (prod_zero d ((I + I) * t)) as [Z|Z]; [transitivity ((I + I) * t * d); [ring|rewrite TD, <- Z0, V; ring]|contradiction|].
      rewrite V. transitivity ((I + I) * t); [ring|exact Z]. }
    set (al := (v + a - c - u + d * d) / ((I + I) * d)). set (be := (v + a - c - u - d * d) / ((I + I) * d)).
    assert (LA : line (s + a) (O - t - l * a) (s + v) (t + m * v) al).
    { split.
      - apply (cancel ((I + I) * d) _ _ D2). transitivity ((v + a - c - u + d * d) * (v - a)); [unfold al; field; split; [exact Dn|exact two_neq]|].
        transitivity ((I + I) * ((I + I) * t * d) + (I + I) * d * (m * v + l * a)); [|ring]. rewrite TD, CC. unfold d. ring.
      - apply (cancel ((I + I) * d) _ _ D2). transitivity ((v + a - c - u + d * d) * (m * v - l * a)); [unfold al; field; split; [exact Dn|exact two_neq]|].
        transitivity ((I + I) * ((I + I + I) * (s * s) * d + d * ((I + I + I) * s * (a + v)) + d * (a * a + a * v + v * v))); [|ring].
        rewrite S2, SS, CC. unfold d. ring. }
    assert (LB : line (s + u) (t + l * u) (s + c) (O - t - m * c) be).
    { split.
      - apply (cancel ((I + I) * d) _ _ D2). transitivity ((v + a - c - u - d * d) * (c - u)); [unfold be; field; split; [exact Dn|exact two_neq]|].
        transitivity (O - ((I + I) * ((I + I) * t * d) + (I + I) * d * (m * c + l * u))); [|ring]. rewrite TD, CC. unfold d. ring.
      - apply (cancel ((I + I) * d) _ _ D2). transitivity ((v + a - c - u - d * d) * (l * u - m * c)); [unfold be; field; split; [exact Dn|exact two_neq]|].
        transitivity ((I + I) * ((I + I + I) * (s * s) * d + d * ((I + I + I) * s * (u + c)) + d * (u * u + u * c + c * c))); [|ring].
        rewrite S2, SS, CC. unfold d. ring. }
    rewrite (pplus_line _ _ _ _ _ HA H3 NA LA), (pplus_line _ _ _ _ _ H1 HB NB LB).
    assert (AB : al = be + d) by (unfold al, be; field; split; [exact Dn|exact two_neq]).
    assert (BD : (I + I) * d * be = v + a - c - u - d * d) by (unfold be; field; split; [exact Dn|exact two_neq]).
    assert (EX : al * al - (s + a) - (s + v) = be * be - (s + u) - (s + c)).
    { rewrite AB. transitivity (be * be + (I + I) * d * be + d * d - (s + a) - (s + v)); [ring|]. rewrite BD. ring. }
    f_equal; [exact EX|]. rewrite EX, AB. clear EX. remember (be * be - (s + u) - (s + c)) as x eqn:Ex. apply minus_zero.
    assert (DX : (I + I) * d * x = be * (v + a - c - u - d * d) - (I + I) * d * ((I + I) * s + u + c)) by (rewrite <- BD, Ex; ring).
    apply (cancel ((I + I) * d) _ _ D2). apply (cancel (I + I) _ _ two_neq).
    transitivity ((I + I) * d * ((I + I) * be * (a - u) + (I + I) * d * (s + a) - (I + I) * d * x + (I + I) * (I + I) * t + (I + I) * l * (a + u))); [ring|].
    rewrite DX.
    transitivity (((I + I) * d * be) * (a - u - v + c + d * d) + (I + I) * (I + I) * d * d * ((I + I + I) * s + a + u + c) + (I + I) * (I + I) * ((I + I) * t * d) + (I + I) * (I + I) * d * l * (a + u)); [ring|].
    rewrite BD, TD, SS, CC. unfold d. ring.
Qed.

Theorem pplus_assoc P Q R : on_curve K b P -> on_curve K b Q -> on_curve K b R -> pplus K (pplus K P Q) R = pplus K P (pplus K Q R).
Proof.
  intros HP HQ HR. destruct P as [|x1 y1]; [rewrite !pplus_zero_l; reflexivity|]. destruct Q as [|s t]; [rewrite pplus_zero_l, pplus_zero_r; reflexivity|].
  destruct R as [|x3 y3]; [rewrite !pplus_zero_r; reflexivity|]. cbn [on_curve] in HP, HQ, HR.
  destruct (apart_dec s t x1 y1) as [N1|[E1 E2]].
  - destruct (apart_dec s t x3 y3) as [N3|[E1 E2]]; [apply assoc_apart; assumption|].
    assert (E : Point x3 y3 = pneg K (Point s t)). { cbn [pneg]. f_equal; [congruence|]. transitivity ((t + y3) - t); [ring|rewrite E2; ring]. }
    rewrite E, pplus_pneg, pplus_zero_r.
    rewrite (pplus_comm _ (pneg K (Point s t))), (pplus_comm (Point x1 y1) (Point s t)), minus_plus; try assumption; try reflexivity.
    + apply pplus_on_curve; assumption.
    + apply (pneg_on_curve (Point s t)). exact HQ.
  - assert (E : Point x1 y1 = pneg K (Point s t)). { cbn [pneg]. f_equal; [congruence|]. transitivity ((t + y1) - t); [ring|rewrite E2; ring]. }
    rewrite E, minus_plus, (pplus_comm (pneg K (Point s t))), pplus_pneg, pplus_zero_l; try assumption; [reflexivity|].
    apply (pneg_on_curve (Point s t)). exact HQ.
Qed.
End Law.
