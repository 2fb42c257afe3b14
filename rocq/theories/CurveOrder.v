(** A curve over a finite field whose points are the multiples of one point of prime
    order, because there is no room for three cosets. *)
From Coq Require Import List Bool Field_theory Field ZArith Znumtheory Lia FinFun.
From Verif Require Import Base CurveModel CurveSpec CurveLaw CurveFacts CurveTimes.
Import ListNotations.
Local Open Scope nat_scope.

Section Order.
Context {F : Type}.
Variables (K : base F) (b : F).
Hypothesis HK : is_base K b.
Local Notation oc := (on_curve K b).
Local Notation "P +! Q" := (pplus K P Q) (at level 50, left associativity).
Variables (G : point F) (r : nat) (U : list F) (w : F).
Hypothesis HG : oc G.
Hypothesis HGn : G <> Infinity.
Hypothesis Hr : ptimes K r G = Infinity.
Hypothesis Hp : prime (Z.of_nat r).
Hypothesis Hodd : (2 < Z.of_nat r)%Z.
Hypothesis HU : forall x, In x U.
Hypothesis Hroom : 2 * length U + 1 < 3 * r.
(** another cube root of one *)
Hypothesis Hw : bmul K (bmul K w w) w = bone K.
Hypothesis Hw1 : w <> bone K.
Let Kf' := Kfield K b HK.
Add Field Kf : Kf'.
Local Notation mul i := (ptimes K i G).

Lemma mul_on i : oc (mul i). Proof. apply (times_on K b HK). exact HG. Qed.
Lemma mul_multiple i : mul (i * r) = Infinity.
Proof. rewrite (times_mul K b HK) by exact HG. rewrite Hr. apply times_infinity. Qed.
Lemma mul_mod i : mul i = mul (i mod r).
Proof.
  assert (N : r <> 0) by lia. rewrite (Nat.div_mod i r N) at 1. rewrite (times_add K b HK) by exact HG. rewrite Nat.mul_comm, mul_multiple. apply pplus_zero_l.
Qed.
Lemma mul_neg i : exists j, mul j = pneg K (mul i).
Proof.
  exists (i * r - i). transitivity (pneg K (mul i) +! (mul i +! mul (i * r - i))).
  - symmetry. apply (minus_plus K b HK); apply mul_on.
  - rewrite <- (times_add K b HK) by exact HG. replace (i + (i * r - i)) with (i * r); [rewrite mul_multiple; apply pplus_zero_r|].
    assert (i <= i * r) by (rewrite <- (Nat.mul_1_r i) at 1; apply Nat.mul_le_mono_l; lia). lia.
Qed.
Lemma mul_zero i : mul i = Infinity -> Nat.divide r i.
Proof.
  intros E. destruct (Zdivide_dec (Z.of_nat r) (Z.of_nat i)) as [D|D].
  - destruct D as [c D]. exists (Z.to_nat c). nia.
  - exfalso. pose proof (rel_prime_sym _ _ (prime_rel_prime _ Hp _ D)) as R. apply HGn.
    destruct (rel_prime_bezout _ _ R) as [u v B].
    (* u i + v r = 1; raise u, lower v *)
    assert (X : exists m n, m * i = 1 + n * r).
    { exists (Z.to_nat (u + Z.of_nat r * (Z.abs u + Z.abs v))%Z), (Z.to_nat (- v + Z.of_nat i * (Z.abs u + Z.abs v))%Z).
      assert (i <> 0) by (intros ->; apply D; apply Z.divide_0_r). apply Nat2Z.inj. rewrite Nat2Z.inj_add, !Nat2Z.inj_mul, !Z2Nat.id by nia. nia. }
    destruct X as (m & n & X). rewrite <- (times_one K G). transitivity (mul (1 + n * r)).
    + rewrite (times_add K b HK) by exact HG. rewrite mul_multiple, pplus_zero_r. reflexivity.
    + rewrite <- X, (times_mul K b HK), E by exact HG. apply times_infinity.
Qed.
Lemma mul_inj i j : i < r -> j < r -> mul i = mul j -> i = j.
Proof.
  assert (W : forall i j, i <= j -> j < r -> mul i = mul j -> i = j).
  { clear i j. intros i j L J E. assert (D : mul (j - i) = Infinity).
    { transitivity (pneg K (mul i) +! (mul i +! mul (j - i))); [symmetry; apply (minus_plus K b HK); apply mul_on|].
      rewrite <- (times_add K b HK) by exact HG. replace (i + (j - i)) with j by lia. rewrite <- E, (pplus_comm K b HK) by auto using mul_on, (pneg_on_curve K b HK). apply (pplus_pneg K b HK). }
    apply mul_zero in D. destruct D as [c D]. destruct c; [lia|nia]. }
  intros I J E. destruct (Nat.le_ge_cases i j) as [L|L]; [apply W; assumption|symmetry; apply W; [assumption..|symmetry; exact E]].
Qed.
Definition point_dec (P Q : point F) : P = Q \/ P <> Q.
Proof.
  destruct P as [|x y], Q as [|x' y']; [left; reflexivity|right; intros X; discriminate X|right; intros X; discriminate X|].
  destruct (bdec K b HK x x') as [E|E]; [|right; intros X; injection X; contradiction]. destruct (bdec K b HK y y') as [E'|E']; [left; congruence|right; intros X; injection X; contradiction].
Qed.
Definition multiple P : Prop := exists i, P = mul i.
Lemma multiple_dec P : multiple P \/ ~ multiple P.
Proof.
  assert (W : forall n, (exists i, i < n /\ P = mul i) \/ ~ (exists i, i < n /\ P = mul i)).
  { induction n as [|n IH]; [right; intros (i & I & _); lia|]. destruct IH as [(i & I & E)|N]; [left; exists i; split; [lia|exact E]|].
    destruct (point_dec P (mul n)) as [E|E]; [left; exists n; split; [lia|exact E]|right]. intros (i & I & E'). destruct (Nat.eq_dec i n) as [->|X]; [contradiction|apply N; exists i; split; [lia|exact E']]. }
  destruct (W r) as [(i & I & E)|N]; [left; exists i; exact E|right]. intros [i E]. apply N. exists (i mod r). split; [apply Nat.mod_upper_bound; lia|rewrite <- mul_mod; exact E].
Qed.
Lemma multiple_plus P Q : multiple P -> multiple Q -> multiple (P +! Q).
Proof. intros [i ->] [j ->]. exists (i + j). symmetry. apply (times_add K b HK). exact HG. Qed.
Lemma multiple_neg P : multiple P -> multiple (pneg K P).
Proof. intros [i ->]. destruct (mul_neg i) as [j E]. exists j. symmetry. exact E. Qed.

(** at most two points for every x *)
Lemma count l : (forall P, In P l -> oc P) -> NoDup l -> length l <= 2 * length U + 1.
Proof.
  intros HO HN.
  (* the points with a given x are at most two *)
  assert (X : forall V, (forall x y, In (Point x y) l -> In x V) -> length l <= 2 * length V + 1).
  { intros V. revert l HO HN. induction V as [|x V IH]; intros l HO HN HV.
    - destruct l as [|P [|Q l]]; cbn [length]; [lia|lia|]. exfalso. inversion HN as [|? ? N1 N2]. subst.
      destruct P as [|x y]; [|destruct (HV x y); left; reflexivity]. destruct Q as [|x y]; [apply N1; left; reflexivity|destruct (HV x y); right; left; reflexivity].
    - set (at_x := fun P => match P with Infinity => false | Point x' _ => beqb K x' x end).
      assert (S : length l = length (filter at_x l) + length (filter (fun P => negb (at_x P)) l)).
      { clear. induction l as [|P l IHl]; [reflexivity|]. cbn [filter length]. destruct (at_x P); cbn [negb length]; lia. }
      assert (A : length (filter (fun P => negb (at_x P)) l) <= 2 * length V + 1).
      { apply IH; [intros P HP; apply filter_In in HP; apply HO, HP|apply NoDup_filter; exact HN|].
        intros x' y' HP. apply filter_In in HP. destruct HP as [HP N]. destruct (HV x' y' HP) as [E|E]; [|exact E]. subst x'. cbn [at_x] in N. rewrite (proj2 (beq_true K b HK x x) eq_refl) in N. discriminate N. }
      assert (B : length (filter at_x l) <= 2).
      { assert (HN' : NoDup (filter at_x l)) by (apply NoDup_filter; exact HN). assert (HO' : forall P, In P (filter at_x l) -> exists y, P = Point x y /\ oc P).
        { intros P HP. apply filter_In in HP. destruct HP as [HP E]. destruct P as [|x' y']; [discriminate E|]. apply (beq_true K b HK) in E. subst x'. exists y'. split; [reflexivity|apply HO; exact HP]. }
        destruct (filter at_x l) as [|P1 [|P2 [|P3 l']]]; cbn [length]; try lia. exfalso.
        destruct (HO' P1) as (y1 & E1 & O1); [left; reflexivity|]. destruct (HO' P2) as (y2 & E2 & O2); [right; left; reflexivity|]. destruct (HO' P3) as (y3 & E3 & O3); [right; right; left; reflexivity|].
        subst. cbn [on_curve] in O1, O2, O3. inversion HN' as [|? ? N1 N2]. subst. inversion N2 as [|? ? N3 N4]. subst.
        assert (PM : forall y y', bmul K y y = badd K (bmul K (bmul K x x) x) b -> bmul K y' y' = badd K (bmul K (bmul K x x) x) b -> y <> y' -> badd K y y' = bzero K).
        { intros y y' Q Q' N. destruct (prod_zero K b HK (bsub K y y') (badd K y y')) as [Z|Z]; [transitivity (bsub K (bmul K y y) (bmul K y' y')); [ring|rewrite Q, Q'; ring]| |exact Z].
          apply (minus_zero K b HK) in Z. contradiction. }
        assert (D12 : y1 <> y2) by (intros ->; apply N1; left; reflexivity). assert (D13 : y1 <> y3) by (intros ->; apply N1; right; left; reflexivity).
        assert (D23 : y2 <> y3) by (intros ->; apply N3; left; reflexivity).
        pose proof (PM _ _ O1 O2 D12) as S12. pose proof (PM _ _ O1 O3 D13) as S13. apply D23.
        transitivity (bsub K (badd K y1 y2) y1); [ring|rewrite S12, <- S13; ring]. }
      cbn [length]. lia. }
  apply X. intros x y _. apply HU.
Qed.
Definition coset (A : point F) : list (point F) := map (fun i => A +! mul i) (seq 0 r).
Lemma coset_nodup A : oc A -> NoDup (coset A).
Proof.
  intros HA. unfold coset. assert (W : forall l, NoDup l -> (forall i, In i l -> i < r) -> NoDup (map (fun i => A +! mul i) l)).
  { induction l as [|i l IH]; intros N L; [constructor|]. inversion N as [|? ? N1 N2]. subst. cbn [map]. constructor.
    - intros X. apply in_map_iff in X. destruct X as (j & E & J). apply N1. replace i with j; [exact J|].
      apply mul_inj; [apply L; right; exact J|apply L; left; reflexivity|].
      rewrite <- (minus_plus K b HK A (mul j) HA (mul_on j)), E. apply (minus_plus K b HK); [exact HA|apply mul_on].
    - apply IH; [exact N2|intros j J; apply L; right; exact J]. }
  apply W; [apply seq_NoDup|]. intros i Hi. apply in_seq in Hi. lia.
Qed.
Lemma coset_apart A B P : oc A -> oc B -> In P (coset A) -> In P (coset B) -> multiple (pneg K A +! B).
Proof.
  intros HA HB IA IB. apply in_map_iff in IA, IB. destruct IA as (i & EA & _), IB as (j & EB & _). subst P.
  assert (X := pplus_on_curve K b HK). assert (N := pneg_on_curve K b HK). assert (M := mul_on).
  assert (E : (pneg K A +! B) +! mul j = mul i).
  { rewrite (pplus_assoc K b HK), EB by auto. apply (minus_plus K b HK); auto. }
  destruct (mul_neg j) as [j' Ej]. exists (i + j'). rewrite (times_add K b HK) by exact HG. rewrite <- E, Ej. rewrite (pplus_assoc K b HK) by auto.
  rewrite (pplus_pneg K b HK), pplus_zero_r. reflexivity.
Qed.
Lemma no_three A B C : oc A -> oc B -> oc C -> ~ multiple (pneg K A +! B) -> ~ multiple (pneg K A +! C) -> ~ multiple (pneg K B +! C) -> False.
Proof.
  intros HA HB HC N1 N2 N3. assert (L : length (coset A ++ coset B ++ coset C) = 3 * r).
  { rewrite !app_length. unfold coset. rewrite !map_length, seq_length. lia. }
  assert (Q : length (coset A ++ coset B ++ coset C) <= 2 * length U + 1); [|rewrite L in Q; exact (Nat.lt_irrefl _ (Nat.lt_le_trans _ _ _ Hroom Q))].
  assert (NA : forall (T : Type) (l m : list T), NoDup l -> NoDup m -> (forall x, In x l -> ~ In x m) -> NoDup (l ++ m)).
  { clear. intros T l m. induction l as [|x l IH]; intros Hl Hm D; [exact Hm|]. inversion Hl as [|? ? X1 X2]. subst. cbn [app]. constructor.
    - intros X. apply in_app_or in X. destruct X as [X|X]; [exact (X1 X)|exact (D x (or_introl eq_refl) X)].
    - apply IH; [exact X2|exact Hm|intros y Hy; apply D; right; exact Hy]. }
  apply count.
  - intros P HP. assert (Y : forall A, oc A -> In P (coset A) -> oc P).
    { clear - HK HG. intros A HA I. apply in_map_iff in I. destruct I as (i & <- & _). apply (pplus_on_curve K b HK); [exact HA|apply mul_on]. }
    apply in_app_or in HP. destruct HP as [HP|HP]; [exact (Y A HA HP)|]. apply in_app_or in HP. destruct HP as [HP|HP]; [exact (Y B HB HP)|exact (Y C HC HP)].
  - apply NA; [apply coset_nodup; exact HA| |].
    + apply NA; [apply coset_nodup; exact HB|apply coset_nodup; exact HC|]. intros P I J. apply N3. exact (coset_apart B C P HB HC I J).
    + intros P I J. apply in_app_or in J. destruct J as [J|J]; [apply N1; exact (coset_apart A B P HA HB I J)|apply N2; exact (coset_apart A C P HA HC I J)].
Qed.
Lemma multiple_infinity : multiple Infinity. Proof. exists 0. reflexivity. Qed.
(** multiples of odd order are halves *)
Lemma half P : multiple P -> exists Q, multiple Q /\ P = Q +! Q.
Proof.
  intros [i ->]. assert (O : exists h, r + 1 = 2 * h).
  { destruct (Nat.Even_or_Odd r) as [[h E]|[h E]]; [|exists (h + 1); lia]. exfalso.
    destruct (prime_divisors _ Hp 2) as [X|[X|[X|X]]]; [exists (Z.of_nat h); lia|lia..]. }
  destruct O as [h E]. exists (mul (i * h)). split; [exists (i * h); reflexivity|]. rewrite <- (times_add K b HK) by exact HG.
  replace (i * h + i * h) with (i + i * r) by nia. rewrite (times_add K b HK) by exact HG. rewrite mul_multiple, pplus_zero_r. reflexivity.
Qed.
Lemma neg_multiple P : multiple (pneg K P) -> multiple P.
Proof. intros M. rewrite <- (pneg_pneg K b HK P). apply multiple_neg. exact M. Qed.
Lemma twice_infinity P : oc P -> multiple P -> P +! P = Infinity -> P = Infinity.
Proof.
  intros HP [i ->] E. rewrite <- (times_add K b HK) in E by exact HG. apply mul_zero in E. replace (i + i) with (2 * i) in E by lia.
  assert (D : (Z.of_nat r | 2 * Z.of_nat i)%Z) by (destruct E as [c E]; exists (Z.of_nat c); lia).
  destruct (prime_mult _ Hp _ _ D) as [X|X]; [apply Z.divide_pos_le in X; lia|]. destruct X as [c X].
  assert (E' : i = Z.to_nat c * r) by nia. rewrite E'. apply mul_multiple.
Qed.
(** the points of order two come in threes *)
Lemma no_order_two T : oc T -> T +! T = Infinity -> T = Infinity.
Proof.
  intros HT E. destruct T as [|x y]; [reflexivity|exfalso]. cbn [on_curve] in HT.
  assert (Y : y = bzero K).
  { destruct (bdec K b HK y (bzero K)) as [Y|Y]; [exact Y|]. exfalso. unfold pplus in E. rewrite (proj2 (beq_true K b HK x x) eq_refl), (proj2 (beq_false K b HK _ _)) in E; [discriminate E|].
    intros Z. destruct (prod_zero K b HK (two K) y) as [A|A]; [unfold two; transitivity (badd K y y); [ring|exact Z]|exact (base_two K b HK A)|exact (Y A)]. }
  subst y. set (T := Point x (bzero K)) in *. set (T' := Point (bmul K w x) (bzero K)).
  assert (HT0 : oc T) by exact HT. assert (HT' : oc T'). { unfold T'. cbn [on_curve]. transitivity (badd K (bmul K (bmul K (bmul K w w) w) (bmul K (bmul K x x) x)) b); [rewrite Hw, HT; ring|ring]. }
  assert (E' : T' +! T' = Infinity) by (apply (pplus_not_apart K b HK); [reflexivity|ring]).
  assert (NT : pneg K T = T) by (unfold T; cbn [pneg]; f_equal; ring).
  assert (D : T +! T' <> Infinity).
  { intros Z. assert (X : T' = T).
    { rewrite <- (minus_plus K b HK T T' HT0 HT'), NT, Z. apply pplus_zero_r. }
    injection X as X. apply Hw1. apply (cancel K b HK x).
    - intros X0. apply (base_b K b HK). rewrite X0 in HT. transitivity (bsub K (badd K (bmul K (bmul K (bzero K) (bzero K)) (bzero K)) b) (bzero K)); [ring|rewrite <- HT; ring].
    - transitivity (bmul K w x); [ring|rewrite X; ring]. }
  assert (ED : (T +! T') +! (T +! T') = Infinity).
  { rewrite (swap K b HK) by assumption. rewrite E, E'. reflexivity. }
  assert (HD : oc (T +! T')) by (apply (pplus_on_curve K b HK); assumption).
  apply (no_three Infinity T T'); try assumption; try exact Logic.I; rewrite ?pplus_zero_l.
  - intros M. apply (twice_infinity T HT0) in M; [discriminate M|exact E].
  - intros M. apply (twice_infinity T' HT') in M; [discriminate M|exact E'].
  - rewrite NT. intros M. apply D. exact (twice_infinity _ HD M ED).
Qed.
Theorem all_multiples P : oc P -> multiple P.
Proof.
  intros HP. destruct (multiple_dec P) as [M|N]; [exact M|exfalso]. assert (HN := pneg_on_curve K b HK P HP).
  destruct (multiple_dec (P +! P)) as [M|M].
  - destruct (half _ M) as (Q & MQ & E). assert (HQ : oc Q) by (destruct MQ as [i ->]; apply mul_on).
    assert (HQ' := pneg_on_curve K b HK Q HQ). assert (T : P +! pneg K Q = Infinity).
    { apply no_order_two; [apply (pplus_on_curve K b HK); assumption|]. rewrite (swap K b HK), E, (swap K b HK) by assumption. rewrite !(pplus_pneg K b HK). reflexivity. }
    apply N. replace P with Q; [exact MQ|]. transitivity ((P +! pneg K Q) +! Q); [rewrite T, pplus_zero_l; reflexivity|].
    rewrite (pplus_assoc K b HK), (pplus_comm K b HK (pneg K Q)), (pplus_pneg K b HK) by assumption. apply pplus_zero_r.
  - apply (no_three Infinity P (pneg K P)); try assumption; try exact Logic.I; cbn [pneg]; rewrite ?pplus_zero_l; try exact N.
    + intros X. apply N. apply neg_multiple. exact X.
    + intros X. apply M. apply neg_multiple. rewrite (neg_plus K b HK) by assumption. exact X.
Qed.
Theorem order_all P : oc P -> ptimes K r P = Infinity.
Proof.
  intros HP. destruct (all_multiples P HP) as [i ->]. rewrite <- (times_mul K b HK) by exact HG. rewrite Nat.mul_comm. apply mul_multiple.
Qed.
End Order.
