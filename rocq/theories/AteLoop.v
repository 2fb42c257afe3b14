(** The loops of the code and of the textbook, up to factors from Fq2. *)
From Coq Require Import List Bool Field_theory Field Ring ZArith Znumtheory Lia.
From Verif Require Import Base Moduli Field FieldFacts LimbModel CurveModel CurveSpec CurveLaw CurveFacts CurveTimes CurveOrder G1Group TowerModel TowerSpec TowerFacts PowerFacts TowerFq TowerFrob PairingModel FinalExp MillerFacts G2Group AteSpec AteSteps AteTwist.
Import ListNotations.
Add Field fq12loop : f12_field.
Local Notation Fq2 := (ext2 Fq).
Local Notation Fq12 := (ext2 (ext3 (ext2 Fq))).
Local Notation "x * y" := (f12_mul K1 x y).
Local Notation O12 := (f12_zero K1).
Local Notation oc := (on_curve K2 b2).
Local Notation "A +! B" := (pplus K2 A B) (at level 50, left associativity).

Lemma same_x (x1 y1 x2 y2 : Fq2) : oc (Point x1 y1) -> oc (Point x2 y2) -> x1 = x2 -> Point x1 y1 = Point x2 y2 \/ Point x1 y1 = pneg K2 (Point x2 y2).
Proof.
  intros A B ->. cbn [on_curve] in A, B. destruct (prod_zero K2 b2 fq2_is_base (f2_sub K1 y1 y2) (f2_add K1 y1 y2)) as [E|E].
  - transitivity (f2_sub K1 (f2_mul K1 y1 y1) (f2_mul K1 y2 y2)); [change (bmul K2) with (f2_mul K1); ring|]. change (bmul K2) with (f2_mul K1) in A, B. rewrite A, B. change (bzero K2) with (f2_zero K1). change (badd K2) with (f2_add K1). ring.
  - left. apply f_equal. exact (minus_zero K2 b2 fq2_is_base _ _ E).
  - right. cbn [pneg]. apply f_equal. change (bopp K2 y2) with (f2_neg K1 y2). change (bzero K2) with (f2_zero K1) in E. transitivity (f2_sub K1 (f2_add K1 y1 y2) y2); [ring|]. rewrite E. ring.
Qed.
Section Loop.
Variables (p : aff Fq) (q : aff Fq2) (rn : nat).
Hypothesis HP : ay p <> bzero K1.
Let Q : point Fq2 := Point (ax q) (ay q).
Hypothesis HQ : oc Q.
Hypothesis Hrn : Z.of_nat rn = r_modulus.
Hypothesis Hr : ptimes K2 rn Q = Infinity.
Local Notation mul n := (ptimes K2 n Q).
Lemma m_on n : oc (mul n). Proof. exact (times_on K2 b2 fq2_is_base n Q HQ). Qed.
Lemma m_zero n : mul n = Infinity -> (r_modulus | Z.of_nat n)%Z.
Proof.
  intros E. assert (P2 : (2 < Z.of_nat rn)%Z) by (rewrite Hrn; reflexivity).
  destruct (mul_zero K2 b2 fq2_is_base Q rn [] HQ ltac:(discriminate) Hr (r_prime_nat rn Hrn) P2 ltac:(cbn [length]; lia) n E) as [c D]. exists (Z.of_nat c). rewrite D, Nat2Z.inj_mul, Hrn. reflexivity.
Qed.
Lemma m_add m n : mul (m + n) = mul m +! mul n. Proof. exact (times_add K2 b2 fq2_is_base m n Q HQ). Qed.
Lemma m_one : mul 1 = Q. Proof. apply times_one. Qed.
Lemma m_neg m n : mul m = pneg K2 (mul n) -> (r_modulus | Z.of_nat m + Z.of_nat n)%Z.
Proof.
  intros E. rewrite <- Nat2Z.inj_add. apply m_zero. rewrite m_add, E, (pplus_comm K2 b2 fq2_is_base) by (try apply (pneg_on_curve K2 b2 fq2_is_base); apply m_on). apply (pplus_pneg K2 b2 fq2_is_base).
Qed.
Lemma m_eq m n : (n <= m)%nat -> mul m = mul n -> (r_modulus | Z.of_nat m - Z.of_nat n)%Z.
Proof.
  intros L E. rewrite <- Nat2Z.inj_sub by exact L. apply m_zero. rewrite <- (minus_plus K2 b2 fq2_is_base (mul n) (mul (m - n))) by apply m_on. rewrite <- m_add. replace (n + (m - n))%nat with m by lia. rewrite E.
  rewrite (pplus_comm K2 b2 fq2_is_base) by (try apply (pneg_on_curve K2 b2 fq2_is_base); apply m_on). apply (pplus_pneg K2 b2 fq2_is_base).
Qed.
Lemma m_pred n : mul (S n) +! pneg K2 Q = mul n.
Proof.
  rewrite (pplus_comm K2 b2 fq2_is_base); [|apply m_on|apply (pneg_on_curve K2 b2 fq2_is_base); exact HQ]. cbn [ptimes]. apply (minus_plus K2 b2 fq2_is_base); [exact HQ|apply m_on].
Qed.
Lemma small_not n : (0 < n < r_modulus)%Z -> ~ (r_modulus | n)%Z.
Proof. intros B D. apply Z.divide_pos_le in D; lia. Qed.
Definition P12 : point Fq12 := on_g1 K1 (Point (ax p) (ay p)).
Definition near (f fs : Fq12) : Prop := f <> O12 /\ exists k, k <> f2_zero K1 /\ f = io k * fs.
Lemma near_mul f fs g gs : near f fs -> near g gs -> near (f * g) (fs * gs).
Proof.
  intros [F (k & N & ->)] [G (l & M & ->)]. split; [intros E; destruct (a_prod K12 fq12_fld _ _ E); contradiction|]. exists (f2_mul K1 k l). split; [apply nz_mul; assumption|]. rewrite io_mul. ring.
Qed.
Lemma near_line c x1 y1 x2 y2 : line_is c x1 y1 (slope K2 x1 y1 x2 y2) -> near (line_at c p) (line_value K12 (ut (Point x1 y1)) (ut (Point x2 y2)) P12).
Proof. intros L. split; [exact (line_at_nz _ _ _ _ _ L HP)|exact (line_at_is c x1 y1 x2 y2 p L)]. Qed.

Lemma dbl_at r k : jac_point K2 r = mul k -> jz r <> f2_zero K1 -> (0 < 2 * Z.of_nat k < r_modulus)%Z ->
  exists r' c, doubling_step K1 r = (r', c) /\ jz r' <> f2_zero K1 /\ jac_point K2 r' = mul (k + k) /\ near (line_at c p) (line_value K12 (ut (mul k)) (ut (mul k)) P12).
Proof.
  intros J Z B. destruct (mul k) as [|x y] eqn:E; [exfalso; apply (small_not (Z.of_nat k)); [lia|]; apply m_zero; exact E|].
  assert (Y : y <> f2_zero K1).
  { intros ->. apply (small_not (Z.of_nat (k + k))); [lia|]. apply m_zero. rewrite m_add, E. apply (pplus_not_apart K2 b2 fq2_is_base); [reflexivity|]. change (f2_add K1 (f2_zero K1) (f2_zero K1) = f2_zero K1). ring. }
  destruct (doubling_is r x y J Z Y) as (r' & c & D & Z' & J' & L). exists r', c. split; [exact D|]. split; [exact Z'|]. split; [rewrite J', m_add, E; reflexivity|]. exact (near_line _ _ _ _ _ L).
Qed.
Lemma add_at r a k : jac_point K2 r = mul k -> jz r <> f2_zero K1 -> ~ (r_modulus | Z.of_nat k)%Z -> oc (Point (ax a) (ay a)) -> mul k <> Point (ax a) (ay a) -> mul k <> pneg K2 (Point (ax a) (ay a)) ->
  exists r' c, addition_step K1 r a = (r', c) /\ jz r' <> f2_zero K1 /\ jac_point K2 r' = mul k +! Point (ax a) (ay a) /\ near (line_at c p) (line_value K12 (ut (mul k)) (ut (Point (ax a) (ay a))) P12).
Proof.
  intros J Z B OA N1 N2. pose proof (m_on k) as OK. destruct (mul k) as [|x y] eqn:E; [exfalso; apply B; apply m_zero; exact E|].
  assert (X : x <> ax a). { intros X. destruct (same_x x y (ax a) (ay a) OK OA X); contradiction. }
  destruct (addition_is r a x y J Z X) as (r' & c & D & Z' & J' & L). exists r', c. split; [exact D|]. split; [exact Z'|]. split; [exact J'|]. exact (near_line _ _ _ _ _ L).
Qed.
Definition digit (d : Z) : Prop := d = 0%Z \/ d = 1%Z \/ d = (-1)%Z.
Lemma loop_at ds : Forall digit ds -> forall first r k f fs, jac_point K2 r = mul k -> jz r <> f2_zero K1 -> (1 <= k)%nat -> ((Z.of_nat k + 1) * 2 ^ Z.of_nat (length ds) < r_modulus)%Z ->
  near f fs -> (first = true -> f = f12_one K1) ->
  exists ls r' k' f' fs', prepare_loop K1 q (aff_neg K2 q) ds r = (ls, r') /\ (forall rest, miller_loop K1 ds first f [(p, ls ++ rest)] = Ok (f', [(p, rest)])) /\
    miller K12 P12 (ut Q) ds fs (ut (mul k)) = (fs', ut (mul k')) /\ near f' fs' /\ jac_point K2 r' = mul k' /\ jz r' <> f2_zero K1 /\ Z.of_nat k' = fold_left (fun a d => 2 * a + d)%Z ds (Z.of_nat k).
Proof.
  induction ds as [|d ds IH]; intros HD first r k f fs J Z K1' B N F1.
  - exists [], r, k, f, fs. cbn [prepare_loop miller_loop miller fold_left app]. split; [reflexivity|]. split; [reflexivity|]. split; [reflexivity|]. split; [exact N|]. split; [exact J|]. split; [exact Z|reflexivity].
  - inversion HD as [|? ? Dd HD']; subst. cbn [length] in B. rewrite Nat2Z.inj_succ, Z.pow_succ_r in B by lia. assert (P2 : (1 <= 2 ^ Z.of_nat (length ds))%Z) by (apply (Z.pow_le_mono_r 2 0); lia).
    assert (K2' : (2 * Z.of_nat k + 2 < r_modulus)%Z) by nia.
    destruct (dbl_at r k J Z ltac:(lia)) as (r1 & c & D & Z1 & J1 & L1).
    assert (SQ : (if first then f else f12_square_assign K1 f) = f * f). { destruct first; [rewrite (F1 eq_refl); ring|apply square_12]. }
    assert (N1 : near (f * f * line_at c p) (fs * fs * line_value K12 (ut (mul k)) (ut (mul k)) P12)) by (apply near_mul; [apply near_mul; exact N|exact L1]).
    cbn [prepare_loop miller_loop miller fold_left]. rewrite D, SQ, <- ut_plus, <- m_add.
    assert (STEP : forall cs rest g, ell_all K1 g [(p, cs :: rest)] = Ok (g * line_at cs p, [(p, rest)])) by (intros; cbn [ell_all]; rewrite ell_is; reflexivity).
    assert (A1 : mul (k + k) <> Q). { intros E. rewrite <- m_one in E. apply (small_not (Z.of_nat (k + k) - Z.of_nat 1)); [lia|]. apply m_eq; [lia|exact E]. }
    assert (A2 : mul (k + k) <> pneg K2 Q). { intros E. rewrite <- m_one in E. apply (small_not (Z.of_nat (k + k) + Z.of_nat 1)); [lia|]. apply m_neg. exact E. }
    destruct Dd as [ -> | [ -> | -> ]].
    + cbn [Z.eqb orb Pos.eqb]. destruct (IH HD' false r1 (k + k)%nat _ _ J1 Z1 ltac:(lia) ltac:(nia) N1 ltac:(discriminate)) as (ls & r' & k' & f' & fs' & H1 & H2 & H3 & H4 & H5 & H6 & H7).
      rewrite H1. exists (c :: ls), r', k', f', fs'. split; [reflexivity|]. split; [intros rest; cbn [app]; rewrite STEP; apply H2|]. split; [exact H3|]. split; [exact H4|]. split; [exact H5|]. split; [exact H6|]. rewrite H7. f_equal. lia.
    + cbn [Z.eqb orb Pos.eqb]. destruct (add_at r1 q (k + k)%nat J1 Z1 (small_not (Z.of_nat (k + k)) ltac:(lia)) HQ A1 A2) as (r2 & c2 & D2 & Z2 & J2 & L2). rewrite D2.
      assert (J2' : jac_point K2 r2 = mul (S (k + k))). { rewrite J2. cbn [ptimes]. apply (pplus_comm K2 b2 fq2_is_base); [apply m_on|exact HQ]. }
      destruct (IH HD' false r2 (S (k + k))%nat _ _ J2' Z2 ltac:(lia) ltac:(nia) (near_mul _ _ _ _ N1 L2) ltac:(discriminate)) as (ls & r' & k' & f' & fs' & H1 & H2 & H3 & H4 & H5 & H6 & H7).
      rewrite H1. exists (c :: c2 :: ls), r', k', f', fs'. split; [reflexivity|]. split; [intros rest; cbn [app]; rewrite !STEP; apply H2|]. split; [|split; [exact H4|]; split; [exact H5|]; split; [exact H6|]; rewrite H7; f_equal; lia].
      rewrite <- ut_plus. replace (mul (k + k) +! Q) with (mul (S (k + k))); [exact H3|]. rewrite <- J2'. exact J2.
    + cbn [Z.eqb orb Pos.eqb]. assert (ON : oc (Point (ax (aff_neg K2 q)) (ay (aff_neg K2 q)))) by exact (pneg_on_curve K2 b2 fq2_is_base Q HQ).
      destruct (add_at r1 (aff_neg K2 q) (k + k)%nat J1 Z1 (small_not (Z.of_nat (k + k)) ltac:(lia)) ON A2) as (r2 & c2 & D2 & Z2 & J2 & L2).
      { change (Point (ax (aff_neg K2 q)) (ay (aff_neg K2 q))) with (pneg K2 Q). rewrite (pneg_pneg K2 b2 fq2_is_base). exact A1. }
      rewrite D2. change (Point (ax (aff_neg K2 q)) (ay (aff_neg K2 q))) with (pneg K2 Q) in J2, L2. rewrite ut_neg in L2. rewrite <- ut_neg, <- ut_plus, ut_neg.
      destruct (k + k)%nat as [|m] eqn:EK; [lia|]. rewrite m_pred in *.
      destruct (IH HD' false r2 m _ _ J2 Z2 ltac:(lia) ltac:(nia) (near_mul _ _ _ _ N1 L2) ltac:(discriminate)) as (ls & r' & k' & f' & fs' & H1 & H2 & H3 & H4 & H5 & H6 & H7).
      rewrite H1. exists (c :: c2 :: ls), r', k', f', fs'. split; [reflexivity|]. split; [intros rest; cbn [app]; rewrite !STEP; apply H2|]. split; [exact H3|]. split; [exact H4|]. split; [exact H5|]. split; [exact H6|]. rewrite H7. f_equal. lia.
Qed.
End Loop.
