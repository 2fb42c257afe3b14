(** C101: the pairing of the code is the optimal ate pairing. *)
From Coq Require Import List Bool ZArith Znumtheory Lia.
From Verif Require Import Base Moduli Field FieldFacts LimbModel LimbSpec CurveModel CurveSpec CurveLaw CurveFacts CurveTimes CurveOrder CurveLimbs G1Group G1Code
  TowerModel TowerSpec TowerFacts PowerFacts TowerFq TowerFrob PairingModel FinalExp MillerFacts TowerLimbs G2Group AteSpec AteTwist AteFacts.
Import ListNotations.
Local Open Scope Z_scope.
Local Notation Fq2 := (ext2 Fq).

Lemma no_axis x y : on_curve K1 b1 (Point x y) -> y <> bzero K1.
Proof.
  intros H ->. assert (P2 : 2 < Z.of_nat r_nat) by (rewrite r_nat_Z; reflexivity).
  assert (T : ptimes K1 2 (Point x (bzero K1)) = Infinity).
  { change (ptimes K1 2 (Point x (bzero K1))) with (pplus K1 (Point x (bzero K1)) (Point x (bzero K1))). apply (pplus_not_apart K1 b1 fq_is_base); [reflexivity|]. reflexivity. }
  destruct (mul_zero K1 b1 fq_is_base _ r_nat [] H ltac:(discriminate) (g1_order _ H) (r_prime_nat _ r_nat_Z) P2 ltac:(cbn [length]; lia) 2 T) as [c D].
  apply (f_equal Z.of_nat) in D. rewrite Nat2Z.inj_mul in D. change (Z.of_nat 2) with 2 in D. revert D P2. generalize (Z.of_nat r_nat). clear. intros z D P2. destruct c as [|c]; [discriminate D|]. rewrite Nat2Z.inj_succ in D. nia.
Qed.
Lemma empty_loop ds : forall first, miller_loop K1 ds first (f12_one K1) [] = Ok (f12_one K1, []).
Proof.
  induction ds as [|d ds IH]; intros first; [reflexivity|]. cbn [miller_loop]. replace (if first then f12_one K1 else f12_square_assign K1 (f12_one K1)) with (f12_one K1).
  - cbn [ell_all]. destruct (Z.eqb d 1 || Z.eqb d (-1)); apply IH.
  - destruct first; [reflexivity|]. rewrite square_12. symmetry. exact (Ring_theory.Rmul_1_l (Field_theory.F_R f12_field) (f12_one K1)).
Qed.
(** For all points of G1 and of the second group the code computes Miller's algorithm
    for 6 x + 2 on the curve over Fq12 with the two further lines, to the power
    (q^12 - 1) / r, and does not panic. *)
Theorem C101_ate_partial : exists digits, Forall (fun d => d = 0 \/ d = 1 \/ d = -1) digits /\ digits_value digits = 6 * 4965661367192848881 + 2 /\
  forall nq nr n, Z.of_nat nq = q_modulus -> Z.of_nat nr = r_modulus -> Z.of_nat n * r_modulus = q_modulus ^ 12 - 1 ->
  forall p q, let P := aff_point K1 p in let Q := aff_point K2 q in on_curve K1 b1 P -> on_curve K2 b2 Q -> P <> Infinity -> Q <> Infinity -> second_group K12 nq nr (untwist K1 Q) ->
    pairing K1 tbl p q = Ok (ate K12 nq n digits (on_g1 K1 P) (untwist K1 Q)).
Proof.
  exists loop_digits. split; [exact digits_ok|]. split; [exact digits_sum|]. intros n1 nr n E1 E2 E3 p q P Q HP HQ NP NQ SG.
  replace n1 with nq in * by (apply Nat2Z.inj; rewrite E1; exact nq_Z).
  replace n with n_final. 2: { apply Nat2Z.inj. apply (Z.mul_reg_r _ _ r_modulus); [discriminate|]. rewrite E3. exact n_final_Z. }
  unfold P, Q in *. clear P Q. destruct (aff_cases K1 b1 fq_is_base p) as [[_ X]|[_ X]]; [contradiction|]. destruct (aff_cases K2 b2 fq2_is_base q) as [[_ Y]|[_ Y]]; [contradiction|].
  rewrite X, Y in *. apply (ate_is p q nr); [exact (no_axis _ _ HP)|exact HQ|exact E2|exact SG].
Qed.
Print Assumptions C101_ate_partial.
Theorem C101_infinity : forall p q, aff_point K1 p = Infinity \/ aff_point K2 q = Infinity -> pairing K1 tbl p q = Ok (bone K12).
Proof.
  intros p q H. apply (pairing_of p q (f12_one K1)).
  - unfold miller_of, multi_miller_loop. replace (filter _ _) with (@nil (aff Fq * prepared Fq)); [cbn [map]; rewrite empty_loop; reflexivity|]. cbn [filter fst snd]. destruct H as [H|H].
    + destruct (aff_cases K1 b1 fq_is_base p) as [[-> _]|[_ X]]; [|rewrite H in X; discriminate X]. rewrite (aff_id_true K1 b1 fq_is_base). reflexivity.
    + destruct (aff_cases K2 b2 fq2_is_base q) as [[-> _]|[_ X]]; [|rewrite H in X; discriminate X]. unfold from_affine. rewrite (aff_id_true K2 b2 fq2_is_base). cbn [infinity negb]. rewrite andb_false_r. reflexivity.
  - split; [exact one_nz|]. symmetry. exact (pw_one K12 fq12_fld _).
Qed.
Print Assumptions C101_infinity.
Theorem C101_limbs : forall lp lq p q v, arel RQ lp p -> arel R2 lq q -> pairing K1 tbl p q = Ok v -> exists z, pairing limb_base limb_tables lp lq = Ok z /\ R12 z v.
Proof.
  intros lp lq p q v X Y E. pose proof (pairing_rel _ _ _ limbs_follow _ _ tables_follow lp p lq q X Y) as Rr. change (@pairing (fe q_pos)) with (@pairing Fq) in Rr. rewrite E in Rr.
  destruct (pairing limb_base limb_tables lp lq) as [z|]; [|contradiction]. exists z. exact (conj eq_refl Rr).
Qed.
Print Assumptions C101_limbs.
(** the digits' value written out; the generators as the first hypotheses ask for *)
Example C101_case : digits_value [1; -1; 0; 1] = 21 /\ on_curve K1 b1 (aff_point K1 (Aff (FqZ 1) (FqZ 2))) /\ aff_point K1 (Aff (FqZ 1) (FqZ 2)) <> Infinity /\
  on_curve K2 b2 (aff_point K2 (Aff x2 y2)) /\ aff_point K2 (Aff x2 y2) <> Infinity /\ pairing K1 tbl (aff_identity K1) (Aff x2 y2) = Ok (bone K12).
Proof.
  assert (A : aff_point K1 (Aff (FqZ 1) (FqZ 2)) = gen1) by (apply (aff_point_on K1 b1 fq_is_base); exact gen1_on). assert (B : aff_point K2 (Aff x2 y2) = gen2) by (apply (aff_point_on K2 b2 fq2_is_base); exact gen2_on).
  split; [reflexivity|]. rewrite A, B. split; [exact gen1_on|]. split; [discriminate|]. split; [exact gen2_on|]. split; [discriminate|]. apply C101_infinity. left. destruct (aff_cases K1 b1 fq_is_base (aff_identity K1)) as [[_ X]|[X _]]; [exact X|].
  rewrite (aff_id_true K1 b1 fq_is_base) in X. discriminate X.
Qed.
