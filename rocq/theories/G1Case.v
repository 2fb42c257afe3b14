(** The argument in the real G1: a bilinear map to run it with, and the case of an
    accepted transaction. *)
From Coq Require Import List Bool ZArith Lia.
From Verif Require Import Base Moduli Field FieldFacts LimbModel LimbSpec PolyFacts SerdeModel SerdeSpec CurveModel CurveSpec CurveLaw CurveFacts CurveTimes G1Group G1Code
  ArithSpec KzgModel ShplonkSpec VerifierModel VerifierCases ArgueCase.
Import ListNotations.
Local Open Scope Z_scope.

(** the second group holds scalars in limbs, as in ArgueCase; the map multiplies a
    point of G1 by such a scalar *)
Definition toy_e (a : g1_group) (q : g2) : g1_group := scale_g1 (value2 q) a.
Definition g1_eqb (a c : g1_group) : bool :=
  match pt1 a, pt1 c with Infinity, Infinity => true | Point x y, Point u v => feqb x u && feqb y v | _, _ => false end.
Definition toy_product := product_is_one zero1 add1 g1_eqb toy_e.

Lemma g1_eqb_iff a c : g1_eqb a c = true <-> a = c.
Proof.
  split; [|intros ->; unfold g1_eqb; destruct (pt1 c); [reflexivity|]; apply andb_true_iff; split; apply feqb_eq; reflexivity].
  intros H. apply g1_eq. unfold g1_eqb in H. destruct (pt1 a) as [|x y], (pt1 c) as [|u v]; try discriminate H; [reflexivity|].
  apply andb_true_iff in H. destruct H as [H1 H2]. apply feqb_eq in H1, H2. subst. reflexivity.
Qed.
Lemma identity_value q : g2_is_identity q = true -> value2 q = f0.
Proof.
  unfold g2_is_identity, fq2_is_zero. intros H. apply andb_true_iff in H. destruct H as [H1 H2]. apply andb_true_iff in H1, H2. destruct H1 as [H1 _], H2 as [H2 _].
  apply LimbField.leqb_eq in H1, H2. unfold value2. rewrite H1, H2. reflexivity.
Qed.
Lemma gen_not_zero : gen_g1 <> zero1.
Proof. intros H. apply (f_equal pt1) in H. discriminate H. Qed.
Lemma toy_bilinear : bilinear zero1 add1 times2 (point2 f1) toy_e.
Proof.
  pose proof g1_module as M. constructor.
  - intros a c d. symmetry. apply (mod_assoc _ _ _ _ M).
  - apply (mod_comm _ _ _ _ M).
  - apply (mod_zero _ _ _ _ M).
  - intros a. exists (neg1 a). apply g1_eq. cbn [add1 neg1 zero1 put1 pt1]. rewrite (pplus_comm fq_base b1 fq_is_base); [apply (pplus_pneg fq_base b1 fq_is_base)|apply (pneg_on_curve fq_base b1 fq_is_base)|]; apply g1_on.
  - intros a c q. apply (mod_scale_add _ _ _ _ M).
  - intros s a. unfold toy_e, times2. rewrite !value_point2, <- (mod_mul_scale _ _ _ _ M). f_equal. fring.
  - intros a. unfold toy_e. rewrite value_neg2, value_point2, <- (mod_add_scale _ _ _ _ M). replace (- f1 + f1 : Fr)%F with (f0 : Fr) by fring. apply (mod_zero_scale _ _ _ _ M).
  - intros a q H. unfold toy_e. rewrite (identity_value q H). apply (mod_zero_scale _ _ _ _ M).
  - unfold toy_e. rewrite value_point2, (mod_one_scale _ _ _ _ M). exact gen_not_zero.
Qed.
Lemma toy_pairing : is_pairing scale_g1 times2 (point2 f1) (pairing_check is_zero1 toy_product).
Proof. apply bilinear_pairing; [exact toy_bilinear|exact g1_eqb_iff]. Qed.
Definition toy_t : Fr := FrZ 2.
Lemma toy_coords (a : Fr) : 0 <= fval a < W -> g2_coords (point2 a).
Proof.
  intros H. assert (S : W < Z.pos q_pos) by (rewrite q_pos_eq; reflexivity). assert (C : forall z, 0 <= z < W -> canonical q_pos (L4 z 0 0 0)).
  { intros z Hz. unfold canonical, words4, word, v4. cbn [l0 l1 l2 l3]. assert (0 < W) by reflexivity. repeat split; lia. }
  assert (O : 0 <= 1 < W) by (split; [discriminate|reflexivity]). assert (Z0 : canonical q_pos lzero) by (apply (C 0); split; [discriminate|reflexivity]).
  split; split; cbn [point2 g2_x g2_y c0 c1]; [apply C; exact H|exact Z0|apply (C 1 O)|exact Z0].
Qed.
Lemma toy_setup : exists p, setup scale_g1 gen_g1 times2 (point2 f1) 9 toy_t = Ok (srs_of of_affine1 p) /\ valid_params p /\ kz_k p = 9.
Proof.
  apply setup_params.
  - discriminate.
  - intros [H|H]; [discriminate H|]. apply (f_equal fval) in H. revert H. vm_compute. discriminate.
  - apply toy_coords. split; [discriminate|reflexivity].
  - unfold times2. apply toy_coords. rewrite value_point2. split; [discriminate|reflexivity].
Qed.
