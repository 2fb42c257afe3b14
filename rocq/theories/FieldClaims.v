(** The field claims, assembled from the limb facts. *)
From Coq Require Import ZArith List Lia Bool Znumtheory.
From Verif Require Import Moduli Field FieldFacts LimbModel LimbSpec LimbFacts LimbField LimbBytes LimbConst RootFacts.
Import ListNotations.
Local Open Scope Z_scope.

Section G.
Variables (P : params) (p : positive).
Hypothesis G : good P p.
Let Hp := g_prime _ _ G.
Let I := fun x a => rep_iff p x a.

Lemma inverse_holds : inverse_claim P p.
Proof.
  split; [exact Hp|]. split.
  - intros x a H Ha. apply I in H. pose proof (linvert_rep P p G x a H) as K.
    destruct (linvert P x) as [y|]; [|contradiction]. destruct K as (_ & K).
    exists y, (finv a). split; [reflexivity|]. split; [apply I; exact K|apply (finv_l Hp _ Ha)].
  - intros x H. apply I in H. pose proof (linvert_rep P p G x _ H) as K.
    destruct (linvert P x) as [y|]; [destruct K; contradiction|reflexivity].
Qed.
Lemma arithmetic_holds : arithmetic_claim P p.
Proof.
  split; [|split; [|split; [|split; [|split]]]].
  - intros x. split.
    + intros H. destruct (canonical_rep P p G x H) as (a & Ha). exists a. apply I. exact Ha.
    + intros (a & H). split; [apply H|]. destruct H as (_ & ->). apply Z.mod_pos_bound. reflexivity.
  - intros x y a b Hx Hy. apply I in Hx. apply I in Hy. split; intros E; subst.
    + eapply rep_fun; eassumption.
    + eapply rep_inj; eassumption.
  - apply I. apply (lzero_rep P p G).
  - apply I. apply (lone_rep P p G).
  - intros x y a b Hx Hy. apply I in Hx. apply I in Hy. split; [|split]; apply I.
    + apply ladd_rep; assumption.
    + apply lsub_rep; assumption.
    + apply lmul_rep; assumption.
  - intros x a Hx. apply I in Hx. split; [|split]; apply I.
    + apply lneg_rep; assumption.
    + rewrite <- Z.add_diag. apply ldouble_rep; assumption.
    + rewrite Z.pow_2_r. apply lsquare_rep; assumption.
Qed.
Lemma repr_holds : repr_claim P p.
Proof.
  split.
  - intros x a H. apply I in H. destruct (to_repr_ok P p G x a H) as (A & B & C).
    repeat (split; [assumption|]). eapply to_from; eassumption.
  - intros s F L. pose proof (from_repr_ok P p G s F L) as K. split; intros R.
    + destruct (from_repr P s) as [x|] eqn:E; [|lia]. exists x. destruct K as (_ & K).
      split; [reflexivity|]. split; [apply I; exact K|]. eapply from_to; eassumption.
    + destruct (from_repr P s) as [x|]; [lia|reflexivity].
Qed.
Lemma order_holds : order_claim P p.
Proof. intros x y a b Hx Hy. apply I in Hx. apply I in Hy. eapply lcmp_ok; eassumption. Qed.
Lemma wide_holds : wide_claim P p.
Proof.
  split; intros; apply I; [apply from_bytes_wide_ok|apply from_u512_rep]; assumption.
Qed.
Lemma convert_holds : convert_claim P p.
Proof.
  split; [|split; [|split; [|split; [|split; [|split; [|split]]]]]].
  - intros. apply I. apply from_u64_ok; [exact G|]. unfold word. rewrite W_pow. assumption.
  - intros. apply I. apply from_u128_ok; assumption.
  - intros. apply I. apply from_raw_rep; assumption.
  - intros x a H. apply I in H. eapply get_lower_128_ok; eassumption.
  - intros x a H. apply I in H. eapply is_odd_ok; eassumption.
  - intros x a e H He. apply I. apply I in H. apply lpow_rep; assumption.
  - intros. eapply raw_bytes_round; eassumption.
  - intros s F. pose proof (from_raw_bytes_ok P p G s F) as K. split.
    + intros L R. destruct (from_raw_bytes P s) as [x|] eqn:E; [|lia]. exists x. tauto.
    + intros R. destruct (from_raw_bytes P s) as [x|] eqn:E; [lia|reflexivity].
Qed.
End G.

Lemma sqrt_holds x (a : Fq) : represents x a ->
  ((exists b, (b * b)%F = a) -> exists y b, fq_sqrt x = Some y /\ represents y b /\ (b * b)%F = a) /\
  ((~ exists b, (b * b)%F = a) -> fq_sqrt x = None).
Proof.
  intros H. apply (rep_iff q_pos) in H. pose proof (fq_sqrt_rep x a H) as K.
  destruct (fq_sqrt x) as [y|].
  - split; [|intros N; exfalso; destruct K as (b & _ & K); apply N; exists b; exact K].
    intros _. destruct K as (b & K1 & K2). exists y, b. split; [reflexivity|]. split; [|exact K2].
    apply (rep_iff q_pos). exact K1.
  - split; [intros C; contradiction|reflexivity].
Qed.
Lemma legendre_holds x (a : Fq) : represents x a ->
  (fq_legendre x = LZero <-> a = f0) /\
  (fq_legendre x = LResidue <-> a <> f0 /\ exists b, (b * b)%F = a) /\
  (fq_legendre x = LNonResidue <-> ~ exists b, (b * b)%F = a).
Proof.
  intros H. apply (rep_iff q_pos) in H. pose proof (fq_legendre_rep x a H) as K.
  assert (Z0 : a = f0 -> exists b, (b * b)%F = a).
  { intros ->. exists f0. apply fe_eq. reflexivity. }
  destruct (fq_legendre x); (split; [|split]); split; intros; first [discriminate|reflexivity|assumption|tauto].
Qed.

(** constants *)
Lemma const_rep P p z l : good P p -> words4 l -> v4 l = z -> represents (from_raw P l) (of_Z p z).
Proof. intros G H <-. apply (rep_iff p). apply from_raw_rep; assumption. Qed.
Lemma generator_holds : represents fr_generator (FrZ 7) /\
  (forall k, 0 < k < r_modulus - 1 -> fpow (FrZ 7) k <> f1) /\ fpow (FrZ 7) (r_modulus - 1) = f1.
Proof.
  split; [|split].
  - apply (const_rep _ _ 7 _ good_fr); [apply words4_b; vm_compute; reflexivity|vm_compute; reflexivity].
  - intros k Hk E. apply seven_order in E; [|lia]. destruct E as (c & E).
    change rm1 with (r_modulus - 1) in E. assert (c = 0 \/ c >= 1 \/ c <= -1) by lia. nia.
  - exact seven_fermat.
Qed.

Ltac fval_eq := apply fe_eq; vm_compute; reflexivity.
Ltac crep G := eapply (const_rep _ _ _ _ G); [apply words4_b; vm_compute; reflexivity|reflexivity].
Lemma roots_hold : exists w wi d z h : Fr,
  represents fr_root_of_unity w /\ represents fr_root_of_unity_inv wi /\ represents fr_delta d /\
  represents fr_zeta z /\ represents fr_two_inv h /\
  w = fpow (FrZ 7) ((r_modulus - 1) / 2 ^ fr_S) /\ fpow w (2 ^ fr_S) = f1 /\ fpow w (2 ^ (fr_S - 1)) = (- f1)%F /\
  (w * wi)%F = f1 /\ d = fpow (FrZ 7) (2 ^ fr_S) /\ fpow d ((r_modulus - 1) / 2 ^ fr_S) = f1 /\
  (z * z * z)%F = f1 /\ z <> f1 /\ (h + h)%F = f1.
Proof.
  eexists _, _, _, _, _. split; [crep good_fr|]. split; [crep good_fr|]. split; [crep good_fr|].
  split; [crep good_fr|]. split; [crep good_fr|]. fold FrZ.
  split; [exact root_is|].
  assert (Hr : forall n, 0 <= n -> fpow root_c n = fpow seven (tt * n)).
  { intros n Hn. rewrite root_is. apply fpow_mul; [pose proof tt_pos; lia|exact Hn]. }
  split; [|split; [|split; [|split; [|split; [|split; [|split]]]]]].
  - change (fpow root_c (2 ^ 28) = f1). rewrite Hr by lia. replace (tt * 2 ^ 28) with rm1 by (rewrite rm1_split; lia).
    exact seven_fermat.
  - change (fpow root_c (2 ^ (28 - 1)) = (- f1)%F). rewrite Hr by (apply Z.pow_nonneg; lia).
    assert (E : fpow seven (tt * 2 ^ (28 - 1)) = FrZ (-1)).
    { apply pow7_b; [vm_compute; discriminate|]. vm_cast_no_check (eq_refl true). }
    rewrite E. fval_eq.
  - fval_eq.
  - exact delta_is.
  - change (fpow delta_c tt = f1). rewrite delta_is, fpow_mul by (pose proof tt_pos; lia).
    rewrite <- rm1_split. exact seven_fermat.
  - fval_eq.
  - intros E. apply (f_equal fval) in E. vm_compute in E. discriminate.
  - fval_eq.
Qed.
Lemma fq_constants_hold : exists z h : Fq,
  represents fq_zeta z /\ represents fq_two_inv h /\ represents fq_negative_one (- f1 : Fq)%F /\
  (z * z * z)%F = f1 /\ z <> f1 /\ (h + h)%F = f1.
Proof.
  eexists _, _. split; [crep good_fq|]. split; [crep good_fq|].
  split; [split; [apply words4_b; vm_compute; reflexivity|vm_compute; reflexivity]|].
  split; [fval_eq|]. split; [|fval_eq].
  intros E. apply (f_equal fval) in E. vm_compute in E. discriminate.
Qed.
Lemma tags_hold k i j i' j' (d w : Fr) : represents fr_delta d -> represents fr_root_of_unity w ->
  0 <= k <= 28 -> let t := (r_modulus - 1) / 2 ^ 28 in let om := fpow w (2 ^ (28 - k)) in
  0 <= i < t -> 0 <= i' < t -> 0 <= j < 2 ^ k -> 0 <= j' < 2 ^ k ->
  (fpow d i * fpow om j = fpow d i' * fpow om j')%F -> i = i' /\ j = j'.
Proof.
  intros Hd Hw Hk t om Hi Hi' Hj Hj' E.
  assert (Ed : d = delta_c).
  { apply rep_iff in Hd. eapply (rep_fun fr_params r_pos good_fr); [exact Hd|]. apply rep_iff. crep good_fr. }
  assert (Ew : w = root_c).
  { apply rep_iff in Hw. eapply (rep_fun fr_params r_pos good_fr); [exact Hw|]. apply rep_iff. crep good_fr. }
  unfold om in E. subst d w. apply (cell_tag_inj k i j i' j' Hk Hi Hi' Hj Hj' E).
Qed.
