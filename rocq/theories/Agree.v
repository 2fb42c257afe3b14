(** Assignments that agree on what a constraint system refers to. *)
From Coq Require Import ZArith List Arith Bool Lia.
From Verif Require Import Base Moduli Field Halo2Model SelectorModel SelectorSpec SelectorFacts SelectorClaims SelectorMain PermModel PermSpec VkModel PermClaims IopModel IopSpec.
Import ListNotations.
Local Open Scope nat_scope.

Record agree (c : cs) (a b : assignment) : Prop := {
  ag_n : as_n a = as_n b;
  ag_fixed : forall i r, i < num_fixed c -> r < as_n a -> as_fixed a i r = as_fixed b i r;
  ag_advice : forall i r, i < num_advice c -> r < as_n a -> as_advice a i r = as_advice b i r;
  ag_instance : forall i r, i < num_instance c -> r < as_n a -> as_instance a i r = as_instance b i r;
  ag_challenge : forall i, i < num_challenges c -> as_challenge a i = as_challenge b i }.

Lemma rotate_lt n row t : 0 < n -> rotate n row t < n.
Proof. unfold rotate. intros H. pose proof (Z.mod_pos_bound (Z.of_nat row + t) (Z.of_nat n)). lia. Qed.

Section Agree.
Variables (c : cs) (a b : assignment).
Hypothesis W : well_formed c.
Hypothesis Hadv : forall q, In q (advice_queries c) -> ac_index (fst q) < num_advice c.
Hypothesis Hpos : 0 < as_n a.
Hypothesis H : agree c a b.

Lemma eval_agree row e : registered c e -> eval a row e = eval b row e.
Proof.
  destruct H as [En Ef Ea Ei Ec]. unfold eval. induction e; cbn [registered evaluate]; intros R.
  - reflexivity.
  - contradiction.
  - rewrite <- En. apply Ef; [apply (wf_fixed _ W _ (nth_error_In _ _ R))|apply rotate_lt, Hpos].
  - rewrite <- En. apply Ea; [apply (Hadv _ (nth_error_In _ _ R))|apply rotate_lt, Hpos].
  - rewrite <- En. apply Ei; [apply (wf_instance _ W _ (nth_error_In _ _ R))|apply rotate_lt, Hpos].
  - apply Ec, R.
  - rewrite IHe by exact R. reflexivity.
  - destruct R. rewrite IHe1, IHe2 by assumption. reflexivity.
  - destruct R. rewrite IHe1, IHe2 by assumption. reflexivity.
  - rewrite IHe by exact R. reflexivity.
Qed.
Lemma cell_agree col r : queried c col -> r < as_n a -> cell_value a (col, r) = cell_value b (col, r).
Proof.
  destruct H as [En Ef Ea Ei Ec]. unfold cell_value. cbn [fst snd]. destruct col as [q|i|i]; cbn [queried]; intros Q Hr.
  - apply Ea; [apply (Hadv _ Q)|exact Hr].
  - apply Ef; [apply (wf_fixed _ W _ Q)|exact Hr].
  - apply Ei; [apply (wf_instance _ W _ Q)|exact Hr].
Qed.
Lemma satisfied_agree copies : (forall x y, In (x, y) copies -> on_table (as_n a) (perm_columns c) x /\ on_table (as_n a) (perm_columns c) y) ->
  satisfied c copies a -> satisfied c copies b.
Proof.
  intros HC (A & B & C). pose proof (ag_n _ _ _ H) as En. split; [|split].
  - intros g q row Ig Iq Hr. rewrite <- eval_agree by (apply (wf_exprs _ W); left; apply in_gate_exprs; eauto). apply (A g q row Ig Iq). rewrite En. exact Hr.
  - intros l row Il Hr. rewrite <- En in Hr |- *. destruct (B l row Il Hr) as (r' & Hr' & X). exists r'. split; [exact Hr'|].
    assert (M : forall es rw, (forall e, In e es -> In e (lookup_exprs c)) -> map (eval b rw) es = map (eval a rw) es).
    { intros es rw I. apply map_ext_in. intros e Ie. symmetry. apply eval_agree, (wf_exprs _ W). right. apply I, Ie. }
    rewrite (M (fst l) row), (M (snd l) r') by (intros; apply in_lookup_exprs; eauto). exact X.
  - intros [cx rx] [cy ry] I. destruct (HC _ _ I) as [[X1 X2] [Y1 Y2]]. cbn [fst snd] in *.
    rewrite <- !cell_agree by (try apply (wf_perm _ W); assumption). apply C, I.
Qed.
End Agree.

Lemma key_on_table v k fixed copies F S : key_for v k fixed copies F S -> forall x y, In (x, y) copies ->
  on_table (Z.to_nat (2 ^ k)) (perm_columns (vk_cs v)) x /\ on_table (Z.to_nat (2 ^ k)) (perm_columns (vk_cs v)) y.
Proof.
  intros K. destruct (kf_sigma _ _ _ _ _ _ K) as (p & E & _).
  exact (copies_valid _ _ _ _ _ (wf_nodup _ (kf_cs _ _ _ _ _ _ K)) (le_n _) E).
Qed.
