(** The stable sort of the model: permutation, order, stability. *)
From Coq Require Import ZArith List Lia Bool Permutation Sorted.
From Verif Require Import Base Field FieldFacts VMModel.
Import ListNotations.
Local Open Scope Z_scope.

Section Sort.
Context {A : Type} (key : A -> Fr).
Let le (x y : A) : Prop := fval (key x) <= fval (key y).

Lemma fltb_spec (a b : Fr) : reflect (fval a < fval b) (fltb a b).
Proof. unfold fltb. apply Z.ltb_spec0. Qed.

Lemma insert_perm x l : Permutation (insert_by key x l) (x :: l).
Proof.
  induction l as [|y t IH]; cbn [insert_by]; [reflexivity|].
  destruct (fltb (key x) (key y)); [reflexivity|].
  rewrite IH. apply perm_swap.
Qed.

Lemma insert_sorted x l : StronglySorted le l -> StronglySorted le (insert_by key x l).
Proof.
  induction 1 as [|y t Ht IH Hf]; cbn [insert_by]; [repeat constructor|].
  destruct (fltb_spec (key x) (key y)) as [L|L].
  - constructor; [constructor; assumption|]. constructor; [unfold le; lia|].
    eapply Forall_impl; [|exact Hf]. unfold le. intros z Hz. lia.
  - constructor; [exact IH|]. apply (Permutation_Forall (Permutation_sym (insert_perm x t))).
    constructor; [unfold le; lia|exact Hf].
Qed.

Lemma insert_filter x l k : StronglySorted le l ->
  filter (fun y => fval (key y) =? k) (insert_by key x l) =
  filter (fun y => fval (key y) =? k) l ++ (if fval (key x) =? k then [x] else []).
Proof.
  induction 1 as [|y t Ht IH Hf]; cbn [insert_by].
  - cbn. destruct (fval (key x) =? k); reflexivity.
  - destruct (fltb_spec (key x) (key y)) as [L|L].
    + cbn [filter]. destruct (Z.eqb_spec (fval (key x)) k) as [E|E].
      * assert (Hn : filter (fun z => fval (key z) =? k) (y :: t) = []).
        { assert (Forall (fun z => fval (key x) < fval (key z)) (y :: t)) as HF.
          { constructor; [exact L|]. eapply Forall_impl; [|exact Hf]. unfold le. intros z Hz. lia. }
          clear -HF E. induction HF as [|z l Hz HF IH]; [reflexivity|]. cbn [filter].
          destruct (Z.eqb_spec (fval (key z)) k); [lia|]. exact IH. }
        cbn [filter] in Hn. rewrite Hn. reflexivity.
      * rewrite app_nil_r. reflexivity.
    + cbn [filter]. rewrite IH. destruct (fval (key y) =? k); reflexivity.
Qed.

Lemma sort_aux l : forall acc, StronglySorted le acc ->
  StronglySorted le (fold_left (fun a x => insert_by key x a) l acc) /\
  Permutation (fold_left (fun a x => insert_by key x a) l acc) (acc ++ l) /\
  forall k, filter (fun y => fval (key y) =? k) (fold_left (fun a x => insert_by key x a) l acc) =
            filter (fun y => fval (key y) =? k) (acc ++ l).
Proof.
  induction l as [|x l IH]; intros acc H; cbn [fold_left].
  - rewrite app_nil_r. auto.
  - destruct (IH _ (insert_sorted x acc H)) as [H1 [H2 H3]]. split; [exact H1|]. split.
    + rewrite H2, (insert_perm x acc). cbn. apply Permutation_middle.
    + intros k. rewrite H3, !filter_app, insert_filter by exact H. cbn [filter].
      destruct (fval (key x) =? k); rewrite <- app_assoc; reflexivity.
Qed.

Lemma sort_sorted l : StronglySorted le (sort_by key l).
Proof. apply (sort_aux l []). constructor. Qed.
Lemma sort_perm l : Permutation (sort_by key l) l.
Proof. apply (sort_aux l []). constructor. Qed.
Lemma sort_stable l k :
  filter (fun y => fval (key y) =? k) (sort_by key l) = filter (fun y => fval (key y) =? k) l.
Proof. apply (sort_aux l []). constructor. Qed.
End Sort.
