(** Selector compression: replacing the selectors of an expression. *)
From Coq Require Import ZArith List Bool Arith Lia Permutation.
From Verif Require Import Base ListFacts Moduli Field FieldFacts Halo2Model CircuitFacts.
From Verif Require Import SelectorModel SelectorSpec SelectorFacts.
Import ListNotations.

Definition simples (e : expr) : list selector := filter sel_simple (selectors_in e).
Lemma filter_app' {A} (f : A -> bool) l m : filter f (l ++ m) = filter f l ++ filter f m.
Proof. induction l; simpl; auto. destruct (f a); simpl; congruence. Qed.
Lemma contains_simples e : contains_simple e = match simples e with [] => false | _ => true end.
Proof.
  induction e; auto.
  - change (contains_simple (ESelector s)) with (sel_simple s). unfold simples. simpl.
    destruct (sel_simple s); reflexivity.
  - unfold simples in *. cbn [selectors_in]. rewrite filter_app'.
    change (contains_simple (ESum e1 e2)) with (contains_simple e1 || contains_simple e2).
    rewrite IHe1, IHe2. destruct (filter _ (selectors_in e1)); reflexivity.
  - unfold simples in *. cbn [selectors_in]. rewrite filter_app'.
    change (contains_simple (EProd e1 e2)) with (contains_simple e1 || contains_simple e2).
    rewrite IHe1, IHe2. destruct (filter _ (selectors_in e1)); reflexivity.
Qed.
Lemma simples_sum a b : simples (ESum a b) = simples a ++ simples b.
Proof. apply filter_app'. Qed.
Lemma simples_prod a b : simples (EProd a b) = simples a ++ simples b.
Proof. apply filter_app'. Qed.

(** At most one simple selector, and where. *)
Lemma extract_built e : well_built e = true ->
  (simples e = [] /\ extract_simple e = Ok None) \/
  (exists s, simples e = [s] /\ extract_simple e = Ok (Some s)).
Proof.
  induction e; cbn [well_built]; intros W; try (left; split; reflexivity).
  - unfold simples, extract_simple. cbn [selectors_in evaluate filter].
    destruct (sel_simple s); [right; exists s|left]; auto.
  - destruct (IHe W) as [H|H]; [left; exact H|right; exact H].
  - apply andb_true_iff in W as [W1 W3]. apply andb_true_iff in W1 as [W1 W2].
    apply negb_true_iff, orb_false_iff in W3 as [W3 W4]. rewrite contains_simples in W3, W4.
    rewrite simples_sum.
    destruct (IHe1 W1) as [[H1 H1']|(s & H1 & H1')]; rewrite H1 in *; [|discriminate].
    destruct (IHe2 W2) as [[H2 H2']|(s & H2 & H2')]; rewrite H2 in *; [|discriminate].
    left. split; [reflexivity|]. unfold extract_simple in *. cbn [evaluate]. rewrite H1', H2'. reflexivity.
  - apply andb_true_iff in W as [W1 W3]. apply andb_true_iff in W1 as [W1 W2].
    apply negb_true_iff in W3. rewrite !contains_simples in W3.
    rewrite simples_prod.
    destruct (IHe1 W1) as [[H1 H1']|(s & H1 & H1')]; rewrite H1 in *;
      destruct (IHe2 W2) as [[H2 H2']|(s2 & H2 & H2')]; rewrite H2 in *; try discriminate.
    + left. split; [reflexivity|]. unfold extract_simple in *. cbn [evaluate]. rewrite H1', H2'. reflexivity.
    + right. exists s2. split; [reflexivity|]. unfold extract_simple in *. cbn [evaluate]. rewrite H1', H2'. reflexivity.
    + right. exists s. split; [reflexivity|]. unfold extract_simple in *. cbn [evaluate]. rewrite H1', H2'. reflexivity.
  - destruct (IHe W) as [H|H]; [left; exact H|right; exact H].
Qed.
Lemma simple_degree e s : simples e = [s] -> well_built e = true -> 1 <= degree e.
Proof.
  induction e; cbn [well_built degree]; intros H W; try discriminate; try lia.
  - apply IHe; auto.
  - apply andb_true_iff in W as [W1 W3]. apply negb_true_iff, orb_false_iff in W3 as [W3 W4].
    rewrite contains_simples in W3, W4. rewrite simples_sum in H.
    destruct (simples e1); [|discriminate]. destruct (simples e2); discriminate.
  - apply andb_true_iff in W as [W1 W3]. apply andb_true_iff in W1 as [W1 W2].
    rewrite simples_prod in H. destruct (simples e1) as [|s1 l1] eqn:E1.
    + specialize (IHe2 H W2). lia.
    + destruct l1; [|discriminate]. injection H as -> H. specialize (IHe1 eq_refl W1). lia.
  - apply IHe; auto.
Qed.

Lemma no_sel_simple e : selectors_in e = [] -> contains_simple e = false.
Proof. intros H. rewrite contains_simples. unfold simples. rewrite H. reflexivity. Qed.

(** ** The replacement succeeds and leaves no selector *)
Lemma replace_ok reps ns e :
  (forall s, In s (selectors_in e) -> sel_index s < length reps) ->
  (forall e, In e reps -> selectors_in e = []) ->
  (ns = true -> forall s, In s (selectors_in e) -> sel_simple s = false) ->
  exists e', replace_selectors reps ns e = Ok e' /\ selectors_in e' = [].
Proof.
  intros H HR. induction e; intros HN; cbn [selectors_in] in *;
    try (eexists; split; [reflexivity|reflexivity]).
  - unfold replace_selectors. cbn [evaluate].
    assert (B : ns && sel_simple s = false).
    { destruct ns; [|reflexivity]. apply HN; simpl; auto. }
    rewrite B. specialize (H s (or_introl eq_refl)).
    destruct (nth_error reps (sel_index s)) eqn:E; [|apply nth_error_None in E; lia].
    exists e. split; [reflexivity|]. apply HR. eapply nth_error_In; eauto.
  - destruct (IHe H HN) as (e' & E & S). exists (ENeg e'). split; [|exact S].
    unfold replace_selectors in *. cbn [evaluate]. rewrite E. reflexivity.
  - destruct IHe1 as (e1' & E1 & S1); [intros; apply H, in_app_iff; auto|intros; apply HN; [|apply in_app_iff]; auto|].
    destruct IHe2 as (e2' & E2 & S2); [intros; apply H, in_app_iff; auto|intros; apply HN; [|apply in_app_iff]; auto|].
    exists (ESum e1' e2'). split; [|simpl; rewrite S1, S2; reflexivity].
    unfold replace_selectors in *. cbn [evaluate]. rewrite E1, E2. cbn [bind].
    rewrite (no_sel_simple _ S1), (no_sel_simple _ S2). reflexivity.
  - destruct IHe1 as (e1' & E1 & S1); [intros; apply H, in_app_iff; auto|intros; apply HN; [|apply in_app_iff]; auto|].
    destruct IHe2 as (e2' & E2 & S2); [intros; apply H, in_app_iff; auto|intros; apply HN; [|apply in_app_iff]; auto|].
    exists (EProd e1' e2'). split; [|simpl; rewrite S1, S2; reflexivity].
    unfold replace_selectors in *. cbn [evaluate]. rewrite E1, E2. cbn [bind].
    rewrite (no_sel_simple _ S1). reflexivity.
  - destruct (IHe H HN) as (e' & E & S). exists (EScaled e' f). split; [|exact S].
    unfold replace_selectors in *. cbn [evaluate]. rewrite E. reflexivity.
Qed.

(** ** Inversion *)
Lemma replace_sel reps ns s e' : replace_selectors reps ns (ESelector s) = Ok e' ->
  nth_error reps (sel_index s) = Some e'.
Proof.
  unfold replace_selectors. cbn [evaluate]. destruct (_ && _); [discriminate|].
  destruct (nth_error _ _); [|discriminate]. congruence.
Qed.
Lemma replace_neg reps ns a e' : replace_selectors reps ns (ENeg a) = Ok e' ->
  exists a', replace_selectors reps ns a = Ok a' /\ e' = ENeg a'.
Proof.
  unfold replace_selectors. cbn [evaluate]. intros H. apply bind_ok in H as (a' & E & H).
  injection H as <-. eauto.
Qed.
Lemma replace_scaled reps ns a f e' : replace_selectors reps ns (EScaled a f) = Ok e' ->
  exists a', replace_selectors reps ns a = Ok a' /\ e' = EScaled a' f.
Proof.
  unfold replace_selectors. cbn [evaluate]. intros H. apply bind_ok in H as (a' & E & H).
  injection H as <-. eauto.
Qed.
Lemma replace_sum reps ns a b e' : replace_selectors reps ns (ESum a b) = Ok e' ->
  exists a' b', replace_selectors reps ns a = Ok a' /\ replace_selectors reps ns b = Ok b' /\ e' = ESum a' b'.
Proof.
  unfold replace_selectors. cbn [evaluate]. intros H. apply bind_ok in H as (a' & E & H).
  apply bind_ok in H as (b' & E2 & H). destruct (_ || _); [discriminate|]. injection H as <-. eauto.
Qed.
Lemma replace_prod reps ns a b e' : replace_selectors reps ns (EProd a b) = Ok e' ->
  exists a' b', replace_selectors reps ns a = Ok a' /\ replace_selectors reps ns b = Ok b' /\ e' = EProd a' b'.
Proof.
  unfold replace_selectors. cbn [evaluate]. intros H. apply bind_ok in H as (a' & E & H).
  apply bind_ok in H as (b' & E2 & H). destruct (_ && _); [discriminate|]. injection H as <-. eauto.
Qed.

(** ** Values and degrees *)
Local Open Scope F_scope.
Definition sel_value (a : assignment) (row i : nat) : Fr := if as_sel a i row then f1 else f0.
Lemma replace_eval reps ns a a' row : as_n a = as_n a' -> as_advice a = as_advice a' ->
  as_instance a = as_instance a' -> as_challenge a = as_challenge a' -> forall e e',
  replace_selectors reps ns e = Ok e' -> well_built e = true ->
  (forall q, In q (fixed_in e) -> as_fixed a' (q_col q) = as_fixed a (q_col q)) ->
  (forall s r, In s (selectors_in e) -> sel_simple s = false -> nth_error reps (sel_index s) = Some r ->
     eval a' row r = sel_value a row (sel_index s) /\ degree r = 1%nat) ->
  (simples e = [] /\ eval a' row e' = eval a row e /\ degree e' = degree e) \/
  (exists s r k, simples e = [s] /\ nth_error reps (sel_index s) = Some r /\
     eval a row e = k * sel_value a row (sel_index s) /\ eval a' row e' = k * eval a' row r /\
     (degree e' + 1 = degree e + degree r)%nat).
Proof.
  intros Hn Ha Hi Hc. induction e; intros e' R W HF HS; cbn [well_built] in W.
  - injection R as <-. left. auto.
  - apply replace_sel in R. destruct (sel_simple s) eqn:E.
    + right. exists s, e', f1. unfold simples. simpl filter. rewrite E.
      split; [reflexivity|]. split; [exact R|]. split; [unfold sel_value, eval; cbn [evaluate]; destruct (as_sel a _ _); fring|].
      split; [fring|]. simpl. lia.
    + left. unfold simples. simpl filter. rewrite E. destruct (HS s e' (or_introl eq_refl) E R) as [V D].
      split; [reflexivity|]. split; [exact V|exact D].
  - injection R as <-. left. split; [reflexivity|]. split; [|reflexivity]. unfold eval. cbn [evaluate].
    rewrite Hn, HF; simpl; auto.
  - injection R as <-. left. split; [reflexivity|]. split; [|reflexivity]. unfold eval. cbn [evaluate].
    rewrite Hn, Ha. reflexivity.
  - injection R as <-. left. split; [reflexivity|]. split; [|reflexivity]. unfold eval. cbn [evaluate].
    rewrite Hn, Hi. reflexivity.
  - injection R as <-. left. split; [reflexivity|]. split; [|reflexivity]. unfold eval. cbn [evaluate].
    rewrite Hc. reflexivity.
  - apply replace_neg in R as (x & R & ->).
    destruct (IHe x R W HF HS) as [(S & V & D)|(s & r & k & S & N & V & V' & D)].
    + left. split; [exact S|]. split; [|exact D]. change (- eval a' row x = - eval a row e). congruence.
    + right. exists s, r, (- k). split; [exact S|]. split; [exact N|].
      split; [change (- eval a row e = - k * sel_value a row (sel_index s)); rewrite V; fring|].
      split; [change (- eval a' row x = - k * eval a' row r); rewrite V'; fring|exact D].
  - apply replace_sum in R as (x & y & R1 & R2 & ->).
    apply andb_true_iff in W as [W1 W3]. apply andb_true_iff in W1 as [W1 W2].
    apply negb_true_iff, orb_false_iff in W3 as [W3 W4]. rewrite contains_simples in W3, W4.
    destruct (IHe1 x R1 W1) as [(S & V & D)|(s & r & k & S & N & V & V' & D)];
      [intros; apply HF; simpl; apply in_app_iff; auto|
       intros s r I; apply HS; simpl; apply in_app_iff; auto| |rewrite S in W3; discriminate].
    destruct (IHe2 y R2 W2) as [(S2 & V2 & D2)|(s & r & k & S2 & N2 & V2 & V2' & D2)];
      [intros; apply HF; simpl; apply in_app_iff; auto|
       intros s r I; apply HS; simpl; apply in_app_iff; auto| |rewrite S2 in W4; discriminate].
    left. rewrite simples_sum, S, S2. split; [reflexivity|].
    split; [change (eval a' row x + eval a' row y = eval a row e1 + eval a row e2); congruence|].
    simpl. congruence.
  - apply replace_prod in R as (x & y & R1 & R2 & ->).
    apply andb_true_iff in W as [W1 W3]. apply andb_true_iff in W1 as [W1 W2].
    apply negb_true_iff in W3. rewrite !contains_simples in W3. rewrite simples_prod.
    change (eval a' row (EProd x y)) with (eval a' row x * eval a' row y).
    change (eval a row (EProd e1 e2)) with (eval a row e1 * eval a row e2).
    cbn [degree].
    destruct (IHe1 x R1 W1) as [(S & V & D)|(s & r & k & S & N & V & V' & D)];
      [intros; apply HF; simpl; apply in_app_iff; auto|
       intros s r I; apply HS; simpl; apply in_app_iff; auto| |];
    (destruct (IHe2 y R2 W2) as [(S2 & V2 & D2)|(s2 & r2 & k2 & S2 & N2 & V2 & V2' & D2)];
      [intros; apply HF; simpl; apply in_app_iff; auto|
       intros s' r' I; apply HS; simpl; apply in_app_iff; auto| |]); rewrite S, S2 in *; try discriminate.
    + left. split; [reflexivity|]. split; congruence.
    + right. exists s2, r2, (eval a row e1 * k2). split; [reflexivity|]. split; [exact N2|].
      split; [rewrite V2; fring|]. split; [rewrite V, V2'; fring|lia].
    + right. exists s, r, (k * eval a row e2). split; [reflexivity|]. split; [exact N|].
      split; [rewrite V; fring|]. split; [rewrite V', V2; fring|lia].
  - apply replace_scaled in R as (x & R & ->).
    change (eval a' row (EScaled x f)) with (eval a' row x * f).
    change (eval a row (EScaled e f)) with (eval a row e * f).
    destruct (IHe x R W HF HS) as [(S & V & D)|(s & r & k & S & N & V & V' & D)].
    + left. split; [exact S|]. split; [congruence|exact D].
    + right. exists s, r, (k * f). split; [exact S|]. split; [exact N|].
      split; [rewrite V; fring|]. split; [rewrite V'; fring|exact D].
Qed.
