(** Running sums and products: what equal end values say about the rows. *)
From Coq Require Import ZArith List Arith Lia Permutation Bool.
From Verif Require Import Base Field FieldFacts AlgebraSpec PolyFacts.
Import ListNotations.
Local Open Scope F_scope.

Lemma factor_tdot al a b c t : factor al a b c t = al - tdot a b c t.
Proof. destruct t as [[x y] z]. unfold factor, tdot. fring. Qed.
Lemma row_product_tprod al a b c l : row_product al a b c l = tprod al a b c l.
Proof.
  induction l as [|t l IH]; [reflexivity|]. unfold row_product, tprod in *. cbn [fold_right].
  rewrite IH, factor_tdot. reflexivity.
Qed.
Lemma row_product_app al a b c l k :
  row_product al a b c (l ++ k) = row_product al a b c l * row_product al a b c k.
Proof.
  induction l as [|t l IH]; unfold row_product in *; cbn [app fold_right]; [fring|]. rewrite IH. fring.
Qed.

Lemma running_product_end al a b c l prp : running_product al a b c l prp ->
  prp (length l) = prp 0%nat * row_product al a b c l.
Proof.
  induction l as [|t l IH] using rev_ind; intros H.
  - unfold row_product. cbn [length fold_right]. fring.
  - rewrite app_length, Nat.add_1_r, row_product_app, (H (length l) t)
      by (rewrite nth_error_app2, Nat.sub_diag by lia; reflexivity).
    rewrite IH.
    + unfold row_product at 3. cbn [fold_right]. fring.
    + intros i u Hi. apply H. rewrite nth_error_app1; [exact Hi|apply nth_error_Some; congruence].
Qed.

Lemma fpow_app g l k : power_sum g (l ++ k) = power_sum g l * fpow g (length k) + power_sum g k.
Proof.
  induction l as [|v l IH]; cbn [app power_sum]; [fring|]. rewrite IH, app_length.
  assert (E : fpow g (length l + length k) = fpow g (length l) * fpow g (length k)).
  { generalize (length l). intros n. induction n as [|n IHn]; cbn [Nat.add fpow]; [fring|rewrite IHn; fring]. }
  rewrite E. fring.
Qed.
Lemma running_sum_end g l rs : running_sum g l rs ->
  rs (length l) = rs 0%nat * fpow g (length l) + power_sum g l.
Proof.
  induction l as [|v l IH] using rev_ind; intros H.
  - cbn [length fpow power_sum]. fring.
  - rewrite app_length, Nat.add_1_r, fpow_app, (H (length l) v)
      by (rewrite nth_error_app2, Nat.sub_diag by lia; reflexivity).
    rewrite IH.
    + cbn [fpow length power_sum]. fring.
    + intros i u Hi. apply H. rewrite nth_error_app1; [exact Hi|apply nth_error_Some; congruence].
Qed.
Lemma power_sum_peval g l : power_sum g l = peval (rev l) g.
Proof.
  replace (power_sum g l) with (horner g l f0); [|].
  - rewrite horner_peval. assert (E : forall p, peval (p ++ [f0]) g = peval p g).
    { induction p as [|c p IH]; cbn [app peval]; [fring|rewrite IH; reflexivity]. }
    apply E.
  - assert (H : forall s, horner g l s = s * fpow g (length l) + power_sum g l).
    { induction l as [|v l IH]; intros s.
      - unfold horner. cbn [fold_left length fpow power_sum]. fring.
      - unfold horner in *. cbn [fold_left length fpow power_sum]. rewrite IH. fring. }
    rewrite H. fring.
Qed.
Lemma horner_sum g l s : horner g l s = s * fpow g (length l) + power_sum g l.
Proof.
  revert s. induction l as [|v l IH]; intros s.
  - unfold horner. cbn [fold_left length fpow power_sum]. fring.
  - unfold horner in *. cbn [fold_left length fpow power_sum]. rewrite IH. fring.
Qed.

Lemma add_cancel (a b c : Fr) : a + b = a + c -> b = c.
Proof. intros H. replace b with (a + b - a) by fring. rewrite H. fring. Qed.
Lemma mul_cancel (a b c : Fr) : a <> f0 -> a * b = a * c -> b = c.
Proof.
  intros Ha H. assert (Z : a * (b - c) = f0) by (replace (a * (b - c)) with (a * b - a * c) by fring; rewrite H; fring).
  apply Fr_mul_eq_0 in Z. destruct Z as [Z|Z]; [contradiction|]. replace b with (b - c + c) by fring. rewrite Z. fring.
Qed.

Lemma C22_lemma l k gs :
  length l = length k -> l <> k -> NoDup gs ->
  (forall g, In g gs -> exists rs rs', running_sum g l rs /\ running_sum g k rs' /\ rs 0%nat = rs' 0%nat /\
     rs (length l) = rs' (length k)) ->
  (length gs < length l)%nat.
Proof.
  intros Hl Hn Hd H.
  assert (R : (length gs < length (rev l))%nat); [|rewrite rev_length in R; exact R].
  apply (peval_roots (rev l) (rev k)).
  - rewrite !rev_length. exact Hl.
  - intros E. apply Hn. rewrite <- (rev_involutive l), E. apply rev_involutive.
  - exact Hd.
  - intros g Hg. destruct (H g Hg) as (rs & rs' & H1 & H2 & H3 & H4).
    rewrite (running_sum_end _ _ _ H1), (running_sum_end _ _ _ H2), H3, <- Hl in H4.
    rewrite <- !power_sum_peval. exact (add_cancel _ _ _ H4).
Qed.
Lemma C22_unique_lemma l k s : s <> f0 -> (Z.of_nat (length l) < 2 ^ 64)%Z -> (Z.of_nat (length k) < 2 ^ 64)%Z ->
  (forall g, exists rs rs', running_sum g l rs /\ running_sum g k rs' /\ rs 0%nat = s /\ rs' 0%nat = s /\
     rs (length l) = rs' (length k)) -> l = k.
Proof.
  intros Hs Hl Hk H. apply (horner_inj l k s Hs Hl Hk). intros g.
  destruct (H g) as (rs & rs' & H1 & H2 & E1 & E2 & E).
  rewrite (running_sum_end _ _ _ H1), (running_sum_end _ _ _ H2), E1, E2 in E.
  rewrite !horner_sum. exact E.
Qed.

Lemma nth_error_split_S {A} (m : list A) i t : nth_error m i = Some t -> firstn (S i) m = firstn i m ++ [t].
Proof.
  revert i. induction m as [|x m IH]; intros [|i] H; try discriminate; [injection H as ->; reflexivity|].
  cbn [firstn app]. f_equal. apply IH. exact H.
Qed.

Lemma C23_lemma l k s : s <> f0 -> (Z.of_nat (length l) < 2 ^ 64)%Z -> (Z.of_nat (length k) < 2 ^ 64)%Z ->
  (forall al a b c, exists u v, running_product al a b c l u /\ running_product al a b c k v /\
     u 0%nat = s /\ v 0%nat = s /\ u (length l) = v (length k)) <-> Permutation l k.
Proof.
  intros Hs Hl Hk. rewrite <- (tprod_perm l k Hl Hk). split.
  - intros H al a b c. destruct (H al a b c) as (u & v & Hu & Hv & Eu & Ev & E).
    rewrite (running_product_end _ _ _ _ _ _ Hu), (running_product_end _ _ _ _ _ _ Hv), Eu, Ev in E.
    rewrite <- !row_product_tprod. exact (mul_cancel _ _ _ Hs E).
  - intros H al a b c.
    assert (X : forall m : list trip, exists u, running_product al a b c m u /\ u 0%nat = s).
    { clear. intros m. exists (fun i => s * row_product al a b c (firstn i m)). split.
      - intros i t Hi. rewrite (nth_error_split_S m i t Hi), row_product_app.
        change (row_product al a b c [t]) with (factor al a b c t * f1). fring.
      - unfold row_product. cbn [firstn fold_right]. fring. }
    destruct (X l) as (u & Hu & Eu), (X k) as (v & Hv & Ev). exists u, v.
    split; [exact Hu|]. split; [exact Hv|]. split; [exact Eu|]. split; [exact Ev|].
    rewrite (running_product_end _ _ _ _ _ _ Hu), (running_product_end _ _ _ _ _ _ Hv), Eu, Ev.
    rewrite !row_product_tprod, H. reflexivity.
Qed.
