(** A proof is accepted exactly when the constraints, combined by [y], are the
    quotient times X^n - 1 at the evaluation point. *)
From Coq Require Import ZArith List Arith Lia Bool.
From Verif Require Import Base ListFacts Moduli Field FieldFacts LimbSpec LimbField LimbConst PolyFacts Halo2Model SelectorModel
  PermModel PermFacts SelectorSpec SelectorClaims DomainModel DomainSpec DomainFacts VkModel IopModel IopPoly IopRows IopSpec IopLagrange IopTotal.
Import ListNotations.
Local Open Scope F_scope.

Lemma take_inv n l a b : take n l = Some (a, b) -> length a = n.
Proof. unfold take. destruct (Nat.leb_spec n (length l)) as [L|L]; [|discriminate]. intros [= <- _]. rewrite firstn_length. change (fe r_pos) with Fr in *. lia. Qed.
Lemma read_sets_inv n : forall l s r, read_sets n l = Some (s, r) -> length s = n /\
  forall i a, nth_error s i = Some a -> if (S i <? n)%nat then exists e, ps_last a = Some e else ps_last a = None.
Proof.
  induction n as [|n IH]; intros l s r E; cbn [read_sets] in E.
  { injection E as <- _. split; [reflexivity|]. intros [|i] a X; discriminate. }
  destruct n as [|n].
  - destruct l as [|a [|b l]]; try discriminate. injection E as <- _. split; [reflexivity|].
    intros [|i] x X; [|destruct i; discriminate]. injection X as <-. reflexivity.
  - destruct l as [|a [|b [|e l]]]; try discriminate.
    destruct (read_sets (S n) l) as [[s' r']|] eqn:E2; [|discriminate]. injection E as <- _.
    destruct (IH _ _ _ E2) as [L H]. split; [cbn [length]; rewrite L; reflexivity|].
    intros [|i] x X; cbn [nth_error] in X.
    + injection X as <-. eexists. reflexivity.
    + specialize (H i x X). change (S (S i) <? S (S n))%nat with (S i <? S n)%nat. exact H.
Qed.
Lemma read_lookups_inv n : forall l s r, read_lookups n l = Some (s, r) -> length s = n.
Proof.
  induction n as [|n IH]; intros l s r E; cbn [read_lookups] in E; [injection E as <- _; reflexivity|].
  do 5 (destruct l as [|? l]; [discriminate|]). destruct (read_lookups n l) as [[s' r']|] eqn:E2; [|discriminate].
  injection E as <- _. cbn [length]. rewrite (IH _ _ _ E2). reflexivity.
Qed.
Lemma read_evals_inv v l e r : read_evals v l = Some (e, r) ->
  length (ev_advice e) = length (advice_queries (vk_cs v)) /\ length (ev_fixed e) = length (fixed_queries (vk_cs v)) /\
  length (ev_sigma e) = length (vk_permutation v) /\
  (length (ev_sets e) = length (chunks (chunk_len v) (perm_columns (vk_cs v))) /\
   forall i a, nth_error (ev_sets e) i = Some a ->
     if (S i <? length (chunks (chunk_len v) (perm_columns (vk_cs v))))%nat then exists x, ps_last a = Some x else ps_last a = None) /\
  length (ev_lookups e) = length (lookups (vk_cs v)).
Proof.
  unfold read_evals. intros E.
  destruct (take _ l) as [[adv l1]|] eqn:E1; [|discriminate].
  destruct (take _ l1) as [[fx l2]|] eqn:E2; [|discriminate].
  destruct l2 as [|rnd l2]; [discriminate|].
  destruct (take _ l2) as [[sg l3]|] eqn:E3; [|discriminate].
  destruct (read_sets _ l3) as [[st l4]|] eqn:E4; [|discriminate].
  destruct (read_lookups _ l4) as [[lk l5]|] eqn:E5; [|discriminate].
  injection E as <- _. cbn [ev_advice ev_fixed ev_sigma ev_sets ev_lookups].
  apply take_inv in E1, E2, E3. apply read_sets_inv in E4. apply read_lookups_inv in E5. auto.
Qed.

Lemma bind_inv {A B} (x : res A) (f : A -> res B) b : bind x f = Ok b -> exists a, x = Ok a /\ f a = Ok b.
Proof. destruct x; [|discriminate]. intros E. eexists. split; [reflexivity|exact E]. Qed.
Lemma rmap_in {A B} (f : A -> res B) l l' a : rmap f l = Ok l' -> In a l -> exists b, f a = Ok b /\ In b l'.
Proof.
  intros E I. apply rmap_inv in E. destruct (Forall2_in_l _ _ _ _ E I) as (b & Ib & Eb). exists b. auto.
Qed.
Lemma at_inv {A} (l : list A) i a : at_ l i = Ok a -> nth_error l i = Some a.
Proof. unfold at_. destruct (nth_error l i); [congruence|discriminate]. Qed.

Lemma swap3 (a b e : Fr) : a * b * e = a * (e * b).
Proof. fring. Qed.
Lemma one_r (a : Fr) : a * f1 = a.
Proof. fring. Qed.
Lemma undo_inverse (a b : Fr) : b <> f0 -> a * finv b * b = a.
Proof. intros N. rewrite swap3, fmul_finv by exact N. apply one_r. Qed.

Section Accept.
Variables (v : vkey) (j k : Z) (n : nat).
Hypothesis Hk : (0 <= k)%Z.
Hypothesis Hn : Z.of_nat n = (2 ^ k)%Z.
Hypothesis Hd : domain_for j k (vk_domain v).
Local Notation d := (vk_domain v).
Local Notation c := (vk_cs v).
Local Notation m := (length (perm_columns c)).
Local Notation rot := (rotate_omega d).
Hypothesis Hrows : (minimum_rows c <= n)%nat.
Hypothesis Hwf : well_formed c.
Hypothesis Hdeg : vk_degree v = cs_degree c.
Hypothesis Hperm : length (vk_permutation v) = m.
Variables (insts : list (list Fr)) (chs : list Fr) (P : committed) (theta beta gamma : Fr).
Hypothesis Hchs : length chs = num_challenges c.
Local Notation E_ := (evalsx v P).
Local Notation Fs := (all_fs v n insts chs P theta beta gamma).
Local Notation s := (length (JJ v)).
Local Notation lg := (lag n (d_omega_inv d) (d_barycentric_weight d)).

Lemma expected_inv y xn es h : expected_h y xn es = Ok h -> xn <> f1 /\ compress y es = h * (xn - f1).
Proof.
  unfold expected_h, finvert. fold (compress y es). destruct (feqb (xn - f1) f0) eqn:Z; [discriminate|].
  apply feqb_neq in Z. intros E. assert (X : h = compress y es * finv (xn - f1)) by congruence. split.
  - intros ->. apply Z. fring.
  - rewrite X. symmetry. apply undo_inverse, Z.
Qed.
Lemma expected_ok y xn es : xn <> f1 -> exists h, expected_h y xn es = Ok h /\ compress y es = h * (xn - f1).
Proof.
  intros N. unfold expected_h, finvert. fold (compress y es). destruct (feqb (xn - f1) f0) eqn:Z.
  - apply feqb_eq in Z. apply fsub_eq in Z. contradiction.
  - apply feqb_neq in Z. eexists. split; [reflexivity|].
    symmetry. apply undo_inverse, Z.
Qed.

Lemma evals_are x e sc rest ops y insts0 :
  read_evals v sc = Some (e, rest) ->
  verify_openings v (2 ^ k) insts0 chs theta beta gamma y x e = VOpen ops ->
  (forall h pt val, In (h, pt, val) ops -> peval (poly_of P (fpow x (2 ^ k)%Z) h) pt = val) ->
  e = E_ x.
Proof.
  intros HR HV HO. apply read_evals_inv in HR. destruct HR as (LA & LF & LS & (LZ & HZ) & LL).
  rewrite (sets_count v) in LZ, HZ. rewrite Hperm in LS.
  unfold verify_openings in HV. destruct (negb _); [discriminate|].
  match type of HV with match ?r with _ => _ end = _ => destruct r as [l|] eqn:ER; [|discriminate] end.
  injection HV as ->.
  apply bind_inv in ER. destruct ER as (inst & _ & ER).
  apply bind_inv in ER. destruct ER as ([[l_0 l_last] l_blind] & _ & ER).
  apply bind_inv in ER. destruct ER as (es & _ & ER).
  apply bind_inv in ER. destruct ER as (h & _ & ER).
  apply bind_inv in ER. destruct ER as (pq & EP & ER).
  apply bind_inv in ER. destruct ER as (aq & EA & ER).
  apply bind_inv in ER. destruct ER as (fq & EF & ER).
  assert (EO : ops = aq ++ pq ++ flat_map (lookup_queries v x) (enum (ev_lookups e)) ++ fq ++
    map (fun s : nat * Fr => (HSigma (fst s), x, snd s)) (enum (ev_sigma e)) ++
    [(HQuotient, x, h); (HRandom, x, ev_random e)]) by congruence.
  clear ER. subst ops.
  assert (OA : forall o, In o aq -> peval (poly_of P (fpow x (2 ^ k)%Z) (fst (fst o))) (snd (fst o)) = snd o).
  { intros [[a b] e0] I. apply HO. apply in_app_iff. left. exact I. }
  assert (OP : forall o, In o pq -> peval (poly_of P (fpow x (2 ^ k)%Z) (fst (fst o))) (snd (fst o)) = snd o).
  { intros [[a b] e0] I. apply HO. rewrite !in_app_iff. auto. }
  assert (OL : forall o, In o (flat_map (lookup_queries v x) (enum (ev_lookups e))) -> peval (poly_of P (fpow x (2 ^ k)%Z) (fst (fst o))) (snd (fst o)) = snd o).
  { intros [[a b] e0] I. apply HO. rewrite !in_app_iff. auto. }
  assert (OF : forall o, In o fq -> peval (poly_of P (fpow x (2 ^ k)%Z) (fst (fst o))) (snd (fst o)) = snd o).
  { intros [[a b] e0] I. apply HO. rewrite !in_app_iff. auto. }
  assert (OS : forall i a, nth_error (ev_sigma e) i = Some a -> peval (cm_sigma P i) x = a).
  { intros i a I. apply (HO (HSigma i)). rewrite !in_app_iff. right. right. right. right. left.
    apply in_map_iff. exists (i, a). split; [reflexivity|]. apply enum_nth, I. }
  assert (OR : peval (cm_random P) x = ev_random e).
  { apply (HO HRandom). rewrite !in_app_iff. right. right. right. right. right. right. left. reflexivity. }
  clear HO.
  (* advice *)
  assert (A1 : ev_advice e = advx v P x).
  { apply nth_ext_eq; [unfold advx; rewrite map_length; exact LA|]. intros i a X. unfold advx in X. rewrite nth_error_map' in X.
    destruct (nth_error (advice_queries c) i) as [q|] eqn:Eq; [|discriminate]. cbn [option_map] in X. injection X as <-.
    destruct (rmap_in _ _ _ (i, q) EA) as (o & Eo & Io); [apply enum_nth, Eq|]. cbn [fst snd] in Eo.
    apply bind_inv in Eo. destruct Eo as (ev & E1 & E2). apply at_inv in E1. rewrite E1. f_equal.
    assert (Ho : o = (HAdvice (ac_index (fst q)), rot x (snd q), ev)) by congruence. subst o.
    symmetry. apply (OA _ Io). }
  assert (F1 : ev_fixed e = fixx v P x).
  { apply nth_ext_eq; [unfold fixx; rewrite map_length; exact LF|]. intros i a X. unfold fixx in X. rewrite nth_error_map' in X.
    destruct (nth_error (fixed_queries c) i) as [q|] eqn:Eq; [|discriminate]. cbn [option_map] in X. injection X as <-.
    destruct (rmap_in _ _ _ (i, q) EF) as (o & Eo & Io); [apply enum_nth, Eq|]. cbn [fst snd] in Eo.
    apply bind_inv in Eo. destruct Eo as (ev & E1 & E2). apply at_inv in E1. rewrite E1. f_equal.
    assert (Ho : o = (HFixed (fst q), rot x (snd q), ev)) by congruence. subst o.
    symmetry. apply (OF _ Io). }
  assert (S1 : ev_sigma e = map (fun i => sf P i x) (seq 0 m)).
  { apply nth_ext_eq; [rewrite map_length, seq_length; exact LS|]. intros i a X. rewrite nth_error_map' in X.
    destruct (nth_error (seq 0 m) i) as [q|] eqn:Eq; [|discriminate]. cbn [option_map] in X. injection X as <-.
    assert (Hi : (i < m)%nat) by (rewrite <- (seq_length m 0); apply nth_error_Some; congruence).
    rewrite (nth_error_nth' _ 0%nat) in Eq by (rewrite seq_length; exact Hi). rewrite seq_nth in Eq by exact Hi. injection Eq as <-.
    destruct (nth_error (ev_sigma e) i) as [a|] eqn:Ea.
    - apply OS in Ea. unfold sf. rewrite <- Ea. reflexivity.
    - apply nth_error_None in Ea. change (fe r_pos) with Fr in *. lia. }
  assert (Z1 : ev_sets e = map (setx v P x) (seq 0 s)).
  { unfold perm_queries in EP. apply bind_inv in EP. destruct EP as (lasts & EL & EP).
    assert (EQ : pq = flat_map (fun s : nat * pset => [(HProduct (fst s), x, ps_eval (snd s)); (HProduct (fst s), rot x next, ps_next (snd s))])
      (enum (ev_sets e)) ++ lasts) by congruence. clear EP. subst pq.
    apply nth_ext_eq; [rewrite map_length, seq_length; exact LZ|]. intros i a X. rewrite nth_error_map' in X.
    destruct (nth_error (seq 0 s) i) as [q|] eqn:Eq; [|discriminate]. cbn [option_map] in X. injection X as <-.
    assert (Hi : (i < s)%nat) by (rewrite <- (seq_length s 0); apply nth_error_Some; congruence).
    rewrite (nth_error_nth' _ 0%nat) in Eq by (rewrite seq_length; exact Hi). rewrite seq_nth in Eq by exact Hi. injection Eq as <-.
    destruct (nth_error (ev_sets e) i) as [a|] eqn:Ea; [|apply nth_error_None in Ea; lia].
    f_equal. pose proof (HZ i a Ea) as Hlast.
    assert (I : In (i, a) (enum (ev_sets e))) by (apply enum_nth, Ea).
    assert (X1 : zf P i x = ps_eval a).
    { apply (OP (HProduct i, x, ps_eval a)). apply in_app_iff. left. apply in_flat_map. exists (i, a). split; [exact I|]. left. reflexivity. }
    assert (X2 : zf P i (rot x next) = ps_next a).
    { apply (OP (HProduct i, rot x next, ps_next a)). apply in_app_iff. left. apply in_flat_map. exists (i, a). split; [exact I|]. right. left. reflexivity. }
    unfold setx. destruct a as [ae an al]. cbn [ps_eval ps_next ps_last] in *. subst ae an. f_equal.
    change (0 + i)%nat with i. destruct (Nat.ltb_spec (S i) s) as [L|L]; [|exact Hlast].
    destruct Hlast as (le & ->). f_equal. symmetry.
    assert (IT : In (i, {| ps_eval := zf P i x; ps_next := zf P i (rot x next); ps_last := Some le |}) (tl (rev (enum (ev_sets e))))).
    { apply in_rev in I. assert (LE : length (rev (enum (ev_sets e))) = s) by (rewrite rev_length, enum_length; exact LZ).
      destruct (rev (enum (ev_sets e))) as [|[i' a'] tl'] eqn:Er; [contradiction|]. cbn [tl]. destruct I as [I|I]; [|exact I].
      exfalso. injection I as -> ->.
      assert (Er2 : enum (ev_sets e) = rev tl' ++ [(i, {| ps_eval := zf P i x; ps_next := zf P i (rot x next); ps_last := Some le |})]).
      { rewrite <- (rev_involutive (enum (ev_sets e))), Er. reflexivity. }
      assert (Hm : map fst (enum (ev_sets e)) = seq 0 s).
      { unfold enum. rewrite <- LZ. generalize (ev_sets e). clear. intros l. generalize 0%nat as b. induction l as [|a l IH]; intros b; [reflexivity|].
        cbn [length seq combine map fst]. rewrite IH. reflexivity. }
      rewrite Er2, map_app in Hm. cbn [map fst] in Hm. cbn [length] in LE.
      assert (LN : length (map fst (rev tl')) = (s - 1)%nat) by (rewrite map_length, rev_length; lia).
      apply (f_equal (fun l => nth (s - 1) l 0%nat)) in Hm. rewrite app_nth2 in Hm by lia. rewrite LN, Nat.sub_diag in Hm. cbn [nth] in Hm.
      rewrite seq_nth in Hm by lia. lia. }
    destruct (rmap_in _ _ _ _ EL IT) as (o & Eo & Io). cbn [fst snd ps_last] in Eo.
    assert (Ho : o = (HProduct i, rot x (LAST v), le)) by (unfold LAST; congruence). subst o.
    apply (OP (HProduct i, rot x (LAST v), le)). apply in_app_iff. right. exact Io. }
  assert (L1 : ev_lookups e = map (lkx v P x) (seq 0 (length (lookups c)))).
  { apply nth_ext_eq; [rewrite map_length, seq_length; exact LL|]. intros i a X. rewrite nth_error_map' in X.
    destruct (nth_error (seq 0 (length (lookups c))) i) as [q|] eqn:Eq; [|discriminate]. cbn [option_map] in X. injection X as <-.
    assert (Hi : (i < length (lookups c))%nat) by (rewrite <- (seq_length (length (lookups c)) 0); apply nth_error_Some; congruence).
    rewrite (nth_error_nth' _ 0%nat) in Eq by (rewrite seq_length; exact Hi). rewrite seq_nth in Eq by exact Hi. injection Eq as <-.
    destruct (nth_error (ev_lookups e) i) as [a|] eqn:Ea; [|apply nth_error_None in Ea; lia].
    f_equal. assert (I : In (i, a) (enum (ev_lookups e))) by (apply enum_nth, Ea).
    assert (Q : forall o, In o (lookup_queries v x (i, a)) -> peval (poly_of P (fpow x (2 ^ k)%Z) (fst (fst o))) (snd (fst o)) = snd o).
    { intros o Io. apply OL. apply in_flat_map. exists (i, a). auto. }
    destruct a as [p pn ai aiv t]. unfold lkx. change (0 + i)%nat with i. f_equal; symmetry.
    - apply (Q (HLookupProduct i, x, p)). left. reflexivity.
    - apply (Q (HLookupProduct i, rot x next, pn)). do 4 right. left. reflexivity.
    - apply (Q (HLookupInput i, x, ai)). do 1 right. left. reflexivity.
    - apply (Q (HLookupInput i, rot x prev, aiv)). do 3 right. left. reflexivity.
    - apply (Q (HLookupTable i, x, t)). do 2 right. left. reflexivity. }
  destruct e as [ea ef er es0 ez el]. cbn [ev_advice ev_fixed ev_random ev_sigma ev_sets ev_lookups] in *.
  unfold evalsx. subst. reflexivity.
Qed.

Definition quotient_at (x : Fr) : Fr := peval (poly_of P (fpow x (2 ^ k)%Z) HQuotient) x.
Theorem accepts_inv y x : accepts v (2 ^ k) insts chs theta beta gamma y x P ->
  length insts = num_instance c /\ fpow x (2 ^ k)%Z <> f1 /\
  compress y (map (fun f => f x) Fs) = quotient_at x * (fpow x (2 ^ k)%Z - f1).
Proof.
  intros (sc & e & rest & ops & HR & HV & HO). pose proof (evals_are _ _ _ _ _ _ _ HR HV HO). subst e.
  unfold verify_openings in HV. destruct (negb _) eqn:EI; [discriminate|]. apply negb_false_iff, Nat.eqb_eq in EI.
  match type of HV with match ?r with _ => _ end = _ => destruct r as [l|] eqn:ER; [|discriminate] end.
  injection HV as ->.
  apply bind_inv in ER. destruct ER as (inst & EIn & ER).
  apply bind_inv in ER. destruct ER as ([[l_0 l_last] l_blind] & EL & ER).
  apply bind_inv in ER. destruct ER as (es & EE & ER).
  apply bind_inv in ER. destruct ER as (h & EH & ER).
  apply bind_inv in ER. destruct ER as (pq & EP & ER).
  apply bind_inv in ER. destruct ER as (aq & EA & ER).
  apply bind_inv in ER. destruct ER as (fq & EF & ER).
  assert (OH : quotient_at x = h).
  { unfold quotient_at. apply HO. match type of ER with Ok ?l = _ => assert (X : ops = l) by congruence; rewrite X end.
    rewrite !in_app_iff. do 5 right. left. reflexivity. }
  rewrite !pow_vartime_is in * by (apply Z.pow_nonneg; lia).
  destruct (expected_inv _ _ _ _ EH) as [N EQ].
  rewrite (instance_evals_are d j k n Hk Hn Hd v eq_refl insts x N) in EIn.
  2:{ intros q Iq. rewrite EI. apply (wf_instance _ Hwf _ Iq). }
  rewrite (l_values_are d j k n Hk Hn Hd v eq_refl Hrows x N) in EL.
  assert (X : inst = instx v n insts x) by (unfold instx; congruence). subst inst.
  assert (X : (l_0, l_last, l_blind) = (lg 0 x, lg (usable_rows n c) x, lblind d n v x)) by congruence.
  injection X as -> -> ->.
  rewrite (expressions_are v n Hwf Hdeg insts chs P theta beta gamma Hchs x) in EE.
  assert (X : es = map (fun f => f x) Fs) by congruence. subst es.
  split; [exact EI|]. split; [exact N|]. rewrite OH. exact EQ.
Qed.
End Accept.
