(** The verifier gets through its arithmetic for all values a proof may contain. *)
From Coq Require Import ZArith List Bool Arith Lia.
From Verif Require Import Base Moduli Field FieldFacts LimbModel LimbSpec Halo2Model SelectorModel SelectorSpec SelectorClaims SerdeModel SerdeSpec DomainModel DomainFacts VkModel PermModel IopModel
  IopSpec IopLagrange IopTotal IopPoly ArithModel KzgModel ShplonkModel TranscriptModel TranscriptFacts EntryModel VerifierModel VerifierSpec VerifierFacts.
Import ListNotations.
Local Open Scope nat_scope.

Lemma at_ok {A} (l : list A) i : i < length l -> exists a, at_ l i = Ok a.
Proof. intros H. unfold at_. destruct (nth_error l i) eqn:E; [eauto|]. apply nth_error_None in E. lia. Qed.
Lemma F2_length {A B} (R : A -> B -> Prop) l m : Forall2 R l m -> length l = length m.
Proof. induction 1; cbn [length]; congruence. Qed.
Lemma combine_app_l {A B} (a : list A) (b : list B) a' b' : length a = length b -> combine (a ++ a') (b ++ b') = combine a b ++ combine a' b'.
Proof. revert b. induction a as [|x a IH]; intros [|y b] L; try discriminate; [reflexivity|]. cbn [app combine]. rewrite IH by (injection L as L; exact L). reflexivity. Qed.
Lemma take_ok n l : n <= length l -> take n l = Some (firstn n l, skipn n l).
Proof. intros H. unfold take. rewrite (proj2 (Nat.leb_le _ _) H). reflexivity. Qed.

Definition all_last (s : list pset) : Prop := forall i p, nth_error s i = Some p -> S i < length s -> ps_last p <> None.
Lemma read_sets_ok : forall n l, 3 * n - (if Nat.eqb n 0 then 0 else 1) <= length l ->
  exists s, read_sets n l = Some (s, skipn (3 * n - (if Nat.eqb n 0 then 0 else 1)) l) /\ length s = n /\ all_last s.
Proof.
  induction n as [|n IH]; intros l H.
  - exists []. repeat split. intros [|i] p E; discriminate.
  - destruct n as [|n].
    + destruct l as [|a [|b l]]; cbn in H; try lia. exists [PSet a b None]. repeat split. intros i p _ L. cbn in L. lia.
    + destruct l as [|a [|b [|c l]]]; cbn [length Nat.eqb] in H; try lia.
      change (read_sets (S (S n)) (a :: b :: c :: l)) with
        (match read_sets (S n) l with Some (s, l) => Some (PSet a b (Some c) :: s, l) | None => None end).
      destruct (IH l) as (s & E & L & A); [cbn [Nat.eqb] in *; lia|]. rewrite E. exists (PSet a b (Some c) :: s). split.
      * replace (3 * S (S n) - (if Nat.eqb (S (S n)) 0 then 0 else 1)) with (3 + (3 * S n - (if Nat.eqb (S n) 0 then 0 else 1))) by (cbn [Nat.eqb]; lia).
        reflexivity.
      * split; [cbn [length]; lia|]. intros [|i] p Ep Li; [injection Ep as <-; discriminate|]. apply (A i p Ep). cbn [length] in Li. lia.
Qed.
Lemma read_lookups_ok : forall n l, 5 * n <= length l -> exists s, read_lookups n l = Some (s, skipn (5 * n) l) /\ length s = n.
Proof.
  induction n as [|n IH]; intros l H; [exists []; auto|].
  destruct l as [|a [|b [|c [|d [|e l]]]]]; cbn [length] in H; try lia. cbn [read_lookups].
  destruct (IH l) as (s & -> & L); [lia|]. exists (LEval a b c d e :: s). split; [|cbn [length]; lia].
  replace (5 * S n) with (5 + 5 * n) by lia. reflexivity.
Qed.
(** evaluations of the right number *)
Record evals_for (v : vkey) (e : evals) : Prop := {
  ef_advice : length (ev_advice e) = length (advice_queries (vk_cs v));
  ef_fixed : length (ev_fixed e) = length (fixed_queries (vk_cs v));
  ef_sigma : length (ev_sigma e) = length (vk_permutation v);
  ef_sets : length (ev_sets e) = sets_count v;
  ef_last : all_last (ev_sets e);
  ef_lookups : length (ev_lookups e) = length (lookups (vk_cs v)) }.
Lemma read_evals_ok v l : length l = scalars_count v -> exists e, read_evals v l = Some (e, []) /\ evals_for v e.
Proof.
  unfold scalars_count. intros H. unfold read_evals.
  set (na := length (advice_queries (vk_cs v))) in *. set (nf := length (fixed_queries (vk_cs v))) in *. set (np := length (vk_permutation v)) in *.
  fold (sets_count v). set (ns := sets_count v) in *. set (nl := length (lookups (vk_cs v))) in *.
  set (three := 3 * ns - (if Nat.eqb ns 0 then 0 else 1)) in *.
  rewrite take_ok by lia. assert (L1 : length (skipn na l) = nf + 1 + np + three + 5 * nl) by (rewrite skipn_length; lia).
  rewrite take_ok by lia. assert (L2 : length (skipn nf (skipn na l)) = 1 + np + three + 5 * nl) by (rewrite skipn_length; lia).
  destruct (skipn nf (skipn na l)) as [|rnd l3]; [cbn in L2; lia|]. cbn [length] in L2. rewrite take_ok by lia.
  assert (L4 : length (skipn np l3) = three + 5 * nl) by (rewrite skipn_length; lia).
  destruct (read_sets_ok ns (skipn np l3)) as (s & -> & Ls & A); [fold three; lia|]. fold three.
  assert (L5 : length (skipn three (skipn np l3)) = 5 * nl) by (rewrite skipn_length; lia).
  destruct (read_lookups_ok nl (skipn three (skipn np l3))) as (lk & -> & Lk); [lia|].
  assert (E5 : skipn (5 * nl) (skipn three (skipn np l3)) = []) by (apply skipn_all2; lia). rewrite E5.
  eexists. split; [reflexivity|]. constructor; cbn [ev_advice ev_fixed ev_sigma ev_sets ev_lookups]; try exact A; try assumption.
  - rewrite firstn_length. lia.
  - rewrite firstn_length. lia.
  - rewrite firstn_length. fold np. lia.
Qed.

Lemma l_i_range_length d x xn rs : length (l_i_range d x xn rs) = length rs.
Proof. unfold l_i_range, batch_invert. rewrite map_length, combine_length, !map_length. lia. Qed.
Lemma zrange_length a b : length (zrange a b) = Z.to_nat (b - a).
Proof. unfold zrange. rewrite map_length, seq_length. reflexivity. Qed.
Lemma l_values_ok v x xn : exists l0 ll lb, l_values v x xn = Ok (l0, ll, lb).
Proof.
  unfold l_values. set (bf := blinding_factors (vk_cs v)). set (ls := l_i_range _ _ _ _).
  assert (L : length ls = 2 + bf) by (unfold ls; rewrite l_i_range_length, zrange_length; lia). rewrite L, Nat.eqb_refl.
  destruct (at_ok ls 0) as (a & ->); [lia|]. cbn [bind]. destruct (at_ok ls (1 + bf)) as (b & ->); [lia|]. cbn [bind]. eauto.
Qed.
Lemma instance_evals_ok v pn insts x : (forall q, In q (instance_queries (vk_cs v)) -> fst q < length insts) ->
  exists l, instance_evals v pn insts x = Ok l /\ length l = length (instance_queries (vk_cs v)).
Proof.
  intros H. unfold instance_evals.
  pose proof (bounds_mono (instance_queries (vk_cs v)) 0 0 ltac:(lia)) as B. fold (rotation_bounds (instance_queries (vk_cs v))) in B.
  destruct (rotation_bounds (instance_queries (vk_cs v))) as [mn mx]. cbn [fst snd] in B. destruct B as (B1 & B2 & B3).
  set (ls := l_i_range _ _ _ _). set (mlen := fold_left Z.max (map lenZ insts) 0%Z) in *.
  pose proof (proj1 (max_fold (map lenZ insts) 0)) as M0. fold mlen in M0.
  assert (L : length ls = Z.to_nat (mlen + Z.abs mn + mx)) by (unfold ls; rewrite l_i_range_length, zrange_length; lia).
  match goal with |- exists l, rmap ?f ?q = Ok l /\ _ => assert (Q : forall a, In a q -> exists b, f a = Ok b) end.
  { intros q I. specialize (H q I). specialize (B3 q I). rewrite (nth_error_nth' insts [] H).
    assert (Hlen : (lenZ (nth (fst q) insts []) <= mlen)%Z) by (apply max_fold, in_map, nth_In, H).
    set (inst := nth (fst q) insts []) in *. unfold lenZ in *. unfold slice, lenZ. change (fe r_pos) with Fr in *.
    assert (Hc : ((0 <=? mx - snd q)%Z && (mx - snd q <=? mx - snd q + Z.of_nat (length inst))%Z &&
      (mx - snd q + Z.of_nat (length inst) <=? Z.of_nat (length ls))%Z)%bool = true) by (rewrite !andb_true_iff, !Z.leb_le, L; lia).
    rewrite Hc. cbn [bind]. unfold inner_product.
    assert (Lp : length (firstn (Z.to_nat (mx - snd q + Z.of_nat (length inst) - (mx - snd q))) (skipn (Z.to_nat (mx - snd q)) ls)) = length inst)
      by (rewrite firstn_length, skipn_length, L; lia).
    change (fe r_pos) with Fr in *. rewrite Lp, Nat.eqb_refl. eauto. }
  destruct (rmap_ok _ _ Q) as (l & E). exists l. split; [exact E|]. apply rmap_inv in E. symmetry. exact (F2_length _ _ _ E).
Qed.

Section Total.
Variables (v : vkey) (K : complete_key v) (insts : list (list Fr)) (inst chs : list Fr) (e : evals).
Hypothesis Hinst : length inst = length (instance_queries (vk_cs v)).
Hypothesis Hchs : length chs = num_challenges (vk_cs v).
Hypothesis He : evals_for v e.

Lemma eval_at_ok ex : registered (vk_cs v) ex -> exists a, eval_at (ev_fixed e) (ev_advice e) inst chs ex = Ok a.
Proof.
  induction ex; cbn [registered]; intros H; unfold eval_at; cbn [evaluate]; try (fold (eval_at (ev_fixed e) (ev_advice e) inst chs ex));
    try (fold (eval_at (ev_fixed e) (ev_advice e) inst chs ex1) (eval_at (ev_fixed e) (ev_advice e) inst chs ex2)).
  - eauto.
  - contradiction.
  - apply at_ok. rewrite (ef_fixed _ _ He). apply nth_error_Some. rewrite H. discriminate.
  - apply at_ok. rewrite (ef_advice _ _ He). apply nth_error_Some. rewrite H. discriminate.
  - apply at_ok. rewrite Hinst. apply nth_error_Some. rewrite H. discriminate.
  - apply at_ok. rewrite Hchs. exact H.
  - destruct (IHex H) as (a & ->). cbn. eauto.
  - destruct (IHex1 (proj1 H)) as (a & ->). destruct (IHex2 (proj2 H)) as (b & ->). cbn. eauto.
  - destruct (IHex1 (proj1 H)) as (a & ->). destruct (IHex2 (proj2 H)) as (b & ->). cbn. eauto.
  - destruct (IHex H) as (a & ->). cbn. eauto.
Qed.
Lemma position_bound {A} (f : A -> bool) l : (exists a, In a l /\ f a = true) -> exists i, position f l = Some i /\ i < length l.
Proof.
  intros (a & I & F). destruct (position_in f l a I F) as (i & E). exists i. split; [exact E|].
  destruct (position_found f l i E) as (b & Eb & _). apply nth_error_Some. rewrite Eb. discriminate.
Qed.
Lemma column_eval_ok col : In col (perm_columns (vk_cs v)) -> exists a, column_eval (vk_cs v) (ev_fixed e) (ev_advice e) inst col = Ok a.
Proof.
  intros I. pose proof (wf_perm _ (ck_cs _ K) _ I) as Q. destruct col as [a|i|i]; cbn [queried column_eval] in *.
  - edestruct (position_bound (fun q : advice_col * Z => acol_eqb (fst q) a && Z.eqb (snd q) cur)) as (j & -> & L).
    + eexists. split; [exact Q|]. cbn [fst snd]. rewrite (proj2 (acol_eqb_iff a a) eq_refl). reflexivity.
    + apply at_ok. rewrite (ef_advice _ _ He). exact L.
  - edestruct (position_bound (fun q : nat * Z => Nat.eqb (fst q) i && Z.eqb (snd q) cur)) as (j & -> & L).
    + eexists. split; [exact Q|]. cbn [fst snd]. rewrite Nat.eqb_refl. reflexivity.
    + apply at_ok. rewrite (ef_fixed _ _ He). exact L.
  - edestruct (position_bound (fun q : nat * Z => Nat.eqb (fst q) i && Z.eqb (snd q) cur)) as (j & -> & L).
    + eexists. split; [exact Q|]. cbn [fst snd]. rewrite Nat.eqb_refl. reflexivity.
    + apply at_ok. rewrite Hinst. exact L.
Qed.
Lemma chunks_in {A} len : forall fuel (l : list A) ch a, In ch (chunks_go fuel len l) -> In a ch -> In a l.
Proof.
  induction fuel as [|f IH]; intros l ch a; cbn [chunks_go]; [intros []|]. destruct l as [|b l]; [intros []|].
  intros [<-|I] Ia; [rewrite <- (firstn_skipn len (b :: l)); apply in_app_iff; auto|].
  rewrite <- (firstn_skipn len (b :: l)). apply in_app_iff. right. eapply IH; eassumption.
Qed.
Lemma perm_products_ok column clen beta gamma x active : forall sets idx cols sigma,
  (forall ch col, In ch cols -> In col ch -> exists a : Fr, column col = Ok a) ->
  exists l, perm_products column clen beta gamma x active idx sets cols sigma = Ok l.
Proof.
  clear. induction sets as [|s sets IH]; intros idx [|c cols] [|sg sigma] H; cbn [perm_products]; eauto.
  destruct (rmap_ok column c (fun a I => H c a (or_introl eq_refl) I)) as (evs & ->). cbn [bind].
  destruct (IH (S idx) cols sigma (fun ch col I J => H ch col (or_intror I) J)) as (l & ->). cbn [bind]. eauto.
Qed.
Lemma combine_tl_nth {A} (l : list A) a b : In (a, b) (combine (tl l) l) -> exists i, nth_error l i = Some b /\ S i < length l.
Proof.
  clear. destruct l as [|x l]; [intros []|]. cbn [tl]. revert x. induction l as [|y l IH]; intros x; [intros []|].
  cbn [combine]. intros [E|I]; [injection E as <- <-; exists 0; split; [reflexivity|cbn; lia]|].
  destruct (IH y I) as (i & E & L). exists (S i). cbn [nth_error length] in *. split; [exact E|lia].
Qed.
Lemma perm_expressions_ok l_0 l_last l_blind beta gamma x : exists l, perm_expressions v e inst l_0 l_last l_blind beta gamma x = Ok l.
Proof.
  unfold perm_expressions. assert (CL : (chunk_len v =? 0)%nat = false). { apply Nat.eqb_neq. unfold chunk_len. pose proof (ck_degree _ K). lia. }
  rewrite CL. unfold perm_links.
  edestruct (rmap_ok (fun sp : pset * pset => match ps_last (snd sp) with Some last => Ok ((ps_eval (fst sp) - last) * l_0)%F | None => Panic end)
    (combine (tl (ev_sets e)) (ev_sets e))) as (links & ->).
  { intros [a b] I. apply combine_tl_nth in I as (i & E & L). pose proof (ef_last _ _ He i b E L) as N. cbn [snd fst]. destruct (ps_last b); [eauto|congruence]. }
  cbn [bind]. edestruct perm_products_ok as (l & ->); [|cbn [bind]; eauto].
  intros ch col I J. apply column_eval_ok. eapply chunks_in; eassumption.
Qed.
Lemma lookup_expressions_ok l_0 l_last l_blind theta beta gamma le arg : In arg (lookups (vk_cs v)) ->
  exists l, lookup_expressions (eval_at (ev_fixed e) (ev_advice e) inst chs) l_0 l_last l_blind theta beta gamma le arg = Ok l.
Proof.
  intros I. unfold lookup_expressions.
  assert (R : forall ex, In ex (fst arg) \/ In ex (snd arg) -> registered (vk_cs v) ex).
  { intros ex J. apply (wf_exprs _ (ck_cs _ K)). right. unfold lookup_exprs. apply in_flat_map. exists arg. rewrite in_app_iff. auto. }
  destruct (rmap_ok _ (fst arg) (fun ex J => eval_at_ok ex (R ex (or_introl J)))) as (ins & ->). cbn [bind].
  destruct (rmap_ok _ (snd arg) (fun ex J => eval_at_ok ex (R ex (or_intror J)))) as (ts & ->). cbn [bind]. eauto.
Qed.
Lemma expressions_ok l_0 l_last l_blind theta beta gamma x : exists l, expressions v inst chs l_0 l_last l_blind theta beta gamma x e = Ok l.
Proof.
  unfold expressions.
  destruct (rmap_ok (eval_at (ev_fixed e) (ev_advice e) inst chs) (concat (gates (vk_cs v)))) as (gs & ->).
  { intros ex I. apply eval_at_ok, (wf_exprs _ (ck_cs _ K)). left. exact I. }
  cbn [bind]. destruct (perm_expressions_ok l_0 l_last l_blind beta gamma x) as (ps & ->). cbn [bind].
  edestruct (rmap_ok (fun la => lookup_expressions (eval_at (ev_fixed e) (ev_advice e) inst chs) l_0 l_last l_blind theta beta gamma (fst la) (snd la))
    (combine (ev_lookups e) (lookups (vk_cs v)))) as (lks & ->).
  { intros [le arg] I. apply in_combine_r in I. apply lookup_expressions_ok, I. }
  cbn [bind]. eauto.
Qed.
Lemma enum_last {A} (l : list A) i a : In (i, a) (tl (rev (enum l))) -> nth_error l i = Some a /\ S i < length l.
Proof.
  clear. unfold enum. destruct l as [|b l' _] using rev_ind; [intros []|].
  rewrite app_length, seq_app. cbn [length Nat.add seq].
  rewrite combine_app_l by (rewrite seq_length; reflexivity). cbn [combine]. rewrite rev_app_distr. cbn [rev app tl].
  rewrite <- in_rev. intros I. change (combine (seq 0 (length l')) l') with (enum l') in I. apply enum_nth in I.
  assert (i < length l') by (apply nth_error_Some; rewrite I; discriminate).
  rewrite nth_error_app1 by lia. split; [exact I|lia].
Qed.
Lemma perm_queries_ok x : exists l, perm_queries v x (ev_sets e) = Ok l /\
  forall o, In o l -> exists i, fst (fst o) = HProduct i /\ i < sets_count v.
Proof.
  unfold perm_queries. cbv zeta.
  match goal with |- context [rmap ?f ?l] => destruct (rmap_ok f l) as (lasts & E) end.
  { intros [i s] I. apply enum_last in I as [E L]. pose proof (ef_last _ _ He i s E L) as N. cbn [snd fst]. destruct (ps_last s); [eauto|congruence]. }
  rewrite E. cbn [bind]. eexists. split; [reflexivity|]. intros o I. apply in_app_iff in I as [I|I].
  - apply in_flat_map in I as ([i s] & I & J). apply enum_nth in I. exists i. split; [destruct J as [<-|[<-|[]]]; reflexivity|].
    rewrite <- (ef_sets _ _ He). apply nth_error_Some. rewrite I. discriminate.
  - apply rmap_inv in E. destruct (Forall2_in_r _ _ _ _ E I) as ([i s] & J & Eo). apply enum_last in J as [J L]. exists i. cbn [snd fst] in Eo.
    destruct (ps_last s); [|discriminate]. injection Eo as <-. split; [reflexivity|]. rewrite <- (ef_sets _ _ He). lia.
Qed.
End Total.

(** the openings refer to commitments that exist *)
Definition refers (v : vkey) (h : handle) : Prop :=
  match h with
  | HAdvice i => i < num_advice (vk_cs v)
  | HFixed i => i < num_fixed (vk_cs v)
  | HSigma i => i < length (vk_permutation v)
  | HProduct i => i < sets_count v
  | HLookupProduct i | HLookupInput i | HLookupTable i => i < length (lookups (vk_cs v))
  | HQuotient | HRandom => True
  end.
Theorem openings_total v pn insts chs theta beta gamma y x e : complete_key v -> length insts = num_instance (vk_cs v) ->
  length chs = num_challenges (vk_cs v) -> evals_for v e -> pow_vartime x pn <> f1 ->
  exists ops, verify_openings v pn insts chs theta beta gamma y x e = VOpen ops /\ forall o, In o ops -> refers v (fst (fst o)).
Proof.
  intros K HI HC He Hx. unfold verify_openings. rewrite HI, Nat.eqb_refl. cbn [negb].
  destruct (instance_evals_ok v pn insts x) as (inst & -> & LI). { intros q I. rewrite HI. apply (wf_instance _ (ck_cs _ K)), I. }
  cbn [bind]. destruct (l_values_ok v x (pow_vartime x pn)) as (l0 & ll & lb & ->). cbn [bind].
  destruct (expressions_ok v K inst chs e LI HC He l0 ll lb theta beta gamma x) as (es & ->). cbn [bind].
  unfold expected_h, finvert. rewrite (proj2 (feqb_neq _ _) (fsub_nz _ _ Hx)). cbn [bind].
  destruct (perm_queries_ok v inst chs e LI HC He x) as (pq & -> & Rp). cbn [bind].
  match goal with |- context [bind (rmap ?f (enum (advice_queries ?c))) _] => destruct (rmap_ok f (enum (advice_queries c))) as (aq & Ea) end.
  { intros [i q] I. apply enum_nth in I. cbn [fst snd]. destruct (at_ok (ev_advice e) i) as (a & ->); [|cbn [bind]; eauto].
    rewrite (ef_advice _ _ He). apply nth_error_Some. rewrite I. discriminate. }
  rewrite Ea. cbn [bind].
  match goal with |- context [bind (rmap ?f (enum (fixed_queries ?c))) _] => destruct (rmap_ok f (enum (fixed_queries c))) as (fq & Ef) end.
  { intros [i q] I. apply enum_nth in I. cbn [fst snd]. destruct (at_ok (ev_fixed e) i) as (a & ->); [|cbn [bind]; eauto].
    rewrite (ef_fixed _ _ He). apply nth_error_Some. rewrite I. discriminate. }
  rewrite Ef. cbn [bind]. eexists. split; [reflexivity|]. intros o I. rewrite !in_app_iff in I. destruct I as [I|[I|[I|[I|[I|I]]]]].
  - apply rmap_inv in Ea. destruct (Forall2_in_r _ _ _ _ Ea I) as ([i q] & J & Eo). apply enum_nth in J. cbn [fst snd] in Eo.
    destruct (at_ (ev_advice e) i); [|discriminate]. injection Eo as <-. cbn [fst refers]. apply (ck_advice _ K). eapply nth_error_In, J.
  - destruct (Rp o I) as (i & -> & L). exact L.
  - apply in_flat_map in I as ([i le] & I & J). apply enum_nth in I.
    assert (Li : i < length (lookups (vk_cs v))) by (rewrite <- (ef_lookups _ _ He); apply nth_error_Some; rewrite I; discriminate).
    cbn [lookup_queries] in J. destruct J as [<-|[<-|[<-|[<-|[<-|[]]]]]]; exact Li.
  - apply rmap_inv in Ef. destruct (Forall2_in_r _ _ _ _ Ef I) as ([i q] & J & Eo). apply enum_nth in J. cbn [fst snd] in Eo.
    destruct (at_ (ev_fixed e) i); [|discriminate]. injection Eo as <-. cbn [fst refers]. apply (wf_fixed _ (ck_cs _ K)). eapply nth_error_In, J.
  - apply in_map_iff in I as ([i s] & <- & I). apply enum_nth in I. cbn [fst refers]. rewrite <- (ef_sigma _ _ He).
    apply nth_error_Some. rewrite I. discriminate.
  - destruct I as [<-|[<-|[]]]; exact Coq.Init.Logic.I.
Qed.

(** and are at the point [x] moved along the domain *)
Lemma rotate_none d x : rotate_omega d x 0 = x.
Proof. unfold rotate_omega. change (0 <=? 0)%Z with true. cbv iota. rewrite pow_vartime_is by lia. change (LimbSpec.fpow (d_omega d) 0) with (@f1 r_pos). fring. Qed.
Theorem openings_rotated v pn insts chs theta beta gamma y x e ops : verify_openings v pn insts chs theta beta gamma y x e = VOpen ops ->
  forall o, In o ops -> exists t, snd (fst o) = rotate_omega (vk_domain v) x t.
Proof.
  unfold verify_openings. destruct (negb _); [discriminate|]. destruct (instance_evals v pn insts x) as [inst|]; [|discriminate]. cbn [bind].
  destruct (l_values v x (pow_vartime x pn)) as [[[l0 ll] lb]|]; [|discriminate]. cbn [bind].
  destruct (expressions _ _ _ _ _ _ _ _ _ _ _) as [es|]; [|discriminate]. cbn [bind]. destruct (expected_h _ _ _) as [h|]; [|discriminate]. cbn [bind].
  destruct (perm_queries v x (ev_sets e)) as [pq|] eqn:Ep; [|discriminate]. cbn [bind].
  match goal with |- context [bind (rmap ?f (enum (advice_queries ?c))) _] => destruct (rmap f (enum (advice_queries c))) as [aq|] eqn:Ea; [|discriminate] end. cbn [bind].
  match goal with |- context [bind (rmap ?f (enum (fixed_queries ?c))) _] => destruct (rmap f (enum (fixed_queries c))) as [fq|] eqn:Ef; [|discriminate] end. cbn [bind].
  intros H. assert (EO : ops = aq ++ pq ++ flat_map (lookup_queries v x) (enum (ev_lookups e)) ++ fq ++
    map (fun s : nat * Fr => (HSigma (fst s), x, snd s)) (enum (ev_sigma e)) ++ [(HQuotient, x, h); (HRandom, x, ev_random e)]) by (injection H; auto).
  subst ops. clear H. assert (X0 : exists t, x = rotate_omega (vk_domain v) x t) by (exists 0%Z; symmetry; apply rotate_none).
  intros o I. rewrite !in_app_iff in I. destruct I as [I|[I|[I|[I|[I|I]]]]].
  - apply rmap_inv in Ea. destruct (Forall2_in_r _ _ _ _ Ea I) as ([i q] & J & Eo). cbn [fst snd] in Eo.
    destruct (at_ (ev_advice e) i); [|discriminate]. injection Eo as <-. cbn [fst snd]. eauto.
  - unfold perm_queries in Ep. cbv zeta in Ep. match type of Ep with context [rmap ?f ?l] => destruct (rmap f l) as [lasts|] eqn:E; [|discriminate] end.
    cbn [bind] in Ep. apply (f_equal (fun r => match r with Ok l => l | Panic => [] end)) in Ep. cbv beta iota in Ep. subst pq.
    apply in_app_iff in I as [I|I].
    + apply in_flat_map in I as ([i s] & _ & J). destruct J as [<-|[<-|[]]]; cbn [fst snd]; eauto.
    + apply rmap_inv in E. destruct (Forall2_in_r _ _ _ _ E I) as ([i s] & J & Eo). cbn [snd fst] in Eo.
      destruct (ps_last s); [|discriminate]. injection Eo as <-. cbn [fst snd]. eauto.
  - apply in_flat_map in I as ([i le] & _ & J). cbn [lookup_queries] in J. destruct J as [<-|[<-|[<-|[<-|[<-|[]]]]]]; cbn [fst snd]; eauto.
  - apply rmap_inv in Ef. destruct (Forall2_in_r _ _ _ _ Ef I) as ([i q] & J & Eo). cbn [fst snd] in Eo.
    destruct (at_ (ev_fixed e) i); [|discriminate]. injection Eo as <-. cbn [fst snd]. eauto.
  - apply in_map_iff in I as ([i s] & <- & I). exact X0.
  - destruct I as [<-|[<-|[]]]; exact X0.
Qed.
