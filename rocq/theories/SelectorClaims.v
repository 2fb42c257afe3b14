(** Selector compression: whole-system claims. *)
From Coq Require Import ZArith List Bool Arith Lia Permutation.
From Verif Require Import Base ListFacts Moduli Field FieldFacts Halo2Model CircuitFacts.
From Verif Require Import SelectorModel SelectorSpec SelectorFacts SubstFacts.
Import ListNotations.

(** ** Columns *)
Definition with_fixed (c : cs) (nf : nat) (fq : list (nat * Z)) : cs :=
  mkCs nf (num_advice c) (num_instance c) (num_selectors c) (num_challenges c)
    (advice_phases c) (challenge_phases c) (gates c) (advice_queries c)
    (num_advice_queries c) (instance_queries c) fq (perm_columns c) (lookups c) (selector_map c).
Lemma position_found {A} (f : A -> bool) l i : position f l = Some i ->
  exists x, nth_error l i = Some x /\ f x = true.
Proof.
  revert i. induction l as [|x l IH]; intros i H; [discriminate|]. simpl in H.
  destruct (f x) eqn:E; [injection H as <-; exists x; auto|].
  destruct (position f l) as [j|]; [|discriminate]. injection H as <-. apply IH. reflexivity.
Qed.
Lemma alloc_one c cols : exists j fq,
  alloc_column (c, cols) =
    Ok (EFixed (Query j (num_fixed c) cur),
        (with_fixed c (S (num_fixed c)) (fixed_queries c ++ fq), cols ++ [num_fixed c])) /\
  nth_error (fixed_queries c ++ fq) j = Some (num_fixed c, cur) /\
  forall q, In q fq -> q = (num_fixed c, cur).
Proof.
  unfold alloc_column, fixed_column, query_fixed_index. cbn [bind fixed_queries].
  destruct (position _ _) as [j|] eqn:E; cbn [bind].
  - apply position_found in E as ([x y] & N & B). cbn [fst snd] in B.
    apply andb_true_iff in B as [B1 B2]. apply Nat.eqb_eq in B1. apply Z.eqb_eq in B2. subst x y.
    exists j, []. rewrite app_nil_r. split; [reflexivity|]. split; [exact N|intros ? []].
  - exists (length (fixed_queries c)), [(num_fixed c, cur)]. split; [reflexivity|].
    rewrite nth_error_app2, Nat.sub_diag by lia. split; [reflexivity|]. intros q [<-|[]]. reflexivity.
Qed.
Lemma alloc_succeeds : succeeds alloc_column.
Proof. intros [c cols]. destruct (alloc_one c cols) as (j & fq & E & _). eauto. Qed.
Lemma emits_columns k s qs asgs s' : emits alloc_column k s qs asgs s' ->
  exists fq, fst s' = with_fixed (fst s) (num_fixed (fst s) + length qs) (fixed_queries (fst s) ++ fq) /\
    snd s' = snd s ++ seq (num_fixed (fst s)) (length qs) /\
    (forall i q, nth_error qs i = Some q -> exists j, q = EFixed (Query j (num_fixed (fst s) + i) cur) /\
      nth_error (fixed_queries (fst s')) j = Some (num_fixed (fst s) + i, cur)) /\
    forall q, In q fq -> fst q < num_fixed (fst s').
Proof.
  induction 1 as [k [c cols]|k [c cols] e s1 qs block asgs s' HA HB HF HE IH]; cbn [fst snd] in *.
  - exists []. rewrite Nat.add_0_r, !app_nil_r. split; [destruct c; reflexivity|]. split; [reflexivity|].
    split; [intros [|i] q; discriminate|intros ? []].
  - destruct (alloc_one c cols) as (j & fq & E & N & NQ). rewrite E in HA. injection HA as <- <-.
    destruct IH as (fq' & E1 & E2 & E3 & E4). cbn [fst snd with_fixed num_fixed fixed_queries] in *.
    exists (fq ++ fq'). cbn [length seq]. split; [|split; [|split]].
    + rewrite E1. unfold with_fixed. cbn. rewrite <- app_assoc. f_equal. lia.
    + rewrite E2, <- app_assoc. reflexivity.
    + intros [|i] q Hq; cbn [nth_error] in Hq.
      * injection Hq as <-. exists j. rewrite Nat.add_0_r. split; [reflexivity|].
        rewrite E1. cbn [with_fixed fixed_queries]. rewrite nth_error_app1; [exact N|].
        apply nth_error_Some. congruence.
      * destruct (E3 i q Hq) as (j' & -> & N'). exists j'.
        replace (num_fixed c + S i) with (S (num_fixed c) + i) by lia. auto.
    + intros q I. apply in_app_iff in I as [I|I]; [|apply E4, I].
      apply NQ in I. subst q. rewrite E1. cbn [fst with_fixed num_fixed]. lia.
Qed.

(** ** Degrees *)
Lemma nth_upd_nat (l : list nat) i j v : i < length l ->
  nth j (upd l i v) 0 = if Nat.eqb j i then v else nth j l 0.
Proof.
  revert i j. induction l as [|x l IH]; intros [|i] [|j] H; simpl in *; try lia; auto.
  apply IH. lia.
Qed.
Lemma sel_degrees_ok : forall polys ds,
  (forall p, In p polys -> well_built p = true /\ forall s, In s (selectors_in p) -> sel_index s < length ds) ->
  exists ds', sel_degrees polys ds = Ok ds' /\ length ds' = length ds /\
    (forall i, nth i ds 0 <= nth i ds' 0) /\
    (forall p s, In p polys -> simples p = [s] -> degree p <= nth (sel_index s) ds' 0) /\
    (forall i m, nth i ds 0 <= m -> (forall p, In p polys -> degree p <= m) -> nth i ds' 0 <= m) /\
    (forall i, nth i ds 0 = 0 -> (forall p s, In p polys -> In s (simples p) -> sel_index s <> i) ->
       nth i ds' 0 = 0).
Proof.
  induction polys as [|p polys IH]; intros ds H.
  - exists ds. split; [reflexivity|]. split; [reflexivity|]. split; [auto|]. split; [intros ? ? []|]. auto.
  - destruct (H p (or_introl eq_refl)) as [W B]. cbn [sel_degrees].
    destruct (extract_built p W) as [[Sp Ep]|(s & Sp & Ep)]; rewrite Ep; cbn [bind].
    + destruct (IH ds) as (ds' & E & L & M & G1 & G2 & G3); [intros; apply H; right; auto|].
      exists ds'. split; [exact E|]. split; [exact L|]. split; [exact M|]. split; [|split].
      * intros q s [<-|I] Sq; [congruence|eauto].
      * intros i m Hi Hm. apply G2; [exact Hi|]. intros; apply Hm; right; auto.
      * intros i Hi Hm. apply G3; [exact Hi|]. intros; eapply Hm; [right|]; eauto.
    + assert (Is : In s (selectors_in p)).
      { apply (filter_In sel_simple). fold (simples p). rewrite Sp. left. reflexivity. }
      pose proof (B s Is) as Ls. destruct (nth_error ds (sel_index s)) as [d|] eqn:Ed; [|apply nth_error_None in Ed; lia].
      destruct (IH (upd ds (sel_index s) (Nat.max d (degree p)))) as (ds' & E & L & M & G1 & G2 & G3).
      { intros q Iq. rewrite upd_length. apply H. right. exact Iq. }
      rewrite upd_length in L. exists ds'. split; [exact E|]. split; [exact L|].
      apply (nth_error_nth _ _ 0) in Ed.
      split; [|split; [|split]].
      * intros i. rewrite <- M, nth_upd_nat by exact Ls. destruct (Nat.eqb_spec i (sel_index s)); [subst; lia|lia].
      * intros q s' [<-|I] Sq; [|eauto]. rewrite Sq in Sp. injection Sp as ->.
        rewrite <- M, nth_upd_nat, Nat.eqb_refl by exact Ls. lia.
      * intros i m Hi Hm. apply G2; [|intros; apply Hm; right; auto].
        rewrite nth_upd_nat by exact Ls. destruct (Nat.eqb_spec i (sel_index s)) as [->|]; [|exact Hi].
        specialize (Hm p (or_introl eq_refl)). lia.
      * intros i Hi Hm. apply G3; [|intros; eapply Hm; [right|]; eauto].
        rewrite nth_upd_nat by exact Ls. destruct (Nat.eqb_spec i (sel_index s)) as [->|]; [|exact Hi].
        exfalso. apply (Hm p s); [left; reflexivity|rewrite Sp; left; reflexivity|reflexivity].
Qed.

Lemma describe_sel : forall acts ds i, length ds = length acts ->
  map sd_selector (describe i acts ds) = seq i (length acts).
Proof.
  induction acts as [|a acts IH]; intros [|d ds] i L; try discriminate; [reflexivity|].
  simpl. rewrite IH by (simpl in L; lia). reflexivity.
Qed.
Lemma describe_in : forall acts ds i d, In d (describe i acts ds) ->
  exists j, sd_selector d = i + j /\ nth_error acts j = Some (sd_act d) /\ nth_error ds j = Some (sd_deg d).
Proof.
  induction acts as [|a acts IH]; intros [|e ds] i d H; simpl in H; try contradiction.
  destruct H as [<-|H].
  - exists 0. simpl. rewrite Nat.add_0_r. auto.
  - apply IH in H as (j & H1 & H2 & H3). exists (S j). simpl. split; [lia|auto].
Qed.

(** ** Maps *)
Lemma set_some_ok {A} (l : list (option A)) i a : i < length l -> set_some l i a = Ok (upd l i (Some a)).
Proof. intros H. unfold set_some. apply Nat.ltb_lt in H. rewrite H. reflexivity. Qed.
Lemma nth_error_upd {A} (l : list A) i j v : i < length l ->
  nth_error (upd l i v) j = if Nat.eqb j i then Some v else nth_error l j.
Proof.
  revert i j. induction l as [|x l IH]; intros [|i] [|j] H; simpl in *; try lia; auto.
  apply IH. lia.
Qed.
Lemma fill_ok cols : forall asgs m r, length m = length r ->
  (forall a, In a asgs -> sa_selector a < length m /\ sa_combination a < length cols) ->
  NoDup (map sa_selector asgs) ->
  exists m' r', fill_maps asgs cols m r = Ok (m', r') /\ length m' = length m /\ length r' = length r /\
    (forall a, In a asgs -> nth_error r' (sa_selector a) = Some (Some (sa_expr a)) /\
       nth_error m' (sa_selector a) = Some (nth_error cols (sa_combination a))) /\
    (forall i, ~ In i (map sa_selector asgs) -> nth_error r' i = nth_error r i /\ nth_error m' i = nth_error m i).
Proof.
  induction asgs as [|a asgs IH]; intros m r L H ND.
  - exists m, r. repeat (split; [reflexivity|]). split; [intros ? []|auto].
  - destruct (H a (or_introl eq_refl)) as [Ha Hc]. cbn [fill_maps].
    rewrite set_some_ok by lia. cbn [bind].
    destruct (nth_error cols (sa_combination a)) as [col|] eqn:E; [|apply nth_error_None in E; lia].
    rewrite set_some_ok by lia. cbn [bind]. simpl in ND. apply NoDup_cons_iff in ND as [N ND].
    destruct (IH (upd m (sa_selector a) (Some col)) (upd r (sa_selector a) (Some (sa_expr a))))
      as (m' & r' & E' & L1 & L2 & G1 & G2).
    { rewrite !upd_length. exact L. }
    { intros b Hb. rewrite upd_length. apply H. right. exact Hb. }
    { exact ND. }
    rewrite upd_length in L1. rewrite upd_length in L2. exists m', r'. split; [exact E'|]. split; [exact L1|]. split; [exact L2|].
    split.
    + intros b [<-|Ib]; [|apply G1, Ib]. destruct (G2 _ N) as [-> ->].
      rewrite !nth_error_upd, Nat.eqb_refl by lia. rewrite E. auto.
    + intros i Hi. simpl in Hi. destruct (G2 i) as [-> ->]; [tauto|].
      rewrite !nth_error_upd by lia. destruct (Nat.eqb_spec i (sa_selector a)); [subst; tauto|auto].
Qed.
Lemma unwrap_ok {A} : forall l : list (option A),
  (forall i, i < length l -> exists a, nth_error l i = Some (Some a)) ->
  exists l', unwrap_all l = Ok l' /\ l = map Some l'.
Proof.
  induction l as [|o l IH]; intros H; [exists []; auto|].
  destruct (H 0) as [a E]; [simpl; lia|]. injection E as ->.
  destruct IH as (l' & E & ->); [intros i Hi; apply (H (S i)); simpl; lia|].
  exists (a :: l'). simpl. rewrite E. auto.
Qed.
Lemma rmap_ok {A B} (f : A -> res B) : forall l, (forall a, In a l -> exists b, f a = Ok b) ->
  exists l', rmap f l = Ok l'.
Proof.
  induction l as [|a l IH]; intros H; [exists []; reflexivity|].
  destruct (H a (or_introl eq_refl)) as [b Eb]. destruct IH as [l' El]; [intros; apply H; right; auto|].
  exists (b :: l'). simpl. rewrite Eb. cbn [bind]. rewrite El. reflexivity.
Qed.
Lemma rmap_inv {A B} (f : A -> res B) : forall l l', rmap f l = Ok l' ->
  Forall2 (fun a b => f a = Ok b) l l'.
Proof.
  induction l as [|a l IH]; intros l' H; simpl in H.
  - injection H as <-. constructor.
  - apply bind_ok in H as (b & Eb & H). apply bind_ok in H as (m & Em & H). injection H as <-.
    constructor; auto.
Qed.
Lemma Forall2_in_l {A B} (P : A -> B -> Prop) l m a : Forall2 P l m -> In a l -> exists b, In b m /\ P a b.
Proof.
  induction 1; intros I; [destruct I|]. destruct I as [<-|I]; [eexists; split; [left; reflexivity|auto]|].
  destruct (IHForall2 I) as (b & Ib & Pb). exists b. split; [right|]; auto.
Qed.
Lemma Forall2_in_r {A B} (P : A -> B -> Prop) l m b : Forall2 P l m -> In b m -> exists a, In a l /\ P a b.
Proof.
  induction 1; intros I; [destruct I|]. destruct I as [<-|I]; [eexists; split; [left; reflexivity|auto]|].
  destruct (IHForall2 I) as (a & Ia & Pa). exists a. split; [right|]; auto.
Qed.

(** ** Degree of the system *)
Lemma max_list_le l d m : d <= m -> (forall x, In x l -> x <= m) -> or_default d (max_list l) <= m.
Proof.
  intros Hd. induction l as [|x l IH]; intros H; simpl; [exact Hd|].
  destruct (max_list l) as [y|] eqn:E; simpl in *.
  - pose proof (H x (or_introl eq_refl)). assert (y <= m) by (apply IH; auto). lia.
  - apply H. auto.
Qed.
Lemma max_list_ge l d x : In x l -> x <= or_default d (max_list l).
Proof.
  induction l as [|y l IH]; intros I; [destruct I|]. simpl. destruct I as [<-|I].
  - destruct (max_list l); lia.
  - specialize (IH I). destruct l as [|z l]; [destruct I|]. simpl in *. destruct (max_list l); simpl in *; lia.
Qed.
Lemma gate_degree c e : In e (gate_exprs c) -> degree e <= cs_degree c.
Proof.
  intros H. unfold cs_degree. apply (in_map degree) in H. apply (max_list_ge _ 0) in H.
  unfold gate_exprs in H. lia.
Qed.
Lemma cs_degree_le c c' : map lookup_degree (lookups c') = map lookup_degree (lookups c) ->
  (forall e, In e (gate_exprs c') -> degree e <= cs_degree c) -> cs_degree c' <= cs_degree c.
Proof.
  intros HL HG. unfold cs_degree at 1. rewrite HL.
  assert (X : or_default 0 (max_list (map degree (concat (gates c')))) <= cs_degree c).
  { apply max_list_le; [lia|]. intros x I. apply in_map_iff in I as (e & <- & I). apply HG, I. }
  unfold cs_degree in *. lia.
Qed.

(** ** Replaying *)
Lemma replay_fill : forall k s qs asgs s', emits alloc_column k s qs asgs s' -> k = length (snd s) ->
  forall m r, replay asgs (snd s) m r (fst s) =
    bind (fill_maps asgs (snd s') m r) (fun mr => Ok (fst mr, snd mr, fst s')).
Proof.
  induction 1 as [k [c cols]|k [c cols] e s1 qs block asgs s' HA HB HF HE IH]; intros Hk m r; [reflexivity|].
  cbn [fst snd] in *.
  pose proof (emits_columns _ _ _ _ _ HE) as (_ & _ & EC & _).
  assert (HA' := HA). unfold alloc_column in HA'.
  apply bind_ok in HA' as ([col c1] & E1 & HA'). apply bind_ok in HA' as ([ix c2] & E2 & HA').
  injection HA' as <- <-. cbn [fst snd] in *.
  assert (IHblock : forall block, Forall (fun a => sa_combination a = k) block -> forall m r,
     replay (block ++ asgs) (cols ++ [col]) m r c2 =
     bind (fill_maps (block ++ asgs) (snd s') m r) (fun mr => Ok (fst mr, snd mr, fst s'))).
  { clear block HB HF. induction block as [|b block IHb]; intros HF m0 r0.
    - apply IH. rewrite app_length. simpl. lia.
    - apply Forall_cons_iff in HF as [Hb HF]. cbn [app replay fill_maps].
      destruct (set_some r0 _ _) as [r1|]; [|reflexivity]. cbn [bind].
      rewrite app_length, Hb. destruct (Nat.leb_spec (length cols + length [col]) k) as [X|X]; [simpl in X; lia|].
      cbn [bind]. rewrite EC, (nth_error_app1 (cols ++ [col])) by (rewrite app_length; simpl; lia).
      destruct (nth_error (cols ++ [col]) k) as [cc|]; [|reflexivity].
      destruct (set_some m0 _ _) as [m1|]; [|reflexivity]. cbn [bind].
      rewrite <- EC. apply IHb, HF. }
  destruct block as [|b block]; [contradiction|]. apply Forall_cons_iff in HF as [Hb HF].
  cbn [app replay fill_maps].
  destruct (set_some r _ _) as [r1|]; [|reflexivity]. cbn [bind].
  rewrite Hb. destruct (Nat.leb_spec (length cols) k) as [X|X]; [|lia].
  rewrite E1. cbn [bind]. rewrite E2. cbn [bind].
  rewrite EC, (nth_error_app1 (cols ++ [col])) by (rewrite app_length; simpl; lia).
  rewrite nth_error_app2, Hk, Nat.sub_diag by lia. cbn [nth_error].
  destruct (set_some m _ _) as [m1|]; [|reflexivity]. cbn [bind]. rewrite <- EC. apply IHblock, HF.
Qed.
