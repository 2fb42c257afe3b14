(** Selector compression: the two claims. *)
From Coq Require Import ZArith List Bool Arith Lia Permutation.
From Verif Require Import Base ListFacts Moduli Field FieldFacts Halo2Model CircuitFacts.
From Verif Require Import SelectorModel SelectorSpec SelectorFacts SubstFacts SelectorClaims.
Import ListNotations.

Definition reps_of (asgs : list selassign) : list (nat * expr) :=
  map (fun a => (sa_selector a, sa_expr a)) asgs.

Lemma no_sel_built e : selectors_in e = [] -> well_built e = true.
Proof.
  induction e; simpl; intros H; auto.
  - apply app_eq_nil in H as [H1 H2].
    rewrite IHe1, IHe2, (no_sel_simple _ H1), (no_sel_simple _ H2) by assumption. reflexivity.
  - apply app_eq_nil in H as [H1 H2].
    rewrite IHe1, IHe2, (no_sel_simple _ H1) by assumption. reflexivity.
Qed.
Lemma not_simple e : (forall s, In s (selectors_in e) -> sel_simple s = false) -> simples e = [].
Proof.
  intros H. unfold simples. destruct (filter _ _) as [|s l] eqn:E; [reflexivity|].
  assert (I : In s (filter sel_simple (selectors_in e))) by (rewrite E; left; reflexivity).
  apply filter_In in I as [I S]. rewrite (H s I) in S. discriminate.
Qed.
(** An expression without simple selectors built by the operators. *)
Lemma not_simple_built e : (forall s, In s (selectors_in e) -> sel_simple s = false) -> well_built e = true.
Proof.
  intros H. assert (G : simples e = []) by (apply not_simple, H). clear H.
  induction e; auto.
  - cbn [well_built]. rewrite simples_sum in G. apply app_eq_nil in G as [G1 G2].
    rewrite IHe1, IHe2, !contains_simples, G1, G2 by assumption. reflexivity.
  - cbn [well_built]. rewrite simples_prod in G. apply app_eq_nil in G as [G1 G2].
    rewrite IHe1, IHe2, !contains_simples, G1, G2 by assumption. reflexivity.
Qed.
Lemma replace_fixed reps ns : forall e e' q, replace_selectors reps ns e = Ok e' -> In q (fixed_in e') ->
  In q (fixed_in e) \/ exists r, In r reps /\ In q (fixed_in r).
Proof.
  induction e; intros e' x R I.
  - injection R as <-. destruct I.
  - apply replace_sel in R. apply nth_error_In in R. right. eauto.
  - injection R as <-. auto.
  - injection R as <-. auto.
  - injection R as <-. auto.
  - injection R as <-. auto.
  - apply replace_neg in R as (y & R & ->). apply (IHe y); auto.
  - apply replace_sum in R as (y & z & R1 & R2 & ->). simpl in I |- *. rewrite in_app_iff in *.
    destruct I as [I|I]; [destruct (IHe1 y x R1 I)|destruct (IHe2 z x R2 I)]; auto.
  - apply replace_prod in R as (y & z & R1 & R2 & ->). simpl in I |- *. rewrite in_app_iff in *.
    destruct I as [I|I]; [destruct (IHe1 y x R1 I)|destruct (IHe2 z x R2 I)]; auto.
  - apply replace_scaled in R as (y & R & ->). apply (IHe y); auto.
Qed.
Lemma replace_others reps ns : forall e e' q, replace_selectors reps ns e = Ok e' -> In q (others_in e') ->
  In q (others_in e) \/ exists r, In r reps /\ In q (others_in r).
Proof.
  induction e; intros e' x R I.
  - injection R as <-. destruct I.
  - apply replace_sel in R. apply nth_error_In in R. right. eauto.
  - injection R as <-. auto.
  - injection R as <-. auto.
  - injection R as <-. auto.
  - injection R as <-. auto.
  - apply replace_neg in R as (y & R & ->). apply (IHe y); auto.
  - apply replace_sum in R as (y & z & R1 & R2 & ->). simpl in I |- *. rewrite in_app_iff in *.
    destruct I as [I|I]; [destruct (IHe1 y x R1 I)|destruct (IHe2 z x R2 I)]; auto.
  - apply replace_prod in R as (y & z & R1 & R2 & ->). simpl in I |- *. rewrite in_app_iff in *.
    destruct I as [I|I]; [destruct (IHe1 y x R1 I)|destruct (IHe2 z x R2 I)]; auto.
  - apply replace_scaled in R as (y & R & ->). apply (IHe y); auto.
Qed.

Lemma in_gate_exprs c e : In e (gate_exprs c) <-> exists g, In g (gates c) /\ In e g.
Proof. unfold gate_exprs. rewrite in_concat. firstorder. Qed.
Lemma in_lookup_exprs c e : In e (lookup_exprs c) <-> exists l, In l (lookups c) /\ (In e (fst l) \/ In e (snd l)).
Proof.
  unfold lookup_exprs. rewrite in_flat_map. split; intros (l & I & H); exists l; split; auto;
    rewrite in_app_iff in *; auto.
Qed.

(** What is known of one replacement. *)
Definition replaces (c : cs) (acts : list (list bool)) (n : nat) (ds : list nat) (polys : list (list Fr))
    (fq : list (nat * Z)) (i : nat) (e : expr) : Prop :=
  exists j ix col,
    let q := EFixed (Query j (num_fixed c + ix) cur) in
    nth_error fq j = Some (num_fixed c + ix, cur) /\
    nth_error polys ix = Some col /\
    good_one n (cs_degree c) q col (SelDesc i (nth i acts []) (nth i ds 0)) (SelAssign i ix e).

Lemma replaces_value c acts n ds polys fq i e a row : replaces c acts n ds polys fq i e ->
  as_n a = n -> row < n ->
  eval (extended c polys a) row e <> f0 <-> active acts i row = true.
Proof.
  intros (j & ix & col & N & P & G) Hn Hr.
  apply (go_rows _ _ _ _ _ _ G); [exact Hr|].
  unfold eval. cbn [evaluate q_col q_rot extended as_fixed as_n]. rewrite Hn, rotate_0 by exact Hr.
  destruct (Nat.ltb_spec (num_fixed c + ix) (num_fixed c)); [lia|].
  replace (num_fixed c + ix - num_fixed c) with ix by lia.
  rewrite (nth_error_nth _ _ _ P). reflexivity.
Qed.
Lemma replaces_alone c acts n ds polys fq i e a row : replaces c acts n ds polys fq i e ->
  nth i ds 0 = 0 -> as_n a = n -> row < n -> length (nth i acts []) = n ->
  eval (extended c polys a) row e = (if active acts i row then f1 else f0) /\ degree e = 1.
Proof.
  intros (j & ix & col & N & P & G) Hd Hn Hr HL.
  destruct (go_alone _ _ _ _ _ _ G Hd) as [E1 E2]. cbn [sa_expr sd_act] in E1, E2. subst e col. split; [|reflexivity].
  unfold eval. cbn [evaluate q_col q_rot extended as_fixed as_n]. rewrite Hn, rotate_0 by exact Hr.
  destruct (Nat.ltb_spec (num_fixed c + ix) (num_fixed c)); [lia|].
  replace (num_fixed c + ix - num_fixed c) with ix by lia.
  rewrite (nth_error_nth _ _ _ P). change f0 with (bool_f false) at 1. rewrite map_nth. reflexivity.
Qed.
Lemma replaces_closed c acts n ds polys fq i e : replaces c acts n ds polys fq i e -> selectors_in e = [].
Proof.
  intros (j & ix & col & N & P & G). destruct (selectors_in e) as [|s l] eqn:E; [reflexivity|].
  exfalso. apply (go_nosel _ _ _ _ _ _ G s). cbn [sa_expr]. rewrite E. left. reflexivity.
Qed.
Lemma replaces_fixed c acts n ds polys fq i e q : replaces c acts n ds polys fq i e -> In q (fixed_in e) ->
  q_col q < num_fixed c + length polys /\ nth_error fq (q_index q) = Some (q_col q, q_rot q).
Proof.
  intros (j & ix & col & N & P & G) I. apply (go_fixed _ _ _ _ _ _ G) in I. destruct I as [<-|[]].
  cbn [q_col q_index q_rot]. split; [|exact N].
  assert (ix < length polys) by (apply nth_error_Some; congruence). lia.
Qed.
Lemma replaces_others c acts n ds polys fq i e : replaces c acts n ds polys fq i e -> others_in e = [].
Proof.
  intros (j & ix & col & N & P & G). destruct (others_in e) as [|s l] eqn:E; [reflexivity|].
  exfalso. apply (go_others _ _ _ _ _ _ G s). cbn [sa_expr]. rewrite E. left. reflexivity.
Qed.
Lemma replaces_degree c acts n ds polys fq i e : replaces c acts n ds polys fq i e -> 0 < nth i ds 0 ->
  nth i ds 0 - 1 + degree e <= cs_degree c.
Proof.
  intros (j & ix & col & N & P & G) H. apply (go_deg _ _ _ _ _ _ G); [exact H|reflexivity].
Qed.

(** ** Running the compression up to the substitution *)
Record stage (c : cs) (acts : list (list bool)) (n : nat) (c1 : cs) (polys : list (list Fr))
    (asgs : list selassign) (map_ : list nat) (reps : list expr) (ds : list nat) : Prop := {
  st_run : compress_selectors c acts =
    bind (substitute reps map_ c1) (fun c' => Ok (c', polys, asgs));
  st_replay : recreate c asgs = substitute reps map_ c1;
  st_cs : exists fq, c1 = with_fixed c (num_fixed c + length polys) (fixed_queries c ++ fq) /\
    forall q, In q fq -> fst q < num_fixed c1;
  st_polys : forall p, In p polys -> length p = n;
  st_perm : Permutation (map sa_selector asgs) (seq 0 (num_selectors c));
  st_length : length reps = num_selectors c;
  st_reps : forall i e, nth_error reps i = Some e -> replaces c acts n ds polys (fixed_queries c1) i e;
  st_asgs : forall a, In a asgs -> nth_error reps (sa_selector a) = Some (sa_expr a)
}.

Lemma run_stage c acts n polys asgs c1 cols ds :
  length acts = num_selectors c -> (Z.of_nat (num_selectors c) < r_modulus)%Z ->
  (forall a, In a acts -> length a = n) -> length ds = length acts ->
  sel_degrees (concat (gates c)) (repeat 0 (length acts)) = Ok ds ->
  process (describe 0 acts ds) (cs_degree c) alloc_column (c, []) = Ok (polys, asgs, (c1, cols)) ->
  exists map_ reps, stage c acts n c1 polys asgs map_ reps ds.
Proof.
  intros LA Hr HA LD ED EP.
  assert (HS : forall d, In d (describe 0 acts ds) -> length (sd_act d) = n).
  { intros d Hd. apply describe_in in Hd as (j & _ & H & _). apply HA. eapply nth_error_In; eauto. }
  assert (LS : length (describe 0 acts ds) = num_selectors c).
  { rewrite <- (map_length sd_selector), describe_sel, seq_length by lia. exact LA. }
  assert (EP' := EP). apply (process_spec alloc_column n) in EP'; [|exact HS|rewrite LS; exact Hr].
  destruct EP' as (qs & ds' & Lq & EM & PM & F2).
  destruct (emits_columns _ _ _ _ _ EM) as (fq & E1 & E2 & E3 & E4). cbn [fst snd app] in E1, E2, E3, E4.
  assert (MS : map sa_selector asgs = map sd_selector ds').
  { clear - F2. induction F2 as [|d a l m (i & q & col & _ & _ & _ & G) F IH]; [reflexivity|].
    simpl. rewrite IH, (go_sel _ _ _ _ _ _ G). reflexivity. }
  assert (PS : Permutation (map sa_selector asgs) (seq 0 (num_selectors c))).
  { rewrite MS, <- LA, <- (describe_sel acts ds 0 LD). apply Permutation_map. symmetry. exact PM. }
  assert (LG : length asgs = num_selectors c).
  { rewrite <- (map_length sa_selector), (Permutation_length PS), seq_length. reflexivity. }
  assert (GA : forall a, In a asgs -> exists d, In d (describe 0 acts ds) /\ good n (cs_degree c) 0 qs polys d a).
  { intros a Ia. destruct (Forall2_in_r _ _ _ _ F2 Ia) as (d & Id & G). exists d. split; [|exact G].
    apply Permutation_in with ds'; [symmetry; exact PM|exact Id]. }
  destruct (fill_ok cols asgs (repeat None (length asgs)) (repeat None (length asgs)))
    as (m' & r' & EF & L1 & L2 & G1 & _).
  { rewrite !repeat_length. reflexivity. }
  { intros a Ia. rewrite repeat_length, LG. split.
    - assert (I : In (sa_selector a) (seq 0 (num_selectors c))).
      { eapply Permutation_in; [exact PS|]. apply in_map, Ia. }
      apply in_seq in I. lia.
    - destruct (GA a Ia) as (d & _ & i & q & col & Ei & Nq & _). rewrite E2, seq_length, Ei.
      apply nth_error_Some. simpl. congruence. }
  { eapply Permutation_NoDup; [symmetry; exact PS|]. apply seq_NoDup. }
  rewrite repeat_length in L1. rewrite repeat_length in L2.
  assert (EX : forall i, i < num_selectors c -> exists a, In a asgs /\ sa_selector a = i).
  { intros i Hi. assert (I : In i (map sa_selector asgs)).
    { apply Permutation_in with (seq 0 (num_selectors c)); [symmetry; exact PS|]. apply in_seq. lia. }
    apply in_map_iff in I as (a & <- & I). eauto. }
  destruct (unwrap_ok m') as (map_ & Em & ->).
  { intros i Hi. destruct (EX i) as (a & Ia & <-); [lia|]. destruct (G1 a Ia) as [_ ->].
    destruct (GA a Ia) as (d & _ & i' & q & col & Ei & Nq & _).
    destruct (nth_error cols (sa_combination a)) as [x|] eqn:Ex; [eauto|].
    apply nth_error_None in Ex. rewrite E2, seq_length in Ex.
    assert (i' < length qs) by (apply nth_error_Some; congruence). lia. }
  destruct (unwrap_ok r') as (reps & Er & ->).
  { intros i Hi. destruct (EX i) as (a & Ia & <-); [lia|]. destruct (G1 a Ia) as [-> _]. eauto. }
  rewrite map_length in L1, L2.
  assert (SA : forall a, In a asgs -> nth_error reps (sa_selector a) = Some (sa_expr a)).
  { intros a Ia. destruct (G1 a Ia) as [G _]. rewrite nth_error_map in G.
    destruct (nth_error reps (sa_selector a)); [|discriminate]. injection G as ->. reflexivity. }
  exists map_, reps. constructor.
  - unfold compress_selectors. rewrite LA, Nat.eqb_refl, <- LA. cbn [negb]. rewrite ED. cbn [bind].
    rewrite EP. cbn [bind]. rewrite EF. cbn [bind]. rewrite Em. cbn [bind]. rewrite Er. reflexivity.
  - unfold recreate. pose proof (replay_fill _ _ _ _ _ EM eq_refl (repeat None (length asgs)) (repeat None (length asgs))) as R.
    cbn [fst snd] in R. rewrite R, EF. cbn [bind fst snd]. rewrite Em. cbn [bind]. rewrite Er. reflexivity.
  - exists fq. rewrite <- Lq. split; [exact E1|exact E4].
  - intros p Ip. apply In_nth_error in Ip as [ix Hp].
    (* every column serves some selector *)
    assert (EB : forall k s qs asgs s', emits alloc_column k s qs asgs s' -> forall i, i < length qs ->
      exists a, In a asgs /\ sa_combination a = k + i).
    { clear. induction 1; intros i Hi; [simpl in Hi; lia|]. destruct i as [|i].
      - destruct block as [|b block]; [contradiction|]. apply Forall_cons_iff in H1 as [H1 _].
        exists b. split; [left; reflexivity|lia].
      - destruct (IHemits i) as (a & Ia & Ea); [simpl in Hi; lia|]. exists a. rewrite in_app_iff. split; [auto|lia]. }
    destruct (EB _ _ _ _ _ EM ix) as (a & Ia & Ea).
    { rewrite Lq. apply nth_error_Some. congruence. }
    destruct (GA a Ia) as (d & _ & i & q & col & Ei & Nq & Nc & G).
    replace i with ix in Nc by lia. rewrite Hp in Nc. injection Nc as ->. apply (go_len _ _ _ _ _ _ G).
  - exact PS.
  - lia.
  - intros i e He. destruct (EX i) as (a & Ia & <-).
    { rewrite <- LG, <- L2. apply nth_error_Some. congruence. }
    rewrite (SA a Ia) in He. injection He as <-.
    destruct (GA a Ia) as (d & Id & ix & q & col & Ei & Nq & Nc & G).
    destruct (E3 ix q Nq) as (j & -> & Nj). exists j, ix, col. cbn [fst] in Nj. rewrite E1 in Nj |- *.
    split; [exact Nj|]. split; [exact Nc|].
    apply describe_in in Id as (i' & S1 & S2 & S3). simpl in S1.
    pose proof (go_sel _ _ _ _ _ _ G) as S0.
    destruct d as [i1 act deg]. cbn [sd_selector sd_act sd_deg] in *. subst i1. rewrite S0.
    rewrite (nth_error_nth _ _ _ S2), (nth_error_nth _ _ _ S3).
    destruct G. constructor; cbn [sa_selector sa_expr sd_selector sd_act sd_deg] in *; auto.
  - exact SA.
Qed.

(** ** C36: reading the key back rebuilds the same system *)
Lemma sel_degrees_length : forall polys ds ds', sel_degrees polys ds = Ok ds' -> length ds' = length ds.
Proof.
  induction polys as [|p polys IH]; intros ds ds' H; cbn [sel_degrees] in H; [injection H as <-; reflexivity|].
  apply bind_ok in H as ([s|] & _ & H); [|eauto].
  destruct (nth_error ds (sel_index s)); [|discriminate]. apply IH in H. rewrite upd_length in H. exact H.
Qed.
Lemma compress_recreate c acts c' polys asgs : (Z.of_nat (num_selectors c) < r_modulus)%Z ->
  compress_selectors c acts = Ok (c', polys, asgs) -> recreate c asgs = Ok c'.
Proof.
  intros Hr H. assert (H' := H). unfold compress_selectors in H.
  destruct (Nat.eqb_spec (length acts) (num_selectors c)) as [LA|]; [|discriminate]. cbn [negb] in H.
  apply bind_ok in H as (ds & ED & H). apply bind_ok in H as ([[polys1 asgs1] [c1 cols]] & EP & H).
  assert (LD := sel_degrees_length _ _ _ ED). rewrite repeat_length in LD.
  assert (HA : exists n, forall a, In a acts -> length a = n).
  { unfold process in EP. destruct (describe 0 acts ds) as [|d0 sels] eqn:Ed.
    - exists 0. destruct acts as [|a acts]; [intros ? []|]. destruct ds; [discriminate LD|discriminate Ed].
    - exists (length (sd_act d0)). destruct (negb _) eqn:En; [discriminate|].
      apply negb_false_iff in En. rewrite forallb_forall in En. rewrite <- Ed in En.
      intros a Ia. apply In_nth_error in Ia as [i Hi].
      assert (G : forall acts ds k i a, length ds = length acts -> nth_error acts i = Some a ->
        exists d, In d (describe k acts ds) /\ sd_act d = a).
      { clear. induction acts as [|x acts IH]; intros [|d ds] k [|i] a L E; try discriminate; simpl in *.
        - injection E as ->. eexists. split; [left; reflexivity|reflexivity].
        - destruct (IH ds (S k) i a) as (d' & I & E'); [lia|exact E|]. exists d'. auto. }
      destruct (G _ _ 0 _ _ LD Hi) as (d & Id & <-). apply Nat.eqb_eq. apply En, Id. }
  destruct HA as [n HA].
  destruct (run_stage c acts n polys1 asgs1 c1 cols ds LA Hr HA LD ED EP) as (map_ & reps & ST).
  rewrite (st_run _ _ _ _ _ _ _ _ _ ST) in H'. apply bind_ok in H' as (c2 & E2 & H').
  injection H' as <- <- <-.
  rewrite (st_replay _ _ _ _ _ _ _ _ _ ST). exact E2.
Qed.

(** ** C35 *)
Lemma substitute_ok reps map_ c1 :
  (forall e s, In e (gate_exprs c1) \/ In e (lookup_exprs c1) -> In s (selectors_in e) ->
     sel_index s < length reps) ->
  (forall e, In e reps -> selectors_in e = []) ->
  (forall e s, In e (lookup_exprs c1) -> In s (selectors_in e) -> sel_simple s = false) ->
  exists c', substitute reps map_ c1 = Ok c'.
Proof.
  intros HI HR HL. unfold substitute.
  destruct (rmap_ok (rmap (replace_selectors reps false)) (gates c1)) as [gs Eg].
  { intros g Ig. apply rmap_ok. intros e Ie.
    destruct (replace_ok reps false e) as (e' & E & _); [|exact HR|discriminate|eauto].
    intros s Is. apply (HI e); [left; apply in_gate_exprs; eauto|exact Is]. }
  rewrite Eg. cbn [bind].
  match goal with |- context [rmap ?f (lookups c1)] => destruct (rmap_ok f (lookups c1)) as [ls El] end.
  { intros l Il.
    destruct (rmap_ok (replace_selectors reps true) (fst l)) as [x Ex].
    { intros e Ie. assert (J : In e (lookup_exprs c1)) by (apply in_lookup_exprs; eauto).
      destruct (replace_ok reps true e) as (e' & E & _); eauto. }
    destruct (rmap_ok (replace_selectors reps true) (snd l)) as [y Ey].
    { intros e Ie. assert (J : In e (lookup_exprs c1)) by (apply in_lookup_exprs; eauto).
      destruct (replace_ok reps true e) as (e' & E & _); eauto. }
    rewrite Ex. cbn [bind]. rewrite Ey. cbn [bind]. eauto. }
  rewrite El. cbn [bind]. eauto.
Qed.
Definition replaced (reps : list expr) (ns : bool) := Forall2 (fun e e' => replace_selectors reps ns e = Ok e').
Lemma substitute_inv reps map_ c1 c' : substitute reps map_ c1 = Ok c' ->
  Forall2 (replaced reps false) (gates c1) (gates c') /\
  Forall2 (fun l l' => replaced reps true (fst l) (fst l') /\ replaced reps true (snd l) (snd l'))
    (lookups c1) (lookups c') /\
  c' = mkCs (num_fixed c1) (num_advice c1) (num_instance c1) (num_selectors c1) (num_challenges c1)
        (advice_phases c1) (challenge_phases c1) (gates c') (advice_queries c1) (num_advice_queries c1)
        (instance_queries c1) (fixed_queries c1) (perm_columns c1) (lookups c') map_.
Proof.
  intros H. unfold substitute in H. apply bind_ok in H as (gs & Eg & H). apply bind_ok in H as (ls & El & H).
  injection H as <-. cbn [gates lookups]. split; [|split; [|reflexivity]].
  - apply rmap_inv in Eg. eapply Forall2_impl; [|exact Eg]. intros g g' E. apply rmap_inv, E.
  - apply rmap_inv in El. eapply Forall2_impl; [|exact El]. intros l l' E. cbn beta in E.
    apply bind_ok in E as (x & Ex & E). apply bind_ok in E as (y & Ey & E). injection E as <-.
    split; apply rmap_inv; assumption.
Qed.
Lemma replaced_gate reps map_ c1 c' e' : substitute reps map_ c1 = Ok c' -> In e' (gate_exprs c') ->
  exists e, In e (gate_exprs c1) /\ replace_selectors reps false e = Ok e'.
Proof.
  intros H I. apply substitute_inv in H as (HG & _ & _). apply in_gate_exprs in I as (g' & Ig & Ie).
  destruct (Forall2_in_r _ _ _ _ HG Ig) as (g & Ig' & R). destruct (Forall2_in_r _ _ _ _ R Ie) as (e & Ie' & E).
  exists e. split; [apply in_gate_exprs; eauto|exact E].
Qed.
Lemma replaced_gate_r reps map_ c1 c' e : substitute reps map_ c1 = Ok c' -> In e (gate_exprs c1) ->
  exists e', In e' (gate_exprs c') /\ replace_selectors reps false e = Ok e'.
Proof.
  intros H I. apply substitute_inv in H as (HG & _ & _). apply in_gate_exprs in I as (g' & Ig & Ie).
  destruct (Forall2_in_l _ _ _ _ HG Ig) as (g & Ig' & R). destruct (Forall2_in_l _ _ _ _ R Ie) as (e' & Ie' & E).
  exists e'. split; [apply in_gate_exprs; eauto|exact E].
Qed.
Lemma replaced_lookup reps map_ c1 c' e' : substitute reps map_ c1 = Ok c' -> In e' (lookup_exprs c') ->
  exists e, In e (lookup_exprs c1) /\ replace_selectors reps true e = Ok e'.
Proof.
  intros H I. apply substitute_inv in H as (_ & HG & _). apply in_lookup_exprs in I as (g' & Ig & Ie).
  destruct (Forall2_in_r _ _ _ _ HG Ig) as (g & Ig' & R1 & R2). destruct Ie as [Ie|Ie].
  - destruct (Forall2_in_r _ _ _ _ R1 Ie) as (e & Ie' & E). exists e. split; [apply in_lookup_exprs; eauto|exact E].
  - destruct (Forall2_in_r _ _ _ _ R2 Ie) as (e & Ie' & E). exists e. split; [apply in_lookup_exprs; eauto|exact E].
Qed.

Section Correct.
Variables (c : cs) (acts : list (list bool)) (n : nat).
Hypothesis CF : configured c.
Hypothesis LA : length acts = num_selectors c.
Hypothesis HA : forall a, In a acts -> length a = n.
Hypothesis Hr : (Z.of_nat (num_selectors c) < r_modulus)%Z.

Lemma compress_stage : exists c1 polys asgs map_ reps ds,
  stage c acts n c1 polys asgs map_ reps ds /\
  (forall p s, In p (gate_exprs c) -> simples p = [s] -> degree p <= nth (sel_index s) ds 0) /\
  (forall e s, In e (gate_exprs c) \/ In e (lookup_exprs c) -> In s (selectors_in e) ->
     sel_simple s = false -> nth (sel_index s) ds 0 = 0).
Proof.
  destruct (cf_sel c CF) as [kind K].
  destruct (sel_degrees_ok (concat (gates c)) (repeat 0 (length acts))) as (ds & ED & LD & _ & G1 & G2 & G3).
  { intros p Ip. split; [apply (cf_built c CF), Ip|]. intros s Is. rewrite repeat_length, LA.
    apply (K p); auto. }
  rewrite repeat_length in LD.
  destruct (process_ok alloc_column n (cs_degree c) (describe 0 acts ds) (c, []) alloc_succeeds)
    as [[[polys asgs] [c1 cols]] EP].
  { intros d Id. apply describe_in in Id as (j & _ & H1 & H2). split; [apply HA; eapply nth_error_In; eauto|].
    rewrite <- (nth_error_nth _ _ 0 H2). apply G2; [rewrite nth_repeat; lia|].
    intros p Ip. apply gate_degree. exact Ip. }
  destruct (run_stage c acts n polys asgs c1 cols ds LA Hr HA LD ED EP) as (map_ & reps & ST).
  exists c1, polys, asgs, map_, reps, ds. split; [exact ST|]. split; [exact G1|].
  intros e s Ie Is Hs. apply G3; [apply nth_repeat|].
  intros p s' Ip Is' E. unfold simples in Is'. apply filter_In in Is' as [Is' S'].
  destruct (K p s' (or_introl Ip) Is') as [_ K1]. destruct (K e s Ie Is) as [_ K2].
  rewrite E in K1. congruence.
Qed.

Lemma compress_correct : exists c' polys asgs,
  compress_selectors c acts = Ok (c', polys, asgs) /\
  compressed c acts n c' polys (reps_of asgs).
Proof.
  destruct compress_stage as (c1 & polys & asgs & map_ & reps & ds & ST & DG & DC).
  destruct (cf_sel c CF) as [kind K].
  destruct (st_cs _ _ _ _ _ _ _ _ _ ST) as (fq & E1 & FB).
  assert (GE : gate_exprs c1 = gate_exprs c) by (rewrite E1; reflexivity).
  assert (LE : lookup_exprs c1 = lookup_exprs c) by (rewrite E1; reflexivity).
  assert (RC : forall e, In e reps -> selectors_in e = []).
  { intros e Ie. apply In_nth_error in Ie as [i Hi]. apply (st_reps _ _ _ _ _ _ _ _ _ ST) in Hi.
    eapply replaces_closed; eauto. }
  assert (IX : forall e s, In e (gate_exprs c1) \/ In e (lookup_exprs c1) -> In s (selectors_in e) ->
     sel_index s < length reps).
  { intros e s Ie Is. rewrite (st_length _ _ _ _ _ _ _ _ _ ST). rewrite GE, LE in Ie. apply (K e s Ie Is). }
  assert (NS : forall e s, In e (lookup_exprs c1) -> In s (selectors_in e) -> sel_simple s = false).
  { intros e s. rewrite LE. apply (cf_lookup c CF). }
  destruct (substitute_ok reps map_ c1 IX RC NS) as [c' ES].
  destruct (substitute_inv _ _ _ _ ES) as (HG & HL & EC).
  exists c', polys, asgs. split; [rewrite (st_run _ _ _ _ _ _ _ _ _ ST), ES; reflexivity|].
  (* expressions of c' *)
  assert (FX : forall e q, In e (gate_exprs c) \/ In e (lookup_exprs c) -> In q (fixed_in e) -> q_col q < num_fixed c).
  { intros e q Ie Iq. apply (cf_fixed c CF e q Ie Iq). }
  assert (WB : forall e, In e (gate_exprs c) \/ In e (lookup_exprs c) -> well_built e = true).
  { intros e [Ie|Ie]; [apply (cf_built c CF), Ie|]. apply not_simple_built. intros s. apply (cf_lookup c CF), Ie. }
  assert (EV : forall a row ns e e', as_n a = n ->
    (forall s row, s < num_selectors c -> row < n -> as_sel a s row = active acts s row) -> row < n ->
    In e (gate_exprs c) \/ In e (lookup_exprs c) -> replace_selectors reps ns e = Ok e' ->
    (simples e = [] /\ eval (extended c polys a) row e' = eval a row e /\ degree e' = degree e) \/
    (exists s r k, simples e = [s] /\ nth_error reps (sel_index s) = Some r /\
       eval a row e = fmul k (sel_value a row (sel_index s)) /\
       eval (extended c polys a) row e' = fmul k (eval (extended c polys a) row r) /\
       degree e' + 1 = degree e + degree r)).
  { intros a row ns e e' Hn Hs Hrow Ie R.
    apply (replace_eval reps ns a (extended c polys a) row eq_refl eq_refl eq_refl eq_refl e e' R (WB e Ie)).
    - intros q Iq. cbn [extended as_fixed]. 
      assert (L : (q_col q <? num_fixed c) = true) by (apply Nat.ltb_lt; eauto).
      rewrite L. reflexivity.
    - intros s r Is Ss Hr0. destruct (K e s Ie Is) as [Ls _].
      destruct (replaces_alone _ _ _ _ _ _ _ _ a row (st_reps _ _ _ _ _ _ _ _ _ ST _ _ Hr0)) as [V D];
        [apply (DC e s Ie Is Ss)|exact Hn|exact Hrow|
         apply HA, nth_In; rewrite LA; exact Ls|].
      split; [|exact D]. rewrite V. unfold sel_value. rewrite Hs by assumption. reflexivity. }
  (* degrees do not depend on rows; they need a separate argument when n = 0 *)
  assert (DEG : forall ns e e', In e (gate_exprs c) \/ In e (lookup_exprs c) -> replace_selectors reps ns e = Ok e' ->
    (simples e = [] /\ degree e' = degree e) \/
    (exists s r, simples e = [s] /\ nth_error reps (sel_index s) = Some r /\ degree e' + 1 = degree e + degree r)).
  { intros ns e e' Ie R.
    assert (DA : forall s r, In s (selectors_in e) -> sel_simple s = false -> nth_error reps (sel_index s) = Some r -> degree r = 1).
    { intros s r Is Ss Hr0. destruct (st_reps _ _ _ _ _ _ _ _ _ ST _ _ Hr0) as (j & ix & col & _ & _ & G).
      destruct (go_alone _ _ _ _ _ _ G) as [X _]; [apply (DC e s Ie Is Ss)|].
      cbn [sa_expr] in X. rewrite X. reflexivity. }
    pose proof (WB e Ie) as W. clear Ie. revert e' R. induction e; intros e' R; cbn [well_built] in W.
    - injection R as <-. auto.
    - apply replace_sel in R. unfold simples. simpl filter. destruct (sel_simple s) eqn:E.
      + right. exists s, e'. split; [reflexivity|]. split; [exact R|]. simpl. lia.
      + left. split; [reflexivity|]. apply (DA s); simpl; auto.
    - injection R as <-. auto.
    - injection R as <-. auto.
    - injection R as <-. auto.
    - injection R as <-. auto.
    - apply replace_neg in R as (x & R & ->). apply (IHe DA W x R).
    - apply replace_sum in R as (x & y & R1 & R2 & ->).
      apply andb_true_iff in W as [W1 W3]. apply andb_true_iff in W1 as [W1 W2].
      apply negb_true_iff, orb_false_iff in W3 as [W3 W4]. rewrite contains_simples in W3, W4.
      rewrite simples_sum. cbn [degree].
      destruct (IHe1 ltac:(intros s r I; apply DA; simpl; apply in_app_iff; auto) W1 x R1) as [[S1 D1]|(s & r & S1 & _)];
        rewrite S1 in *; [|discriminate].
      destruct (IHe2 ltac:(intros s r I; apply DA; simpl; apply in_app_iff; auto) W2 y R2) as [[S2 D2]|(s & r & S2 & _)];
        rewrite S2 in *; [|discriminate].
      left. split; [reflexivity|]. congruence.
    - apply replace_prod in R as (x & y & R1 & R2 & ->).
      apply andb_true_iff in W as [W1 W3]. apply andb_true_iff in W1 as [W1 W2].
      apply negb_true_iff in W3. rewrite !contains_simples in W3.
      rewrite simples_prod. cbn [degree].
      destruct (IHe1 ltac:(intros s r I; apply DA; simpl; apply in_app_iff; auto) W1 x R1) as [[S1 D1]|(s & r & S1 & N1 & D1)];
      destruct (IHe2 ltac:(intros s' r' I; apply DA; simpl; apply in_app_iff; auto) W2 y R2) as [[S2 D2]|(s2 & r2 & S2 & N2 & D2)];
        rewrite S1, S2 in *; try discriminate.
      + left. split; [reflexivity|]. congruence.
      + right. exists s2, r2. split; [reflexivity|]. split; [exact N2|lia].
      + right. exists s, r. split; [reflexivity|]. split; [exact N1|lia].
    - apply replace_scaled in R as (x & R & ->). apply (IHe DA W x R). }
  assert (SG : forall e', In e' (gate_exprs c') \/ In e' (lookup_exprs c') ->
    exists e ns, (In e (gate_exprs c) \/ In e (lookup_exprs c)) /\ replace_selectors reps ns e = Ok e').
  { intros e' [I|I].
    - destruct (replaced_gate _ _ _ _ _ ES I) as (e & Ie & R). rewrite GE in Ie. eauto.
    - destruct (replaced_lookup _ _ _ _ _ ES I) as (e & Ie & R). rewrite LE in Ie. eauto. }
  assert (GONE : forall e', In e' (gate_exprs c') \/ In e' (lookup_exprs c') -> selectors_in e' = []).
  { intros e' [I|I].
    - destruct (replaced_gate _ _ _ _ _ ES I) as (e & Ie & R).
      destruct (replace_ok reps false e) as (x & Ex & Sx); [intros; apply (IX e); auto|exact RC|discriminate|].
      congruence.
    - destruct (replaced_lookup _ _ _ _ _ ES I) as (e & Ie & R).
      destruct (replace_ok reps true e) as (x & Ex & Sx); [intros; apply (IX e); auto|exact RC|intros _ s; apply NS, Ie|].
      congruence. }
  assert (UR : usable_rows n c' = usable_rows n c).
  { rewrite EC, E1. reflexivity. }
  constructor.
  - unfold reps_of. rewrite map_map. apply (st_perm _ _ _ _ _ _ _ _ _ ST).
  - intros s e a row I Hn Hrow. unfold reps_of in I. apply in_map_iff in I as (x & E & Ix). injection E as <- <-.
    eapply replaces_value; eauto. apply (st_reps _ _ _ _ _ _ _ _ _ ST), (st_asgs _ _ _ _ _ _ _ _ _ ST), Ix.
  - split; [rewrite EC, E1; reflexivity|apply (st_polys _ _ _ _ _ _ _ _ _ ST)].
  - exact GONE.
  - apply cs_degree_le.
    + assert (DL : forall l l', (forall e, In e l -> In e (lookup_exprs c)) -> replaced reps true l l' ->
        forall d, fold_left (fun acc e => Nat.max acc (degree e)) l' d = fold_left (fun acc e => Nat.max acc (degree e)) l d).
      { intros l l' Hl R. induction R as [|e e' l l' Re R IH]; intros d; [reflexivity|]. simpl.
        destruct (DEG true e e') as [[_ D]|(s & r & Ss & _)]; [right; apply Hl; left; reflexivity|exact Re| |].
        - rewrite D. apply IH. intros; apply Hl; right; auto.
        - rewrite not_simple in Ss; [discriminate|]. intros s0. apply (cf_lookup c CF), Hl. left. reflexivity. }
      assert (IL : forall l, In l (lookups c1) -> forall e, In e (fst l) \/ In e (snd l) -> In e (lookup_exprs c)).
      { intros l Il e Ie. rewrite <- LE. apply in_lookup_exprs. eauto. }
      replace (lookups c) with (lookups c1) by (rewrite E1; reflexivity).
      clear - HL DL IL. revert IL. induction HL as [|l l' L L' [R1 R2] HL IH]; intros IL; [reflexivity|]. simpl. f_equal.
      * unfold lookup_degree.
        rewrite (DL (fst l) (fst l') (fun e I => IL l (or_introl eq_refl) e (or_introl I)) R1).
        rewrite (DL (snd l) (snd l') (fun e I => IL l (or_introl eq_refl) e (or_intror I)) R2). reflexivity.
      * apply IH. intros; eapply IL; [right|]; eauto.
    + intros e' I. destruct (replaced_gate _ _ _ _ _ ES I) as (e & Ie & R). rewrite GE in Ie.
      pose proof (gate_degree c e Ie) as Dc.
      destruct (DEG false e e' (or_introl Ie) R) as [[_ D]|(s & r & Ss & Nr & D)]; [lia|].
      pose proof (DG e s Ie Ss) as Ds. pose proof (simple_degree e s Ss (WB e (or_introl Ie))) as D1.
      pose proof (replaces_degree _ _ _ _ _ _ _ _ (st_reps _ _ _ _ _ _ _ _ _ ST _ _ Nr)). lia.
  - constructor.
    + exists (fun _ => false). intros e s Ie Is. rewrite (GONE e Ie) in Is. destruct Is.
    + intros e Ie. apply no_sel_built, GONE. auto.
    + intros e s Ie Is. rewrite (GONE e (or_intror Ie)) in Is. destruct Is.
    + intros e' q Ie Iq. destruct (SG e' Ie) as (e & ns & Ie' & R).
      assert (NF : num_fixed c' = num_fixed c + length polys) by (rewrite EC, E1; reflexivity).
      assert (FQ : fixed_queries c' = fixed_queries c ++ fq) by (rewrite EC, E1; reflexivity).
      rewrite NF, FQ. destruct (replace_fixed _ _ _ _ _ R Iq) as [J|(r & Ir & J)].
      * destruct (cf_fixed c CF e q Ie' J) as [F1 F2]. split; [lia|].
        rewrite nth_error_app1; [exact F2|]. apply nth_error_Some. congruence.
      * apply In_nth_error in Ir as [i Hi]. apply (st_reps _ _ _ _ _ _ _ _ _ ST) in Hi.
        destruct (replaces_fixed _ _ _ _ _ _ _ _ q Hi J) as [F1 F2]. split; [lia|].
        rewrite E1 in F2. exact F2.
  - split; [rewrite EC, E1; reflexivity|exact UR].
  - intros e' l I J. destruct (SG e' I) as (e & ns & Ie & R). exists e. split; [exact Ie|].
    destruct (replace_others _ _ _ _ _ R J) as [K'|(r & Ir & K')]; [exact K'|].
    apply In_nth_error in Ir as [i Hi]. apply (st_reps _ _ _ _ _ _ _ _ _ ST) in Hi.
    rewrite (replaces_others _ _ _ _ _ _ _ _ Hi) in K'. destruct K'.
  - exists fq. split; [rewrite EC, E1; reflexivity|]. intros q I. rewrite EC. apply FB, I.
  - replace (lookups c) with (lookups c1) by (rewrite E1; reflexivity). clear - HL.
    assert (LR : forall l l', replaced reps true l l' -> length l' = length l).
    { intros l l' F. induction F; simpl; congruence. }
    induction HL as [|l l' L L' [R1 R2] HL IH]; constructor; [|exact IH]. split; apply LR; assumption.
  - replace (gates c) with (gates c1) by (rewrite E1; reflexivity). clear - HG.
    assert (LR : forall l l', replaced reps false l l' -> length l' = length l).
    { intros l l' F. induction F; simpl; congruence. }
    induction HG as [|l l' L L' R HG IH]; constructor; [apply LR; exact R|exact IH].
  - rewrite EC, E1. reflexivity.
  - intros copies a Hn Hs HC. unfold satisfied.
    assert (A1 : gates_hold c a <-> gates_hold c' (extended c polys a)).
    { assert (Z1 : forall e e' row, In e (gate_exprs c) -> replace_selectors reps false e = Ok e' -> row < n ->
        (eval a row e = f0 <-> eval (extended c polys a) row e' = f0)).
      { intros e e' row Ie R Hrow.
        destruct (EV a row false e e' Hn Hs Hrow (or_introl Ie) R) as [(_ & V & _)|(s & r & k & Ss & Nr & V & V' & _)].
        - rewrite V. tauto.
        - assert (Ls : sel_index s < num_selectors c).
          { rewrite <- (st_length _ _ _ _ _ _ _ _ _ ST). apply nth_error_Some. congruence. }
          pose proof (replaces_value _ _ _ _ _ _ _ _ a row (st_reps _ _ _ _ _ _ _ _ _ ST _ _ Nr) Hn Hrow) as B.
          rewrite V, V'. unfold sel_value. rewrite Hs by assumption.
          destruct (active acts (sel_index s) row).
          + destruct B as [_ B]. specialize (B eq_refl).
            replace (fmul k f1) with k by fring. split; [intros ->; fring|].
            intros H. apply Fr_mul_eq_0 in H as [H|H]; [exact H|contradiction].
          + assert (Z : eval (extended c polys a) row r = f0).
            { destruct (feqb_spec (eval (extended c polys a) row r) f0) as [Z|Z]; [exact Z|].
              apply B in Z. discriminate. }
            rewrite Z. tauto. }
      unfold gates_hold. cbn [extended as_n]. rewrite Hn. split.
      - intros H g' p' row Ig Ip Hrow.
        assert (I : In p' (gate_exprs c')) by (apply in_gate_exprs; eauto).
        destruct (replaced_gate _ _ _ _ _ ES I) as (p & Ip' & R). rewrite GE in Ip'.
        apply (Z1 p p' row Ip' R Hrow). apply in_gate_exprs in Ip' as (g & Ig' & Ip'). eauto.
      - intros H g p row Ig Ip Hrow.
        assert (I : In p (gate_exprs c)) by (apply in_gate_exprs; eauto).
        assert (I' := I). rewrite <- GE in I'. destruct (replaced_gate_r _ _ _ _ _ ES I') as (p' & Ip' & R).
        apply (Z1 p p' row I R Hrow). apply in_gate_exprs in Ip' as (g' & Ig' & Ip'). eauto. }
    assert (A2 : lookups_hold c a <-> lookups_hold c' (extended c polys a)).
    { assert (Z2 : forall l l' row, (forall e, In e l -> In e (lookup_exprs c)) -> replaced reps true l l' -> row < n ->
        map (eval (extended c polys a) row) l' = map (eval a row) l).
      { intros l l' row Hl R Hrow. induction R as [|e e' l l' Re R IH]; [reflexivity|]. simpl. f_equal.
        - destruct (EV a row true e e' Hn Hs Hrow) as [(_ & V & _)|(s & r & k & Ss & _)];
            [right; apply Hl; left; reflexivity|exact Re|exact V|].
          rewrite not_simple in Ss; [discriminate|]. intros s0. apply (cf_lookup c CF), Hl. left. reflexivity.
        - apply IH. intros; apply Hl; right; auto. }
      assert (IL : forall l, In l (lookups c1) -> forall e, In e (fst l) \/ In e (snd l) -> In e (lookup_exprs c)).
      { intros l Il e Ie. rewrite <- LE. apply in_lookup_exprs. eauto. }
      assert (Eu : lookups c = lookups c1) by (rewrite E1; reflexivity).
      assert (UL : forall row, row < usable_rows n c -> row < n) by (unfold usable_rows; intros; lia).
      unfold lookups_hold. cbn [extended as_n]. rewrite Hn, UR, Eu. split.
      - intros H l' row Il Hrow. destruct (Forall2_in_r _ _ _ _ HL Il) as (l & Il' & R1 & R2).
        destruct (H l row Il' Hrow) as (row' & Hrow' & E). exists row'. split; [exact Hrow'|].
        rewrite (Z2 (fst l) (fst l')), (Z2 (snd l) (snd l')); eauto.
      - intros H l row Il Hrow. destruct (Forall2_in_l _ _ _ _ HL Il) as (l' & Il' & R1 & R2).
        destruct (H l' row Il' Hrow) as (row' & Hrow' & E). exists row'. split; [exact Hrow'|].
        rewrite (Z2 (fst l) (fst l')), (Z2 (snd l) (snd l')) in E; eauto. }
    assert (A3 : copies_hold copies a <-> copies_hold copies (extended c polys a)).
    { unfold copies_hold.
      assert (CV : forall x y, In (x, y) copies -> cell_value (extended c polys a) x = cell_value a x /\
                                         cell_value (extended c polys a) y = cell_value a y).
      { intros [cx rx] [cy ry] I. unfold cell_value. cbn [fst snd extended as_advice as_fixed as_instance]. split.
        - destruct cx as [?|i|?]; try reflexivity.
          assert (L : (i <? num_fixed c) = true) by (apply Nat.ltb_lt; apply (HC _ _ i rx I); auto).
          rewrite L. reflexivity.
        - destruct cy as [?|i|?]; try reflexivity.
          assert (L : (i <? num_fixed c) = true) by (apply Nat.ltb_lt; apply (HC _ _ i ry I); auto).
          rewrite L. reflexivity. }
      split; intros H x y I; specialize (H x y I); destruct (CV x y I) as [V1 V2]; congruence. }
    tauto.
Qed.
End Correct.

(** ** The project's circuit *)
From Verif Require Import VMModel CircuitModel KeygenFacts PermModel PermSpec PermFacts PermClaims.
Definition configured_b (kind : nat -> bool) (c : cs) : bool :=
  forallb (fun e => forallb (fun s => (sel_index s <? num_selectors c) && Bool.eqb (sel_simple s) (kind (sel_index s)))
                      (selectors_in e) &&
                    forallb (fun q => (q_col q <? num_fixed c) &&
                       match nth_error (fixed_queries c) (q_index q) with
                       | Some (x, y) => Nat.eqb x (q_col q) && Z.eqb y (q_rot q)
                       | None => false
                       end) (fixed_in e)) (gate_exprs c ++ lookup_exprs c) &&
  forallb well_built (gate_exprs c) &&
  forallb (fun e => forallb (fun s => negb (sel_simple s)) (selectors_in e)) (lookup_exprs c).
Lemma configured_check kind c : configured_b kind c = true -> configured c.
Proof.
  intros H. apply andb_true_iff in H as [H H3]. apply andb_true_iff in H as [H1 H2].
  rewrite forallb_forall in H1, H2, H3.
  assert (H1' : forall e, In e (gate_exprs c) \/ In e (lookup_exprs c) -> _ = true)
    by (intros e Ie; apply H1, in_app_iff, Ie). clear H1.
  constructor.
  - exists kind. intros e s Ie Is. specialize (H1' e Ie). apply andb_true_iff in H1' as [H _].
    rewrite forallb_forall in H. specialize (H s Is). apply andb_true_iff in H as [A B].
    apply Nat.ltb_lt in A. apply eqb_prop in B. auto.
  - exact H2.
  - intros e s Ie Is. specialize (H3 e Ie). rewrite forallb_forall in H3. apply negb_true_iff, H3, Is.
  - intros e q Ie Iq. specialize (H1' e Ie). apply andb_true_iff in H1' as [_ H].
    rewrite forallb_forall in H. specialize (H q Iq). apply andb_true_iff in H as [A B].
    apply Nat.ltb_lt in A. split; [exact A|].
    destruct (nth_error (fixed_queries c) (q_index q)) as [[x y]|]; [|discriminate].
    apply andb_true_iff in B as [B1 B2]. apply Nat.eqb_eq in B1. apply Z.eqb_eq in B2. congruence.
Qed.
Definition kind_of (c : cs) (i : nat) : bool :=
  existsb (fun e => existsb (fun s => Nat.eqb (sel_index s) i && sel_simple s) (selectors_in e)) (gate_exprs c).
Lemma bcs_configured : configured bcs.
Proof. apply (configured_check (kind_of bcs)). vm_compute. reflexivity. Qed.

Lemma selector_rows_spec c n asm : length (selector_rows c n asm) = num_selectors c /\
  (forall a, In a (selector_rows c n asm) -> length a = n) /\
  forall s row, s < num_selectors c -> row < n ->
    active (selector_rows c n asm) s row =
    existsb (fun e => Nat.eqb (fst e) s && Nat.eqb (snd e) row) (asm_enabled asm).
Proof.
  unfold selector_rows. split; [rewrite map_length, seq_length; reflexivity|]. split.
  - intros a Ia. apply in_map_iff in Ia as (s & <- & _). rewrite map_length, seq_length. reflexivity.
  - intros s row Hs Hrow. unfold active.
    set (f := fun s => map _ (seq 0 n)).
    rewrite (nth_indep _ [] (f 0)) by (rewrite map_length, seq_length; exact Hs).
    rewrite map_nth, seq_nth by exact Hs. unfold f. simpl plus.
    set (g := fun row => existsb _ (asm_enabled asm)).
    rewrite (nth_indep _ false (g 0)) by (rewrite map_length, seq_length; exact Hrow).
    rewrite map_nth, seq_nth by exact Hrow. reflexivity.
Qed.
Lemma project_compressed n m cc sc asm : bf_keygen n m = EOk (cc, sc, asm) ->
  exists c' polys asgs, compress_selectors sc (selector_rows sc n asm) = Ok (c', polys, asgs) /\
  compressed sc (selector_rows sc n asm) n c' polys (reps_of asgs) /\
  recreate sc asgs = Ok c' /\
  forall advice insts ch,
      (satisfied sc (asm_copies asm) (assign_with n asm advice insts ch) <->
       satisfied c' (asm_copies asm) (extended sc polys (assign_with n asm advice insts ch))).
Proof.
  intros H. apply keygen_asm in H as (-> & -> & H).
  destruct (selector_rows_spec bcs n asm) as (L1 & L2 & L3).
  assert (Hr : (Z.of_nat (num_selectors bcs) < r_modulus)%Z) by (vm_compute; reflexivity).
  destruct (compress_correct bcs (selector_rows bcs n asm) n bcs_configured L1 L2 Hr) as (c' & polys & asgs & E & C).
  exists c', polys, asgs. split; [exact E|]. split; [exact C|].
  split; [eapply compress_recreate; eauto|].
  intros advice insts ch. apply (cp_same _ _ _ _ _ _ C).
  - reflexivity.
  - intros s row Hs Hrow. rewrite L3 by assumption. reflexivity.
  - assert (V : forall x y, In (x, y) (asm_copies asm) ->
      on_table n (perm_columns bcs) x /\ on_table n (perm_columns bcs) y)
      by (apply (keygen_copies bcs n _ _ _ H); intros ? ? []).
    assert (P : forallb (fun c => match c with CFixed i => i <? num_fixed bcs | _ => true end) (perm_columns bcs) = true)
      by (vm_compute; reflexivity).
    rewrite forallb_forall in P.
    intros x y i r I [->| ->]; destruct (V _ _ I) as [[V1 _] [V2 _]]; cbn [fst] in *; apply Nat.ltb_lt;
      [apply (P _ V1)|apply (P _ V2)].
Qed.
