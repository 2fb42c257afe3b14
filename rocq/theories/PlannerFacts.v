(** The single-pass floor planner. *)
From Coq Require Import ZArith List Arith Lia Bool.
From Verif Require Import Base ListFacts Field FieldFacts Halo2Model VMModel CircuitModel CircuitFacts LayoutFacts PlannerSpec.
Import ListNotations.

Lemma shape_rows ops : forall sh, snd sh <= snd (fold_left shape_step ops sh) /\
  (forall i, reaches ops i -> S i <= snd (fold_left shape_step ops sh)) /\
  (snd (fold_left shape_step ops sh) = snd sh \/
   exists i, reaches ops i /\ snd (fold_left shape_step ops sh) = S i).
Proof.
  induction ops as [|o ops IH]; intros sh; cbn [fold_left].
  - split; [lia|]. split; [intros i (o & c & [] & _)|auto].
  - destruct (IH (shape_step sh o)) as (H1 & H2 & H3).
    assert (ES : snd (shape_step sh o) =
      match rop_touch o with Some (_, i) => Nat.max (snd sh) (i + 1) | None => snd sh end)
      by (unfold shape_step; destruct (rop_touch o) as [[c i]|]; reflexivity).
    rewrite ES in H1, H3. clear ES.
    split; [|split].
    + destruct (rop_touch o) as [[c i]|]; cbn [snd] in *; lia.
    + intros i (o' & c & [<-|I] & E); [|apply H2; exists o', c; auto].
      rewrite E in H1. cbn [snd] in H1. lia.
    + destruct H3 as [H3|(i & (o' & c & I & E) & H3)].
      * destruct (rop_touch o) as [[c i]|] eqn:E; cbn [snd] in H3; [|auto].
        destruct (Nat.max_spec (snd sh) (i + 1)) as [[_ M]|[_ M]]; [|left; lia].
        right. exists i. split; [exists o, c; split; [left; reflexivity|exact E]|lia].
      * right. exists i. split; [exists o', c; split; [right; exact I|exact E]|exact H3].
Qed.
Lemma region_rows ops i : reaches ops i -> i < snd (region_shape ops).
Proof. intros H. destruct (shape_rows ops ([], 0)) as (_ & G & _). apply (G i H). Qed.
Lemma region_rows_tight ops : snd (region_shape ops) = 0 \/
  exists i, reaches ops i /\ snd (region_shape ops) = S i.
Proof. destruct (shape_rows ops ([], 0)) as (_ & _ & G). exact G. Qed.

Lemma fold_max_ge {A} (h : A -> nat) : forall l acc, acc <= fold_left (fun acc c => Nat.max acc (h c)) l acc.
Proof. induction l as [|c l IH]; intros acc; simpl; [lia|]. specialize (IH (Nat.max acc (h c))). lia. Qed.
Lemma fold_max_in {A} (h : A -> nat) : forall l acc c, In c l -> h c <= fold_left (fun acc c => Nat.max acc (h c)) l acc.
Proof.
  induction l as [|d l IH]; intros acc c []; simpl; [subst|eauto].
  pose proof (fold_max_ge h l (Nat.max acc (h c))). lia.
Qed.
Lemma fold_max_some {A} (h : A -> nat) : forall l acc, fold_left (fun acc c => Nat.max acc (h c)) l acc = acc \/
  exists c, In c l /\ fold_left (fun acc c => Nat.max acc (h c)) l acc = h c.
Proof.
  induction l as [|d l IH]; intros acc; simpl; [auto|].
  destruct (IH (Nat.max acc (h d))) as [E|(c & I & E)]; [|eauto].
  destruct (Nat.max_spec acc (h d)) as [[_ M]|[_ M]]; rewrite M in *; eauto.
Qed.
Lemma fold_cols_start (cols : list rcol) (b : nat) : forall m c,
  col_start (fold_left (fun m c => (c, b) :: m) cols m) c = if existsb (rcol_eqb c) cols then b else col_start m c.
Proof.
  induction cols as [|d cols IH]; intros m c; [reflexivity|]. cbn [fold_left existsb]. rewrite IH.
  cbn [col_start]. destruct (existsb (rcol_eqb c) cols); [rewrite orb_true_r; reflexivity|].
  rewrite orb_false_r. reflexivity.
Qed.
Lemma existsb_claims c ops : existsb (rcol_eqb c) (fst (region_shape ops)) = true <-> claims ops c.
Proof.
  change (claims ops c) with (touches ops c). rewrite <- region_shape_cols, existsb_exists. split.
  - intros (x & I & E). apply rcol_eqb_eq in E. subst. exact I.
  - intros I. exists c. split; [exact I|]. apply rcol_eqb_eq. reflexivity.
Qed.

(** The planner's invariant: the recorded end of a column is the end of the last
    region claiming it, and bounds the ends of all regions claiming it. *)
Record inv (regions : list (list rop)) (l : lay) : Prop := {
  in_len : length (lay_regions l) = length regions;
  in_end : forall i ops s c, nth_error regions i = Some ops -> nth_error (lay_regions l) i = Some s ->
    claims ops c -> s + snd (region_shape ops) <= col_start (lay_columns l) c;
  in_last : forall c, col_start (lay_columns l) c = 0 \/
    exists i ops s, nth_error regions i = Some ops /\ nth_error (lay_regions l) i = Some s /\
      claims ops c /\ col_start (lay_columns l) c = s + snd (region_shape ops);
  in_order : forall i j ops ops' s s' c, i < j -> nth_error regions i = Some ops -> nth_error regions j = Some ops' ->
    nth_error (lay_regions l) i = Some s -> nth_error (lay_regions l) j = Some s' ->
    claims ops c -> claims ops' c -> s + snd (region_shape ops) <= s';
  in_tight : forall j ops' s', nth_error regions j = Some ops' -> nth_error (lay_regions l) j = Some s' ->
    s' = 0 \/ exists i ops s c, i < j /\ nth_error regions i = Some ops /\ nth_error (lay_regions l) i = Some s /\
      claims ops c /\ claims ops' c /\ s' = s + snd (region_shape ops)
}.
Lemma nth_error_snoc {A} (l : list A) x i y : nth_error (l ++ [x]) i = Some y ->
  (i < length l /\ nth_error l i = Some y) \/ (i = length l /\ y = x).
Proof.
  intros H. destruct (Nat.lt_ge_cases i (length l)) as [L|L].
  - rewrite nth_error_app1 in H by exact L. auto.
  - rewrite nth_error_app2 in H by exact L. destruct (i - length l) as [|k] eqn:E.
    + injection H as ->. right. split; [lia|reflexivity].
    + destruct k; discriminate.
Qed.
Lemma nth_error_snoc_l {A} (l : list A) x i y : nth_error l i = Some y -> nth_error (l ++ [x]) i = Some y.
Proof. intros H. rewrite nth_error_app1; [exact H|]. apply nth_error_Some. congruence. Qed.
Lemma nth_error_snoc_r {A} (l : list A) x : nth_error (l ++ [x]) (length l) = Some x.
Proof. rewrite nth_error_app2, Nat.sub_diag by lia. reflexivity. Qed.

Lemma inv_region regions l ops : inv regions l -> inv (regions ++ [ops]) (assign_region ops l).
Proof.
  intros I. unfold assign_region. destruct (region_shape ops) as [cols rows] eqn:ES.
  assert (EC : cols = fst (region_shape ops)) by (rewrite ES; reflexivity).
  assert (ER : rows = snd (region_shape ops)) by (rewrite ES; reflexivity).
  set (start := fold_left (fun acc c => Nat.max acc (col_start (lay_columns l) c)) cols 0).
  assert (HS : forall c, claims ops c -> col_start (lay_columns l) c <= start).
  { intros c Hc. apply (fold_max_in (col_start (lay_columns l)) cols 0 c). rewrite EC.
    apply region_shape_cols. exact Hc. }
  pose proof (in_len _ _ I) as L.
  assert (CS : forall c, col_start (fold_left (fun m c => (c, start + rows) :: m) cols (lay_columns l)) c =
                         if existsb (rcol_eqb c) cols then start + rows else col_start (lay_columns l) c)
    by (intros c; apply fold_cols_start).
  constructor; cbn [lay_regions lay_columns].
  - rewrite !app_length, L. reflexivity.
  - intros i ops1 s c H1 H2 HC. rewrite CS.
    apply nth_error_snoc in H1, H2. destruct H1 as [[L1 H1]|[-> ->]], H2 as [[L2 H2]|[E2 ->]]; try lia.
    + pose proof (in_end _ _ I i ops1 s c H1 H2 HC) as B.
      destruct (existsb (rcol_eqb c) cols) eqn:EX; [|exact B].
      rewrite EC in EX. apply existsb_claims in EX. specialize (HS c EX). lia.
    + rewrite EC, (proj2 (existsb_claims c ops) HC). lia.
  - intros c. rewrite CS. destruct (existsb (rcol_eqb c) cols) eqn:EX.
    + right. exists (length regions), ops, start. split; [apply nth_error_snoc_r|].
      split; [rewrite <- L; apply nth_error_snoc_r|].
      rewrite EC in EX. apply existsb_claims in EX. split; [exact EX|lia].
    + destruct (in_last _ _ I c) as [Z|(i & o & s & H1 & H2 & H3 & H4)]; [auto|].
      right. exists i, o, s. split; [apply nth_error_snoc_l, H1|]. split; [apply nth_error_snoc_l, H2|auto].
  - intros i j o o' s s' c Hij H1 H2 H3 H4 C1 C2.
    apply nth_error_snoc in H1, H2, H3, H4.
    destruct H2 as [[L2 H2]|[-> ->]].
    + destruct H1 as [[L1 H1]|[-> ->]]; [|lia]. destruct H3 as [[L3 H3]|[? ->]]; [|lia].
      destruct H4 as [[L4 H4]|[? ->]]; [|lia]. apply (in_order _ _ I i j o o' s s' c); auto.
    + destruct H1 as [[L1 H1]|[-> ->]]; [|lia]. destruct H3 as [[L3 H3]|[? ->]]; [|lia].
      destruct H4 as [[L4 H4]|[? ->]]; [lia|].
      pose proof (in_end _ _ I i o s c H1 H3 C1). specialize (HS c C2). lia.
  - intros j o' s' H1 H2. apply nth_error_snoc in H1, H2. destruct H1 as [[L1 H1]|[-> ->]], H2 as [[L2 H2]|[E2 ->]]; try lia.
    + destruct (in_tight _ _ I j o' s' H1 H2) as [Z|(i & o & s & c & Hij & G1 & G2 & G3)]; [auto|].
      right. exists i, o, s, c. split; [exact Hij|]. split; [apply nth_error_snoc_l, G1|].
      split; [apply nth_error_snoc_l, G2|exact G3].
    + destruct (fold_max_some (col_start (lay_columns l)) cols 0) as [Z|(c & Ic & Z)]; fold start in Z; [auto|].
      rewrite Z. destruct (in_last _ _ I c) as [Z'|(i & o & s & G1 & G2 & G3 & G4)]; [auto|].
      right. exists i, o, s, c. split; [apply nth_error_Some; congruence|].
      split; [apply nth_error_snoc_l, G1|]. split; [apply nth_error_snoc_l, G2|]. split; [exact G3|].
      split; [|exact G4]. rewrite EC in Ic. apply region_shape_cols. exact Ic.
Qed.
Lemma planned_inv regions l : planned regions l -> inv regions l.
Proof.
  induction 1.
  - constructor; cbn; try reflexivity; intros; try (destruct i; discriminate); auto.
    destruct j; discriminate.
  - apply inv_region. assumption.
  - destruct IHplanned. constructor; assumption.
  - unfold assign_table in H0. destruct (existsb _ _); [destruct vals; discriminate|].
    destruct vals; [discriminate|]. injection H0 as <-. destruct IHplanned. constructor; assumption.
Qed.

(** ** The claims *)
Lemma planned_disjoint regions l : planned regions l ->
  length (lay_regions l) = length regions /\
  forall i j ops ops' s s' c row, i <> j ->
    nth_error regions i = Some ops -> nth_error regions j = Some ops' ->
    nth_error (lay_regions l) i = Some s -> nth_error (lay_regions l) j = Some s' ->
    ~ (occupies s ops c row /\ occupies s' ops' c row).
Proof.
  intros P. apply planned_inv in P. split; [apply (in_len _ _ P)|].
  assert (G : forall i j ops ops' s s' c row, i < j ->
    nth_error regions i = Some ops -> nth_error regions j = Some ops' ->
    nth_error (lay_regions l) i = Some s -> nth_error (lay_regions l) j = Some s' ->
    occupies s ops c row -> occupies s' ops' c row -> False).
  { intros i j ops ops' s s' c row H H1 H2 H3 H4 (C1 & k & R1 & B1) (C2 & k' & R2 & B2).
    pose proof (in_order _ _ P i j ops ops' s s' c H H1 H2 H3 H4 C1 C2). apply region_rows in R1. lia. }
  intros i j ops ops' s s' c row N H1 H2 H3 H4 [O1 O2].
  destruct (Nat.lt_ge_cases i j); [eapply (G i j)|eapply (G j i)]; eauto; lia.
Qed.
Lemma planned_zero regions l : planned regions l ->
  (forall i j ops ops' c, i < j -> nth_error regions i = Some ops -> nth_error regions j = Some ops' ->
     claims ops c -> claims ops' c -> False) ->
  lay_regions l = repeat 0 (length regions).
Proof.
  intros P D. apply planned_inv in P. rewrite <- (in_len _ _ P).
  assert (Z : forall s, In s (lay_regions l) -> s = 0).
  { intros s I. apply In_nth_error in I as [j Hj].
    destruct (nth_error regions j) as [ops'|] eqn:E.
    - destruct (in_tight _ _ P j ops' s E Hj) as [Z|(i & ops & s0 & c & H & G1 & _ & G3 & G4 & _)]; [exact Z|].
      exfalso. eapply (D i j); eauto.
    - apply nth_error_None in E. rewrite <- (in_len _ _ P) in E. apply nth_error_None in E. congruence. }
  clear - Z. induction (lay_regions l) as [|s r IH]; [reflexivity|]. simpl.
  rewrite (Z s (or_introl eq_refl)), <- IH; [reflexivity|]. intros; apply Z; right; auto.
Qed.
Lemma planned_tight regions l : planned regions l -> forall j ops' s',
  nth_error regions j = Some ops' -> nth_error (lay_regions l) j = Some (S s') ->
  exists i ops s c, i < j /\ nth_error regions i = Some ops /\ nth_error (lay_regions l) i = Some s /\
    claims ops' c /\ occupies s ops c s'.
Proof.
  intros P j ops' s' H1 H2. apply planned_inv in P.
  destruct (in_tight _ _ P j ops' (S s') H1 H2) as [Z|(i & ops & s & c & H & G1 & G2 & G3 & G4 & E)]; [discriminate|].
  exists i, ops, s, c. split; [exact H|]. split; [exact G1|]. split; [exact G2|]. split; [exact G4|].
  split; [exact G3|].
  destruct (region_rows_tight ops) as [Z|(k & R & Z)]; rewrite Z in E.
  - (* the claimed column is reached somewhere *)
    destruct G3 as (o & k & I & T). assert (R : reaches ops k) by (exists o, c; auto).
    apply region_rows in R. lia.
  - exists k. split; [exact R|lia].
Qed.

(** ** The project's circuit *)
Lemma project_planned m ve l : load_table DOMAIN conf m ve lay_new = EOk l ->
  exists regions, planned regions l /\ length regions = 7 /\ lay_regions l = repeat 0 7.
Proof.
  intros H. unfold load_table in H.
  destruct (assign_table (p_table (p_config conf)) (range_values DOMAIN) lay_new) as [l0| |] eqn:T; try discriminate.
  pose proof (pl_table _ _ _ _ _ pl_new T) as P0.
  assert (U0 : lay_columns l0 = [] /\ lay_regions l0 = []).
  { clear - T. unfold assign_table in T. destruct (existsb _ _); [destruct (range_values _); discriminate|].
    destruct (range_values DOMAIN); [discriminate|]. injection T as <-. split; reflexivity. }
  destruct U0 as [U0 R0]. cbn [ebind] in H.
  destruct (processor_region _ _ _ _) as [ops|] eqn:EP; [|discriminate].
  unfold processor_region in EP. rewrite processor_loop_eq in EP.
  destruct (getchar_ok (processor_matrix m)); [|discriminate]. cbn [bind] in EP.
  assert (E0 : ops = pops m ve) by (injection EP as <-; reflexivity). subst ops. clear EP.
  destruct (assign_owned 0 (pops m ve) l0 (lay_ops l0) (pops_owned m ve)) as (R1 & O1 & U1);
    [intros c [r Hr]; rewrite U0 in Hr; destruct Hr|exact R0|reflexivity|].
  apply (pl_region _ _ (pops m ve)) in P0.
  set (l1 := assign_region (pops m ve) l0) in *.
  replace (memory_region (m_config conf) (challenges conf) ve (memory_matrix m)) with (mops m ve) in H
    by (unfold memory_region; rewrite memory_loop_eq; reflexivity).
  destruct (assign_owned 1 (mops m ve) l1 _ (mops_owned m ve) U1 R1 O1) as (R2 & O2 & U2).
  apply (pl_region _ _ (mops m ve)) in P0.
  set (l2 := assign_region (mops m ve) l1) in *.
  replace (instruction_region (i_config conf) (challenges conf) ve (instruction_matrix m))
    with (iops m ve) in H
    by (unfold instruction_region; rewrite instruction_loop_eq; reflexivity).
  destruct (assign_owned 2 (iops m ve) l2 _ (iops_owned m ve) U2 R2 O2) as (R3 & O3 & U3).
  apply (pl_region _ _ (iops m ve)) in P0.
  set (l3 := assign_region (iops m ve) l2) in *.
  replace (output_region (out_config conf) (challenges conf) ve (output_matrix m))
    with (oops m ve) in H
    by (unfold output_region; rewrite output_loop_eq; reflexivity).
  destruct (assign_owned 3 (oops m ve) l3 _ (oops_owned m ve) U3 R3 O3) as (R4 & O4 & U4).
  apply (pl_region _ _ (oops m ve)) in P0.
  set (l4 := assign_region (oops m ve) l3) in *.
  replace (input_region (in_config conf) (input_inst conf) (challenges conf) ve
             (length (input_matrix m))) with (uops m ve) in H
    by (unfold input_region; rewrite copy_loop_eq; reflexivity).
  destruct (assign_owned 4 (uops m ve) l4 _ (uops_owned m ve) U4 R4 O4) as (R5 & O5 & U5).
  apply (pl_region _ _ (uops m ve)) in P0.
  set (l5 := assign_region (uops m ve) l4) in *.
  replace (program_region (prog_config conf) (code_inst conf) (challenges conf) ve
             (length (program m))) with (gops m ve) in H
    by (unfold program_region; rewrite copy_loop_eq; reflexivity).
  destruct (assign_owned 5 (gops m ve) l5 _ (gops_owned m ve) U5 R5 O5) as (R6 & O6 & U6).
  apply (pl_region _ _ (gops m ve)) in P0.
  set (l6 := assign_region (gops m ve) l5) in *.
  match type of H with EOk (assign_region ?ops ?lay) = _ =>
    match lay with constrain_instance ?a ?b ?c (constrain_instance ?d ?e ?f _) =>
      apply (pl_instance _ _ d e f) in P0; apply (pl_instance _ _ a b c) in P0;
      apply (pl_region _ _ ops) in P0
    end
  end.
  apply (f_equal (fun x => match x with EOk l => l | _ => l end)) in H. cbv beta iota in H. rewrite H in P0.
  eexists. split; [exact P0|]. split; [reflexivity|]. rewrite <- H.
  unfold assign_region at 1. cbn [region_shape fold_left shape_step rop_touch lay_regions constrain_instance].
  rewrite R6. reflexivity.
Qed.
