(** Completeness: the advice synthesised from a finished run satisfies the
    circuit. *)
From Coq Require Import ZArith List Bool Arith Lia Permutation Sorted.
From Verif Require Import Base Field FieldFacts BFSpec BFFacts CompileSpec CompileFacts VMModel VMSim VMInv VMTrace
  TraceSpec ListFacts Halo2Model CircuitModel CircuitFacts LayoutFacts KeygenFacts CircuitSpec LocalSound
  WitnessFacts HonestFacts.
Import List ListNotations.
Local Open Scope F_scope.

(** ** Accumulators *)
Lemma firstn_snoc {A} (l : list A) i x : nth_error l i = Some x -> firstn (S i) l = firstn i l ++ [x].
Proof.
  revert i. induction l as [|y l IH]; intros [|i] H; try discriminate.
  - injection H as ->. reflexivity.
  - cbn [firstn app]. f_equal. apply IH. exact H.
Qed.
Lemma accF_0 {X} (g : X -> Fr -> Fr) xs init : accF g xs init 0 = init.
Proof. reflexivity. Qed.
Lemma accF_S {X} (g : X -> Fr -> Fr) xs init r x :
  nth_error xs r = Some x -> accF g xs init (S r) = g x (accF g xs init r).
Proof.
  intros H. unfold accF. pose proof (nth_error_lt _ _ _ H) as L.
  rewrite !(proj2 (Nat.leb_le _ _)) by lia. rewrite (firstn_snoc _ _ _ H), fold_left_app. reflexivity.
Qed.
Lemma accF_end {X} (g : X -> Fr -> Fr) xs init :
  accF g xs init (length xs) = fold_left (fun s x => g x s) xs init.
Proof. unfold accF. rewrite Nat.leb_refl, firstn_all. reflexivity. Qed.

Definition prodF {X} (f : X -> Fr) (xs : list X) (a : Fr) : Fr := fold_left (fun s x => s * f x) xs a.
Lemma prodF_perm {X} (f : X -> Fr) l l' a : Permutation l l' -> prodF f l a = prodF f l' a.
Proof.
  intros H. revert a. unfold prodF. induction H as [|x l l' H IH|x y l|l1 l2 l3 H1 IH1 H2 IH2]; intros a; cbn [fold_left].
  - reflexivity.
  - apply IH.
  - f_equal. fring.
  - rewrite IH1. apply IH2.
Qed.
Lemma prodF_map {X Y} (f : Y -> Fr) (h : X -> Y) l a : prodF f (map h l) a = prodF (fun x => f (h x)) l a.
Proof. unfold prodF. revert a. induction l as [|x l IH]; intros a; cbn [map fold_left]; [reflexivity|apply IH]. Qed.
Lemma fold_zip {X} (f : X -> Fr -> Fr) (l : list X) a :
  fold_left (fun s x => f (fst x) s) (zipnext l) a = fold_left (fun s x => f x s) l a.
Proof. revert a. induction l as [|x l IH]; intros a; cbn [zipnext fold_left fst]; [reflexivity|apply IH]. Qed.

(** ** Accumulators of the instruction table *)
Section InstAcc.
Variables (W : list Z) (ch : nat -> Fr).
Hypothesis HL : (lenZ W < 2 ^ 64)%Z.
Definition ifac (k : nat) : Fr :=
  inst_factor ch (i_ip (irow_at W k)) (i_ci (irow_at W k)) (i_ni (irow_at W k)).

Lemma same_ip x y : (x <= length W)%nat -> (y <= length W)%nat ->
  feqb (i_ip (irow_at W y)) (i_ip (irow_at W x)) = Nat.eqb y x.
Proof.
  intros Hx Hy. unfold lenZ in HL. cbn [irow_at i_ip]. rewrite feqb_FrZ by lia.
  destruct (Nat.eqb_spec y x) as [->|N]; [apply Z.eqb_refl|apply Z.eqb_neq; lia].
Qed.
Lemma next_same x l : (forall k, In k (x :: l) -> (k <= length W)%nat) ->
  feqb (next_ip (irow_at W x, match map (irow_at W) l with [] => None | y :: _ => Some y end)) (i_ip (irow_at W x))
  = match l with [] => true | y :: _ => Nat.eqb y x end.
Proof.
  intros H. unfold next_ip. cbn [fst snd]. destruct l as [|y l]; cbn [map]; [apply feqb_refl|].
  apply same_ip; apply H; cbn [In]; auto.
Qed.
Lemma fold_iprp ks a : (forall k, In k ks -> (k <= length W)%nat) ->
  fold_left (fun s x => h_iprp ch x s) (zipnext (map (irow_at W) ks)) a = prodF ifac (interior ks) a.
Proof.
  revert a. induction ks as [|x ks IH]; intros a H; [reflexivity|]. cbn [map zipnext fold_left].
  rewrite IH by (intros k Hk; apply H; right; exact Hk). unfold h_iprp.
  rewrite next_same by exact H. cbn [fst]. destruct ks as [|y ks]; [reflexivity|].
  change (interior (x :: y :: ks)) with (if Nat.eqb y x then x :: interior (y :: ks) else interior (y :: ks)).
  destruct (Nat.eqb y x); reflexivity.
Qed.
Lemma fold_irs ks a : (forall k, In k ks -> (k <= length W)%nat) ->
  fold_left (fun s x => h_irs ch x s) (zipnext (map (irow_at W) ks)) a =
  fold_left (fun s x => h_sum (ch 8%nat) x s) (map (fun k => i_ci (irow_at W k)) (boundary ks)) a.
Proof.
  revert a. induction ks as [|x ks IH]; intros a H; [reflexivity|]. cbn [map zipnext fold_left].
  rewrite IH by (intros k Hk; apply H; right; exact Hk). unfold h_irs.
  rewrite next_same by exact H. cbn [fst]. destruct ks as [|y ks]; [reflexivity|].
  change (boundary (x :: y :: ks)) with (if Nat.eqb y x then boundary (y :: ks) else x :: boundary (y :: ks)).
  destruct (Nat.eqb y x); reflexivity.
Qed.
Lemma words_ci : map (fun k => i_ci (irow_at W k)) (seq 0 (length W)) = map FrZ W.
Proof.
  apply nth_error_ext'. intros k. rewrite nth_error_map. destruct (lt_dec k (length W)) as [Hk|Hk].
  - rewrite (nth_error_nth' (seq 0 (length W)) 0%nat) by (rewrite seq_length; exact Hk).
    rewrite seq_nth by exact Hk. cbn [option_map Nat.add irow_at i_ci].
    rewrite word_or_0_nth. symmetry. apply nth_error_nth'. rewrite map_length. exact Hk.
  - rewrite (proj2 (nth_error_None _ _)) by (rewrite seq_length; lia).
    symmetry. apply nth_error_None. rewrite map_length. lia.
Qed.
End InstAcc.

(** ** Accumulators of the processor table *)
Lemma row_op W i ip c r o : row_shows W i ip c r -> word W ip = Some o -> current_instruction r = FrZ o.
Proof. intros (_ & _ & E & _) H. rewrite E. unfold word_or_0. rewrite H. reflexivity. Qed.
Lemma feqb_op a b : (0 <= a < 256)%Z -> (0 <= b < 256)%Z -> feqb (FrZ a) (FrZ b) = Z.eqb a b.
Proof. intros Ha Hb. apply feqb_FrZ; lia. Qed.
Lemma trace_first W w i ip c rows ip' c' last : trace W w i ip c rows ip' c' ->
  row_shows W (i + length rows) ip' c' last ->
  exists r rest, rows ++ [last] = r :: rest /\ row_shows W i ip c r.
Proof.
  intros H L. destruct H; cbn [app length] in *.
  - rewrite Nat.add_0_r in L. exists last, []. auto.
  - exists r, (rows ++ [last]). auto.
Qed.
Lemma vstep_effect W w ip c ip1 c1 : vstep W w ip c ip1 c1 ->
  exists o outs ins, word W ip = Some o /\ (0 <= o < 256)%Z /\
    written c1 = written c ++ outs /\ read c1 = read c ++ ins /\
    (if Z.eqb o PUTCHAR then outs = [BFSpec.cell c] else outs = []) /\
    (if Z.eqb o GETCHAR then ins = [BFSpec.cell c1] else ins = []).
Proof.
  intros H. destruct H;
    try (match goal with Hw : word _ _ = Some ?o |- _ => exists o, [], [];
      rewrite !app_nil_r; split; [assumption|]; repeat split; discriminate end).
  - exists chr_out, [BFSpec.cell c], []. rewrite app_nil_r. repeat split; [assumption|discriminate..].
  - exists chr_in, [], [v]. rewrite app_nil_r. repeat split; [assumption|discriminate..|].
    unfold BFSpec.cell, take_input. cbn. rewrite Z.eqb_refl. reflexivity.
Qed.
Lemma trace_io W w i ip c rows ip' c' last ch :
  trace W w i ip c rows ip' c' -> row_shows W (i + length rows) ip' c' last -> ip' = lenZ W ->
  exists outs ins, written c' = written c ++ outs /\ read c' = read c ++ ins /\
    forall a, fold_left (fun s x => h_out ch x s) (zipnext (rows ++ [last])) a =
              fold_left (fun s x => h_sum (ch 9%nat) x s) (map FrZ outs) a /\
              fold_left (fun s x => h_in ch x s) (zipnext (rows ++ [last])) a =
              fold_left (fun s x => h_sum (ch 10%nat) x s) (map FrZ ins) a.
Proof.
  intros H. induction H as [i ip c|i ip c r ip1 c1 rows ip2 c2 Hr Hv Ht IH]; intros L E.
  - exists [], []. rewrite !app_nil_r. split; [reflexivity|]. split; [reflexivity|].
    intros a. cbn [app zipnext fold_left map]. unfold h_out, h_in. cbn [fst snd].
    destruct L as (_ & _ & Ec & _). rewrite Ec, E.
    assert (E0 : word_or_0 W (lenZ W) = 0%Z).
    { unfold word_or_0. rewrite word_nth by (unfold lenZ; lia). unfold lenZ. rewrite Nat2Z.id.
      rewrite (proj2 (nth_error_None _ _)) by lia. reflexivity. }
    rewrite E0. split; reflexivity.
  - cbn [length] in L. replace (i + S (length rows))%nat with (S i + length rows)%nat in L by lia.
    destruct (IH L E) as (outs & ins & E1 & E2 & F).
    destruct (trace_first _ _ _ _ _ _ _ _ _ Ht L) as (r1 & rest & Er & Hr1).
    cbn [app]. rewrite Er in *.
    assert (Gen : forall o outs' ins', word W ip = Some o -> (0 <= o < 256)%Z ->
       written c1 = written c ++ outs' -> read c1 = read c ++ ins' ->
       (if Z.eqb o PUTCHAR then outs' = [BFSpec.cell c] else outs' = []) ->
       (if Z.eqb o GETCHAR then ins' = [BFSpec.cell c1] else ins' = []) ->
       exists outs ins, written c2 = written c ++ outs /\ read c2 = read c ++ ins /\
         forall a, fold_left (fun s x => h_out ch x s) (zipnext (r :: r1 :: rest)) a =
              fold_left (fun s x => h_sum (ch 9%nat) x s) (map FrZ outs) a /\
              fold_left (fun s x => h_in ch x s) (zipnext (r :: r1 :: rest)) a =
              fold_left (fun s x => h_sum (ch 10%nat) x s) (map FrZ ins) a).
    { intros o outs' ins' Ho Hb Ew Erd Ho1 Hi1. exists (outs' ++ outs), (ins' ++ ins).
      rewrite E1, E2, Ew, Erd, <- !app_assoc. split; [reflexivity|]. split; [reflexivity|].
      intros a. change (zipnext (r :: r1 :: rest)) with ((r, Some r1) :: zipnext (r1 :: rest)).
      cbn [fold_left]. rewrite (proj1 (F _)), (proj2 (F _)). unfold h_out, h_in. cbn [fst snd].
      rewrite (row_op _ _ _ _ _ _ Hr Ho). unfold PUTCHAR, GETCHAR in *. rewrite !feqb_op by lia.
      rewrite !map_app, !fold_left_app. split.
      - destruct (Z.eqb o 46); subst outs'; cbn [map fold_left]; [|reflexivity]. f_equal.
        destruct Hr as (_ & _ & _ & _ & _ & -> & _). unfold h_sum. fring.
      - destruct (Z.eqb o 44); subst ins'; cbn [map fold_left]; [|reflexivity]. f_equal.
        destruct Hr1 as (_ & _ & _ & _ & _ & -> & _). unfold h_sum. fring. }
    destruct (vstep_effect _ _ _ _ _ _ Hv) as (o & outs' & ins' & Ho & Hb & Ew & Erd & Ho1 & Hi1).
    exact (Gen o outs' ins' Ho Hb Ew Erd Ho1 Hi1).
Qed.

(** ** Gates of consecutive processor rows *)
Lemma word_or W a o : word W a = Some o -> word_or_0 W a = o.
Proof. unfold word_or_0. intros ->. reflexivity. Qed.
Lemma inverse_gates v vi : inverse_of v vi -> v * (v * vi - f1) = f0 /\ vi * (v * vi - f1) = f0.
Proof.
  intros [H0 H1]. destruct (fe_dec v f0) as [E|N].
  - rewrite (H0 E), E. split; fring.
  - rewrite (H1 N). split; fring.
Qed.
Lemma inc_gate k : (0 <= k < 256)%Z ->
  (FrZ ((k + 1) mod 256) - FrZ k - f1) * (FrZ ((k + 1) mod 256) - FrZ k + FrZ 255) = f0.
Proof.
  intros Hk. destruct (Z.eq_dec k 255) as [->|N].
  - change (((255 + 1) mod 256)%Z) with 0%Z. rewrite <- f0_FrZ. fring.
  - rewrite Z.mod_small by lia. rewrite <- FrZ_add, <- f1_FrZ. fring.
Qed.
Lemma dec_gate k : (0 <= k < 256)%Z ->
  (FrZ ((k - 1) mod 256) - FrZ k + f1) * (FrZ ((k - 1) mod 256) - FrZ k - FrZ 255) = f0.
Proof.
  intros Hk. destruct (Z.eq_dec k 0) as [->|N].
  - change (((0 - 1) mod 256)%Z) with 255%Z. rewrite <- f0_FrZ. fring.
  - rewrite Z.mod_small by lia. rewrite <- FrZ_sub, <- f1_FrZ. fring.
Qed.

Ltac keepg op :=
  repeat match goal with
  | |- context [desel (FrZ op) ?p] =>
      tryif constr_eq op p then fail else
      rewrite (desel_other op p) by first [apply in_op; reflexivity | discriminate]
  end.

Lemma vstep_gates W i ip c ip1 c1 x y :
  vstep W 8 ip c ip1 c1 -> in_bounds 8 c ->
  row_shows W i ip c x -> row_shows W (S i) ip1 c1 y ->
  let ci := current_instruction x in
  (desel ci ADD + desel ci SUB + desel ci SHR + desel ci SHL + desel ci GETCHAR + desel ci PUTCHAR)
     * (instruction_pointer y - instruction_pointer x - f1)
    + desel ci LB * (memory_value x * (instruction_pointer y - instruction_pointer x - FrZ 2) +
        (memory_value x * memory_value_inverse x - f1) * (instruction_pointer y - next_instruction x))
    + desel ci RB * ((memory_value x * memory_value_inverse x - f1) * (instruction_pointer y - instruction_pointer x - FrZ 2)
        + memory_value x * (instruction_pointer y - next_instruction x)) = f0 /\
  (desel ci ADD + desel ci SUB + desel ci LB + desel ci RB + desel ci GETCHAR + desel ci PUTCHAR)
     * (memory_pointer y - memory_pointer x)
    + desel ci SHL * (memory_pointer y - memory_pointer x + f1)
    + desel ci SHR * (memory_pointer y - memory_pointer x - f1) = f0 /\
  (desel ci LB + desel ci RB + desel ci PUTCHAR) * (memory_value y - memory_value x)
    + desel ci ADD * (memory_value y - memory_value x - f1) * (memory_value y - memory_value x + FrZ 255)
    + desel ci SUB * (memory_value y - memory_value x + f1) * (memory_value y - memory_value x - FrZ 255) = f0.
Proof.
  intros Hv [Hb _] (_ & Xip & Xci & Xni & Xmp & Xmv & Xi) (_ & Yip & _ & _ & Ymp & Ymv & _).
  specialize (Hb (pos c)). fold (BFSpec.cell c) in Hb. change (2 ^ 8)%Z with 256%Z in Hb.
  cbv zeta. rewrite Yip, Ymp, Ymv, Xmp, Xip, Xci, Xni. clear Yip Ymp Ymv Xmp Xip Xci Xni.
  assert (Inv0 : BFSpec.cell c <> 0%Z -> memory_value x * memory_value_inverse x = f1).
  { intros N. apply Xi. rewrite Xmv, f0_FrZ. intros E. apply FrZ_inj in E; lia. }
  destruct Hv as [ip c H|ip c H Hp|ip c H|ip c H|ip c H|ip c v rest H Hu|ip c H Hc|ip c d H Hc Hd|ip c H Hc|ip c d H Hc Hd].
  all: rewrite (word_or _ _ _ H).
  - change chr_right with SHR. keepg SHR. rewrite Xmv. cbn [move pos]. change (BFSpec.cell (move c 1)) with (tape c (pos c + 1)).
    rewrite <- !FrZ_add, <- !f1_FrZ. repeat split; fring.
  - change chr_left with SHL. keepg SHL. cbn [move pos]. change (-1)%Z with (0 - 1)%Z.
    rewrite <- !FrZ_add, <- !FrZ_sub, <- ?f0_FrZ, <- !f1_FrZ. repeat split; fring.
  - change chr_inc with ADD. keepg ADD. cbn [set_cell pos].
    assert (E : BFSpec.cell (set_cell c ((BFSpec.cell c + 1) mod 2 ^ 8)) = ((BFSpec.cell c + 1) mod 256)%Z)
      by (unfold BFSpec.cell, set_cell; cbn [tape pos]; rewrite Z.eqb_refl; reflexivity).
    fold (set_cell c ((BFSpec.cell c + 1) mod 2 ^ 8)). rewrite E. pose proof (inc_gate _ Hb) as G. rewrite Xmv.
    split; [|split].
    + rewrite <- FrZ_add, <- f1_FrZ. fring.
    + fring.
    + transitivity (desel (FrZ ADD) ADD * ((FrZ ((BFSpec.cell c + 1) mod 256) - FrZ (BFSpec.cell c) - f1) *
        (FrZ ((BFSpec.cell c + 1) mod 256) - FrZ (BFSpec.cell c) + FrZ 255))); [fring|]. rewrite G. fring.
  - change chr_dec with SUB. keepg SUB. cbn [set_cell pos].
    assert (E : BFSpec.cell (set_cell c ((BFSpec.cell c - 1) mod 2 ^ 8)) = ((BFSpec.cell c - 1) mod 256)%Z)
      by (unfold BFSpec.cell, set_cell; cbn [tape pos]; rewrite Z.eqb_refl; reflexivity).
    fold (set_cell c ((BFSpec.cell c - 1) mod 2 ^ 8)). rewrite E. pose proof (dec_gate _ Hb) as G. rewrite Xmv.
    split; [|split].
    + rewrite <- FrZ_add, <- f1_FrZ. fring.
    + fring.
    + transitivity (desel (FrZ SUB) SUB * ((FrZ ((BFSpec.cell c - 1) mod 256) - FrZ (BFSpec.cell c) + f1) *
        (FrZ ((BFSpec.cell c - 1) mod 256) - FrZ (BFSpec.cell c) - FrZ 255))); [fring|]. rewrite G. fring.
  - change chr_out with PUTCHAR. keepg PUTCHAR. cbn [emit_cell pos].
    change (BFSpec.cell (emit_cell c)) with (BFSpec.cell c). rewrite Xmv.
    rewrite <- FrZ_add, <- f1_FrZ. repeat split; fring.
  - change chr_in with GETCHAR. keepg GETCHAR. cbn [take_input set_cell pos].
    rewrite <- FrZ_add, <- f1_FrZ. repeat split; fring.
  - change chr_open with LB. keepg LB. rewrite (Inv0 Hc), Xmv. rewrite <- FrZ_add. repeat split; fring.
  - change chr_open with LB. keepg LB. rewrite (word_or _ _ _ Hd), Xmv, Hc, <- f0_FrZ.
    repeat split; fring.
  - change chr_close with RB. keepg RB. rewrite Xmv, Hc, <- f0_FrZ, <- FrZ_add. repeat split; fring.
  - change chr_close with RB. keepg RB. rewrite (Inv0 Hc), (word_or _ _ _ Hd), Xmv. repeat split; fring.
Qed.

Lemma out_gate ci g a v : (exists o, ci = FrZ o /\ In o OPCODES) ->
  let b := if feqb ci (FrZ PUTCHAR) then a * g + v else a in
  desel ci PUTCHAR * (b - (a * g + v)) + (ci - FrZ PUTCHAR) * (b - a) = f0.
Proof.
  intros (o & -> & Ho). cbv zeta. destruct (feqb (FrZ o) (FrZ PUTCHAR)) eqn:E.
  - apply feqb_eq in E. rewrite E. fring.
  - rewrite (desel_other o PUTCHAR); [fring|exact Ho|apply in_op; reflexivity|].
    intros ->. rewrite feqb_refl in E. discriminate.
Qed.
Lemma in_gate ci g a v : (exists o, ci = FrZ o /\ In o OPCODES) ->
  let b := if feqb ci (FrZ GETCHAR) then a * g + v else a in
  desel ci GETCHAR * (b - (a * g + v)) + (ci - FrZ GETCHAR) * (b - a) = f0.
Proof.
  intros (o & -> & Ho). cbv zeta. destruct (feqb (FrZ o) (FrZ GETCHAR)) eqn:E.
  - apply feqb_eq in E. rewrite E. fring.
  - rewrite (desel_other o GETCHAR); [fring|exact Ho|apply in_op; reflexivity|].
    intros ->. rewrite feqb_refl in E. discriminate.
Qed.

(** ** The honest columns satisfy the equations *)
Lemma cellF_nth' {X} (f : X -> Fr) xs r x : nth_error xs r = Some x -> cellF f xs r = f x.
Proof. intros H. unfold cellF. rewrite H. reflexivity. Qed.
Lemma zip_at {X} (l : list X) r x : nth_error l r = Some x -> nth_error (zipnext l) r = Some (x, nth_error l (S r)).
Proof. intros H. apply zipnext_nth. auto. Qed.

(** What a finished run recorded: everything the circuit's completeness depends on. *)
Record recorded_run (W inp : list Z) (m : matrix) (rows : list register) (last : register) (c' : config)
    (ks : list nat) (ipf : nat -> Z) (cf : nat -> config) : Prop := mkRR {
  rr_trace : trace W 8 0 0 (initial inp) rows (lenZ W) c';
  rr_last : row_shows W (length rows) (lenZ W) c' last;
  rr_states : states W 8 inp (rows ++ [last]) (length rows) ipf cf;
  rr_end : cf (length rows) = c';
  rr_P : processor_matrix m = rows ++ [last];
  rr_out : output_matrix m = map FrZ (written c');
  rr_in : input_matrix m = map FrZ (read c');
  rr_prog : program m = map FrZ W;
  rr_M : Permutation (memory_matrix m) (map mrow_of (processor_matrix m));
  rr_Mc : forall i x y, nth_error (memory_matrix m) i = Some x -> nth_error (memory_matrix m) (S i) = Some y ->
    exists a b, x = mrow_at cf a /\ y = mrow_at cf b /\
    ((pos (cf b) = pos (cf a) /\ (b = S a \/ BFSpec.cell (cf b) = BFSpec.cell (cf a))) \/
     (pos (cf b) = pos (cf a) + 1 /\ BFSpec.cell (cf b) = 0)%Z);
  rr_T : instruction_matrix m = map (irow_at W) ks;
  rr_ks : Permutation ks (seq 0 (length W) ++ ips (length rows) ipf);
  rr_sorted : StronglySorted le ks;
  rr_range : forall k, In k ks <-> (k <= length W)%nat;
  rr_rows : map irow_of (processor_matrix m) = map (irow_at W) (ips (length rows) ipf);
  rr_W : (lenZ W < 2 ^ 64)%Z;
  rr_inp : in_range 8 inp
}.

Section Honest.
Variables (W inp : list Z) (m : matrix) (rows : list register) (last : register) (c' : config)
  (ks : list nat) (ipf : nat -> Z) (cf : nat -> config).
Hypothesis R : recorded_run W inp m rows last c' ks ipf cf.
Let N := length rows.
Let P := processor_matrix m.

Lemma R_len : length P = S N.
Proof. unfold P. rewrite (rr_P _ _ _ _ _ _ _ _ _ R), app_length. cbn [length]. unfold N. lia. Qed.
Lemma R_row r x : nth_error P r = Some x -> (r <= N)%nat /\ row_shows W r (ipf r) (cf r) x.
Proof.
  intros H. split; [apply nth_error_lt in H; rewrite R_len in H; lia|].
  unfold P in H. rewrite (rr_P _ _ _ _ _ _ _ _ _ R) in H.
  exact (st_row _ _ _ _ _ _ _ (rr_states _ _ _ _ _ _ _ _ _ R) r x H).
Qed.
Lemma R_get r : (r <= N)%nat -> exists x, nth_error P r = Some x /\ row_shows W r (ipf r) (cf r) x.
Proof.
  intros H. destruct (nth_error P r) as [x|] eqn:E.
  - exists x. split; [reflexivity|]. apply R_row. exact E.
  - apply nth_error_None in E. rewrite R_len in E. lia.
Qed.
Lemma R_bounds r : (r <= N)%nat -> in_bounds 8 (cf r).
Proof.
  intros H. eapply st_bounds; [| |exact (rr_states _ _ _ _ _ _ _ _ _ R)|exact H].
  - lia.
  - exact (rr_inp _ _ _ _ _ _ _ _ _ R).
Qed.
Lemma R_op r x : (r < N)%nat -> nth_error P r = Some x ->
  exists o, current_instruction x = FrZ o /\ In o OPCODES.
Proof.
  intros H Hx. destruct (st_op _ _ _ _ _ _ _ (rr_states _ _ _ _ _ _ _ _ _ R) r H) as (o & Ho & Hi).
  exists o. split; [apply (row_op _ _ _ _ _ _ (proj2 (R_row _ _ Hx)) Ho)|].
  apply in_op. unfold instr_chars in Hi. cbn [List.In] in Hi.
  repeat (destruct Hi as [<-|Hi]; [reflexivity|]). destruct Hi.
Qed.
Lemma R_in_rs_row r x y : (r < N)%nat -> nth_error P r = Some x -> nth_error P (S r) = Some y ->
  vstep W 8 (ipf r) (cf r) (ipf (S r)) (cf (S r)).
Proof. intros H _ _. exact (st_step _ _ _ _ _ _ _ (rr_states _ _ _ _ _ _ _ _ _ R) r H). Qed.

Variables (n : nat) (insts : list (list Fr)) (ch : nat -> Fr) (A : nat -> nat -> Fr).
Let inst := instance_fn insts.
Hypothesis Hfit : fits n (sizes_of m).
Hypothesis HA : forall c r, (r < n - 1)%nat -> A c r = hon m inst ch c r.

Lemma R_zi : (0 < length (instruction_matrix m))%nat.
Proof.
  rewrite (rr_T _ _ _ _ _ _ _ _ _ R), map_length.
  assert (H : In 0%nat ks) by (apply (rr_range _ _ _ _ _ _ _ _ _ R); lia).
  destruct ks; [destruct H|cbn [length]; lia].
Qed.
Lemma R_T r x : nth_error (instruction_matrix m) r = Some x -> exists k, nth_error ks r = Some k /\ x = irow_at W k.
Proof.
  rewrite (rr_T _ _ _ _ _ _ _ _ _ R), nth_error_map. destruct (nth_error ks r) as [k|]; [|discriminate].
  intros H. injection H as <-. exists k. auto.
Qed.
(** Consecutive addresses differ by at most one. *)
Lemma R_T2 r x y : nth_error (instruction_matrix m) r = Some x -> nth_error (instruction_matrix m) (S r) = Some y ->
  exists k, (k <= length W)%nat /\ x = irow_at W k /\ (y = irow_at W k \/ y = irow_at W (S k) /\ (S k <= length W)%nat).
Proof.
  intros Hx Hy. apply R_T in Hx, Hy. destruct Hx as (k & Hk & ->), Hy as (k' & Hk' & ->).
  exists k. assert (Ik : In k ks) by (eapply nth_error_In; exact Hk).
  assert (Ik' : In k' ks) by (eapply nth_error_In; exact Hk').
  apply (rr_range _ _ _ _ _ _ _ _ _ R) in Ik, Ik'. split; [exact Ik|]. split; [reflexivity|].
  assert (L : (k <= k')%nat) by (eapply (sorted_nth le ks r (S r)); [apply (rr_sorted _ _ _ _ _ _ _ _ _ R)|lia|exact Hk|exact Hk']).
  destruct (Nat.eq_dec k k') as [->|D]; [left; reflexivity|].
  destruct (Nat.eq_dec (S k) k') as [<-|D2]; [right; auto|exfalso].
  assert (I2 : In (S k) ks) by (apply (rr_range _ _ _ _ _ _ _ _ _ R); lia).
  destruct (sorted_consec le ks r k k' (S k) (rr_sorted _ _ _ _ _ _ _ _ _ R) Hk Hk' I2) as [E|[E|[E|E]]]; lia.
Qed.
Lemma irow_ip_succ k : i_ip (irow_at W (S k)) = i_ip (irow_at W k) + f1.
Proof. cbn [irow_at i_ip]. rewrite f1_FrZ, FrZ_add. f_equal. lia. Qed.
Lemma irow_ip_neq k : i_ip (irow_at W (S k)) <> i_ip (irow_at W k).
Proof.
  rewrite irow_ip_succ. intros E. apply Fr_1_neq_0.
  transitivity (i_ip (irow_at W k) + f1 - i_ip (irow_at W k)); [fring|]. rewrite E. fring.
Qed.

Ltac small := let F := fresh in pose proof Hfit as F; unfold fits, sizes_of in F;
  cbn [zp zm zi zo zu zg] in F; pose proof R_len; unfold P in *;
  cbn [sizes_of zp zm zi zo zu zg]; lia.
Ltac hon_unfold := unfold hon; cbv zeta; fold P.

Ltac mem_gate r Hon :=
    cbn [sizes_of zm] in Hon;
    let x := fresh "x" in let y := fresh "y" in let Hx := fresh "Hx" in let Hy := fresh "Hy" in
    let a := fresh "a" in let b := fresh "b" in
    destruct (lt_nth_error (memory_matrix m) r) as [x Hx]; [lia|];
    destruct (lt_nth_error (memory_matrix m) (S r)) as [y Hy]; [lia|];
    rewrite !HA by small; unfold hon; cbv zeta; rewrite !(cellF_nth' _ _ _ _ Hx), ?(cellF_nth' _ _ _ _ Hy);
    destruct (rr_Mc _ _ _ _ _ _ _ _ _ R r x y Hx Hy) as (a & b & -> & -> & [(Ep & [->|Ec])|(Ep & Ec)]);
    cbn [mrow_at m_clk m_mp m_mv]; rewrite ?Ep, ?Ec;
    rewrite <- ?FrZ_add, <- ?f1_FrZ, <- ?f0_FrZ, ?Nat2Z.inj_succ; unfold Z.succ;
    rewrite <- ?FrZ_add, <- ?f1_FrZ; fring.
Ltac inst_gate r Hon :=
    cbn [sizes_of zi] in Hon;
    let x := fresh "x" in let y := fresh "y" in let Hx := fresh "Hx" in let Hy := fresh "Hy" in let k := fresh "k" in
    destruct (lt_nth_error (instruction_matrix m) r) as [x Hx]; [lia|];
    destruct (lt_nth_error (instruction_matrix m) (S r)) as [y Hy]; [lia|];
    rewrite !HA by small; unfold hon; cbv zeta; rewrite !(cellF_nth' _ _ _ _ Hx), !(cellF_nth' _ _ _ _ Hy);
    destruct (R_T2 r x y Hx Hy) as (k & _ & -> & [->|[-> _]]); rewrite ?irow_ip_succ; fring.

Lemma honest_rows r : row_eqs (fun s => sel_spec (sizes_of m) s r) (fun c => A c r) (fun c => A c (S r))
                               (fun c => A c (prev_row n r)) ch.
Proof.
  assert (Hz : zp (sizes_of m) = S N) by exact R_len.
  (* rows of the processor table *)
  assert (PA : (r <= N)%nat -> exists x, nth_error P r = Some x /\ row_shows W r (ipf r) (cf r) x /\
     A 0%nat r = cycle x /\ A 1%nat r = current_instruction x /\ A 2%nat r = instruction_pointer x /\
     A 3%nat r = next_instruction x /\ A 4%nat r = memory_pointer x /\ A 5%nat r = memory_value x /\
     A 6%nat r = memory_value_inverse x).
  { intros H. destruct (R_get r H) as (x & Hx & Sx). exists x. split; [exact Hx|]. split; [exact Sx|].
    rewrite !HA by small. unfold hon. cbv zeta. fold P. rewrite !(cellF_nth' _ _ _ _ Hx). repeat split. }
  assert (PB : (S r <= N)%nat -> exists x, nth_error P (S r) = Some x /\ row_shows W (S r) (ipf (S r)) (cf (S r)) x /\
     A 0%nat (S r) = cycle x /\ A 2%nat (S r) = instruction_pointer x /\
     A 4%nat (S r) = memory_pointer x /\ A 5%nat (S r) = memory_value x).
  { intros H. destruct (R_get (S r) H) as (x & Hx & Sx). exists x. split; [exact Hx|]. split; [exact Sx|].
    rewrite !HA by small. unfold hon. cbv zeta. fold P. rewrite !(cellF_nth' _ _ _ _ Hx). repeat split. }
  constructor; cbv beta; intros Hon; unfold sel_spec in Hon; rewrite ?Hz in Hon;
    apply Nat.ltb_lt in Hon || apply Nat.eqb_eq in Hon.
  1-4: subst r; destruct PA as (x & _ & (X0 & X1 & _ & _ & X4 & X5 & _) & A0 & A1 & A2 & A3 & A4 & A5 & A6); [lia|]; rewrite ?A0, ?A1, ?A2, ?A3, ?A4, ?A5, ?A6;
       rewrite ?X0, ?X1, ?X4, ?X5, ?(st_ip0 _ _ _ _ _ _ _ (rr_states _ _ _ _ _ _ _ _ _ R)),
        ?(st_c0 _ _ _ _ _ _ _ (rr_states _ _ _ _ _ _ _ _ _ R)); reflexivity.
  - destruct PA as (x & _ & Sx & A0 & A1 & A2 & A3 & A4 & A5 & A6); [lia|]; rewrite ?A0, ?A1, ?A2, ?A3, ?A4, ?A5, ?A6. destruct PB as (y & _ & Sy & B0 & B2 & B4 & B5); [lia|]; rewrite ?B0, ?B2, ?B4, ?B5.
    rewrite (proj1 Sx), (proj1 Sy), f1_FrZ, !FrZ_sub, f0_FrZ. f_equal. lia.
  - destruct PA as (x & _ & Sx & A0 & A1 & A2 & A3 & A4 & A5 & A6); [lia|]; rewrite ?A0, ?A1, ?A2, ?A3, ?A4, ?A5, ?A6. apply inverse_gates. apply Sx.
  - destruct PA as (x & _ & Sx & A0 & A1 & A2 & A3 & A4 & A5 & A6); [lia|]; rewrite ?A0, ?A1, ?A2, ?A3, ?A4, ?A5, ?A6. apply inverse_gates. apply Sx.
  - destruct PA as (x & Hx & Sx & A0 & A1 & A2 & A3 & A4 & A5 & A6); [lia|]; rewrite ?A0, ?A1, ?A2, ?A3, ?A4, ?A5, ?A6.
    destruct PB as (y & Hy & Sy & B0 & B2 & B4 & B5); [lia|]; rewrite ?B0, ?B2, ?B4, ?B5.
    assert (Hr : (r < N)%nat) by lia.
    pose proof (vstep_gates W r _ _ _ _ x y (R_in_rs_row r x y Hr Hx Hy) (R_bounds r (Nat.lt_le_incl _ _ Hr)) Sx Sy) as G.
    cbv zeta in G. exact (proj1 G).
  - destruct PA as (x & Hx & Sx & A0 & A1 & A2 & A3 & A4 & A5 & A6); [lia|]; rewrite ?A0, ?A1, ?A2, ?A3, ?A4, ?A5, ?A6.
    destruct PB as (y & Hy & Sy & B0 & B2 & B4 & B5); [lia|]; rewrite ?B0, ?B2, ?B4, ?B5.
    assert (Hr : (r < N)%nat) by lia.
    pose proof (vstep_gates W r _ _ _ _ x y (R_in_rs_row r x y Hr Hx Hy) (R_bounds r (Nat.lt_le_incl _ _ Hr)) Sx Sy) as G.
    cbv zeta in G. exact (proj1 (proj2 G)).
  - destruct PA as (x & Hx & Sx & A0 & A1 & A2 & A3 & A4 & A5 & A6); [lia|]; rewrite ?A0, ?A1, ?A2, ?A3, ?A4, ?A5, ?A6.
    destruct PB as (y & Hy & Sy & B0 & B2 & B4 & B5); [lia|]; rewrite ?B0, ?B2, ?B4, ?B5.
    assert (Hr : (r < N)%nat) by lia.
    pose proof (vstep_gates W r _ _ _ _ x y (R_in_rs_row r x y Hr Hx Hy) (R_bounds r (Nat.lt_le_incl _ _ Hr)) Sx Sy) as G.
    cbv zeta in G. exact (proj2 (proj2 G)).
  (* memory *)
  - mem_gate r Hon.
  - mem_gate r Hon.
  - mem_gate r Hon.
  (* instruction *)
  - inst_gate r Hon.
  - inst_gate r Hon.
  - inst_gate r Hon.
  (* memory product *)
  - cbn [sizes_of zm] in Hon. destruct (lt_nth_error (memory_matrix m) r) as [x Hx]; [lia|].
    rewrite !HA by small. unfold hon. cbv zeta. rewrite !(cellF_nth' _ _ _ _ Hx), (accF_S _ _ _ _ _ Hx).
    unfold h_mrow, mem_factor. fring.
  - destruct PA as (x & Hx & _ & A0 & A1 & A2 & A3 & A4 & A5 & A6); [lia|]; rewrite ?A0, ?A1, ?A2, ?A3, ?A4, ?A5, ?A6.
    rewrite !HA by small. unfold hon. cbv zeta. fold P. rewrite (accF_S _ _ _ _ _ (zip_at _ _ _ Hx)).
    unfold h_mem, mem_factor. cbn [fst]. fring.
  - destruct PA as (x & Hx & _ & A0 & A1 & A2 & A3 & A4 & A5 & A6); [lia|]; rewrite ?A0, ?A1, ?A2, ?A3, ?A4, ?A5, ?A6.
    rewrite !HA by small. unfold hon. cbv zeta. fold P. rewrite (accF_S _ _ _ _ _ (zip_at _ _ _ Hx)).
    unfold h_inst, inst_factor. cbn [fst]. fring.
  - destruct PA as (x & Hx & _ & A0 & A1 & A2 & A3 & A4 & A5 & A6); [lia|]; rewrite ?A0, ?A1, ?A2, ?A3, ?A4, ?A5, ?A6.
    rewrite !HA by small. unfold hon. cbv zeta. fold P. rewrite (accF_S _ _ _ _ _ (zip_at _ _ _ Hx)).
    unfold h_out. cbn [fst]. apply out_gate. apply (R_op r); [lia|exact Hx].
  - destruct PA as (x & Hx & _ & A0 & A1 & A2 & A3 & A4 & A5 & A6); [lia|]; rewrite ?A0, ?A1, ?A2, ?A3, ?A4, ?A5, ?A6.
    destruct PB as (y & Hy & _ & B0 & B2 & B4 & B5); [lia|]; rewrite ?B0, ?B2, ?B4, ?B5.
    rewrite !HA by small. unfold hon. cbv zeta. fold P. rewrite (accF_S _ _ _ _ _ (zip_at _ _ _ Hx)).
    unfold h_in. cbn [fst snd]. rewrite Hy. apply in_gate. apply (R_op r); [lia|exact Hx].
  - cbn [sizes_of zi] in Hon.
    destruct (lt_nth_error (instruction_matrix m) r) as [x Hx]; [lia|].
    destruct (lt_nth_error (instruction_matrix m) (S r)) as [y Hy]; [lia|].
    rewrite !HA by small; unfold hon; cbv zeta; rewrite !(cellF_nth' _ _ _ _ Hx), !(cellF_nth' _ _ _ _ Hy).
    rewrite (accF_S _ _ _ _ _ (zip_at _ _ _ Hx)). unfold h_irs, next_ip. cbn [fst snd]. rewrite Hy.
    destruct (R_T2 r x y Hx Hy) as (k & _ & -> & [->|[-> _]]).
    + rewrite feqb_refl. fring.
    + rewrite (proj2 (feqb_neq _ _) (irow_ip_neq k)), irow_ip_succ. fring.
  - cbn [sizes_of zi] in Hon.
    destruct (lt_nth_error (instruction_matrix m) r) as [x Hx]; [lia|].
    destruct (lt_nth_error (instruction_matrix m) (S r)) as [y Hy]; [lia|].
    rewrite !HA by small; unfold hon; cbv zeta; rewrite !(cellF_nth' _ _ _ _ Hx), !(cellF_nth' _ _ _ _ Hy).
    rewrite (accF_S _ _ _ _ _ (zip_at _ _ _ Hx)). unfold h_iprp, next_ip, inst_factor. cbn [fst snd]. rewrite Hy.
    destruct (R_T2 r x y Hx Hy) as (k & _ & -> & [->|[-> _]]).
    + rewrite feqb_refl. fring.
    + rewrite (proj2 (feqb_neq _ _) (irow_ip_neq k)), irow_ip_succ. fring.
  - cbn [sizes_of zi] in Hon. pose proof R_zi as Hzi. destruct r as [|r]; [lia|]. cbn [prev_row].
    destruct (lt_nth_error (instruction_matrix m) r) as [x Hx]; [lia|].
    rewrite !HA by small; unfold hon; cbv zeta; rewrite !(cellF_nth' _ _ _ _ Hx).
    rewrite (accF_S _ _ _ _ _ (zip_at _ _ _ Hx)). unfold h_iprp, next_ip, inst_factor. cbn [fst snd].
    rewrite (proj2 (nth_error_None _ _)) by lia. rewrite feqb_refl. fring.
  - cbn [sizes_of zo] in Hon. destruct (lt_nth_error (output_matrix m) r) as [x Hx]; [lia|].
    rewrite !HA by small. unfold hon. cbv zeta. rewrite (cellF_nth' _ _ _ _ Hx), (accF_S _ _ _ _ _ Hx).
    unfold h_sum. fring.
  - cbn [sizes_of zu] in Hon. rewrite !HA by small. unfold hon. cbv zeta.
    set (l := map _ _). destruct (lt_nth_error l r) as [x Hx]; [unfold l; rewrite map_length, seq_length; lia|].
    rewrite (cellF_nth' _ _ _ _ Hx), (accF_S _ _ _ _ _ Hx). unfold h_sum. fring.
  - cbn [sizes_of zg] in Hon. rewrite !HA by small. unfold hon. cbv zeta.
    set (l := map _ _). destruct (lt_nth_error l r) as [x Hx]; [unfold l; rewrite map_length, seq_length; lia|].
    rewrite (cellF_nth' _ _ _ _ Hx), (accF_S _ _ _ _ _ Hx). unfold h_sum. fring.
Qed.

Lemma fold_h_mem a : fold_left (fun s x => h_mem ch x s) (zipnext P) a =
  prodF (fun x => mem_factor ch (m_clk x) (m_mp x) (m_mv x)) (map mrow_of P) a.
Proof.
  rewrite prodF_map. unfold prodF, h_mem.
  rewrite (fold_zip (fun x s => s * mem_factor ch (cycle x) (memory_pointer x) (memory_value x))). reflexivity.
Qed.
Lemma fold_h_inst a : fold_left (fun s x => h_inst ch x s) (zipnext P) a =
  prodF (fun x => inst_factor ch (i_ip x) (i_ci x) (i_ni x)) (map irow_of P) a.
Proof.
  rewrite prodF_map. unfold prodF, h_inst.
  rewrite (fold_zip (fun x s => s * inst_factor ch (instruction_pointer x) (current_instruction x) (next_instruction x))).
  reflexivity.
Qed.
Lemma R_boundary : boundary ks = seq 0 (length W).
Proof.
  pose proof (rr_sorted _ _ _ _ _ _ _ _ _ R) as S. pose proof (rr_range _ _ _ _ _ _ _ _ _ R) as Hr.
  assert (I0 : In 0%nat ks) by (apply Hr; lia).
  destruct ks as [|a l] eqn:E; [destruct I0|].
  assert (a = 0)%nat as ->.
  { apply StronglySorted_inv in S. destruct S as [_ S]. rewrite Forall_forall in S.
    destruct I0 as [->|I0]; [reflexivity|]. specialize (S _ I0). lia. }
  rewrite (boundary_seq (length W) l 0).
  - rewrite Nat.sub_0_r. reflexivity.
  - exact S.
  - intros k Hk. apply Hr. lia.
  - intros k Hk. apply Hr. exact Hk.
Qed.
Lemma R_interior : Permutation (interior ks) (ips N ipf).
Proof.
  apply (Permutation_app_inv_l (seq 0 (length W))).
  eapply perm_trans; [|apply (rr_ks _ _ _ _ _ _ _ _ _ R)]. rewrite <- R_boundary.
  apply Permutation_sym. apply boundary_perm.
Qed.
Lemma R_io : read c' ++ unread c' = inp.
Proof.
  rewrite <- (rr_end _ _ _ _ _ _ _ _ _ R).
  exact (st_io _ _ _ _ _ _ _ (rr_states _ _ _ _ _ _ _ _ _ R) _ (le_n _)).
Qed.
Lemma R_sums :
  (forall a, fold_left (fun s x => h_out ch x s) (zipnext P) a =
             fold_left (fun s x => h_sum (ch 9%nat) x s) (map FrZ (written c')) a) /\
  (forall a, fold_left (fun s x => h_in ch x s) (zipnext P) a =
             fold_left (fun s x => h_sum (ch 10%nat) x s) (map FrZ (read c')) a).
Proof.
  destruct (trace_io W 8 0 0 (initial inp) rows (lenZ W) c' last ch (rr_trace _ _ _ _ _ _ _ _ _ R)
     (rr_last _ _ _ _ _ _ _ _ _ R) eq_refl) as (outs & ins & Eo & Ei & F).
  cbn [initial written read app] in Eo, Ei. subst outs ins.
  unfold P. rewrite (rr_P _ _ _ _ _ _ _ _ _ R). split; intros a; apply F.
Qed.

Hypothesis Hinst0 : nth 0 insts [] = FrZ (lenZ W) :: map FrZ W.
Hypothesis Hinst1 : nth 1 insts [] = FrZ (lenZ inp) :: map FrZ inp.

Lemma ivals_code : map (fun i => inst 0 (S i)) (seq 0 (length (program m))) = map FrZ W.
Proof.
  rewrite (rr_prog _ _ _ _ _ _ _ _ _ R). apply nth_error_ext'. intros k. rewrite nth_error_map.
  destruct (lt_dec k (length (map FrZ W))) as [Hk|Hk].
  - rewrite (nth_error_nth' (seq 0 (length (map FrZ W))) 0%nat) by (rewrite seq_length; exact Hk).
    rewrite seq_nth by exact Hk. cbn [option_map Nat.add]. unfold inst, instance_fn. rewrite Hinst0.
    cbn [nth]. symmetry. apply nth_error_nth'. exact Hk.
  - rewrite (proj2 (nth_error_None _ _)) by (rewrite seq_length; lia).
    symmetry. apply nth_error_None. lia.
Qed.
Lemma ivals_input : map (fun i => inst 1 (S i)) (seq 0 (length (input_matrix m))) = map FrZ (read c').
Proof.
  rewrite (rr_in _ _ _ _ _ _ _ _ _ R). apply nth_error_ext'. intros k. rewrite nth_error_map.
  destruct (lt_dec k (length (map FrZ (read c')))) as [Hk|Hk].
  - rewrite (nth_error_nth' (seq 0 (length (map FrZ (read c')))) 0%nat) by (rewrite seq_length; exact Hk).
    rewrite seq_nth by exact Hk. cbn [option_map Nat.add]. unfold inst, instance_fn. rewrite Hinst1.
    cbn [nth]. rewrite <- R_io, map_app, app_nth1 by exact Hk. symmetry. apply nth_error_nth'. exact Hk.
  - rewrite (proj2 (nth_error_None _ _)) by (rewrite seq_length; lia).
    symmetry. apply nth_error_None. lia.
Qed.

(** Everything but the public input length. *)
Lemma honest_sat : length (read c') = length inp -> sat n (sizes_of m) inst ch A.
Proof.
  intros Hall. pose proof R_len as HP.
  assert (Hz : zp (sizes_of m) = length (zipnext P)) by (rewrite zipnext_length; reflexivity).
  constructor.
  - exact honest_rows.
  - intros r Hr. change (zp (sizes_of m)) with (length P) in Hr. rewrite HP in Hr.
    destruct (R_get r) as (x & Hx & Sx); [lia|].
    rewrite HA by small. unfold hon. cbv zeta. fold P. rewrite (cellF_nth' _ _ _ _ Hx).
    exists (BFSpec.cell (cf r)). split; [|apply Sx].
    destruct (R_bounds r) as [B _]; [lia|]. exact (B _).
  - rewrite HA by small. unfold hon, inst, instance_fn. rewrite Hinst0. cbn [Nat.eqb nth].
    rewrite (rr_prog _ _ _ _ _ _ _ _ _ R), map_length. reflexivity.
  - rewrite HA by small. unfold hon, inst, instance_fn. rewrite Hinst1. cbn [Nat.eqb nth].
    rewrite (rr_in _ _ _ _ _ _ _ _ _ R), map_length. unfold lenZ. rewrite Hall. reflexivity.
  - intros r Hr. change (zg (sizes_of m)) with (length (program m)) in Hr.
    rewrite HA by small. unfold hon. cbv zeta. refine (cellF_nth' (fun x => x) _ r (inst 0 (S r)) _). rewrite nth_error_map.
    rewrite (nth_error_nth' _ 0%nat) by (rewrite seq_length; exact Hr). rewrite seq_nth by exact Hr. reflexivity.
  - intros r Hr. change (zu (sizes_of m)) with (length (input_matrix m)) in Hr.
    rewrite HA by small. unfold hon. cbv zeta. refine (cellF_nth' (fun x => x) _ r (inst 1 (S r)) _). rewrite nth_error_map.
    rewrite (nth_error_nth' _ 0%nat) by (rewrite seq_length; exact Hr). rewrite seq_nth by exact Hr. reflexivity.
  - rewrite !HA by small. unfold hon. cbv zeta. fold P. rewrite Hz, accF_end.
    change (zm (sizes_of m)) with (length (memory_matrix m)). rewrite accF_end, fold_h_mem.
    symmetry. exact (prodF_perm (fun x => mem_factor ch (m_clk x) (m_mp x) (m_mv x)) _ _ _ (rr_M _ _ _ _ _ _ _ _ _ R)).
  - rewrite !HA by small. unfold hon. cbv zeta. fold P. rewrite Hz, accF_end.
    change (zo (sizes_of m)) with (length (output_matrix m)). rewrite accF_end, (proj1 R_sums).
    rewrite (rr_out _ _ _ _ _ _ _ _ _ R). reflexivity.
  - rewrite !HA by small. unfold hon. cbv zeta. fold P. rewrite ivals_input, Hz, accF_end.
    change (zu (sizes_of m)) with (length (input_matrix m)).
    rewrite (rr_in _ _ _ _ _ _ _ _ _ R), accF_end, (proj2 R_sums). reflexivity.
  - rewrite !HA by small. unfold hon. cbv zeta. fold P. rewrite Hz, accF_end, fold_h_inst.
    replace (zi (sizes_of m)) with (length (zipnext (instruction_matrix m))) by apply zipnext_length.
    rewrite accF_end, (rr_T _ _ _ _ _ _ _ _ _ R), fold_iprp.
    + unfold P. rewrite (rr_rows _ _ _ _ _ _ _ _ _ R), prodF_map. symmetry.
      exact (prodF_perm (ifac W ch) _ _ _ R_interior).
    + exact (rr_W _ _ _ _ _ _ _ _ _ R).
    + intros k Hk. apply (rr_range _ _ _ _ _ _ _ _ _ R). exact Hk.
  - rewrite !HA by small. unfold hon. cbv zeta. rewrite ivals_code.
    replace (zg (sizes_of m)) with (length (map FrZ W)) by (rewrite <- (rr_prog _ _ _ _ _ _ _ _ _ R); reflexivity).
    replace (zi (sizes_of m)) with (length (zipnext (instruction_matrix m))) by apply zipnext_length.
    rewrite !accF_end, (rr_T _ _ _ _ _ _ _ _ _ R), fold_irs.
    + rewrite R_boundary, words_ci. reflexivity.
    + exact (rr_W _ _ _ _ _ _ _ _ _ R).
    + intros k Hk. apply (rr_range _ _ _ _ _ _ _ _ _ R). exact Hk.
Qed.
End Honest.

(** ** From a finished run *)
Lemma run_recorded pr src inp c fuel s :
  balanced src -> (1 <= word_count src <= 65535)%Z -> in_range 8 inp -> compile pr src = Ok c ->
  run pr fuel (start c (easygen inp)) = Finished s ->
  (Z.of_nat (length (processor_matrix (mat s))) < 2 ^ 64)%Z ->
  exists W rows last c' ks ipf cf,
    c = map FrZ W /\ (lenZ W <= 65535)%Z /\ recorded_run W inp (mat s) rows last c' ks ipf cf.
Proof.
  intros Hb Hw Hin Hc Hr HN. change (start c (easygen inp)) with (set_bits (start c (easygen inp)) 8) in Hr.
  destruct (C09_lemma pr 8 src inp c fuel s) as (W & rows & last & c' & EW & -> & EP & Ht & Hl & Eo & Ei);
    [lia|assumption..|].
  destruct (states_of_trace _ _ _ _ _ _ Ht Hl) as (ipf & cf & Hst & Ec).
  destruct (C11_lemma _ _ _ _ _ _ Hr) as [[HM _] [HT [HTs _]]].
  assert (HWl : (lenZ W <= 65535)%Z).
  { destruct (compile_jumps pr src W (proj2 Hw) EW) as (L & _). unfold lenZ in *. rewrite L. apply Hw. }
  assert (HW64 : (lenZ W < 2 ^ 64)%Z) by (eapply Z.le_lt_trans; [exact HWl|reflexivity]).
  assert (HN' : (Z.of_nat (length rows) < 2 ^ 64)%Z).
  { rewrite EP, app_length in HN. cbn [length] in HN. lia. }
  assert (HS := C11_cycle_order_lemma _ _ _ _ _ _ Hr).
  rewrite <- EP in Hst.
  destruct (table_addresses _ _ _ _ _ _ _ HW64 Hst _ HT HTs) as (ks & E1 & E2 & E3 & E4).
  pose proof (rows_irow _ _ _ _ _ _ _ Hst) as ER.
  assert (Hprog : program (mat s) = map FrZ W).
  { apply run_finished in Hr. destruct Hr as [s1 [n [s2 [F1 [Hn [_ ->]]]]]].
    exact (rec_prog _ _ _ (recorded_stepn _ _ _ _ _ _ (recorded_0 _ _ _ _ F1) Hn)). }
  exists W, rows, last, c', ks, ipf, cf. split; [reflexivity|]. split; [exact HWl|].
  constructor; try assumption.
  - rewrite <- EP. exact Hst.
  - intros i x y Hx Hy.
    destruct (memory_consec _ _ _ _ _ _ _ HN' Hst _ HM) with (i := i) (x := x) (y := y)
      as (a & b & _ & _ & H); [|assumption..|].
    + apply HS. eapply Z.le_trans; [apply Z.lt_le_incl; exact HN|]. discriminate.
    + exists a, b. exact H.
Qed.

Lemma exec_io w p c o : exec w p c o -> forall c', o = Done c' -> read c' ++ unread c' = read c ++ unread c.
Proof.
  induction 1; intros d E; try discriminate; cbn [move set_cell emit_cell take_input read unread] in *; auto.
  - injection E as <-. reflexivity.
  - rewrite (IHexec _ E). match goal with H : unread c = _ |- _ => rewrite H end. rewrite <- app_assoc. reflexivity.
  - rewrite (IHexec2 _ E). apply IHexec1. reflexivity.
Qed.

Lemma word_end W : word_or_0 W (lenZ W) = 0%Z.
Proof.
  unfold word_or_0. rewrite word_nth by (unfold lenZ; lia). unfold lenZ. rewrite Nat2Z.id.
  rewrite (proj2 (nth_error_None _ _)) by lia. reflexivity.
Qed.
Lemma getchar_ok_snoc rows r : feqb (current_instruction r) (FrZ GETCHAR) = false -> getchar_ok (rows ++ [r]) = true.
Proof.
  intros E. induction rows as [|x rows IH]; cbn [app getchar_ok]; [now rewrite E|].
  destruct (rows ++ [r]) as [|y l] eqn:El; [destruct rows; discriminate|exact IH].
Qed.

(** The sizes of a run's tables are all bounded by the instruction table's. *)
Lemma trace_counts W w i ip c rows ip' c' : trace W w i ip c rows ip' c' ->
  (length (written c') <= length (written c) + length rows)%nat /\
  (length (read c') <= length (read c) + length rows)%nat.
Proof.
  intros H. induction H as [|i ip c r ip1 c1 rows ip2 c2 Hr Hv Ht [IH1 IH2]]; [split; lia|].
  destruct (vstep_effect _ _ _ _ _ _ Hv) as (o & outs & ins & _ & _ & Ew & Er & Ho & Hi).
  rewrite Ew, app_length in IH1. rewrite Er, app_length in IH2. cbn [length].
  destruct (Z.eqb o PUTCHAR), (Z.eqb o GETCHAR); subst outs ins; cbn [length] in *; lia.
Qed.
Lemma run_sizes W inp m rows last c' ks ipf cf : recorded_run W inp m rows last c' ks ipf cf ->
  let z := sizes_of m in
  (zi z = zp z + zg z /\ zm z = zp z /\ zo z < zp z /\ zu z < zp z)%nat.
Proof.
  intros R. cbn [sizes_of zp zm zi zo zu zg].
  rewrite (rr_T _ _ _ _ _ _ _ _ _ R), (rr_out _ _ _ _ _ _ _ _ _ R), (rr_in _ _ _ _ _ _ _ _ _ R),
    (rr_prog _ _ _ _ _ _ _ _ _ R), !map_length.
  pose proof (Permutation_length (rr_ks _ _ _ _ _ _ _ _ _ R)) as E1.
  pose proof (Permutation_length (rr_M _ _ _ _ _ _ _ _ _ R)) as E2.
  unfold ips in E1. rewrite app_length, map_length, !seq_length in E1. rewrite map_length in E2.
  destruct (trace_counts _ _ _ _ _ _ _ _ (rr_trace _ _ _ _ _ _ _ _ _ R)) as [E3 E4].
  cbn [initial written read length] in E3, E4.
  rewrite (rr_P _ _ _ _ _ _ _ _ _ R), app_length in *. cbn [length] in *. lia.
Qed.

Section Final.
Variables (pr : profile) (src : list Z) (p : list instr) (inp : list Z) (cfg : config) (c : list Fr)
  (fuel : nat) (s : interp) (n : nat) (ch : nat -> Fr).
Hypothesis Hp : parses src p.
Hypothesis Hw : (1 <= program_words p <= 65535)%Z.
Hypothesis Hin : in_range 8 inp.
Hypothesis He : exec 8 p (initial inp) (Done cfg).
Hypothesis Hc : compile pr src = Ok c.
Hypothesis Hr : run pr fuel (start c (easygen inp)) = Finished s.
Hypothesis Hn : (Z.of_nat n < 2 ^ 64)%Z.
Let m := mat s.
Let insts := public_inputs c inp.

Lemma F_read : input_matrix m = map FrZ (read cfg) /\ output_matrix m = map FrZ (written cfg).
Proof.
  destruct (compiled_run pr 8 src p inp) as (c2 & E2 & H & _); [lia|assumption..|].
  rewrite Hc in E2. injection E2 as <-. destruct (H cfg He) as (f2 & s2 & R2 & O2 & I2).
  pose proof (run_det pr _ _ _ _ _ Hr R2 ltac:(discriminate) ltac:(discriminate)) as Q. injection Q as Q.
  unfold m. rewrite Q. auto.
Qed.
Lemma F_rec : (Z.of_nat (length (processor_matrix m)) < 2 ^ 64)%Z ->
  exists W rows last c' ks ipf cf,
    c = map FrZ W /\ (lenZ W <= 65535)%Z /\ recorded_run W inp m rows last c' ks ipf cf.
Proof.
  intros HN. apply (run_recorded pr src inp c fuel s); auto.
  - apply balanced_parses. exists p. exact Hp.
  - rewrite (word_count_parses _ _ Hp). exact Hw.
Qed.
Lemma F_fits : fits n (sizes_of m) <-> (262 < n /\ length (instruction_matrix m) + 6 < n)%nat.
Proof.
  split; [unfold fits; cbn [sizes_of zi]; lia|]. intros [H1 H2].
  assert (HN : (length (processor_matrix m) <= length (instruction_matrix m))%nat).
  { destruct (C11_lemma pr fuel c (easygen inp) 8 s Hr) as [_ [HP _]].
    apply Permutation_length in HP. unfold m. rewrite HP, app_length, !map_length. lia. }
  destruct F_rec as (W & rows & last & c' & ks & ipf & cf & E & L & R); [lia|].
  pose proof (run_sizes _ _ _ _ _ _ _ _ _ R) as S. cbn zeta in S. revert S.
  unfold fits. cbn [sizes_of zp zm zi zo zu zg]. lia.
Qed.

Lemma F_key : fits n (sizes_of m) ->
  exists cc sc asm, bf_keygen n m = EOk (cc, sc, asm) /\ sc = bcs /\
  ((length inp <= n - 7)%nat -> exists adv, bf_witness n m insts ch = EOk adv /\
     (length (unread cfg) = 0%nat -> satisfied sc (asm_copies asm) (assign_with n asm adv insts ch)) /\
     (length (unread cfg) <> 0%nat -> ~ satisfied sc (asm_copies asm) (assign_with n asm adv insts ch))).
Proof.
  intros F. destruct F_rec as (W & rows & last & c' & ks & ipf & cf & E & L & R).
  { unfold fits in F. cbn [sizes_of zp] in F. lia. }
  assert (G : getchar_ok (processor_matrix m) = true).
  { rewrite (rr_P _ _ _ _ _ _ _ _ _ R). apply getchar_ok_snoc.
    destruct (rr_last _ _ _ _ _ _ _ _ _ R) as (_ & _ & -> & _). rewrite word_end. reflexivity. }
  destruct (proj2 (keygen_iff n m) (conj F G)) as [[[cc sc] asm] K].
  exists cc, sc, asm. split; [exact K|]. split; [apply (keygen_spec _ _ _ _ _ K)|].
  intros Hinp.
  assert (Ei : input_matrix m = map FrZ (read cfg)) by apply F_read.
  pose proof (exec_io _ _ _ _ He _ eq_refl) as Eio. cbn [initial read unread app] in Eio.
  assert (Lr : (length (read cfg) + length (unread cfg) = length inp)%nat) by (rewrite <- Eio, app_length; reflexivity).
  assert (Eprog : program m = c) by (rewrite (rr_prog _ _ _ _ _ _ _ _ _ R), E; reflexivity).
  assert (I0 : nth 0 insts [] = FrZ (lenZ W) :: map FrZ W).
  { unfold insts, public_inputs. cbn [nth]. unfold lenZ. rewrite E, map_length. reflexivity. }
  assert (I1 : nth 1 insts [] = FrZ (lenZ inp) :: map FrZ inp) by reflexivity.
  destruct (bf_witness_ok n m insts ch) as (adv & Hwit & Hadv).
  - exact F.
  - exact G.
  - intros l Hl. unfold fits in F. cbn [sizes_of zg] in F. rewrite Eprog in F.
    unfold insts, public_inputs in Hl. cbn [In] in Hl.
    destruct Hl as [<-|[<-|[]]]; cbn [length]; rewrite ?map_length; lia.
  - rewrite I0, Eprog, E. cbn [length]. lia.
  - rewrite I1, Ei. cbn [length]. rewrite !map_length. lia.
  - exists adv. split; [exact Hwit|].
    assert (HA : forall col r, (r < n - 1)%nat -> adv col r = hon m (instance_fn insts) ch col r).
    { intros col r Hlt. rewrite Hadv. destruct (Nat.eqb_spec r (n - 1)); [lia|reflexivity]. }
    split; intros Hu.
    + apply (satisfied_iff _ _ _ _ _ _ _ _ K).
      eapply honest_sat; [exact R|exact F|exact HA|exact I0|exact I1|].
      assert (E3 : map FrZ (read c') = map FrZ (read cfg)) by (rewrite <- Ei, (rr_in _ _ _ _ _ _ _ _ _ R); reflexivity).
      apply (f_equal (@length Fr)) in E3. rewrite !map_length in E3. lia.
    + intros S. apply (satisfied_iff _ _ _ _ _ _ _ _ K) in S. pose proof (sat_input_len _ _ _ _ _ S) as E23.
      unfold fits in F. rewrite HA in E23 by lia. unfold hon, instance_fn in E23. rewrite I1 in E23. cbn [Nat.eqb nth] in E23.
      rewrite Ei, map_length in E23. unfold lenZ in E23. apply FrZ_inj in E23; lia.
Qed.
End Final.

Lemma C12_lemma pr src p inp cfg c fuel s n ch :
  parses src p -> (1 <= program_words p <= 65535)%Z -> in_range 8 inp ->
  exec 8 p (initial inp) (Done cfg) -> unread cfg = [] ->
  compile pr src = Ok c -> run pr fuel (start c (easygen inp)) = Finished s ->
  (262 < n)%nat -> (length (instruction_matrix (mat s)) + 6 < n)%nat -> (Z.of_nat n < 2 ^ 64)%Z ->
  exists cc sc asm adv,
    bf_keygen n (mat s) = EOk (cc, sc, asm) /\
    bf_witness n (mat s) (public_inputs c inp) ch = EOk adv /\
    satisfied sc (asm_copies asm) (assign_with n asm adv (public_inputs c inp) ch).
Proof.
  intros Hp Hw Hin He Hu Hc Hr H1 H2 Hn.
  assert (F : fits n (sizes_of (mat s))) by (eapply F_fits; eauto).
  destruct (F_key pr src p inp cfg c fuel s n ch Hp Hw Hin He Hc Hr Hn F) as (cc & sc & asm & K & _ & H).
  destruct H as (adv & Wt & S & _).
  - pose proof (F_read pr src p inp cfg c fuel s n Hp Hw Hin He Hc Hr) as [Ei _].
    pose proof (exec_io _ _ _ _ He _ eq_refl) as Eio. cbn [initial read unread app] in Eio.
    rewrite Hu, app_nil_r in Eio. unfold fits in F. cbn [sizes_of zu] in F. rewrite Ei, map_length, Eio in F. lia.
  - exists cc, sc, asm, adv. split; [exact K|]. split; [exact Wt|]. apply S. rewrite Hu. reflexivity.
Qed.

Lemma C13_lemma pr src p inp cfg c fuel s n ch cc sc asm adv :
  parses src p -> (1 <= program_words p <= 65535)%Z -> in_range 8 inp ->
  exec 8 p (initial inp) (Done cfg) -> unread cfg <> [] ->
  compile pr src = Ok c -> run pr fuel (start c (easygen inp)) = Finished s -> (Z.of_nat n < 2 ^ 64)%Z ->
  bf_keygen n (mat s) = EOk (cc, sc, asm) ->
  bf_witness n (mat s) (public_inputs c inp) ch = EOk adv ->
  ~ satisfied sc (asm_copies asm) (assign_with n asm adv (public_inputs c inp) ch).
Proof.
  intros Hp Hw Hin He Hu Hc Hr Hn K Wt.
  assert (F : fits n (sizes_of (mat s))) by apply (keygen_spec _ _ _ _ _ K).
  destruct (F_key pr src p inp cfg c fuel s n ch Hp Hw Hin He Hc Hr Hn F) as (cc' & sc' & asm' & K' & _ & H).
  rewrite K in K'. injection K' as <- <- <-.
  destruct H as (adv' & Wt' & _ & S).
  - rewrite bf_witness_eq in Wt. destruct (existsb _ _) eqn:E; [discriminate|].
    unfold public_inputs in E. cbn [existsb] in E. apply orb_false_iff in E. destruct E as [_ E].
    apply orb_false_iff in E. destruct E as [E _]. apply Nat.ltb_ge in E. rewrite bcs_usable in E.
    cbn [length] in E. rewrite map_length in E. unfold fits in F. lia.
  - rewrite Wt in Wt'. injection Wt' as <-. apply S. destruct (unread cfg); [congruence|discriminate].
Qed.

(** ** Circuit size *)
Lemma C14_lemma pr src p inp cfg c fuel s :
  parses src p -> (1 <= program_words p <= 65535)%Z -> in_range 8 inp ->
  exec 8 p (initial inp) (Done cfg) ->
  compile pr src = Ok c -> run pr fuel (start c (easygen inp)) = Finished s ->
  let ni := lenZ (instruction_matrix (mat s)) in
  (ni < 2 ^ 63)%Z ->
  (exists k, bf_keygen (circuit_rows (prover_k ni)) (mat s) = EOk k) <->
  ~ (exists j, 9 <= j /\ 2 ^ j - 6 <= ni <= 2 ^ j)%Z.
Proof.
  intros Hp Hw Hin He Hc Hr ni Hni. set (k := prover_k ni). set (n := circuit_rows k).
  assert (Hk9 : (9 <= k)%Z) by apply Z.le_max_r.
  assert (Hk63 : (k <= 63)%Z).
  { unfold k, prover_k. apply Z.max_lub; [|lia].
    transitivity (Z.log2_up (2 ^ 63)); [apply Z.log2_up_le_mono; lia|]. rewrite Z.log2_up_pow2; lia. }
  assert (Hn : Z.of_nat n = (2 ^ k)%Z) by (unfold n, circuit_rows; apply Z2Nat.id; apply Z.pow_nonneg; lia).
  assert (H512 : (512 <= 2 ^ k)%Z) by (change 512%Z with (2 ^ 9)%Z; apply Z.pow_le_mono_r; lia).
  assert (Hn64 : (Z.of_nat n < 2 ^ 64)%Z) by (rewrite Hn; apply Z.pow_lt_mono_r; lia).
  assert (Hcov : (ni <= 2 ^ k)%Z).
  { assert (0 <= ni)%Z by (unfold ni, lenZ; lia).
    destruct (Z.le_gt_cases ni 1) as [H1|H1]; [lia|].
    transitivity (2 ^ Z.log2_up ni)%Z; [apply Z.log2_up_spec; lia|].
    apply Z.pow_le_mono_r; [lia|apply Z.le_max_l]. }
  rewrite keygen_iff.
  assert (Hfit : fits n (sizes_of (mat s)) <-> (ni + 6 < 2 ^ k)%Z).
  { rewrite (F_fits pr src p inp c fuel s n Hp Hw Hin Hc Hr Hn64). unfold ni, lenZ in *. lia. }
  rewrite Hfit. split.
  - intros [H _] (j & Hj & Hl & Hu).
    destruct (Z.le_gt_cases k j) as [L|L].
    + assert (2 ^ k <= 2 ^ j)%Z by (apply Z.pow_le_mono_r; lia). lia.
    + assert (Hl2 : (Z.log2_up ni <= j)%Z).
      { transitivity (Z.log2_up (2 ^ j)); [apply Z.log2_up_le_mono; lia|]. rewrite Z.log2_up_pow2; lia. }
      unfold k, prover_k in L. lia.
  - intros H. split.
    + destruct (Z.lt_ge_cases (ni + 6) (2 ^ k)) as [L|L]; [exact L|]. exfalso. apply H. exists k. lia.
    + destruct (Z.lt_ge_cases (ni + 6) (2 ^ k)) as [L|L]; [|exfalso; apply H; exists k; lia].
      apply Hfit in L.
      destruct (F_key pr src p inp cfg c fuel s n (fun _ => f0) Hp Hw Hin He Hc Hr Hn64 L) as (cc & sc & asm & K & _).
      exact (proj2 (proj1 (keygen_iff n (mat s)) (ex_intro _ _ K))).
Qed.

(** ** Concrete runs *)
(** "+" with one byte of input, which it never reads. *)
Lemma unread_input_counterexample :
  exists src p inp cfg, parses src p /\ (1 <= program_words p <= 65535)%Z /\ in_range 8 inp /\
    exec 8 p (initial inp) (Done cfg) /\
    forall pr, exists c fuel s, compile pr src = Ok c /\ run pr fuel (start c (easygen inp)) = Finished s /\
    forall n ch, (262 < n)%nat -> (Z.of_nat n < 2 ^ 64)%Z ->
    exists cc sc asm adv, bf_keygen n (mat s) = EOk (cc, sc, asm) /\
      bf_witness n (mat s) (public_inputs c inp) ch = EOk adv /\
      ~ satisfied sc (asm_copies asm) (assign_with n asm adv (public_inputs c inp) ch).
Proof.
  exists [43%Z], [Inc], [65%Z].
  eexists. assert (Hp : parses [43%Z] [Inc]) by (apply P_inc, P_nil).
  assert (Hin : in_range 8 [65%Z]) by (repeat constructor; discriminate).
  assert (He : exec 8 [Inc] (initial [65%Z]) (Done (set_cell (initial [65%Z]) ((BFSpec.cell (initial [65%Z]) + 1) mod 2 ^ 8))))
    by (apply E_inc, E_nil).
  split; [exact Hp|]. split; [split; discriminate|]. split; [exact Hin|]. split; [exact He|].
  intros pr. destruct (compiled_run pr 8 [43%Z] [Inc] [65%Z]) as (c & Ec & H & _); [lia|exact Hp|split; discriminate|exact Hin|].
  destruct (H _ He) as (fuel & s & Er & _ & _). exists c, fuel, s. split; [exact Ec|]. split; [exact Er|].
  intros n ch Hn Hn64.
  assert (Hw : (1 <= program_words [Inc] <= 65535)%Z) by (split; discriminate).
  assert (Hl : length (instruction_matrix (mat s)) = 3%nat).
  { destruct (run pr 10 (set_bits (start [FrZ 43] (easygen [65%Z])) 8)) as [s2| |] eqn:E2.
    - assert (c = [FrZ 43]) as -> by (destruct pr; vm_compute in Ec; injection Ec as <-; reflexivity).
      pose proof (run_det pr _ _ _ _ _ Er E2 ltac:(discriminate) ltac:(discriminate)) as Q. injection Q as ->.
      assert (G : exists s, run pr 10 (set_bits (start [FrZ 43] (easygen [65%Z])) 8) = Finished s /\
                length (instruction_matrix (mat s)) = 3%nat)
        by (destruct pr; apply fin_ex; vm_compute; reflexivity).
      destruct G as (s3 & G1 & G2). rewrite E2 in G1. injection G1 as ->. exact G2.
    - assert (G : exists s, run pr 10 (set_bits (start [FrZ 43] (easygen [65%Z])) 8) = Finished s /\
                length (instruction_matrix (mat s)) = 3%nat)
        by (destruct pr; apply fin_ex; vm_compute; reflexivity).
      destruct G as (s3 & G1 & G2). congruence.
    - assert (G : exists s, run pr 10 (set_bits (start [FrZ 43] (easygen [65%Z])) 8) = Finished s /\
                length (instruction_matrix (mat s)) = 3%nat)
        by (destruct pr; apply fin_ex; vm_compute; reflexivity).
      destruct G as (s3 & G1 & G2). congruence. }
  assert (F : fits n (sizes_of (mat s))).
  { eapply F_fits; eauto. lia. }
  destruct (F_key pr _ _ _ _ c fuel s n ch Hp Hw Hin He Ec Er Hn64 F) as (cc & sc & asm & K & _ & G).
  destruct G as (adv & Wt & _ & S); [cbn [length]; lia|].
  exists cc, sc, asm, adv. split; [exact K|]. split; [exact Wt|]. apply S. discriminate.
Qed.

(** 253 times '+': the instruction table has 507 rows, the circuit 506 usable ones. *)
Definition inc253 : list Z := repeat 43%Z 253.
Lemma no_room_counterexample :
  exists src p cfg, parses src p /\ (1 <= program_words p <= 65535)%Z /\
    exec 8 p (initial []) (Done cfg) /\
    forall pr, exists c fuel s, compile pr src = Ok c /\ run pr fuel (start c (easygen [])) = Finished s /\
      prover_k (lenZ (instruction_matrix (mat s))) = 9%Z /\
      forall k, bf_keygen (circuit_rows (prover_k (lenZ (instruction_matrix (mat s))))) (mat s) <> EOk k.
Proof.
  assert (Hp : parses inc253 (repeat Inc 253)).
  { unfold inc253. generalize 253%nat. induction n as [|n IH]; cbn [repeat]; [constructor|apply P_inc; exact IH]. }
  assert (Hw : (1 <= program_words (repeat Inc 253) <= 65535)%Z) by (split; discriminate).
  assert (He : exists cfg, exec 8 (repeat Inc 253) (initial []) (Done cfg)).
  { generalize (initial []). generalize 253%nat. induction n as [|n IH]; intros c; cbn [repeat].
    - exists c. constructor.
    - destruct (IH (set_cell c ((BFSpec.cell c + 1) mod 2 ^ 8))) as [d Hd]. exists d. apply E_inc. exact Hd. }
  destruct He as [cfg He]. exists inc253, (repeat Inc 253), cfg.
  split; [exact Hp|]. split; [exact Hw|]. split; [exact He|]. intros pr.
  assert (Ec : compile pr inc253 = Ok (map FrZ inc253)) by (destruct pr; vm_compute; reflexivity).
  assert (G : exists s, run pr 300 (set_bits (start (map FrZ inc253) (easygen [])) 8) = Finished s /\
                lenZ (instruction_matrix (mat s)) = 507%Z)
    by (destruct pr; apply fin_ex; vm_compute; reflexivity).
  destruct G as (s & Er & El). exists (map FrZ inc253), 300%nat, s.
  split; [exact Ec|]. split; [exact Er|].
  split; [rewrite El; reflexivity|]. intros k Hk.
  assert (Hin : in_range 8 []) by constructor.
  pose proof (C14_lemma pr inc253 (repeat Inc 253) [] cfg (map FrZ inc253) 300 s Hp Hw Hin He Ec Er) as C.
  cbv zeta in C. rewrite El in C, Hk. destruct (C eq_refl) as [C1 _].
  apply (C1 (ex_intro _ k Hk)). exists 9%Z. split; [lia|]. split; discriminate.
Qed.

(** ",+." on "a". *)
Lemma small_run_satisfies : exists s,
  run Wrapping 10 (start (map FrZ [44; 43; 46]%Z) (easygen [97%Z])) = Finished s /\
  length (processor_matrix (mat s)) = 4%nat /\
  forall ch, exists cc sc asm adv,
    bf_keygen 263 (mat s) = EOk (cc, sc, asm) /\
    bf_witness 263 (mat s) (public_inputs (map FrZ [44; 43; 46]%Z) [97%Z]) ch = EOk adv /\
    satisfied sc (asm_copies asm) (assign_with 263 asm adv (public_inputs (map FrZ [44; 43; 46]%Z) [97%Z]) ch).
Proof.
  assert (G : exists s, run Wrapping 10 (start (map FrZ [44; 43; 46]%Z) (easygen [97%Z])) = Finished s /\
     (length (processor_matrix (mat s)), length (instruction_matrix (mat s))) = (4, 7)%nat)
    by (apply fin_ex; vm_compute; reflexivity).
  destruct G as (s & Er & El). injection El as El1 El2. exists s. split; [exact Er|]. split; [exact El1|].
  intros ch. refine (C12_lemma Wrapping [44; 43; 46]%Z [BFSpec.In; Inc; Out] [97%Z] _ _ 10 s 263 ch _ _ _ _ _ _ Er _ _ _).
  - apply P_in, P_inc, P_out, P_nil.
  - split; discriminate.
  - repeat constructor; discriminate.
  - eapply E_in; [reflexivity|]. apply E_inc, E_out, E_nil.
  - reflexivity.
  - reflexivity.
  - lia.
  - rewrite El2. lia.
  - reflexivity.
Qed.
