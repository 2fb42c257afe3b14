(** The recorded trace is an execution of the program (C09). *)
From Coq Require Import ZArith List Lia Bool.
From Verif Require Import Base Field FieldFacts ListFacts BFSpec BFFacts CompileSpec VMModel
  VMCompile VMSim CompileFacts TraceSpec VMInv.
Import ListNotations.
Local Open Scope Z_scope.

Lemma word_nth W a : 0 <= a -> word W a = nth_error W (Z.to_nat a).
Proof. intros H. unfold word. destruct (Z.ltb_spec a 0); [lia|reflexivity]. Qed.

Lemma word_range W a x : word W a = Some x -> 0 <= a < lenZ W.
Proof.
  unfold word. destruct (Z.ltb_spec a 0); [discriminate|]. intros E.
  assert (Z.to_nat a < length W)%nat by (apply nth_error_Some; congruence). unfold lenZ. lia.
Qed.

Section Trace.
Variables (pr : profile) (w : Z) (src W : list Z).
Hypothesis Hw : 0 <= w < 64.
Hypothesis Hb : balanced src.
Hypothesis Hc : 1 <= word_count src <= 65535.
Hypothesis HW : compile_to_u16 pr src = Ok W.

Let l := ops src.

Lemma W_right : compiled_right src W.
Proof. apply (compile_jumps pr); [lia|exact HW]. Qed.

Lemma W_len : lenZ W = word_count src.
Proof. apply W_right. Qed.

Lemma W_len' : 1 <= lenZ W <= 65535.
Proof. rewrite W_len. lia. Qed.

(** Instruction pointers of reachable states. *)
Definition at_op (ip : Z) : Prop := exists i, (i <= length l)%nat /\ ip = addr l i.

Lemma addr_end i : (i <= length l)%nat -> addr l i <= lenZ W.
Proof.
  intros H. rewrite W_len. unfold word_count. fold l. rewrite <- addr_length. apply addr_mono, H.
Qed.

Lemma op_at ip : at_op ip -> ip < lenZ W ->
  exists i c, nth_error l i = Some c /\ ip = addr l i /\ word W ip = Some c.
Proof.
  intros [i [Hi ->]] L. destruct (nth_error l i) as [c|] eqn:E.
  - exists i, c. split; [exact E|]. split; [reflexivity|]. apply W_right, E.
  - apply nth_error_None in E. assert (i = length l) as -> by lia.
    rewrite addr_length in L. rewrite W_len in L. unfold word_count in L. fold l in L. lia.
Qed.

Lemma instr_in i c : nth_error l i = Some c -> List.In c instr_chars.
Proof.
  intros E. apply nth_error_In in E. apply filter_In in E. destruct E as [_ E].
  rewrite is_instr_op in E. apply is_op_spec, E.
Qed.

Lemma at_op_next i c : nth_error l i = Some c -> at_op (addr l i + width c).
Proof.
  intros E. exists (S i). split; [|symmetry; apply addr_S, E].
  assert (i < length l)%nat by (apply nth_error_Some; congruence). lia.
Qed.

Definition fresh (n : nat) (s : interp) (c : config) (ip : Z) : Prop :=
  row_shows W n ip c (reg s).

Lemma word_index a : 0 <= a < lenZ W -> index (map FrZ W) a = Ok (FrZ (word_or_0 W a)).
Proof.
  intros H. apply index_some; [lia|]. rewrite nth_error_map'.
  unfold word_or_0. rewrite word_nth by lia.
  destruct (nth_error W (Z.to_nat a)) eqn:E; [reflexivity|].
  apply nth_error_None in E. unfold lenZ in H. lia.
Qed.

Lemma word_or_0_end a : lenZ W <= a -> word_or_0 W a = 0.
Proof.
  intros H. pose proof (lenZ_nonneg W). unfold word_or_0. rewrite word_nth by lia.
  destruct (nth_error W (Z.to_nat a)) eqn:E; [|reflexivity].
  assert (Z.to_nat a < length W)%nat by (apply nth_error_Some; congruence). unfold lenZ in *. lia.
Qed.

Lemma refresh_fresh s s' n c c' ip ip' :
  rel w W s c ip -> fresh n s c ip -> cycle_step pr s = Ok s' -> rel w W s' c' ip' -> fresh (S n) s' c' ip'.
Proof.
  intros R F E R'. pose proof (rl_iprange _ _ _ _ _ R') as Hip. pose proof W_len' as HL.
  pose proof (rl_code _ _ _ _ _ R) as Ec.
  apply cycle_step_split in E. destruct E as [st [_ [r' [Er Es]]]].
  rewrite Ec in Er. pose proof (refresh_inverse _ _ _ _ Er) as Hinv.
  apply refresh_split in Er. destruct Er as [E1 [E2 [E3 [E4 [E5 [E6 E7]]]]]].
  assert (Er : reg s' = r') by (rewrite Es; reflexivity).
  pose proof (rl_ip _ _ _ _ _ R') as Eip. rewrite Er in Eip. rewrite E2 in Eip.
  assert (EL : Fr_len (map FrZ W) = FrZ (lenZ W)).
  { unfold Fr_len. rewrite lenZ_map, Z.mod_small; [reflexivity|].
    assert (65535 < 2 ^ 64) by reflexivity. lia. }
  rewrite Eip, EL in E6, E7. rewrite f1_FrZ, FrZ_sub in E7.
  assert (B : forall x, 0 <= x <= lenZ W -> 0 <= x < 2 ^ 64).
  { intros x Hx. assert (65535 < 2 ^ 64) by reflexivity. lia. }
  unfold fltb in E6, E7. rewrite !fval_FrZ, as_usize_FrZ in E6 by (apply B; lia).
  rewrite !fval_FrZ, as_usize_FrZ in E7 by (apply B; lia).
  destruct F as [F1 _].
  unfold fresh, row_shows. rewrite Er. repeat apply conj.
  - rewrite E1, F1, f1_FrZ, FrZ_add. f_equal. lia.
  - rewrite E2. exact Eip.
  - destruct (Z.ltb_spec ip' (lenZ W)) as [L|L].
    + rewrite word_index in E6 by lia. congruence.
    + rewrite word_or_0_end by lia. injection E6 as <-. reflexivity.
  - destruct (Z.ltb_spec ip' (lenZ W - 1)) as [L|L].
    + rewrite word_index in E7 by lia. congruence.
    + rewrite word_or_0_end by lia. injection E7 as <-. reflexivity.
  - rewrite <- Er. apply (rl_mp _ _ _ _ _ R').
  - rewrite <- Er. apply (rl_mv _ _ _ _ _ R').
  - exact (proj1 Hinv).
  - exact (proj2 Hinv).
Qed.

(** One iteration from a reachable state. *)
Lemma reach_step s s' c ip : rel w W s c ip -> at_op ip -> ip < lenZ W -> cycle_step pr s = Ok s' ->
  exists ip' c', vstep W w ip c ip' c' /\ rel w W s' c' ip' /\ at_op ip'.
Proof.
  intros R A L E. pose proof W_len' as HL.
  destruct (op_at _ A L) as [i [ch [Hi [Eip Hwd]]]].
  pose proof (at_op_next _ _ Hi) as An. rewrite <- Eip in An.
  pose proof (word_range _ _ _ Hwd) as Hr.
  assert (Hn : nth_error W (Z.to_nat ip) = Some ch) by (rewrite <- word_nth by lia; exact Hwd).
  assert (Det : forall c' ip', (exists s'', cycle_step pr s = Ok s'' /\ rel w W s'' c' ip') -> rel w W s' c' ip').
  { intros c' ip' [s'' [E'' R'']]. rewrite E in E''. injection E'' as <-. exact R''. }
  assert (Pan : cycle_step pr s = Panic -> False) by congruence.
  pose proof (instr_in _ _ Hi) as Hin. unfold instr_chars in Hin. cbn [List.In] in Hin.
  destruct Hin as [<-|[<-|[<-|[<-|[<-|[<-|[<-|[<-|[]]]]]]]]].
  - destruct (Z_lt_dec (pos c + 1) tape_cells) as [Hp|Hp].
    + exists (ip + 1), (move c 1). split; [constructor; exact Hwd|]. split; [|exact An].
      apply Det, step_right; assumption.
    + exfalso. apply Pan. eapply step_right_fail; eassumption.
  - destruct (Z_lt_dec 0 (pos c)) as [Hp|Hp].
    + exists (ip + 1), (move c (-1)). split; [constructor; assumption|]. split; [|exact An].
      apply Det, step_left; assumption.
    + exfalso. apply Pan. eapply step_left_fail; eassumption.
  - exists (ip + 1), (set_cell c ((cell c + 1) mod 2 ^ w)). split; [constructor; exact Hwd|].
    split; [|exact An]. apply Det, step_inc; assumption.
  - exists (ip + 1), (set_cell c ((cell c - 1) mod 2 ^ w)). split; [constructor; exact Hwd|].
    split; [|exact An]. apply Det, step_dec; assumption.
  - exists (ip + 1), (emit_cell c). split; [constructor; exact Hwd|].
    split; [|exact An]. apply Det, step_out; assumption.
  - destruct (unread c) as [|v rest] eqn:Eu.
    + exfalso. apply Pan. eapply step_in_fail; eassumption.
    + exists (ip + 1), (take_input c v rest). split; [econstructor; eassumption|].
      split; [|exact An]. apply Det, step_in; assumption.
  - destruct (proj1 (balanced_partner src i chr_open Hb Hi) eq_refl) as [j Hm].
    destruct (proj2 (proj2 W_right) i j Hm) as [J1 J2]. fold l in J1, J2. rewrite <- Eip in J1, J2.
    assert (Aj : at_op (addr l j + 2)) by (apply (at_op_next j chr_close), Hm).
    assert (Dr : 0 <= addr l j + 2 <= lenZ W).
    { pose proof (addr_nonneg l j). destruct Aj as [k [Hk Ek]]. pose proof (addr_end k Hk). lia. }
    pose proof (word_range _ _ _ J1) as Hr1.
    assert (Nd : nth_error W (Z.to_nat (ip + 1)) = Some (addr l j + 2)) by (rewrite <- word_nth by lia; exact J1).
    pose proof (Det _ _ (step_open pr w W Hw W_len' s c ip _ R Hn Nd Dr)) as R'.
    destruct (Z.eqb_spec (cell c) 0) as [Z0|Z0].
    + exists (addr l j + 2), c. split; [eapply V_open_skip; eassumption|]. split; assumption.
    + exists (ip + 2), c. split; [apply V_open_enter; assumption|]. split; assumption.
  - destruct (proj2 (balanced_partner src i chr_close Hb Hi) eq_refl) as [j Hm].
    destruct (proj2 (proj2 W_right) j i Hm) as [J1 J2]. fold l in J1, J2. rewrite <- Eip in J1, J2.
    assert (Aj : at_op (addr l j + 2)) by (apply (at_op_next j chr_open), Hm).
    assert (Dr : 0 <= addr l j + 2 <= lenZ W).
    { pose proof (addr_nonneg l j). destruct Aj as [k [Hk Ek]]. pose proof (addr_end k Hk). lia. }
    pose proof (word_range _ _ _ J2) as Hr1.
    assert (Nd : nth_error W (Z.to_nat (ip + 1)) = Some (addr l j + 2)) by (rewrite <- word_nth by lia; exact J2).
    pose proof (Det _ _ (step_close pr w W Hw W_len' s c ip _ R Hn Nd Dr)) as R'.
    destruct (Z.eqb_spec (cell c) 0) as [Z0|Z0].
    + exists (ip + 2), c. split; [apply V_close_leave; assumption|]. split; assumption.
    + exists (addr l j + 2), c. split; [eapply V_close_again; eassumption|]. split; assumption.
Qed.

Lemma reach_stepn n : forall k s s' c ip,
  stepn pr n s s' -> rel w W s c ip -> at_op ip -> fresh k s c ip ->
  exists rows ip' c', processor_matrix (mat s') = processor_matrix (mat s) ++ rows /\
    length rows = n /\
    trace W w k ip c rows ip' c' /\ rel w W s' c' ip' /\ at_op ip' /\ fresh (k + n) s' c' ip'.
Proof.
  induction n as [|n IH]; intros k s s' c ip H R A F;
    inversion H as [s0|n0 s0 s1 s2 Hh Es Hn]; subst.
  - exists [], ip, c. rewrite app_nil_r, Nat.add_0_r. split; [reflexivity|].
    split; [reflexivity|]. split; [constructor|]. split; [exact R|]. split; [exact A|exact F].
  - pose proof W_len' as HL.
    assert (L : ip < lenZ W).
    { rewrite (halted_iff w W HL _ _ _ R) in Hh. apply Z.leb_gt in Hh. exact Hh. }
    destruct (reach_step s s1 c ip R A L Es) as [ip1 [c1 [V [R1 A1]]]].
    pose proof (refresh_fresh _ _ _ _ _ _ _ R F Es R1) as F1.
    destruct (IH (S k) s1 s' c1 ip1 Hn R1 A1 F1) as [rows [ip' [c' [E [Ln [T [R' [A' F']]]]]]]].
    exists (reg s :: rows), ip', c'. split.
    + rewrite E. apply cycle_step_split in Es. destruct Es as [st [_ [r' [_ ->]]]].
      cbn. rewrite <- app_assoc. reflexivity.
    + split; [cbn; lia|]. split; [econstructor; eassumption|]. split; [exact R'|]. split; [exact A'|].
      replace (k + S n)%nat with (S k + n)%nat by lia. exact F'.
Qed.

Variable inp : list Z.
Hypothesis Hin : in_range w inp.

Lemma W_emit : exists p, parses src p /\ W = emit 0 p /\ program_words p = word_count src.
Proof.
  pose proof Hb as Hb'. apply balanced_parses in Hb'. destruct Hb' as [p Hp].
  pose proof (word_count_parses _ _ Hp) as E. exists p. split; [exact Hp|]. split; [|lia].
  rewrite (compile_emit pr src p Hp) in HW by lia. congruence.
Qed.

Lemma start_rel : exists s1, prologue (set_bits (start (map FrZ W) (easygen inp)) w) = Ok s1 /\
  rel w W s1 (initial inp) 0 /\ fresh 0 s1 (initial inp) 0 /\ processor_matrix (mat s1) = [].
Proof.
  destruct W_emit as [p [Hp [EW El]]].
  destruct (prologue_rel w p inp Hw ltac:(lia) Hin) as [s1 [E R]]. fold (easygen inp) in E.
  unfold machine in E. rewrite <- EW in E, R. exists s1. split; [exact E|]. split; [exact R|].
  pose proof W_len' as HL.
  apply prologue_split in E. destruct E as [c0 [c1 [E0 [E1 ->]]]].
  cbn [code set_bits start set_input set_code] in E0, E1. split; [|reflexivity].
  unfold fresh, row_shows. cbn [reg cycle instruction_pointer current_instruction next_instruction
    memory_pointer memory_value memory_value_inverse].
  repeat apply conj; try reflexivity.
  - rewrite word_index in E0 by lia. injection E0 as <-. reflexivity.
  - rewrite lenZ_map in E1. destruct (Z.eqb_spec (lenZ W) 1) as [e|e].
    + rewrite word_or_0_end by lia. injection E1 as <-. reflexivity.
    + rewrite word_index in E1 by lia. injection E1 as <-. reflexivity.
  - intros H. contradiction H. reflexivity.
Qed.

Lemma finished_trace fuel s :
  run pr fuel (set_bits (start (map FrZ W) (easygen inp)) w) = Finished s ->
  exists rows last c',
    processor_matrix (mat s) = rows ++ [last] /\
    trace W w 0 0 (initial inp) rows (lenZ W) c' /\
    row_shows W (length rows) (lenZ W) c' last /\
    output_matrix (mat s) = map FrZ (written c') /\
    input_matrix (mat s) = map FrZ (read c').
Proof.
  intros E. destruct start_rel as [s1 [E1 [R1 [F1 P1]]]].
  apply run_finished in E. destruct E as [s1' [n [s2 [E1' [Hn [Hh ->]]]]]].
  rewrite E1 in E1'. injection E1' as <-.
  assert (A0 : at_op 0) by (exists 0%nat; split; [lia|reflexivity]).
  destruct (reach_stepn n 0 s1 s2 _ _ Hn R1 A0 F1) as [rows [ip' [c' [Er [Ln [T [R' [A' F']]]]]]]].
  pose proof W_len' as HL.
  assert (ip' = lenZ W) as ->.
  { rewrite (halted_iff w W HL _ _ _ R') in Hh. apply Z.leb_le in Hh.
    pose proof (rl_iprange _ _ _ _ _ R'). lia. }
  exists rows, (reg s2), c'. cbn [epilogue mat processor_matrix output_matrix input_matrix].
  rewrite Er, P1. split; [reflexivity|]. split; [exact T|]. split; [rewrite Ln; exact F'|].
  split; [apply (rl_written _ _ _ _ _ R')|apply (rl_read _ _ _ _ _ R')].
Qed.
End Trace.

Lemma C09_lemma pr w src inp c fuel s :
  0 <= w < 64 -> balanced src -> 1 <= word_count src <= 65535 -> in_range w inp ->
  compile pr src = Ok c ->
  run pr fuel (set_bits (start c (easygen inp)) w) = Finished s ->
  exists W rows last c',
    compile_to_u16 pr src = Ok W /\ c = map FrZ W /\
    processor_matrix (mat s) = rows ++ [last] /\
    trace W w 0 0 (initial inp) rows (lenZ W) c' /\
    row_shows W (length rows) (lenZ W) c' last /\
    output_matrix (mat s) = map FrZ (written c') /\
    input_matrix (mat s) = map FrZ (read c').
Proof.
  intros Hw Hb Hc Hin Ec Er. unfold compile in Ec. apply bind_ok_inv in Ec.
  destruct Ec as [W [EW Ec]]. injection Ec as <-.
  destruct (finished_trace pr w src W Hw Hb Hc EW inp Hin fuel s Er) as [rows [last [c' H]]].
  exists W, rows, last, c'. split; [exact EW|]. split; [reflexivity|]. exact H.
Qed.
