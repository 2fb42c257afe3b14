(** Properties C01-C03: running compiled programs. *)
From Coq Require Import ZArith List Lia.
From Verif Require Import Base Field BFSpec VMModel VMSim.
Import ListNotations.
Local Open Scope Z_scope.

(** C01: the run of a compiled program finishes exactly when the program
    terminates normally, and then records its output and the input it read.
    [w] is the cell width; the default machine has width 8. *)
Theorem C01_run_computes_brainfuck : forall pr w src p inp,
  0 <= w < 64 -> parses src p -> 1 <= program_words p <= 65535 -> in_range w inp ->
  exists c, compile pr src = Ok c /\
    (forall cfg, exec w p (initial inp) (Done cfg) ->
       exists fuel s, run pr fuel (set_bits (start c (easygen inp)) w) = Finished s /\
         output_matrix (mat s) = map FrZ (written cfg) /\
         input_matrix (mat s) = map FrZ (read cfg)) /\
    (forall fuel s, run pr fuel (set_bits (start c (easygen inp)) w) = Finished s ->
       exists cfg, exec w p (initial inp) (Done cfg) /\
         output_matrix (mat s) = map FrZ (written cfg) /\
         input_matrix (mat s) = map FrZ (read cfg)).
Proof. exact compiled_run. Qed.
Print Assumptions C01_run_computes_brainfuck.

(** The default machine is the width-8 one. *)
Example C01_default_width : forall c inp, set_bits (start c inp) 8 = start c inp.
Proof. reflexivity. Qed.

(** A program meeting the hypotheses: ",[.,]" on "AB" plus a zero byte. *)
Definition echo_src : list Z := [44; 91; 46; 44; 93].
Definition echo_prog : list instr := [In; Loop [Out; In]].
Example C01_case : parses echo_src echo_prog /\ 1 <= program_words echo_prog <= 65535 /\
  in_range 8 [65; 66; 0] /\
  (exists cfg, exec 8 echo_prog (initial [65; 66; 0]) (Done cfg) /\ written cfg = [65; 66]).
Proof.
  split; [|split; [|split]].
  - apply P_in. apply (P_loop [46; 44] [Out; In] [] []); [|constructor].
    apply P_out, P_in, P_nil.
  - split; discriminate.
  - repeat constructor; discriminate.
  - eexists. split.
    + eapply E_in; [reflexivity|].
      eapply E_loop_iter; [discriminate|apply E_out; eapply E_in; [reflexivity|apply E_nil]|].
      eapply E_loop_iter; [discriminate|apply E_out; eapply E_in; [reflexivity|apply E_nil]|].
      apply E_loop_exit; [reflexivity|apply E_nil].
    + reflexivity.
Qed.

(** C02: a panic happens exactly when the program itself fails. *)
Theorem C02_panics_iff_program_fails : forall pr w src p inp,
  0 <= w < 64 -> parses src p -> 1 <= program_words p <= 65535 -> in_range w inp ->
  exists c, compile pr src = Ok c /\
    ((exists fuel, run pr fuel (set_bits (start c (easygen inp)) w) = Panicked) <->
     exec w p (initial inp) Failed).
Proof. exact compiled_panic. Qed.
Print Assumptions C02_panics_iff_program_fails.

(** "+[<]": fails by leaving the tape on the left. *)
Example C02_case : parses [43; 91; 60; 93] [Inc; Loop [Left]] /\
  exec 8 [Inc; Loop [Left]] (initial []) Failed.
Proof.
  split.
  - apply P_inc. apply (P_loop [60] [Left] [] []); [apply P_left, P_nil|constructor].
  - apply E_inc, E_loop_fail; [discriminate|]. apply E_left_fail. intros H. discriminate H.
Qed.

(** C03: the run never ends exactly when the program has no outcome. *)
Theorem C03_diverges_iff_program_does : forall pr w src p inp,
  0 <= w < 64 -> parses src p -> 1 <= program_words p <= 65535 -> in_range w inp ->
  exists c, compile pr src = Ok c /\
    ((forall fuel, run pr fuel (set_bits (start c (easygen inp)) w) = OutOfFuel) <->
     (forall o, ~ exec w p (initial inp) o)).
Proof. exact compiled_diverges. Qed.
Print Assumptions C03_diverges_iff_program_does.

(** "+[]" has no outcome. *)
Example C03_case : parses [43; 91; 93] [Inc; Loop []] /\
  forall o, ~ exec 8 [Inc; Loop []] (initial []) o.
Proof.
  split.
  - apply P_inc. apply (P_loop [] [] [] []); constructor.
  - intros o H. inversion H as [| | | | |p c o' He| | | | | | |]; subst. clear H.
    assert (Hc : cell (set_cell (initial []) ((cell (initial []) + 1) mod 2 ^ 8)) <> 0) by discriminate.
    revert He Hc. generalize (set_cell (initial []) ((cell (initial []) + 1) mod 2 ^ 8)).
    intros c0 He Hc. remember [Loop []] as l eqn:El.
    induction He; try discriminate; injection El as -> ->.
    + contradiction.
    + match goal with H : exec 8 [] _ (Done _) |- _ => inversion H; subst end. auto.
    + match goal with H : exec 8 [] _ Failed |- _ => inversion H end.
Qed.

(** The semantics is deterministic. *)
Theorem C01_outcome_unique : forall w p c o, exec w p c o -> forall o', exec w p c o' -> o = o'.
Proof. exact exec_det. Qed.
Print Assumptions C01_outcome_unique.
