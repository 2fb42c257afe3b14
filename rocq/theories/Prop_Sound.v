(** Properties C15, C18, C19, C20: what a malicious prover can get accepted. *)
From Coq Require Import ZArith List.
From Verif Require Import Base Field BFSpec VMModel VMSim TraceSpec Halo2Model CircuitModel CircuitSpec SoundSpec Attack.
Import List ListNotations.
Local Open Scope Z_scope.

(** C15 is false: ",+." on "a" writes "b", and a proof showing "c" is accepted
    under that program's own key and public inputs. *)
Theorem C15_soundness_refuted :
  exists src p inp cfg c fuel s cc A0,
    parses src p /\ 1 <= program_words p <= 65535 /\ in_range 8 inp /\ exec 8 p (initial inp) (Done cfg) /\
    compile Wrapping src = Ok c /\ run Wrapping fuel (start c (easygen inp)) = Finished s /\
    accepted 512 (mat s) (public_inputs c inp) cc A0 /\
    written cfg = [98] /\ output_shown cc A0 (length (output_matrix (mat s))) = map FrZ [99].
Proof. exact wrong_output_accepted. Qed.
Print Assumptions C15_soundness_refuted.

(** A program that never terminates: its public inputs are accepted with a key
    made from a run of another program of the same length.  (The verifier takes
    the key from the prover.) *)
Theorem C15_diverging_program_refuted :
  exists src p c s cc A0,
    parses src p /\ (forall o, ~ exec 8 p (initial []) o) /\ compile Wrapping src = Ok c /\
    (exists src' c' fuel, compile Wrapping src' = Ok c' /\ run Wrapping fuel (start c' (easygen [])) = Finished s /\
       length c' = length c) /\
    accepted 512 (mat s) (public_inputs c []) cc A0.
Proof. exact diverging_accepted. Qed.
Print Assumptions C15_diverging_program_refuted.

(** In general: whatever key is used, if any program has a terminating run with
    tables of the key's sizes, then every pair of public columns is accepted,
    with any values in the output table. *)
Theorem C15_every_statement_accepted : forall pr src p inp cfg c fuel s n mk insts outs,
  parses src p -> 1 <= program_words p <= 65535 -> in_range 8 inp ->
  exec 8 p (initial inp) (Done cfg) ->
  compile pr src = Ok c -> run pr fuel (start c (easygen inp)) = Finished s ->
  Z.of_nat n < 2 ^ 64 ->
  (exists k, bf_keygen n mk = EOk k) -> same_sizes mk (mat s) ->
  length insts = 2%nat -> (forall l, List.In l insts -> (length l <= n - 6)%nat) ->
  length outs = length (written cfg) ->
  exists cc A0, accepted n mk insts cc A0 /\
    output_shown cc A0 (length outs) = outs /\
    forall r x, nth_error (processor_matrix (mat s)) r = Some x -> view cc A0 r = vrow_of x.
Proof. exact every_statement. Qed.
Print Assumptions C15_every_statement_accepted.

(** C18 is false: "+><+><." prints 2; in an accepted assignment the last visit of
    cell 0 shows 1 where the previous visit left 2, and 1 is printed. *)
Theorem C18_memory_consistency_refuted :
  exists src p cfg c fuel s cc A0,
    parses src p /\ 1 <= program_words p <= 65535 /\ exec 8 p (initial []) (Done cfg) /\
    compile Wrapping src = Ok c /\ run Wrapping fuel (start c (easygen [])) = Finished s /\
    accepted 512 (mat s) (public_inputs c []) cc A0 /\
    written cfg = [2] /\ output_shown cc A0 1 = map FrZ [1] /\
    ~ memory_bound cc A0 (length (processor_matrix (mat s))).
Proof. exact wrong_memory_accepted. Qed.
Print Assumptions C18_memory_consistency_refuted.

(** C19 is false: under the key and public inputs of "+." the processor rows may
    execute another program. *)
Theorem C19_code_binding_refuted :
  exists src p cfg c fuel s cc A0,
    parses src p /\ 1 <= program_words p <= 65535 /\ exec 8 p (initial []) (Done cfg) /\
    compile Wrapping src = Ok c /\ run Wrapping fuel (start c (easygen [])) = Finished s /\
    accepted 512 (mat s) (public_inputs c []) cc A0 /\
    ~ code_bound cc A0 (length (processor_matrix (mat s))) c.
Proof. exact other_code_accepted. Qed.
Print Assumptions C19_code_binding_refuted.

(** C20 is false: with public input "a" the program ",." may load "b". *)
Theorem C20_input_binding_refuted :
  exists src p inp cfg c fuel s cc A0,
    parses src p /\ 1 <= program_words p <= 65535 /\ in_range 8 inp /\ exec 8 p (initial inp) (Done cfg) /\
    compile Wrapping src = Ok c /\ run Wrapping fuel (start c (easygen inp)) = Finished s /\
    accepted 512 (mat s) (public_inputs c inp) cc A0 /\
    inp = [97] /\ loaded cc A0 (length (processor_matrix (mat s))) = map FrZ [98].
Proof. exact other_input_accepted. Qed.
Print Assumptions C20_input_binding_refuted.
