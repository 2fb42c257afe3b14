(** Properties C12-C14, C16, C17: the circuit on honest runs, and what its
    processor table enforces on any assignment. *)
From Coq Require Import ZArith List.
From Verif Require Import Base Field BFSpec VMModel VMSim TraceSpec Halo2Model CircuitModel CircuitSpec
  LocalSound Completeness.
Import List ListNotations.
Local Open Scope Z_scope.

(** C12: for a program that terminates normally having read its whole input, key
    generation and witness synthesis succeed and the result satisfies all gates,
    lookups and copy constraints, for all challenges. *)
Theorem C12_honest_execution_satisfies : forall pr src p inp cfg c fuel s n ch,
  parses src p -> 1 <= program_words p <= 65535 -> in_range 8 inp ->
  exec 8 p (initial inp) (Done cfg) -> unread cfg = [] ->
  compile pr src = Ok c -> run pr fuel (start c (easygen inp)) = Finished s ->
  (262 < n)%nat -> (length (instruction_matrix (mat s)) + 6 < n)%nat -> Z.of_nat n < 2 ^ 64 ->
  exists cc sc asm adv,
    bf_keygen n (mat s) = EOk (cc, sc, asm) /\
    bf_witness n (mat s) (public_inputs c inp) ch = EOk adv /\
    satisfied sc (asm_copies asm) (assign_with n asm adv (public_inputs c inp) ch).
Proof. exact C12_lemma. Qed.
Print Assumptions C12_honest_execution_satisfies.

(** ",+." on "a". *)
Example C12_case : exists s,
  run Wrapping 10 (start (map FrZ [44; 43; 46]) (easygen [97])) = Finished s /\
  length (processor_matrix (mat s)) = 4%nat /\
  forall ch, exists cc sc asm adv,
    bf_keygen 263 (mat s) = EOk (cc, sc, asm) /\
    bf_witness 263 (mat s) (public_inputs (map FrZ [44; 43; 46]) [97]) ch = EOk adv /\
    satisfied sc (asm_copies asm) (assign_with 263 asm adv (public_inputs (map FrZ [44; 43; 46]) [97]) ch).
Proof. exact small_run_satisfies. Qed.

(** C13 is false: "+" run with one byte of input terminates normally, and the
    assignment synthesised for it never satisfies the circuit. *)
Theorem C13_partial_input_provable_refuted :
  exists src p inp cfg, parses src p /\ 1 <= program_words p <= 65535 /\ in_range 8 inp /\
    exec 8 p (initial inp) (Done cfg) /\
    forall pr, exists c fuel s, compile pr src = Ok c /\ run pr fuel (start c (easygen inp)) = Finished s /\
    forall n ch, (262 < n)%nat -> Z.of_nat n < 2 ^ 64 ->
    exists cc sc asm adv, bf_keygen n (mat s) = EOk (cc, sc, asm) /\
      bf_witness n (mat s) (public_inputs c inp) ch = EOk adv /\
      ~ satisfied sc (asm_copies asm) (assign_with n asm adv (public_inputs c inp) ch).
Proof. exact unread_input_counterexample. Qed.
Print Assumptions C13_partial_input_provable_refuted.

(** It fails for every run that leaves input unread. *)
Theorem C13_unread_input_never_satisfies : forall pr src p inp cfg c fuel s n ch cc sc asm adv,
  parses src p -> 1 <= program_words p <= 65535 -> in_range 8 inp ->
  exec 8 p (initial inp) (Done cfg) -> unread cfg <> [] ->
  compile pr src = Ok c -> run pr fuel (start c (easygen inp)) = Finished s -> Z.of_nat n < 2 ^ 64 ->
  bf_keygen n (mat s) = EOk (cc, sc, asm) ->
  bf_witness n (mat s) (public_inputs c inp) ch = EOk adv ->
  ~ satisfied sc (asm_copies asm) (assign_with n asm adv (public_inputs c inp) ch).
Proof. exact C13_lemma. Qed.
Print Assumptions C13_unread_input_never_satisfies.

(** C14 is false: 253 times '+' gets k = 9 and key generation fails. *)
Theorem C14_size_has_room_refuted :
  exists src p cfg, parses src p /\ 1 <= program_words p <= 65535 /\
    exec 8 p (initial []) (Done cfg) /\
    forall pr, exists c fuel s, compile pr src = Ok c /\ run pr fuel (start c (easygen [])) = Finished s /\
      prover_k (lenZ (instruction_matrix (mat s))) = 9 /\
      forall k, bf_keygen (circuit_rows (prover_k (lenZ (instruction_matrix (mat s))))) (mat s) <> EOk k.
Proof. exact no_room_counterexample. Qed.
Print Assumptions C14_size_has_room_refuted.

(** Exactly the runs whose instruction table is within 6 rows of a power of two
    (at least 512) do not fit. *)
Theorem C14_size_has_room_partial : forall pr src p inp cfg c fuel s,
  parses src p -> 1 <= program_words p <= 65535 -> in_range 8 inp ->
  exec 8 p (initial inp) (Done cfg) ->
  compile pr src = Ok c -> run pr fuel (start c (easygen inp)) = Finished s ->
  let ni := lenZ (instruction_matrix (mat s)) in
  ni < 2 ^ 63 ->
  (exists k, bf_keygen (circuit_rows (prover_k ni)) (mat s) = EOk k) <->
  ~ (exists j, 9 <= j /\ 2 ^ j - 6 <= ni <= 2 ^ j).
Proof. exact C14_lemma. Qed.
Print Assumptions C14_size_has_room_partial.

(** Seven rows for ",+.": no such j. *)
Example C14_case : ~ (exists j, 9 <= j /\ 2 ^ j - 6 <= 7 <= 2 ^ j).
Proof.
  intros (j & Hj & H & _). assert (2 ^ 9 <= 2 ^ j) by (apply Z.pow_le_mono_r; [reflexivity|exact Hj]).
  apply (Z.le_trans _ _ _ (proj1 (Z.sub_le_mono_r _ _ 6) H0)) in H. apply H. reflexivity.
Qed.

(** C16: in any satisfying assignment, consecutive processor rows obey the
    instruction semantics. *)
Theorem C16_local_transitions : forall n m c s asm A insts ch r,
  bf_keygen n m = EOk (c, s, asm) ->
  satisfied s (asm_copies asm) (assign_with n asm A insts ch) ->
  (S r < length (processor_matrix m))%nat ->
  step_ok (view c A r) (view c A (S r)).
Proof. exact C16_lemma. Qed.
Print Assumptions C16_local_transitions.

(** C17: memory values are bytes, inverses are inverses, the first row is zero. *)
Theorem C17_bytes_and_inverses : forall n m c s asm A insts ch,
  bf_keygen n m = EOk (c, s, asm) ->
  satisfied s (asm_copies asm) (assign_with n asm A insts ch) ->
  (forall r, (r < length (processor_matrix m))%nat ->
     byte (v_mv (view c A r)) /\ inverse_of (v_mv (view c A r)) (v_mvi (view c A r))) /\
  v_clk (view c A 0%nat) = f0 /\ v_ip (view c A 0%nat) = f0 /\ v_mp (view c A 0%nat) = f0 /\
  v_mv (view c A 0%nat) = f0.
Proof. exact C17_lemma. Qed.
Print Assumptions C17_bytes_and_inverses.

(** The hypotheses of C16 and C17 are met by the run of ",+." on "a" (C12_case):
    its four rows have three transitions. *)
Example C16_C17_case : exists s cc sc asm adv,
  bf_keygen 263 (mat s) = EOk (cc, sc, asm) /\
  satisfied sc (asm_copies asm)
    (assign_with 263 asm adv (public_inputs (map FrZ [44; 43; 46]) [97]) (fun _ => FrZ 7)) /\
  (S 2 < length (processor_matrix (mat s)))%nat.
Proof.
  destruct small_run_satisfies as (s & _ & L & H). destruct (H (fun _ => FrZ 7)) as (cc & sc & asm & adv & K & _ & S).
  exists s, cc, sc, asm, adv. split; [exact K|]. split; [exact S|]. rewrite L. constructor.
Qed.
