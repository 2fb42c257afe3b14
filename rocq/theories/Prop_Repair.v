(** Properties C21, C39, C40: the circuit with the missing constraints added. *)
From Coq Require Import ZArith List.
From Verif Require Import Base Field BFSpec VMModel VMSim Halo2Model CircuitModel CircuitSpec SoundSpec RepairSpec Repaired RepairedHonest.
Import List ListNotations.
Local Open Scope Z_scope.

(** C21 is false as stated: the values the prover starts the input and output
    sums at are zero.  ",." on the public input 0, 5 writes 0; the repaired
    circuit accepts an output table holding 5. *)
Theorem C21_zero_start_refuted :
  exists src p inp cfg c m cc A0,
    parses src p /\ 1 <= program_words p <= 65535 /\ in_range 8 inp /\ compile Wrapping src = Ok c /\
    exec 8 p (initial inp) (Done cfg) /\
    repaired f0 512 m (length c) (length inp) (public_inputs c inp) cc A0 /\
    inp = [0; 5] /\ written cfg = [0] /\
    output_shown cc A0 (length (output_matrix m)) = map FrZ [5].
Proof. exact leading_zero_counterexample. Qed.
Print Assumptions C21_zero_start_refuted.

(** In general any run that consumes its input is accepted for that input with a
    zero byte put in front. *)
Theorem C21_leading_zero_accepted : forall pr src p inp cfg c fuel s n,
  parses src p -> 1 <= program_words p <= 65535 -> in_range 8 inp ->
  exec 8 p (initial inp) (Done cfg) -> unread cfg = [] ->
  compile pr src = Ok c -> run pr fuel (start c (easygen inp)) = Finished s ->
  Z.of_nat n < 2 ^ 64 -> (262 < n)%nat -> (length (instruction_matrix (mat s)) + 6 < n)%nat -> (length inp + 8 <= n)%nat ->
  exists m cc A0, repaired f0 n m (length c) (S (length inp)) (public_inputs c (0 :: inp)) cc A0 /\
    length (output_matrix m) = length (written cfg) /\
    output_shown cc A0 (length (output_matrix m)) = map FrZ (written cfg).
Proof. exact repaired_leading_zero. Qed.
Print Assumptions C21_leading_zero_accepted.

(** C39: with those two sums started at a non-zero value the repaired circuit is
    sound: the public program terminates on the public input, consumes all of
    it, and the output table is its output.  (2^28 is the largest number of rows
    the scalar field allows.) *)
Theorem C39_repaired_circuit_sound : forall pr n m src p inp c cc A0 i0,
  parses src p -> 1 <= program_words p <= 65535 -> in_range 8 inp -> compile pr src = Ok c ->
  Z.of_nat n <= 2 ^ 28 -> i0 <> f0 ->
  repaired i0 n m (length c) (length inp) (public_inputs c inp) cc A0 ->
  exists cfg, exec 8 p (initial inp) (Done cfg) /\ unread cfg = [] /\
    output_shown cc A0 (length (output_matrix m)) = map FrZ (written cfg).
Proof. exact repaired_sound. Qed.
Print Assumptions C39_repaired_circuit_sound.

(** C40: and complete: every terminating run that consumes its input is accepted. *)
Theorem C40_repaired_circuit_complete : forall pr src p inp cfg c fuel s n i0,
  parses src p -> 1 <= program_words p <= 65535 -> in_range 8 inp ->
  exec 8 p (initial inp) (Done cfg) -> unread cfg = [] ->
  compile pr src = Ok c -> run pr fuel (start c (easygen inp)) = Finished s ->
  Z.of_nat n < 2 ^ 64 -> (262 < n)%nat -> (length (instruction_matrix (mat s)) + 6 < n)%nat ->
  exists cc A0, repaired i0 n (mat s) (length c) (length inp) (public_inputs c inp) cc A0 /\
    output_shown cc A0 (length (written cfg)) = map FrZ (written cfg).
Proof. exact repaired_complete. Qed.
Print Assumptions C40_repaired_circuit_complete.

(** The hypotheses of C21, C39 and C40 are met by ",+." on "a" in 512 rows: four
    processor rows, seven instruction rows, output "b". *)
Example C39_C40_case : forall i0, exists s cfg cc A0,
  parses [44; 43; 46] [BFSpec.In; Inc; Out] /\ in_range 8 [97] /\
  exec 8 [BFSpec.In; Inc; Out] (initial [97]) (Done cfg) /\ unread cfg = [] /\ written cfg = [98] /\
  compile Wrapping [44; 43; 46] = Ok (map FrZ [44; 43; 46]) /\
  run Wrapping 10 (start (map FrZ [44; 43; 46]) (easygen [97])) = Finished s /\
  length (processor_matrix (mat s)) = 4%nat /\ length (instruction_matrix (mat s)) = 7%nat /\
  repaired i0 512 (mat s) 3 1 (public_inputs (map FrZ [44; 43; 46]) [97]) cc A0 /\
  output_shown cc A0 1 = map FrZ [98].
Proof. exact repaired_case. Qed.
