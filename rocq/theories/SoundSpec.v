(** What it means for the verifier's circuit check to accept, and what soundness
    would mean.  Specification only. *)
From Coq Require Import ZArith List.
From Verif Require Import Field BFSpec VMModel CircuitModel CircuitSpec Halo2Model.
Import List ListNotations.
Local Open Scope F_scope.

(** The verifier is given public inputs [insts] and the verifying key made from
    the tables [m] at size [n].  A prover commits to first-phase advice [A0]
    before the challenges are drawn and to second-phase advice afterwards.
    [accepted]: whatever the challenges are, some second-phase advice completes
    [A0] to an assignment satisfying every constraint.  The condition on
    the number of columns is the verifier's (plonk/verifier.rs:43-47), the one on
    their length the prover's (plonk/prover.rs:85-88): the on-chain verifier,
    whose commitment scheme has QUERY_INSTANCE = false, does not check it. *)
Definition accepted (n : nat) (m : matrix) (insts : list (list Fr)) (c : main_config)
    (A0 : nat -> nat -> Fr) : Prop :=
  exists s asm, bf_keygen n m = EOk (c, s, asm) /\
    length insts = num_instance s /\
    (forall l, List.In l insts -> (length l <= usable_rows n s)%nat) /\
    forall ch, exists A,
      (forall col r, nth col (advice_phases s) 0%nat = 0%nat -> A col r = A0 col r) /\
      satisfied s (asm_copies asm) (assign_with n asm A insts ch).

(** The six tables have the same number of rows. *)
Definition same_sizes (a b : matrix) : Prop :=
  length (processor_matrix a) = length (processor_matrix b) /\
  length (memory_matrix a) = length (memory_matrix b) /\
  length (instruction_matrix a) = length (instruction_matrix b) /\
  length (output_matrix a) = length (output_matrix b) /\
  length (input_matrix a) = length (input_matrix b) /\
  length (program a) = length (program b).

(** The values stored in the output table. *)
Definition output_shown (c : main_config) (A0 : nat -> nat -> Fr) (k : nat) : list Fr :=
  map (A0 (ac_index (o_val (out_config c)))) (seq 0 k).

(** A register as a row. *)
Definition vrow_of (x : register) : vrow :=
  mkV (cycle x) (instruction_pointer x) (current_instruction x) (next_instruction x)
      (memory_pointer x) (memory_value x) (memory_value_inverse x).

(** The first [N] processor rows execute the words [W]. *)
Definition code_bound (c : main_config) (A0 : nat -> nat -> Fr) (N : nat) (W : list Fr) : Prop :=
  forall r, (r < N)%nat -> exists a,
    v_ip (view c A0 r) = FrZ (Z.of_nat a) /\
    v_ci (view c A0 r) = nth a W f0 /\ v_ni (view c A0 r) = nth (S a) W f0.

(** The values stored by ',' in the first [N] processor rows, in order. *)
Definition loaded (c : main_config) (A0 : nat -> nat -> Fr) (N : nat) : list Fr :=
  flat_map (fun r => if feqb (v_ci (view c A0 r)) (FrZ chr_in) then [v_mv (view c A0 (S r))] else [])
    (seq 0 (N - 1)).

(** Every visit of a cell shows what the cell held after the previous visit, 0 on
    the first visit.  (Row i + 1 itself is the result of executing row i.) *)
Definition memory_bound (c : main_config) (A0 : nat -> nat -> Fr) (N : nat) : Prop :=
  forall j, (j < N)%nat ->
    let mp r := v_mp (view c A0 r) in
    let mv r := v_mv (view c A0 r) in
    (forall i, (S i < j)%nat -> mp i = mp j ->
       (forall k, (i < k)%nat -> (k < j)%nat -> mp k <> mp j) -> mv j = mv i) /\
    ((forall k, (k < j)%nat -> mp k <> mp j) -> mv j = f0).
