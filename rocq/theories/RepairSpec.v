(** Extra constraints that would make the circuit sound.  Specification only. *)
From Coq Require Import ZArith List.
From Verif Require Import Field BFSpec VMModel CircuitModel CircuitSpec Halo2Model.
Import List ListNotations.
Local Open Scope F_scope.

(** Conditions on the first-phase columns; [m] gives the sizes of the tables. *)
Record tables_repaired (m : matrix) (c : main_config) (A0 : nat -> nat -> Fr) : Prop := mkTR {
  (* the memory table starts at cell 0, and the rows of one cell are in increasing cycle order *)
  tr_mem_first : A0 (ac_index (t_mp (m_config c))) 0%nat = f0;
  tr_mem_order : forall r, (S r < length (memory_matrix m))%nat ->
    A0 (ac_index (t_mp (m_config c))) (S r) = A0 (ac_index (t_mp (m_config c))) r ->
    (fval (A0 (ac_index (t_clk (m_config c))) r) < fval (A0 (ac_index (t_clk (m_config c))) (S r)))%Z;
  (* the instruction table starts at address 0; each look-ahead word is the
     following instruction; the last row is the address after the program *)
  tr_inst_some : (0 < length (instruction_matrix m))%nat;
  tr_inst_first : A0 (ac_index (n_ip (i_config c))) 0%nat = f0;
  tr_inst_link : forall r, (S r < length (instruction_matrix m))%nat ->
    A0 (ac_index (n_ip (i_config c))) (S r) <> A0 (ac_index (n_ip (i_config c))) r ->
    A0 (ac_index (n_ni (i_config c))) r = A0 (ac_index (n_ci (i_config c))) (S r);
  tr_inst_last :
    A0 (ac_index (n_ip (i_config c))) (length (instruction_matrix m) - 1)%nat
      = A0 (ac_index (g_len (prog_config c))) 0%nat /\
    A0 (ac_index (n_ci (i_config c))) (length (instruction_matrix m) - 1)%nat = f0 /\
    A0 (ac_index (n_ni (i_config c))) (length (instruction_matrix m) - 1)%nat = f0;
  (* the processor's last row is past the program *)
  tr_proc_some : (0 < length (processor_matrix m))%nat;
  tr_proc_last :
    A0 (ac_index (p_ip (p_config c))) (length (processor_matrix m) - 1)%nat
      = A0 (ac_index (g_len (prog_config c))) 0%nat
}.

(** Conditions on the accumulators: where they start, and that the last row
    leaves the sums alone.  [i0] is the start of the input and output sums. *)
Record sums_repaired (i0 : Fr) (m : matrix) (c : main_config) (A : nat -> nat -> Fr) : Prop := mkSR {
  sr_mem : A (ac_index (p_mem_prp (p_config c))) 0%nat = FrZ 3 /\ A (ac_index (t_prp (m_config c))) 0%nat = FrZ 3;
  sr_inst : A (ac_index (p_inst_prp (p_config c))) 0%nat = FrZ 9 /\ A (ac_index (n_prp (i_config c))) 0%nat = FrZ 9;
  sr_code : A (ac_index (n_rs (i_config c))) 0%nat = f0 /\ A (ac_index (g_rs (prog_config c))) 0%nat = f0;
  sr_out : A (ac_index (p_output_rs (p_config c))) 0%nat = i0 /\ A (ac_index (o_rs (out_config c))) 0%nat = i0;
  sr_in : A (ac_index (p_input_rs (p_config c))) 0%nat = i0 /\ A (ac_index (u_rs (in_config c))) 0%nat = i0;
  sr_code_last : A (ac_index (n_rs (i_config c))) (length (instruction_matrix m))
    = A (ac_index (n_rs (i_config c))) (length (instruction_matrix m) - 1)%nat;
  sr_out_last : A (ac_index (p_output_rs (p_config c))) (length (processor_matrix m))
    = A (ac_index (p_output_rs (p_config c))) (length (processor_matrix m) - 1)%nat;
  sr_in_last : A (ac_index (p_input_rs (p_config c))) (length (processor_matrix m))
    = A (ac_index (p_input_rs (p_config c))) (length (processor_matrix m) - 1)%nat
}.

(** As [accepted] (SoundSpec), with the extra conditions, and with tables for
    exactly the public number of code words and input bytes. *)
Definition repaired (i0 : Fr) (n : nat) (m : matrix) (code_words input_bytes : nat) (insts : list (list Fr))
    (c : main_config) (A0 : nat -> nat -> Fr) : Prop :=
  length (program m) = code_words /\ length (input_matrix m) = input_bytes /\
  tables_repaired m c A0 /\
  exists s asm, bf_keygen n m = EOk (c, s, asm) /\
    length insts = num_instance s /\
    (forall l, List.In l insts -> (length l <= usable_rows n s)%nat) /\
    forall ch, exists A,
      (forall col r, nth col (advice_phases s) 0%nat = 0%nat -> A col r = A0 col r) /\
      sums_repaired i0 m c A /\
      satisfied s (asm_copies asm) (assign_with n asm A insts ch).
