(** Properties C22 and C23: what equal sums and products say about the data. *)
From Coq Require Import ZArith List Permutation.
From Verif Require Import Base Field FieldFacts BFSpec VMModel Halo2Model CircuitModel CircuitSpec SoundSpec AlgebraSpec AccFacts
  AlgebraCircuit RepairSpec RepairedHonest.
Import List ListNotations.
Local Open Scope Z_scope.

(** C22: if two different sequences of the same length have equal final running
    sums (from equal starts) for each of a set of challenges, the set is smaller
    than the length. *)
Theorem C22_running_sum_roots : forall l k gs,
  length l = length k -> l <> k -> NoDup gs ->
  (forall g, List.In g gs -> exists rs rs', running_sum g l rs /\ running_sum g k rs' /\
     rs 0%nat = rs' 0%nat /\ rs (length l) = rs' (length k)) ->
  (length gs < length l)%nat.
Proof. exact C22_lemma. Qed.
Print Assumptions C22_running_sum_roots.

(** The bound is reached: [1; 2] and [3; 0] have sums g + 2 and 3 g, equal at
    g = 1 (sums 1, 3 and 3, 3). *)
Example C22_case :
  map FrZ [1; 2] <> map FrZ [3; 0] /\ NoDup [FrZ 1] /\
  exists rs rs', running_sum (FrZ 1) (map FrZ [1; 2]) rs /\ running_sum (FrZ 1) (map FrZ [3; 0]) rs' /\
     rs 0%nat = rs' 0%nat /\ rs 2%nat = rs' 2%nat.
Proof.
  split; [intros E; apply (f_equal (map fval)) in E; vm_compute in E; discriminate|].
  split; [repeat constructor; intros []|].
  exists (fun i => FrZ (nth i [0; 1; 3] 0)), (fun i => FrZ (nth i [0; 3; 3] 0)).
  split; [|split; [|split; reflexivity]]; intros i v Hi; destruct i as [|[|[|]]]; try discriminate Hi;
    injection Hi as <-; apply fe_eq; vm_compute; reflexivity.
Qed.

(** Sequences of any two lengths are told apart when the sums start at a
    non-zero value ... *)
Theorem C22_running_sum_unique : forall l k s,
  s <> f0 -> Z.of_nat (length l) < 2 ^ 64 -> Z.of_nat (length k) < 2 ^ 64 ->
  (forall g, exists rs rs', running_sum g l rs /\ running_sum g k rs' /\ rs 0%nat = s /\ rs' 0%nat = s /\
     rs (length l) = rs' (length k)) -> l = k.
Proof. exact C22_unique_lemma. Qed.
Print Assumptions C22_running_sum_unique.

(** ... and not when they start at zero, as the prover fills them in: leading
    zeros leave no mark. *)
Example C22_zero_start_ambiguous :
  map FrZ [0; 5] <> map FrZ [5] /\
  forall g, exists rs rs', running_sum g (map FrZ [0; 5]) rs /\ running_sum g (map FrZ [5]) rs' /\
     rs 0%nat = f0 /\ rs' 0%nat = f0 /\ rs 2%nat = rs' 1%nat.
Proof.
  split; [discriminate|]. intros g.
  exists (fun i => nth i [f0; f0; FrZ 5] f0), (fun i => nth i [f0; FrZ 5] f0).
  split; [|split; [|repeat split]]; intros i v Hi; destruct i as [|[|[|]]]; try discriminate Hi;
    injection Hi as <-; cbn [nth]; change (FrZ 0) with (f0 : Fr); fring.
Qed.

(** The circuit: in a satisfying assignment the output, input and program
    tables hold running sums of their value columns. *)
Theorem C22_circuit_columns : forall n m c s asm A insts ch,
  bf_keygen n m = EOk (c, s, asm) ->
  satisfied s (asm_copies asm) (assign_with n asm A insts ch) ->
  running_sum (ch (ch_index (output_rs_ch (challenges c))))
    (entries A (ac_index (o_val (out_config c))) (length (output_matrix m))) (A (ac_index (o_rs (out_config c)))) /\
  running_sum (ch (ch_index (input_rs_ch (challenges c))))
    (entries A (ac_index (u_val (in_config c))) (length (input_matrix m))) (A (ac_index (u_rs (in_config c)))) /\
  running_sum (ch (ch_index (inst_rs_ch (challenges c))))
    (entries A (ac_index (g_code (prog_config c))) (length (program m))) (A (ac_index (g_rs (prog_config c)))).
Proof. exact C22_columns. Qed.
Print Assumptions C22_circuit_columns.

(** C23: products started at a common non-zero value agree for all challenges
    exactly when the rows are rearranged. *)
Theorem C23_products_are_multisets : forall (l k : list trip) s,
  s <> f0 -> Z.of_nat (length l) < 2 ^ 64 -> Z.of_nat (length k) < 2 ^ 64 ->
  (forall al a b c, exists u v, running_product al a b c l u /\ running_product al a b c k v /\
     u 0%nat = s /\ v 0%nat = s /\ u (length l) = v (length k)) <-> Permutation l k.
Proof. exact C23_lemma. Qed.
Print Assumptions C23_products_are_multisets.

(** Two rows swapped are accepted; a row repeated in place of another is not. *)
Example C23_case :
  let t x : trip := (FrZ x, FrZ (x + 1), FrZ (x + 2)) in
  Permutation [t 1; t 2] [t 2; t 1] /\ ~ Permutation [t 1; t 2] [t 1; t 1].
Proof.
  cbv zeta. split; [apply perm_swap|]. intros P.
  assert (I : List.In (FrZ 2, FrZ (2 + 1), FrZ (2 + 2)) [(FrZ 1, FrZ (1 + 1), FrZ (1 + 2)); (FrZ 1, FrZ (1 + 1), FrZ (1 + 2))])
    by (apply (Permutation_in _ P); right; left; reflexivity).
  destruct I as [E|[E|[]]]; apply (f_equal (fun t => fval (fst (fst t)))) in E; vm_compute in E; discriminate.
Qed.

(** The circuit: the processor's and the memory table's product columns are
    running products of their rows, and end equal. *)
Theorem C23_circuit_columns : forall n m c s asm A insts ch,
  bf_keygen n m = EOk (c, s, asm) ->
  satisfied s (asm_copies asm) (assign_with n asm A insts ch) ->
  let h i := ch (ch_index (get_ch (challenges c) i)) in
  let p := p_config c in let t := m_config c in
  running_product (h 0%nat) (h 1%nat) (h 2%nat) (h 3%nat)
    (triples A (ac_index (p_clk p)) (ac_index (p_mp p)) (ac_index (p_mv p)) (length (processor_matrix m)))
    (A (ac_index (p_mem_prp p))) /\
  running_product (h 0%nat) (h 1%nat) (h 2%nat) (h 3%nat)
    (triples A (ac_index (t_clk t)) (ac_index (t_mp t)) (ac_index (t_mv t)) (length (memory_matrix m)))
    (A (ac_index (t_prp t))) /\
  running_product (h 4%nat) (h 5%nat) (h 6%nat) (h 7%nat)
    (triples A (ac_index (p_ip p)) (ac_index (p_ci p)) (ac_index (p_ni p)) (length (processor_matrix m)))
    (A (ac_index (p_inst_prp p))) /\
  A (ac_index (p_mem_prp p)) (length (processor_matrix m)) = A (ac_index (t_prp t)) (length (memory_matrix m)).
Proof. exact C23_columns. Qed.
Print Assumptions C23_circuit_columns.

(** So if the two columns started at a common non-zero value, which no gate asks
    for, the memory table would hold exactly the processor's accesses. *)
Theorem C23_memory_table_is_trace : forall n m c A0 s0,
  s0 <> f0 -> Z.of_nat n < 2 ^ 64 ->
  (exists s asm, bf_keygen n m = EOk (c, s, asm) /\
    forall ch, exists A insts,
      (forall col r, nth col (advice_phases s) 0%nat = 0%nat -> A col r = A0 col r) /\
      A (ac_index (p_mem_prp (p_config c))) 0%nat = s0 /\ A (ac_index (t_prp (m_config c))) 0%nat = s0 /\
      satisfied s (asm_copies asm) (assign_with n asm A insts ch)) ->
  Permutation
    (triples A0 (ac_index (p_clk (p_config c))) (ac_index (p_mp (p_config c))) (ac_index (p_mv (p_config c)))
       (length (processor_matrix m)))
    (triples A0 (ac_index (t_clk (m_config c))) (ac_index (t_mp (m_config c))) (ac_index (t_mv (m_config c)))
       (length (memory_matrix m))).
Proof. exact C23_circuit. Qed.
Print Assumptions C23_memory_table_is_trace.

(** Its hypotheses are met by the four-row run of ",+." on "a". *)
Example C23_circuit_case : exists m c A0,
  length (processor_matrix m) = 4%nat /\
  exists s asm, bf_keygen 512 m = EOk (c, s, asm) /\
    forall ch, exists A insts,
      (forall col r, nth col (advice_phases s) 0%nat = 0%nat -> A col r = A0 col r) /\
      A (ac_index (p_mem_prp (p_config c))) 0%nat = FrZ 3 /\ A (ac_index (t_prp (m_config c))) 0%nat = FrZ 3 /\
      satisfied s (asm_copies asm) (assign_with 512 asm A insts ch).
Proof.
  destruct (repaired_case f0) as (s & cfg & cc & A0 & _ & _ & _ & _ & _ & _ & _ & L & _ & H & _).
  destruct H as (_ & _ & _ & sc & asm & K & _ & _ & Hall).
  exists (mat s), cc, A0. split; [exact L|]. exists sc, asm. split; [exact K|]. intros ch.
  destruct (Hall ch) as (A & E & SR & St). exists A, (public_inputs (map FrZ [44; 43; 46]) [97]).
  split; [exact E|]. destruct (sr_mem _ _ _ _ SR) as [E1 E2]. split; [exact E1|]. split; [exact E2|exact St].
Qed.
