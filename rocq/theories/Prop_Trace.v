(** Properties C08-C11: cells and recorded matrices. *)
From Coq Require Import ZArith List Permutation Sorted.
From Verif Require Import Base Field BFSpec CompileSpec VMModel TraceSpec VMInv VMTrace.
Import ListNotations.
Local Open Scope Z_scope.

(** C08: in every state reachable by any code vector on in-range input, cells,
    recorded values and outputs are in [0, 2^w); '+' and '-' change the cell
    under the pointer by one modulo 2^w and no other cell. *)
Theorem C08_cells_in_range : forall pr w c inp s1 n s,
  0 <= w < 64 -> Forall (fun v : Fr => 0 <= fval v < 2 ^ w) inp ->
  prologue (set_bits (start c inp) w) = Ok s1 -> stepn pr n s1 s ->
  Forall (fun v => 0 <= fval v < 2 ^ w) (memory s) /\
  Forall (fun r => 0 <= fval (memory_value r) < 2 ^ w) (processor_matrix (mat s) ++ [reg s]) /\
  Forall (fun v => 0 <= fval v < 2 ^ w) (output_matrix (mat s)) /\
  forall s', cycle_step pr s = Ok s' ->
    let a := reg_mp (reg s) in
    let op := fval (current_instruction (reg s)) mod 2 ^ 128 mod 256 in
    (op = ADD -> exists v, index (memory s) a = Ok v /\
        index (memory s') a = Ok (FrZ ((fval v + 1) mod 2 ^ w)) /\
        forall b, b <> a -> index (memory s') b = index (memory s) b) /\
    (op = SUB -> exists v, index (memory s) a = Ok v /\
        index (memory s') a = Ok (FrZ ((fval v - 1) mod 2 ^ w)) /\
        forall b, b <> a -> index (memory s') b = index (memory s) b).
Proof. exact C08_lemma. Qed.
Print Assumptions C08_cells_in_range.

(** "-+" from 0: one step gives 255, the next wraps to 0. *)
Example C08_case :
  match prologue (set_bits (start (map FrZ [45; 43]) []) 8) with
  | Ok s1 => halted s1 = false /\
      match cycle_step Wrapping s1 with
      | Ok s2 => map fval (memory s2) = [255] /\
          match cycle_step Wrapping s2 with
          | Ok s3 => map fval (memory s3) = [0]
          | Panic => False
          end
      | Panic => False
      end
  | Panic => False
  end.
Proof. vm_compute. repeat split. Qed.

(** C09: the processor matrix of a successful run of a compiled program is an
    execution from the initial state to the end of the program. *)
Theorem C09_trace_complete : forall pr w src inp c fuel s,
  0 <= w < 64 -> balanced src -> 1 <= word_count src <= 65535 -> in_range w inp ->
  compile pr src = Ok c ->
  run pr fuel (set_bits (start c (easygen inp)) w) = Finished s ->
  exists W rows last c',
    compile_to_u16 pr src = Ok W /\ c = map FrZ W /\
    processor_matrix (mat s) = rows ++ [last] /\
    trace W w 0 0 (initial inp) rows (lenZ W) c' /\
    row_shows W (length rows) (lenZ W) c' last /\
    output_matrix (mat s) = map FrZ (written c') /\
    input_matrix (mat s) = map FrZ (read c').
Proof. exact C09_lemma. Qed.
Print Assumptions C09_trace_complete.

(** ",+." on "a": a run of four rows. *)
Example C09_case :
  exists c, compile Wrapping [44; 43; 46] = Ok c /\
    exists s, run Wrapping 10 (set_bits (start c (easygen [97])) 8) = Finished s /\
    map (fun r => (fval (cycle r), fval (instruction_pointer r), fval (memory_value r)))
      (processor_matrix (mat s)) = [(0, 0, 0); (1, 1, 97); (2, 2, 98); (3, 3, 98)].
Proof. eexists. split; [reflexivity|]. apply fin_ex. vm_compute. reflexivity. Qed.

(** C10: the inverse column. *)
Theorem C10_inverse_column : forall pr fuel c inp w s,
  run pr fuel (set_bits (start c inp) w) = Finished s ->
  Forall (fun r =>
    (memory_value r = f0 -> memory_value_inverse r = f0) /\
    (memory_value r <> f0 -> fmul (memory_value r) (memory_value_inverse r) = f1))
    (processor_matrix (mat s)).
Proof. exact C10_lemma. Qed.
Print Assumptions C10_inverse_column.

Example C10_case : exists s,
  run Wrapping 10 (set_bits (start (map FrZ [43; 43]) []) 8) = Finished s /\
  map (fun r => (fval (memory_value r), fval (fmul (FrZ 2) (memory_value_inverse r))))
    (processor_matrix (mat s)) = [(0, 0); (1, 2); (2, 1)].
Proof. apply fin_ex. vm_compute. reflexivity. Qed.

(** C11: the memory matrix is the trace's (cycle, pointer, value) triples and the
    instruction matrix the program words plus the trace's triples, each sorted by
    pointer; rows with equal pointer keep their trace order. *)
Theorem C11_sorted_rearrangements : forall pr fuel c inp w s,
  run pr fuel (set_bits (start c inp) w) = Finished s ->
  let m := mat s in
  let trace := processor_matrix m in
  let words := map (fun i => mkI (FrZ (Z.of_nat i)) (nth i c f0) (nth (S i) c f0)) (seq 0 (length c)) in
  (Permutation (memory_matrix m) (map mrow_of trace) /\
   StronglySorted (fun x y => fval (m_mp x) <= fval (m_mp y)) (memory_matrix m) /\
   forall k, filter (fun x => fval (m_mp x) =? k) (memory_matrix m) =
             filter (fun x => fval (m_mp x) =? k) (map mrow_of trace)) /\
  (Permutation (instruction_matrix m) (words ++ map irow_of trace) /\
   StronglySorted (fun x y => fval (i_ip x) <= fval (i_ip y)) (instruction_matrix m) /\
   forall k, filter (fun x => fval (i_ip x) =? k) (instruction_matrix m) =
             filter (fun x => fval (i_ip x) =? k) (words ++ map irow_of trace)).
Proof. exact C11_lemma. Qed.
Print Assumptions C11_sorted_rearrangements.

(** With fewer than r rows (cycle numbers do not wrap) the memory matrix is
    sorted by pointer and then by cycle. *)
Theorem C11_memory_by_cycle : forall pr fuel c inp w s,
  run pr fuel (set_bits (start c inp) w) = Finished s ->
  Z.of_nat (length (processor_matrix (mat s))) <= Zpos r_pos ->
  StronglySorted (fun x y => fval (m_mp x) < fval (m_mp y) \/
     m_mp x = m_mp y /\ fval (m_clk x) < fval (m_clk y)) (memory_matrix (mat s)).
Proof. exact C11_cycle_order_lemma. Qed.
Print Assumptions C11_memory_by_cycle.

(** "+>+<": the pointer returns to cell 0. *)
Example C11_case : exists s,
  run Wrapping 10 (set_bits (start (map FrZ [43; 62; 43; 60]) []) 8) = Finished s /\
  map (fun x => (fval (m_mp x), fval (m_clk x), fval (m_mv x))) (memory_matrix (mat s)) =
    [(0, 0, 0); (0, 1, 1); (0, 4, 1); (1, 2, 0); (1, 3, 1)].
Proof. apply fin_ex. vm_compute. reflexivity. Qed.
