(** Model of the ckb_bf_vm crate: compiler and interpreter.
    Definitions only. *)
From Coq Require Import ZArith List Bool.
From Verif Require Import Base Field.
Import ListNotations.
Local Open Scope Z_scope.

(** * code.rs *)

(** code.rs:7-14, opcode bytes *)
Definition SHL : Z := 0x3C.
Definition SHR : Z := 0x3E.
Definition ADD : Z := 0x2B.
Definition SUB : Z := 0x2D.
Definition GETCHAR : Z := 0x2C.
Definition PUTCHAR : Z := 0x2E.
Definition LB : Z := 0x5B.
Definition RB : Z := 0x5D.

(** code.rs:27, the filter vector *)
Definition filter_ops : list Z := [SHL; SHR; ADD; SUB; GETCHAR; PUTCHAR; LB; RB].
(** code.rs:31, filter.contains(&i) *)
Definition is_op (i : Z) : bool := existsb (Z.eqb i) filter_ops.

(** code.rs:16-18 easygen: bytes of a string as field elements *)
Definition easygen (bytes : list Z) : list Fr := map FrZ bytes.

(** State of the loop in compile_to_u16 (code.rs:28-29): instrs and jstack
    (top of the stack first). *)
Record cstate := { c_instrs : list Z; c_jstack : list Z }.

(** [x as u16] *)
Definition as_u16 (x : Z) : Z := x mod 65536.

(** One iteration of the loop, code.rs:30-44. *)
Definition compile_step (pr : profile) (s : cstate) (i : Z) : res cstate :=
  if negb (is_op i) then Ok s                                   (* :31-33 *)
  else
    let instrs := c_instrs s ++ [i] in                          (* :34 *)
    if i =? LB then                                             (* :35-38 *)
      let instrs := instrs ++ [0] in
      let! j := overflow pr 16 (as_u16 (lenZ instrs) - 1) in
      Ok {| c_instrs := instrs; c_jstack := j :: c_jstack s |}
    else if i =? RB then                                        (* :39-43 *)
      match c_jstack s with
      | [] => Panic                                             (* unwrap on None *)
      | j :: rest =>
          let! t := overflow pr 16 (j + 1) in
          let instrs := instrs ++ [t] in
          let! instrs := store instrs j (as_u16 (lenZ instrs)) in
          Ok {| c_instrs := instrs; c_jstack := rest |}
      end
    else Ok {| c_instrs := instrs; c_jstack := c_jstack s |}.

Fixpoint compile_loop (pr : profile) (s : cstate) (code : list Z) : res cstate :=
  match code with
  | [] => Ok s
  | i :: rest => let! s' := compile_step pr s i in compile_loop pr s' rest
  end.

(** code.rs:26-46 *)
Definition compile_to_u16 (pr : profile) (code : list Z) : res (list Z) :=
  let! s := compile_loop pr {| c_instrs := []; c_jstack := [] |} code in
  Ok (c_instrs s).

(** code.rs:48-50 *)
Definition compile (pr : profile) (code : list Z) : res (list Fr) :=
  let! ws := compile_to_u16 pr code in Ok (map FrZ ws).

(** * interpreter.rs and matrix.rs *)

(** interpreter.rs:8-17 *)
Record register := mkReg {
  cycle : Fr;
  instruction_pointer : Fr;
  current_instruction : Fr;
  next_instruction : Fr;
  memory_pointer : Fr;
  memory_value : Fr;
  memory_value_inverse : Fr
}.
(** #[derive(Default)] on Register: all zero *)
Definition reg0 : register := mkReg f0 f0 f0 f0 f0 f0 f0.

(** get_lower_128() as usize (64-bit target): interpreter.rs:20-26 *)
Definition as_usize (x : Fr) : Z := fval x mod 2 ^ 64.
Definition reg_ip (r : register) : Z := as_usize (instruction_pointer r).
Definition reg_mp (r : register) : Z := as_usize (memory_pointer r).

(** matrix.rs:18-32 *)
Record irow := mkI { i_ip : Fr; i_ci : Fr; i_ni : Fr }.
Definition irow_of (r : register) : irow :=
  mkI (instruction_pointer r) (current_instruction r) (next_instruction r).

(** matrix.rs:34-50; interweave_indicator is always zero (dummy-row insertion is
    commented out, interpreter.rs:166-181) and never used by the circuit, so it
    is omitted. *)
Record mrow := mkM { m_clk : Fr; m_mp : Fr; m_mv : Fr }.
Definition mrow_of (r : register) : mrow :=
  mkM (cycle r) (memory_pointer r) (memory_value r).

(** matrix.rs:8-16 *)
Record matrix := mkMatrix {
  processor_matrix : list register;
  instruction_matrix : list irow;
  memory_matrix : list mrow;
  input_matrix : list Fr;
  output_matrix : list Fr;
  program : list Fr
}.
Definition matrix0 : matrix := mkMatrix [] [] [] [] [] [].

(** interpreter.rs:29-36 *)
Record interp := mkInterp {
  code : list Fr;
  input : list Fr;
  memory : list Fr;
  reg : register;
  mat : matrix;
  bits : Z
}.

(** interpreter.rs:39-48 *)
Definition new_interp : interp := mkInterp [] [] [f0] reg0 matrix0 8.

(** interpreter.rs:50-53 *)
Definition set_code (s : interp) (c : list Fr) : interp :=
  mkInterp c (input s) (memory s) (reg s)
    (mkMatrix (processor_matrix (mat s)) (instruction_matrix (mat s)) (memory_matrix (mat s))
       (input_matrix (mat s)) (output_matrix (mat s)) c) (bits s).
(** interpreter.rs:55-57 *)
Definition set_input (s : interp) (i : list Fr) : interp :=
  mkInterp (code s) i (memory s) (reg s) (mat s) (bits s).
(** interpreter.rs:59-61 *)
Definition set_bits (s : interp) (b : Z) : interp :=
  mkInterp (code s) (input s) (memory s) (reg s) (mat s) b.

(** [Fr::from(len as u64)]: lengths are usize, so below 2^64 in Rust. *)
Definition Fr_len {A} (l : list A) : Fr := FrZ (lenZ l mod 2 ^ 64).

(** [(1 << self.bits) - 1] in u64 (interpreter.rs:101,110): shifting by 64 or
    more overflows (panic when checked, shift amount masked when wrapping). *)
Definition cell_max (pr : profile) (b : Z) : res Z :=
  if b <? 64 then Ok (2 ^ b - 1)
  else match pr with Checked => Panic | Wrapping => Ok (2 ^ (b mod 64) - 1) end.

(** [Vec<Fr>::push] on the tape.  The vector doubles its capacity starting at 4
    elements of 32 bytes; growing past isize::MAX bytes is a capacity-overflow
    panic, so the tape holds at most 2^57 cells.  (Growth of the recorded
    matrices and exhaustion of physical memory are not modelled.) *)
Definition max_cells : Z := 2 ^ 57.
Definition push_cell (m : list Fr) : res (list Fr) :=
  if lenZ m <? max_cells then Ok (m ++ [f0]) else Panic.

(** The part of the machine state the match in the loop body changes. *)
Record mstate := mkSt {
  s_ip : Fr;             (* register.instruction_pointer *)
  s_mp : Fr;             (* register.memory_pointer *)
  s_mem : list Fr;       (* memory *)
  s_input : list Fr;     (* input *)
  s_inm : list Fr;       (* matrix.input_matrix *)
  s_outm : list Fr       (* matrix.output_matrix *)
}.

(** interpreter.rs:88-141: the match on the current instruction.  [ci] is the
    register's current_instruction and [mv] its memory_value at loop entry. *)
Definition exec_instr (pr : profile) (code : list Fr) (bits : Z) (ci mv : Fr) (s : mstate)
  : res mstate :=
  let op := fval ci mod 2 ^ 128 mod 256 in            (* get_lower_128() as u8 *)
  let mp := as_usize (s_mp s) in
  let ip1 := fadd (s_ip s) f1 in
  if op =? SHL then                                                (* :89-92 *)
    Ok (mkSt ip1 (fsub (s_mp s) f1) (s_mem s) (s_input s) (s_inm s) (s_outm s))
  else if op =? SHR then                                           (* :93-99 *)
    let mp' := fadd (s_mp s) f1 in
    let! mem := (if as_usize mp' =? lenZ (s_mem s) then push_cell (s_mem s) else Ok (s_mem s)) in
    Ok (mkSt ip1 mp' mem (s_input s) (s_inm s) (s_outm s))
  else if op =? ADD then                                           (* :100-107 *)
    let! v := index (s_mem s) mp in
    let! mx := cell_max pr bits in
    let! mem := (if feqb v (FrZ mx) then store (s_mem s) mp f0
                 else store (s_mem s) mp (fadd v f1)) in
    Ok (mkSt ip1 (s_mp s) mem (s_input s) (s_inm s) (s_outm s))
  else if op =? SUB then                                           (* :108-115 *)
    let! v := index (s_mem s) mp in
    let! mem := (if feqb v f0 then
                   (let! mx := cell_max pr bits in store (s_mem s) mp (FrZ mx))
                 else store (s_mem s) mp (fsub v f1)) in
    Ok (mkSt ip1 (s_mp s) mem (s_input s) (s_inm s) (s_outm s))
  else if op =? GETCHAR then                                       (* :116-121 *)
    match s_input s with
    | [] => Panic                                        (* Vec::remove(0) on empty *)
    | v :: rest =>
        let! mem := store (s_mem s) mp v in
        Ok (mkSt ip1 (s_mp s) mem rest (s_inm s ++ [v]) (s_outm s))
    end
  else if op =? PUTCHAR then                                       (* :122-125 *)
    Ok (mkSt ip1 (s_mp s) (s_mem s) (s_input s) (s_inm s) (s_outm s ++ [mv]))
  else if op =? LB then                                            (* :126-132 *)
    let! v := index (s_mem s) mp in
    let! ip' := (if feqb v f0 then index code (as_usize (s_ip s) + 1)
                 else Ok (fadd (s_ip s) (FrZ 2))) in
    Ok (mkSt ip' (s_mp s) (s_mem s) (s_input s) (s_inm s) (s_outm s))
  else if op =? RB then                                            (* :133-139 *)
    let! v := index (s_mem s) mp in
    let! ip' := (if negb (feqb v f0) then index code (as_usize (s_ip s) + 1)
                 else Ok (fadd (s_ip s) (FrZ 2))) in
    Ok (mkSt ip' (s_mp s) (s_mem s) (s_input s) (s_inm s) (s_outm s))
  else Panic.                                                      (* :140 unreachable!() *)

(** interpreter.rs:142-158: refreshing the register at the end of the body. *)
Definition refresh (code : list Fr) (old : register) (s : mstate) : res register :=
  let ip := s_ip s in
  let! ci := (if fltb ip (Fr_len code) then index code (as_usize ip) else Ok f0) in
  let! ni := (if fltb ip (fsub (Fr_len code) f1) then index code (as_usize ip + 1) else Ok f0) in
  let! mv := index (s_mem s) (as_usize (s_mp s)) in
  (* invert().unwrap() cannot fail on the non-zero branch: [finvert] *)
  let! mvi := (if feqb mv f0 then Ok f0
               else match finvert mv with Some x => Ok x | None => Panic end) in
  Ok (mkReg (fadd (cycle old) f1) ip ci ni (s_mp s) mv mvi).

(** interpreter.rs:85-158: one iteration of the loop, the exit test excluded. *)
Definition cycle_step (pr : profile) (s : interp) : res interp :=
  let r := reg s in
  let m := mat s in
  let! st := exec_instr pr (code s) (bits s) (current_instruction r) (memory_value r)
      (mkSt (instruction_pointer r) (memory_pointer r) (memory s) (input s)
         (input_matrix m) (output_matrix m)) in
  let! r' := refresh (code s) r st in
  Ok (mkInterp (code s) (s_input st) (s_mem st) r'
        (mkMatrix (processor_matrix m ++ [r]) (instruction_matrix m ++ [irow_of r])
           (memory_matrix m ++ [mrow_of r]) (s_inm st) (s_outm st) (program m))
        (bits s)).

(** interpreter.rs:82 exit test *)
Definition halted (s : interp) : bool :=
  fleb (Fr_len (code s)) (instruction_pointer (reg s)).

(** Result of running the loop with a bound on the number of iterations. *)
Inductive run_result := Finished (s : interp) | Panicked | OutOfFuel.

(** interpreter.rs:81-159: the loop *)
Fixpoint run_loop (pr : profile) (fuel : nat) (s : interp) : run_result :=
  if halted s then Finished s
  else match fuel with
       | O => OutOfFuel
       | S f => match cycle_step pr s with
                | Ok s' => run_loop pr f s'
                | Panic => Panicked
                end
       end.

(** [stepn pr n s s']: n iterations of the loop lead from s to s'. *)
Inductive stepn (pr : profile) : nat -> interp -> interp -> Prop :=
  | stepn_0 s : stepn pr 0 s s
  | stepn_S n s s1 s2 : halted s = false -> cycle_step pr s = Ok s1 -> stepn pr n s1 s2 ->
      stepn pr (S n) s s2.

(** [sort_by_key] (stable): insertion after all elements with key <= the new
    element's key, processing left to right.  A stable sort's result is unique,
    so the algorithm used by Rust's merge sort is irrelevant. *)
Fixpoint insert_by {A} (key : A -> Fr) (x : A) (l : list A) : list A :=
  match l with
  | [] => [x]
  | y :: t => if fltb (key x) (key y) then x :: l else y :: insert_by key x t
  end.
Definition sort_by {A} (key : A -> Fr) (l : list A) : list A :=
  fold_left (fun acc x => insert_by key x acc) l [].

(** interpreter.rs:63-80: prologue (initial instruction words, program rows) *)
Definition program_rows (c : list Fr) : list irow :=
  map (fun i => mkI (FrZ (Z.of_nat i)) (nth i c f0) (nth (S i) c f0)) (seq 0 (length c)).

Definition prologue (s : interp) : res interp :=
  let! c0 := index (code s) 0 in
  let! c1 := (if lenZ (code s) =? 1 then Ok f0 else index (code s) 1) in
  let r := reg s in
  let m := mat s in
  Ok (mkInterp (code s) (input s) (memory s)
        (mkReg (cycle r) (instruction_pointer r) c0 c1 (memory_pointer r)
           (memory_value r) (memory_value_inverse r))
        (mkMatrix (processor_matrix m) (instruction_matrix m ++ program_rows (code s))
           (memory_matrix m) (input_matrix m) (output_matrix m) (program m))
        (bits s)).

(** interpreter.rs:160-164: epilogue (final rows, sorting) *)
Definition epilogue (s : interp) : interp :=
  let r := reg s in
  let m := mat s in
  mkInterp (code s) (input s) (memory s) r
    (mkMatrix (processor_matrix m ++ [r])
       (sort_by i_ip (instruction_matrix m ++ [irow_of r]))
       (sort_by m_mp (memory_matrix m ++ [mrow_of r]))
       (input_matrix m) (output_matrix m) (program m))
    (bits s).

(** interpreter.rs:63-182: run() *)
Definition run (pr : profile) (fuel : nat) (s : interp) : run_result :=
  match prologue s with
  | Panic => Panicked
  | Ok s1 =>
      match run_loop pr fuel s1 with
      | Finished s2 => Finished (epilogue s2)
      | other => other
      end
  end.

(** The way the prover drives the VM: ckb_bf_prover/src/main.rs:141-149 *)
Definition start (c : list Fr) (inp : list Fr) : interp :=
  set_input (set_code new_interp c) inp.
