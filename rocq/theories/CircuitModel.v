(** The Brainfuck circuit: ckb_bf_base/src/*.rs.  One Coq function per Rust
    function; paths are relative to ckb_bf_base/src.  [RANGE] is the const
    generic of ProcessorTableConfig / MyCircuit (DOMAIN = 256 everywhere it is
    instantiated, utils.rs:35). *)
From Coq Require Import ZArith List Bool Arith.
From Verif Require Import Base Field VMModel Halo2Model.
Import ListNotations.
Local Open Scope expr_scope.

Definition DOMAIN : Z := 256.

(** utils.rs:15-24 *)
Definition OPCODES : list Z := [SHL; SHR; ADD; SUB; GETCHAR; PUTCHAR; LB; RB].

(** Fr::zero(), Fr::one(), Fr::from(x) as constant expressions. *)
Definition k0 : expr := EConst f0.
Definition k1 : expr := EConst f1.
Definition kZ (x : Z) : expr := EConst (FrZ x).

(** FirstPhase, SecondPhase (plonk/circuit.rs:150-190) *)
Definition FirstPhase : nat := 0.
Definition SecondPhase : nat := 1.

(** ** Challenges (utils.rs:39-75) *)
Record bf_challenge := mkBfCh {
  mem_prp_init : Fr;
  inst_prp_init : Fr;
  bf_challenges : list challenge
}.
Definition ch_dummy : challenge := Chal 0 0.
Definition get_ch (c : bf_challenge) (i : nat) : challenge := nth i (bf_challenges c) ch_dummy.
(** utils.rs:47-54 *)
Definition challenge_init : M bf_challenge :=
  do l <- mapM (fun _ : nat => challenge_usable_after FirstPhase) (seq 0 11);
  ret (mkBfCh (FrZ 3) (FrZ 9) l).
(** utils.rs:56-62: indices 0..4 and 4..8 *)
Definition query_mem_prp (c : bf_challenge) : M (expr * expr * expr * expr) :=
  do a <- query_challenge (get_ch c 0); do d <- query_challenge (get_ch c 1);
  do e <- query_challenge (get_ch c 2); do f <- query_challenge (get_ch c 3); ret (a, d, e, f).
Definition query_inst_prp (c : bf_challenge) : M (expr * expr * expr * expr) :=
  do a <- query_challenge (get_ch c 4); do d <- query_challenge (get_ch c 5);
  do e <- query_challenge (get_ch c 6); do f <- query_challenge (get_ch c 7); ret (a, d, e, f).
(** utils.rs:64-74 *)
Definition inst_rs_ch (c : bf_challenge) : challenge := get_ch c 8.
Definition output_rs_ch (c : bf_challenge) : challenge := get_ch c 9.
Definition input_rs_ch (c : bf_challenge) : challenge := get_ch c 10.

(** ** Processor table *)

(** processor_table.rs:23-42; [p_table] is the range table's column
    (range_table.rs:13-15). *)
Record processor_config := mkP {
  p_clk : advice_col; p_ip : advice_col; p_ci : advice_col; p_ni : advice_col;
  p_mp : advice_col; p_mv : advice_col; p_mvi : advice_col;
  p_mem_prp : advice_col; p_inst_prp : advice_col; p_output_rs : advice_col;
  p_input_rs : advice_col;
  p_table : nat;
  p_s_lookup : selector; p_s_p : selector; p_s_c : selector; p_s_b : selector;
  p_s_prp : selector; p_s_rs : selector
}.

(** processor_table.rs:45-54 *)
Definition create_deselector (ci : expr) (op : Z) : expr :=
  fold_left (fun e v => if Z.eqb v op then e else e * (ci - kZ v)) OPCODES k1.
(** processor_table.rs:57-59 *)
Definition create_selector (ci : expr) (op : Z) : expr := ci - kZ op.

(** processor_table.rs:62-240 *)
Definition processor_configure (RANGE : Z) : M processor_config :=
  let one := k1 in
  let zero := k0 in
  let two := kZ 2 in
  let range_max := kZ (RANGE - 1) in
  do clk <- advice_column_in FirstPhase;
  do ci <- advice_column_in FirstPhase;
  do ip <- advice_column_in FirstPhase;
  do ni <- advice_column_in FirstPhase;
  do mp <- advice_column_in FirstPhase;
  do mv <- advice_column_in FirstPhase;
  do mvi <- advice_column_in FirstPhase;
  do mem_prp <- advice_column_in SecondPhase;
  do_ enable_equality (CAdvice mem_prp);
  do inst_prp <- advice_column_in SecondPhase;
  do_ enable_equality (CAdvice inst_prp);
  do output_rs <- advice_column_in SecondPhase;
  do_ enable_equality (CAdvice output_rs);
  do input_rs <- advice_column_in SecondPhase;
  do_ enable_equality (CAdvice input_rs);
  do table <- fixed_column;
  do s_lookup <- complex_selector;
  do s_c <- simple_selector;
  do s_p <- simple_selector;
  do s_b <- simple_selector;
  do s_prp <- simple_selector;
  do s_rs <- simple_selector;
  (* B0, B1, B3, B4: :91-113 *)
  do_ create_gate (do s <- query_selector s_b; do x <- query_advice clk cur; ret [s * x]);
  do_ create_gate (do s <- query_selector s_b; do x <- query_advice ip cur; ret [s * x]);
  do_ create_gate (do s <- query_selector s_b; do x <- query_advice mp cur; ret [s * x]);
  do_ create_gate (do s <- query_selector s_b; do x <- query_advice mv cur; ret [s * x]);
  (* range check: :115-119 *)
  do_ lookup (do s <- query_selector s_lookup; do x <- query_advice mv cur; ret [(s * x, table)]);
  (* P0: :121-126 *)
  do_ create_gate (
    do s <- query_selector s_p;
    do cur_clk <- query_advice clk cur;
    do next_clk <- query_advice clk next;
    ret [s * (next_clk - cur_clk - one)]);
  (* C0: :128-133 *)
  do_ create_gate (
    do s <- query_selector s_c;
    do mv <- query_advice mv cur;
    do mvi <- query_advice mvi cur;
    ret [s * mv * (mv * mvi - one)]);
  (* C1: :135-140 *)
  do_ create_gate (
    do s <- query_selector s_c;
    do mv <- query_advice mv cur;
    do mvi <- query_advice mvi cur;
    ret [s * mvi * (mv * mvi - one)]);
  (* P_1: :142-169 *)
  do_ create_gate (
    do ci <- query_advice ci cur;
    let desel := create_deselector ci in
    do cur_ip <- query_advice ip cur;
    do next_ip <- query_advice ip next;
    do cur_mv <- query_advice mv cur;
    do cur_mvi <- query_advice mvi cur;
    do cur_ni <- query_advice ni cur;
    do s <- query_selector s_p;
    let expr1 := (desel ADD + desel SUB + desel SHR + desel SHL + desel GETCHAR + desel PUTCHAR)
                 * (next_ip - cur_ip - one) in
    let expr_lb := desel LB * (cur_mv * (next_ip - cur_ip - two)
                               + (cur_mv * cur_mvi - one) * (next_ip - cur_ni)) in
    let expr_rb := desel RB * ((cur_mv * cur_mvi - one) * (next_ip - cur_ip - two)
                               + cur_mv * (next_ip - cur_ni)) in
    ret [s * (expr1 + expr_lb + expr_rb)]);
  (* P_2: :171-191 *)
  do_ create_gate (
    do ci <- query_advice ci cur;
    let desel := create_deselector ci in
    do s <- query_selector s_p;
    do cur_mp <- query_advice mp cur;
    do next_mp <- query_advice mp next;
    let expr1 := (desel ADD + desel SUB + desel LB + desel RB + desel GETCHAR + desel PUTCHAR)
                 * (next_mp - cur_mp) in
    let expr_shl := desel SHL * (next_mp - cur_mp + one) in
    let expr_shr := desel SHR * (next_mp - cur_mp - one) in
    ret [s * (expr1 + expr_shl + expr_shr)]);
  (* P_3: :193-218 *)
  do_ create_gate (
    do ci <- query_advice ci cur;
    let desel := create_deselector ci in
    do s <- query_selector s_p;
    do cur_mv <- query_advice mv cur;
    do next_mv <- query_advice mv next;
    let expr1 := (desel LB + desel RB + desel PUTCHAR) * (next_mv - cur_mv) in
    let expr_add := desel ADD * (next_mv - cur_mv - one) * (next_mv - cur_mv + range_max) in
    let expr_sub := desel SUB * (next_mv - cur_mv + one) * (next_mv - cur_mv - range_max) in
    let expr2 := (desel SHL + desel SHR + desel GETCHAR) * zero in
    ret [s * (expr1 + expr2 + expr_add + expr_sub)]);
  ret (mkP clk ip ci ni mp mv mvi mem_prp inst_prp output_rs input_rs table
         s_lookup s_p s_c s_b s_prp s_rs).

(** processor_table.rs:242-301 *)
Definition processor_second_phase (p : processor_config) (chs : bf_challenge) : M unit :=
  do_ create_gate (
    do clk <- query_advice (p_clk p) cur;
    do mp <- query_advice (p_mp p) cur;
    do mv <- query_advice (p_mv p) cur;
    do prp_cur <- query_advice (p_mem_prp p) cur;
    do prp_next <- query_advice (p_mem_prp p) next;
    do s <- query_selector (p_s_prp p);
    do (alpha, d, e, f) <- query_mem_prp chs;
    ret [s * (prp_next - prp_cur * (alpha - d * clk - e * mp - f * mv))]);
  do_ create_gate (
    do ip <- query_advice (p_ip p) cur;
    do ci <- query_advice (p_ci p) cur;
    do ni <- query_advice (p_ni p) cur;
    do prp_cur <- query_advice (p_inst_prp p) cur;
    do prp_next <- query_advice (p_inst_prp p) next;
    do s <- query_selector (p_s_prp p);
    do (alpha, d, e, f) <- query_inst_prp chs;
    ret [s * (prp_next - prp_cur * (alpha - d * ip - e * ci - f * ni))]);
  do_ create_gate (
    do ci <- query_advice (p_ci p) cur;
    do mv <- query_advice (p_mv p) cur;
    do rs_cur <- query_advice (p_output_rs p) cur;
    do rs_next <- query_advice (p_output_rs p) next;
    do gamma <- query_challenge (output_rs_ch chs);
    do s <- query_selector (p_s_rs p);
    ret [s * (create_deselector ci PUTCHAR * (rs_next - (rs_cur * gamma + mv))
              + create_selector ci PUTCHAR * (rs_next - rs_cur))]);
  create_gate (
    do ci <- query_advice (p_ci p) cur;
    do mv <- query_advice (p_mv p) next;
    do rs_cur <- query_advice (p_input_rs p) cur;
    do rs_next <- query_advice (p_input_rs p) next;
    do gamma <- query_challenge (input_rs_ch chs);
    do s <- query_selector (p_s_rs p);
    ret [s * (create_deselector ci GETCHAR * (rs_next - (rs_cur * gamma + mv))
              + create_selector ci GETCHAR * (rs_next - rs_cur))]).

(** ** Memory table *)

(** memory_table.rs:21-28 *)
Record memory_config := mkMem {
  t_clk : advice_col; t_mp : advice_col; t_mv : advice_col; t_prp : advice_col;
  t_s_m : selector; t_s_prp : selector
}.

(** memory_table.rs:31-82 *)
Definition memory_configure : M memory_config :=
  let one := k1 in
  do clk <- advice_column_in FirstPhase;
  do mp <- advice_column_in FirstPhase;
  do mv <- advice_column_in FirstPhase;
  do prp <- advice_column_in SecondPhase;
  do_ enable_equality (CAdvice prp);
  do s_m <- simple_selector;
  do s_prp <- simple_selector;
  (* M0 *)
  do_ create_gate (
    do cur_mp <- query_advice mp cur;
    do next_mp <- query_advice mp next;
    do s <- query_selector s_m;
    ret [s * (next_mp - cur_mp - one) * (next_mp - cur_mp)]);
  (* M1 *)
  do_ create_gate (
    do cur_mp <- query_advice mp cur;
    do next_mp <- query_advice mp next;
    do cur_mv <- query_advice mv cur;
    do next_mv <- query_advice mv next;
    do cur_clk <- query_advice clk cur;
    do next_clk <- query_advice clk next;
    do s <- query_selector s_m;
    ret [s * (next_mp - cur_mp - one) * (cur_mv - next_mv) * (next_clk - cur_clk - one)]);
  (* M2 *)
  do_ create_gate (
    do cur_mp <- query_advice mp cur;
    do next_mp <- query_advice mp next;
    do next_mv <- query_advice mv next;
    do s <- query_selector s_m;
    ret [s * (next_mp - cur_mp) * next_mv]);
  ret (mkMem clk mp mv prp s_m s_prp).

(** memory_table.rs:84-95 *)
Definition memory_second_phase (t : memory_config) (chs : bf_challenge) : M unit :=
  create_gate (
    do clk <- query_advice (t_clk t) cur;
    do mp <- query_advice (t_mp t) cur;
    do mv <- query_advice (t_mv t) cur;
    do prp_cur <- query_advice (t_prp t) cur;
    do prp_next <- query_advice (t_prp t) next;
    do s <- query_selector (t_s_prp t);
    do (alpha, d, e, f) <- query_mem_prp chs;
    ret [s * (prp_next - prp_cur * (alpha - d * clk - e * mp - f * mv))]).

(** ** Instruction table *)

(** instruction_table.rs:21-31 *)
Record instruction_config := mkInst {
  n_ip : advice_col; n_ci : advice_col; n_ni : advice_col; n_prp : advice_col;
  n_rs : advice_col;
  n_s_prp : selector; n_s_prp_adhoc : selector; n_s_rs : selector; n_s_i : selector
}.

(** instruction_table.rs:34-84 *)
Definition instruction_configure : M instruction_config :=
  let one := k1 in
  do ip <- advice_column_in FirstPhase;
  do ci <- advice_column_in FirstPhase;
  do ni <- advice_column_in FirstPhase;
  do prp <- advice_column_in SecondPhase;
  do rs <- advice_column_in SecondPhase;
  do_ enable_equality (CAdvice prp);
  do_ enable_equality (CAdvice rs);
  do s_prp <- simple_selector;
  do s_rs <- simple_selector;
  do s_prp_adhoc <- simple_selector;
  do s_i <- simple_selector;
  (* I0 *)
  do_ create_gate (
    do cur_ip <- query_advice ip cur;
    do next_ip <- query_advice ip next;
    do s <- query_selector s_i;
    ret [s * (next_ip - cur_ip) * (next_ip - cur_ip - one)]);
  (* I1 *)
  do_ create_gate (
    do cur_ip <- query_advice ip cur;
    do next_ip <- query_advice ip next;
    do cur_ci <- query_advice ci cur;
    do next_ci <- query_advice ci next;
    do s <- query_selector s_i;
    ret [s * (next_ip - cur_ip - one) * (next_ci - cur_ci)]);
  (* I2 *)
  do_ create_gate (
    do cur_ip <- query_advice ip cur;
    do next_ip <- query_advice ip next;
    do cur_ni <- query_advice ni cur;
    do next_ni <- query_advice ni next;
    do s <- query_selector s_i;
    ret [s * (next_ip - cur_ip - one) * (next_ni - cur_ni)]);
  ret (mkInst ip ci ni prp rs s_prp s_prp_adhoc s_rs s_i).

(** instruction_table.rs:86-137 *)
Definition instruction_second_phase (t : instruction_config) (chs : bf_challenge) : M unit :=
  let one := k1 in
  (* code rs: :88-100 *)
  do_ create_gate (
    do ip_cur <- query_advice (n_ip t) cur;
    do ip_next <- query_advice (n_ip t) next;
    do ci <- query_advice (n_ci t) cur;
    do s <- query_selector (n_s_rs t);
    do gamma <- query_challenge (inst_rs_ch chs);
    do rs_cur <- query_advice (n_rs t) cur;
    do rs_next <- query_advice (n_rs t) next;
    ret [s * ((ip_next - ip_cur) * (rs_next - (rs_cur * gamma + ci))
              + (ip_next - ip_cur - one) * (rs_next - rs_cur))]);
  (* prp: :102-117 *)
  do_ create_gate (
    do ip_cur <- query_advice (n_ip t) cur;
    do ip_next <- query_advice (n_ip t) next;
    do ci <- query_advice (n_ci t) cur;
    do ni <- query_advice (n_ni t) cur;
    do prp_next <- query_advice (n_prp t) next;
    do prp_cur <- query_advice (n_prp t) cur;
    do s <- query_selector (n_s_prp t);
    do (alpha, d, e, f) <- query_inst_prp chs;
    ret [s * ((ip_next - ip_cur - one)
                * (prp_next - prp_cur * (alpha - d * ip_cur - e * ci - f * ni))
              + (ip_cur - ip_next) * (prp_cur - prp_next))]);
  (* dummy row: :124-136 *)
  create_gate (
    do ip_prev <- query_advice (n_ip t) prev;
    do ci_prev <- query_advice (n_ci t) prev;
    do ni_prev <- query_advice (n_ni t) prev;
    do prp_prev <- query_advice (n_prp t) prev;
    do prp_cur <- query_advice (n_prp t) cur;
    do s <- query_selector (n_s_prp_adhoc t);
    do (alpha, d, e, f) <- query_inst_prp chs;
    ret [s * (prp_cur - prp_prev * (alpha - d * ip_prev - e * ci_prev - f * ni_prev))]).

(** ** Output, input and program tables *)

(** output_table.rs:21-25 *)
Record output_config := mkOut { o_val : advice_col; o_rs : advice_col; o_s_rs : selector }.
(** output_table.rs:28-34 *)
Definition output_configure : M output_config :=
  do val <- advice_column_in FirstPhase;
  do rs <- advice_column_in SecondPhase;
  do_ enable_equality (CAdvice rs);
  do s_rs <- simple_selector;
  ret (mkOut val rs s_rs).
(** output_table.rs:36-45 *)
Definition output_second_phase (t : output_config) (chs : bf_challenge) : M unit :=
  create_gate (
    do val <- query_advice (o_val t) cur;
    do rs_cur <- query_advice (o_rs t) cur;
    do rs_next <- query_advice (o_rs t) next;
    do gamma <- query_challenge (output_rs_ch chs);
    do s <- query_selector (o_s_rs t);
    ret [s * (rs_next - (rs_cur * gamma + val))]).

(** input_table.rs:21-26 *)
Record input_config :=
  mkInp { u_val : advice_col; u_len : advice_col; u_rs : advice_col; u_s_rs : selector }.
(** input_table.rs:29-43 *)
Definition input_configure : M input_config :=
  do val <- advice_column_in FirstPhase;
  do input_len <- advice_column_in FirstPhase;
  do rs <- advice_column_in SecondPhase;
  do_ enable_equality (CAdvice val);
  do_ enable_equality (CAdvice rs);
  do_ enable_equality (CAdvice input_len);
  do s_rs <- simple_selector;
  ret (mkInp val input_len rs s_rs).
(** input_table.rs:45-54 *)
Definition input_second_phase (t : input_config) (chs : bf_challenge) : M unit :=
  create_gate (
    do val <- query_advice (u_val t) cur;
    do rs_cur <- query_advice (u_rs t) cur;
    do rs_next <- query_advice (u_rs t) next;
    do gamma <- query_challenge (input_rs_ch chs);
    do s <- query_selector (u_s_rs t);
    ret [s * (rs_next - (rs_cur * gamma + val))]).

(** program_table.rs:21-27 *)
Record program_config :=
  mkProg { g_len : advice_col; g_code : advice_col; g_rs : advice_col; g_s_rs : selector }.
(** program_table.rs:30-44 *)
Definition program_configure : M program_config :=
  do code <- advice_column_in FirstPhase;
  do program_len <- advice_column_in FirstPhase;
  do code_rs <- advice_column_in SecondPhase;
  do s_rs <- simple_selector;
  do_ enable_equality (CAdvice program_len);
  do_ enable_equality (CAdvice code);
  do_ enable_equality (CAdvice code_rs);
  ret (mkProg program_len code code_rs s_rs).
(** program_table.rs:45-54 *)
Definition program_second_phase (t : program_config) (chs : bf_challenge) : M unit :=
  create_gate (
    do code <- query_advice (g_code t) cur;
    do gamma <- query_challenge (inst_rs_ch chs);
    do s <- query_selector (g_s_rs t);
    do rs_cur <- query_advice (g_rs t) cur;
    do rs_next <- query_advice (g_rs t) next;
    ret [s * (rs_next - (rs_cur * gamma + code))]).

(** ** The whole circuit: main_config.rs:21-69 *)
Record main_config := mkMain {
  p_config : processor_config;
  m_config : memory_config;
  i_config : instruction_config;
  out_config : output_config;
  in_config : input_config;
  prog_config : program_config;
  code_inst : nat;
  input_inst : nat;
  challenges : bf_challenge
}.

(** main_config.rs:36-69 *)
Definition main_configure (RANGE : Z) : M main_config :=
  do code <- instance_column;
  do_ enable_equality (CInstance code);
  do input <- instance_column;
  do_ enable_equality (CInstance input);
  do p <- processor_configure RANGE;
  do m <- memory_configure;
  do i <- instruction_configure;
  do o <- output_configure;
  do u <- input_configure;
  do g <- program_configure;
  do chs <- challenge_init;
  do_ memory_second_phase m chs;
  do_ processor_second_phase p chs;
  do_ instruction_second_phase i chs;
  do_ output_second_phase o chs;
  do_ input_second_phase u chs;
  do_ program_second_phase g chs;
  ret (mkMain p m i o u g code input chs).

(** ** Loading the tables.  Each loop is a structural recursion over the rows,
    [idx] the enumeration index; [prev] values are the ones last assigned. *)

Definition get_chv (ve : venv) (c : challenge) : value := ve_challenge ve (ch_index c).

(** alpha - d*x - e*y - f*z *)
Definition prp_factor (alpha d e f x y z : value) : value :=
  vsub (vsub (vsub alpha (vmul d x)) (vmul e y)) (vmul f z).

(** processor_table.rs:337-377.  [len] is processor_matrix.len(). *)
Fixpoint processor_loop (p : processor_config) (chs : bf_challenge) (ve : venv) (len : nat)
    (rows : list register) (idx : nat) (mem_prp inst_prp output_rs input_rs : value)
    : res (list rop) :=
  match rows with
  | [] => Ok []
  | reg :: rest =>
      let c i := get_chv ve (get_ch chs i) in
      let clk := known (cycle reg) in
      let ip := known (instruction_pointer reg) in
      let ci := known (current_instruction reg) in
      let ni := known (next_instruction reg) in
      let mp := known (memory_pointer reg) in
      let mv := known (memory_value reg) in
      let mem_prp := vmul mem_prp (prp_factor (c 0) (c 1) (c 2) (c 3) clk mp mv) in
      let inst_prp := vmul inst_prp (prp_factor (c 4) (c 5) (c 6) (c 7) ip ci ni) in
      let output_rs :=
        if feqb (current_instruction reg) (FrZ PUTCHAR)
        then vadd (vmul output_rs (get_chv ve (output_rs_ch chs))) mv
        else output_rs in
      let! input_rs :=
        if feqb (current_instruction reg) (FrZ GETCHAR) then
          match rest with
          | [] => Panic  (* "This cannot fail for a valid trace record" *)
          | nxt :: _ =>
              Ok (vadd (vmul input_rs (get_chv ve (input_rs_ch chs))) (known (memory_value nxt)))
          end
        else Ok input_rs in
      let! more := processor_loop p chs ve len rest (S idx) mem_prp inst_prp output_rs input_rs in
      Ok ((if S idx <? len then [REnable (p_s_p p) idx; REnable (p_s_rs p) idx] else [])
          ++ [REnable (p_s_c p) idx; REnable (p_s_lookup p) idx; REnable (p_s_prp p) idx;
              RAdvice (p_clk p) idx clk; RAdvice (p_ip p) idx ip; RAdvice (p_ci p) idx ci;
              RAdvice (p_ni p) idx ni; RAdvice (p_mp p) idx mp; RAdvice (p_mv p) idx mv;
              RAdvice (p_mvi p) idx (known (memory_value_inverse reg));
              RAdvice (p_mem_prp p) (S idx) mem_prp; RAdvice (p_inst_prp p) (S idx) inst_prp;
              RAdvice (p_output_rs p) (S idx) output_rs; RAdvice (p_input_rs p) (S idx) input_rs]
          ++ more)
  end.

(** processor_table.rs:303-381: the region's operations; the returned cells are
    the accumulators' last ones, at offset processor_matrix.len(). *)
Definition processor_region (p : processor_config) (chs : bf_challenge) (ve : venv)
    (rows : list register) : res (list rop) :=
  let! body := processor_loop p chs ve (length rows) rows 0
                 (known (mem_prp_init chs)) (known (inst_prp_init chs)) (known f0) (known f0) in
  Ok ([RAdvice (p_mem_prp p) 0 (known (mem_prp_init chs));
       RAdvice (p_inst_prp p) 0 (known (inst_prp_init chs));
       RAdvice (p_output_rs p) 0 (known f0);
       RAdvice (p_input_rs p) 0 (known f0);
       REnable (p_s_b p) 0] ++ body).

(** range_table.rs:23-36: the table's values *)
Definition range_values (RANGE : Z) : list value :=
  map (fun i => known (FrZ (Z.of_nat i))) (seq 0 (Z.to_nat RANGE)).

(** memory_table.rs:112-123 *)
Fixpoint memory_loop (t : memory_config) (chs : bf_challenge) (ve : venv) (len : nat)
    (rows : list mrow) (idx : nat) (prp : value) : list rop :=
  match rows with
  | [] => []
  | row :: rest =>
      let c i := get_chv ve (get_ch chs i) in
      let clk := known (m_clk row) in
      let mp := known (m_mp row) in
      let mv := known (m_mv row) in
      let prp := vmul prp (prp_factor (c 0) (c 1) (c 2) (c 3) clk mp mv) in
      (if S idx <? len then [REnable (t_s_m t) idx] else [])
      ++ [REnable (t_s_prp t) idx; RAdvice (t_clk t) idx clk; RAdvice (t_mp t) idx mp;
          RAdvice (t_mv t) idx mv; RAdvice (t_prp t) (S idx) prp]
      ++ memory_loop t chs ve len rest (S idx) prp
  end.
(** memory_table.rs:97-127 *)
Definition memory_region (t : memory_config) (chs : bf_challenge) (ve : venv)
    (rows : list mrow) : list rop :=
  RAdvice (t_prp t) 0 (known (mem_prp_init chs))
  :: memory_loop t chs ve (length rows) rows 0 (known (mem_prp_init chs)).

(** instruction_table.rs:155-185 *)
Fixpoint instruction_loop (t : instruction_config) (chs : bf_challenge) (ve : venv) (len : nat)
    (rows : list irow) (idx : nat) (prp rs : value) : list rop :=
  match rows with
  | [] => []
  | row :: rest =>
      let c i := get_chv ve (get_ch chs i) in
      let ci := known (i_ci row) in
      let ni := known (i_ni row) in
      let ip_cur := i_ip row in
      let ip_next := match rest with [] => i_ip row | nxt :: _ => i_ip nxt end in
      let prp := if feqb ip_next ip_cur
                 then vmul prp (prp_factor (c 4) (c 5) (c 6) (c 7) (known ip_cur) ci ni)
                 else prp in
      let rs := if negb (feqb ip_next ip_cur)
                then vadd (vmul (get_chv ve (inst_rs_ch chs)) rs) ci
                else rs in
      (if S idx <? len
       then [REnable (n_s_i t) idx; REnable (n_s_prp t) idx; REnable (n_s_rs t) idx] else [])
      ++ [RAdvice (n_ip t) idx (known ip_cur); RAdvice (n_ci t) idx ci; RAdvice (n_ni t) idx ni;
          RAdvice (n_prp t) (S idx) prp; RAdvice (n_rs t) (S idx) rs]
      ++ instruction_loop t chs ve len rest (S idx) prp rs
  end.
(** instruction_table.rs:139-189 *)
Definition instruction_region (t : instruction_config) (chs : bf_challenge) (ve : venv)
    (rows : list irow) : list rop :=
  [RAdvice (n_prp t) 0 (known (inst_prp_init chs)); RAdvice (n_rs t) 0 (known f0);
   REnable (n_s_prp_adhoc t) (length rows)]
  ++ instruction_loop t chs ve (length rows) rows 0 (known (inst_prp_init chs)) (known f0).

(** output_table.rs:60-65 *)
Fixpoint output_loop (t : output_config) (gamma : value) (vals : list Fr) (idx : nat)
    (rs : value) : list rop :=
  match vals with
  | [] => []
  | v :: rest =>
      let rs := vadd (vmul gamma rs) (known v) in
      [REnable (o_s_rs t) idx; RAdvice (o_val t) idx (known v); RAdvice (o_rs t) (S idx) rs]
      ++ output_loop t gamma rest (S idx) rs
  end.
(** output_table.rs:47-69 *)
Definition output_region (t : output_config) (chs : bf_challenge) (ve : venv)
    (vals : list Fr) : list rop :=
  RAdvice (o_rs t) 0 (known f0)
  :: output_loop t (get_chv ve (output_rs_ch chs)) vals 0 (known f0).

(** input_table.rs:75-82 and program_table.rs:80-86: copy [len] instance cells
    from row 1 on. *)
Fixpoint copy_loop (s_rs : selector) (val rs_col : advice_col) (ic : nat) (ve : venv)
    (gamma : value) (len idx : nat) (rs : value) : list rop :=
  match len with
  | O => []
  | S len =>
      let x := ve_instance ve ic (S idx) in
      let rs := vadd (vmul gamma rs) x in
      [REnable s_rs idx; RInstance ic (S idx) val idx x; RAdvice rs_col (S idx) rs]
      ++ copy_loop s_rs val rs_col ic ve gamma len (S idx) rs
  end.
(** input_table.rs:56-86 *)
Definition input_region (t : input_config) (ic : nat) (chs : bf_challenge) (ve : venv)
    (len : nat) : list rop :=
  [RAdvice (u_rs t) 0 (known f0); RAdvice (u_len t) 0 (known (FrZ (Z.of_nat len)))]
  ++ copy_loop (u_s_rs t) (u_val t) (u_rs t) ic ve (get_chv ve (input_rs_ch chs)) len 0 (known f0).
(** program_table.rs:56-90 *)
Definition program_region (t : program_config) (ic : nat) (chs : bf_challenge) (ve : venv)
    (len : nat) : list rop :=
  [RAdvice (g_len t) 0 (known (FrZ (Z.of_nat len))); RAdvice (g_rs t) 0 (known f0)]
  ++ copy_loop (g_s_rs t) (g_code t) (g_rs t) ic ve (get_chv ve (inst_rs_ch chs)) len 0 (known f0).

(** main_config.rs:71-93 *)
Definition load_table (RANGE : Z) (c : main_config) (m : matrix) (ve : venv) (l : lay) : eres lay :=
  let chs := challenges c in
  let p := p_config c in
  elet l := assign_table (p_table p) (range_values RANGE) l in
  match processor_region p chs ve (processor_matrix m) with
  | Panic => EPanic
  | Ok ops =>
      let np := length (processor_matrix m) in
      let pc col := Cell (next_region l) np (CAdvice col) in
      let processor_mem_prp := pc (p_mem_prp p) in
      let processor_output_rs := pc (p_output_rs p) in
      let processor_input_rs := pc (p_input_rs p) in
      let processor_inst_prp := pc (p_inst_prp p) in
      let l := assign_region ops l in
      let memory_prp :=
        Cell (next_region l) (length (memory_matrix m)) (CAdvice (t_prp (m_config c))) in
      let l := assign_region (memory_region (m_config c) chs ve (memory_matrix m)) l in
      let ni := length (instruction_matrix m) in
      let inst_code_rs := Cell (next_region l) ni (CAdvice (n_rs (i_config c))) in
      let inst_prp := Cell (next_region l) ni (CAdvice (n_prp (i_config c))) in
      let l := assign_region (instruction_region (i_config c) chs ve (instruction_matrix m)) l in
      let output_rs :=
        Cell (next_region l) (length (output_matrix m)) (CAdvice (o_rs (out_config c))) in
      let l := assign_region (output_region (out_config c) chs ve (output_matrix m)) l in
      let nin := length (input_matrix m) in
      let input_len := Cell (next_region l) 0 (CAdvice (u_len (in_config c))) in
      let input_rs := Cell (next_region l) nin (CAdvice (u_rs (in_config c))) in
      let l := assign_region (input_region (in_config c) (input_inst c) chs ve nin) l in
      let ng := length (program m) in
      let code_len := Cell (next_region l) 0 (CAdvice (g_len (prog_config c))) in
      let code_rs := Cell (next_region l) ng (CAdvice (g_rs (prog_config c))) in
      let l := assign_region (program_region (prog_config c) (code_inst c) chs ve ng) l in
      let l := constrain_instance code_len (code_inst c) 0 l in
      let l := constrain_instance input_len (input_inst c) 0 l in
      EOk (assign_region [REqual processor_mem_prp memory_prp;
                          REqual output_rs processor_output_rs;
                          REqual input_rs processor_input_rs;
                          REqual processor_inst_prp inst_prp;
                          REqual code_rs inst_code_rs] l)
  end.

(** [MyCircuit::configure] on a fresh constraint system (main_config.rs:121-123,
    plonk/keygen.rs:40-41), with the RANGE every caller uses. *)
Definition bf_configure : res (main_config * cs) := main_configure DOMAIN cs_default.

(** [MyCircuit::synthesize] (main_config.rs:125-128): the calls made on the back
    end, for a matrix and the values visible to the synthesis. *)
Definition synthesize (c : main_config) (m : matrix) (ve : venv) : eres (list aop) :=
  elet l := load_table DOMAIN c m ve lay_new in EOk (lay_ops l).

(** Key generation for a matrix at size [n] (ckb_bf_prover/src/main.rs:46-48,
    plonk/keygen.rs:205-235): challenges and instances are unknown. *)
Definition unknown_env : venv := VEnv (fun _ => None) (fun _ _ => None).
Definition bf_keygen (n : nat) (m : matrix) : eres (main_config * cs * assembly) :=
  match bf_configure with
  | Panic => EPanic
  | Ok (c, s) =>
      elet ops := synthesize c m unknown_env in
      elet a := keygen s n ops in
      EOk (c, s, a)
  end.

(** Witness generation (plonk/prover.rs:78-131, 283-420): the instance columns
    must fit, then one synthesis per phase; in phase 0 no challenge is known
    yet, afterwards all of them are (they all have phase FirstPhase). *)
Definition prover_env (phase : nat) (insts : list (list Fr)) (ch : nat -> Fr) : venv :=
  VEnv (fun i => if phase =? 0 then None else Some (ch i))
       (fun ic row => match nth_error insts ic with Some l => nth_error l row | None => None end).
Definition bf_witness (n : nat) (m : matrix) (insts : list (list Fr)) (ch : nat -> Fr)
    : eres (nat -> nat -> Fr) :=
  match bf_configure with
  | Panic => EPanic
  | Ok (c, s) =>
      if existsb (fun l => usable_rows n s <? length l) insts then EErr InstanceTooLarge
      else
        elet ops0 := synthesize c m (prover_env 0 insts ch) in
        elet w0 := witness_phase s n 0 insts ops0 in
        elet ops1 := synthesize c m (prover_env 1 insts ch) in
        elet w1 := witness_phase s n 1 insts ops1 in
        EOk (fun col row => if nth col (advice_phases s) 0 =? 0 then w0 col row else w1 col row)
  end.

(** ckb_bf_prover/src/main.rs:24-27, 133-150: the two instance columns. *)
Definition public_inputs (code : list Fr) (raw_input : list Z) : list (list Fr) :=
  [FrZ (lenZ code) :: code; FrZ (lenZ raw_input) :: map FrZ raw_input].

(** ckb_bf_prover/src/main.rs:150-154: the circuit size exponent chosen for an
    instruction table of [len] rows: the exponent of the next power of two, at
    least 9 ([Z.log2_up 0 = Z.log2_up 1 = 0] as in the Rust code; lengths are far
    below 2^63).  A circuit of exponent k has 2^k rows (poly/kzg/commitment.rs:80). *)
Definition prover_k (len : Z) : Z := Z.max (Z.log2_up len) 9.
Definition circuit_rows (k : Z) : nat := Z.to_nat (2 ^ k).
