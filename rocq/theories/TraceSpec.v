(** What an execution trace of a word program is.  Specification only: steps are
    defined on integers and the Brainfuck configurations of BFSpec, and rows are
    compared with them field by field. *)
From Coq Require Import ZArith List.
From Verif Require Import Field BFSpec CompileSpec VMModel.
Import ListNotations.
Local Open Scope Z_scope.

(** One instruction of the word program [W] with cells of width [w]: from
    instruction pointer and configuration to the next ones. *)
Inductive vstep (W : list Z) (w : Z) : Z -> config -> Z -> config -> Prop :=
  | V_right ip c : word W ip = Some chr_right -> vstep W w ip c (ip + 1) (move c 1)
  | V_left ip c : word W ip = Some chr_left -> 0 < pos c -> vstep W w ip c (ip + 1) (move c (-1))
  | V_inc ip c : word W ip = Some chr_inc ->
      vstep W w ip c (ip + 1) (set_cell c ((cell c + 1) mod 2 ^ w))
  | V_dec ip c : word W ip = Some chr_dec ->
      vstep W w ip c (ip + 1) (set_cell c ((cell c - 1) mod 2 ^ w))
  | V_out ip c : word W ip = Some chr_out -> vstep W w ip c (ip + 1) (emit_cell c)
  | V_in ip c v rest : word W ip = Some chr_in -> unread c = v :: rest ->
      vstep W w ip c (ip + 1) (take_input c v rest)
  | V_open_enter ip c : word W ip = Some chr_open -> cell c <> 0 -> vstep W w ip c (ip + 2) c
  | V_open_skip ip c d : word W ip = Some chr_open -> cell c = 0 -> word W (ip + 1) = Some d ->
      vstep W w ip c d c
  | V_close_leave ip c : word W ip = Some chr_close -> cell c = 0 -> vstep W w ip c (ip + 2) c
  | V_close_again ip c d : word W ip = Some chr_close -> cell c <> 0 -> word W (ip + 1) = Some d ->
      vstep W w ip c d c.

(** The program word at an address, 0 past the end. *)
Definition word_or_0 (W : list Z) (a : Z) : Z :=
  match word W a with Some x => x | None => 0 end.

(** The inverse column. *)
Definition inverse_of (v vi : Fr) : Prop := (v = f0 -> vi = f0) /\ (v <> f0 -> fmul v vi = f1).

(** Row number [i] of a trace shows instruction pointer [ip] and configuration [c]. *)
Definition row_shows (W : list Z) (i : nat) (ip : Z) (c : config) (r : register) : Prop :=
  cycle r = FrZ (Z.of_nat i) /\
  instruction_pointer r = FrZ ip /\
  current_instruction r = FrZ (word_or_0 W ip) /\
  next_instruction r = FrZ (word_or_0 W (ip + 1)) /\
  memory_pointer r = FrZ (pos c) /\
  memory_value r = FrZ (cell c) /\
  inverse_of (memory_value r) (memory_value_inverse r).

(** [trace W w i ip c rows ip' c']: the rows, numbered from [i], show the states
    of an execution from (ip, c) up to but excluding (ip', c'). *)
Inductive trace (W : list Z) (w : Z) : nat -> Z -> config -> list register -> Z -> config -> Prop :=
  | T_nil i ip c : trace W w i ip c [] ip c
  | T_cons i ip c r ip1 c1 rows ip2 c2 :
      row_shows W i ip c r -> vstep W w ip c ip1 c1 -> trace W w (S i) ip1 c1 rows ip2 c2 ->
      trace W w i ip c (r :: rows) ip2 c2.
