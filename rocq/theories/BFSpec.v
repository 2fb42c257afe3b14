(** What Brainfuck programs mean.  Specification only: written from the
    language definition, independently of the compiler and interpreter models.

    A source is a byte string; the eight characters > < + - . , [ ] are
    instructions, every other byte is a comment; brackets must balance.  The
    tape has cells 0, 1, 2, ... all initially zero, holding integers modulo
    2^w; '.' appends the current cell to the output and ',' moves the next input
    value to the current cell.  Moving left of cell 0, reading with no input
    left, and moving right of cell [tape_cells - 1] are errors.  (A tape of
    2^57 cells is what a Rust vector of 32-byte elements can hold.) *)
From Coq Require Import ZArith List.
Import ListNotations.
Local Open Scope Z_scope.

Inductive instr :=
  | Right | Left | Inc | Dec | Out | In
  | Loop (body : list instr).

(** Character codes, ASCII. *)
Definition chr_right : Z := 62.   (* > *)
Definition chr_left : Z := 60.    (* < *)
Definition chr_inc : Z := 43.     (* + *)
Definition chr_dec : Z := 45.     (* - *)
Definition chr_out : Z := 46.     (* . *)
Definition chr_in : Z := 44.      (* , *)
Definition chr_open : Z := 91.    (* [ *)
Definition chr_close : Z := 93.   (* ] *)

Definition instr_chars : list Z :=
  [chr_right; chr_left; chr_inc; chr_dec; chr_out; chr_in; chr_open; chr_close].

(** [parses src p]: the source text [src] is the program [p]. *)
Inductive parses : list Z -> list instr -> Prop :=
  | P_nil : parses [] []
  | P_comment c s p : ~ List.In c instr_chars -> parses s p -> parses (c :: s) p
  | P_right s p : parses s p -> parses (chr_right :: s) (Right :: p)
  | P_left s p : parses s p -> parses (chr_left :: s) (Left :: p)
  | P_inc s p : parses s p -> parses (chr_inc :: s) (Inc :: p)
  | P_dec s p : parses s p -> parses (chr_dec :: s) (Dec :: p)
  | P_out s p : parses s p -> parses (chr_out :: s) (Out :: p)
  | P_in s p : parses s p -> parses (chr_in :: s) (In :: p)
  | P_loop b body s p : parses b body -> parses s p ->
      parses (chr_open :: b ++ chr_close :: s) (Loop body :: p).

(** Machine configuration: tape contents, position, remaining input, values read
    so far and values written so far (oldest first). *)
Record config := Config {
  tape : Z -> Z;
  pos : Z;
  unread : list Z;
  read : list Z;
  written : list Z
}.

Definition initial (inp : list Z) : config := Config (fun _ => 0) 0 inp [] [].

Definition cell (c : config) : Z := tape c (pos c).
Definition set_cell (c : config) (v : Z) : config :=
  Config (fun i => if i =? pos c then v else tape c i) (pos c) (unread c) (read c) (written c).
Definition move (c : config) (d : Z) : config :=
  Config (tape c) (pos c + d) (unread c) (read c) (written c).
Definition emit_cell (c : config) : config :=
  Config (tape c) (pos c) (unread c) (read c) (written c ++ [cell c]).
Definition take_input (c : config) (v : Z) (rest : list Z) : config :=
  set_cell (Config (tape c) (pos c) rest (read c ++ [v]) (written c)) v.

Inductive outcome := Done (c : config) | Failed.

Definition tape_cells : Z := 2 ^ 57.

(** Big-step semantics with cell width [w]. *)
Inductive exec (w : Z) : list instr -> config -> outcome -> Prop :=
  | E_nil c : exec w [] c (Done c)
  | E_right p c o : pos c + 1 < tape_cells -> exec w p (move c 1) o -> exec w (Right :: p) c o
  | E_right_fail p c : ~ pos c + 1 < tape_cells -> exec w (Right :: p) c Failed
  | E_left p c o : 0 < pos c -> exec w p (move c (-1)) o -> exec w (Left :: p) c o
  | E_left_fail p c : ~ 0 < pos c -> exec w (Left :: p) c Failed
  | E_inc p c o : exec w p (set_cell c ((cell c + 1) mod 2 ^ w)) o -> exec w (Inc :: p) c o
  | E_dec p c o : exec w p (set_cell c ((cell c - 1) mod 2 ^ w)) o -> exec w (Dec :: p) c o
  | E_out p c o : exec w p (emit_cell c) o -> exec w (Out :: p) c o
  | E_in p c v rest o : unread c = v :: rest ->
      exec w p (take_input c v rest) o -> exec w (In :: p) c o
  | E_in_fail p c : unread c = [] -> exec w (In :: p) c Failed
  | E_loop_exit b p c o : cell c = 0 -> exec w p c o -> exec w (Loop b :: p) c o
  | E_loop_iter b p c c' o : cell c <> 0 -> exec w b c (Done c') ->
      exec w (Loop b :: p) c' o -> exec w (Loop b :: p) c o
  | E_loop_fail b p c : cell c <> 0 -> exec w b c Failed -> exec w (Loop b :: p) c Failed.

(** Size of a program in the word encoding: one word per instruction, two per
    bracket. *)
Fixpoint words (i : instr) : Z :=
  match i with
  | Loop b => 4 + fold_right (fun j acc => words j + acc) 0 b
  | _ => 1
  end.
Definition program_words (p : list instr) : Z := fold_right (fun j acc => words j + acc) 0 p.

(** Values that fit a cell. *)
Definition in_range (w : Z) (l : list Z) : Prop := Forall (fun v => 0 <= v < 2 ^ w) l.
