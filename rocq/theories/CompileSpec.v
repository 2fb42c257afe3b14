(** What a correct compilation of a Brainfuck source looks like.  Specification
    only, independent of the compiler model. *)
From Coq Require Import ZArith List Bool.
From Verif Require Import BFSpec.
Import ListNotations.
Local Open Scope Z_scope.

(** The instructions of a source: its instruction characters, in order. *)
Definition is_instr (c : Z) : bool := existsb (Z.eqb c) instr_chars.
Definition ops (src : list Z) : list Z := filter is_instr src.

(** Bracket depth: opening minus closing brackets. *)
Definition step_depth (c : Z) : Z :=
  if c =? chr_open then 1 else if c =? chr_close then -1 else 0.
Definition depth (l : list Z) : Z := fold_right (fun c d => step_depth c + d) 0 l.

(** Balanced: as many opening as closing brackets, and no prefix closes more
    than it opened. *)
Definition balanced (l : list Z) : Prop :=
  depth l = 0 /\ forall n, 0 <= depth (firstn n l).

(** Word layout: one word per instruction, two per bracket. *)
Definition width (c : Z) : Z := if (c =? chr_open) || (c =? chr_close) then 2 else 1.
Definition layout (l : list Z) : Z := fold_right (fun c n => width c + n) 0 l.
(** Address of the i-th instruction. *)
Definition addr (l : list Z) (i : nat) : Z := layout (firstn i l).
(** Number of words of a source. *)
Definition word_count (src : list Z) : Z := layout (ops src).

(** The brackets at positions i < j match: what is between them is balanced. *)
Definition matching (l : list Z) (i j : nat) : Prop :=
  (i < j)%nat /\ nth_error l i = Some chr_open /\ nth_error l j = Some chr_close /\
  balanced (firstn (j - S i) (skipn (S i) l)).

Definition word (ws : list Z) (a : Z) : option Z :=
  if a <? 0 then None else nth_error ws (Z.to_nat a).

(** [ws] is a right compilation of [src]. *)
Definition compiled_right (src ws : list Z) : Prop :=
  let l := ops src in
  Z.of_nat (length ws) = word_count src /\
  (forall i c, nth_error l i = Some c -> word ws (addr l i) = Some c) /\
  (forall i j, matching l i j ->
     word ws (addr l i + 1) = Some (addr l j + 2) /\
     word ws (addr l j + 1) = Some (addr l i + 2)).
