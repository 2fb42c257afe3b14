(** Shared vocabulary of the models. *)
From Coq Require Import ZArith List Bool.
Import ListNotations.
Local Open Scope Z_scope.

(** Result of a Rust computation that may panic.  [Panic] stands for any Rust
    panic (failed unwrap, index out of bounds, unreachable!, arithmetic
    overflow with checks on, capacity overflow). *)
Inductive res (A : Type) : Type := Ok (a : A) | Panic.
Arguments Ok {A} _.
Arguments Panic {A}.

Definition bind {A B} (x : res A) (f : A -> res B) : res B :=
  match x with Ok a => f a | Panic => Panic end.
Notation "'let!' x ':=' e 'in' k" := (bind e (fun x => k))
  (at level 200, x pattern, e at level 100, k at level 200, right associativity).

Definition lenZ {A} (l : list A) : Z := Z.of_nat (length l).

(** [v[i]] on a Vec/slice: panics when out of bounds. *)
Definition index {A} (l : list A) (i : Z) : res A :=
  if (0 <=? i) && (i <? lenZ l) then
    match nth_error l (Z.to_nat i) with Some x => Ok x | None => Panic end
  else Panic.

Fixpoint upd {A} (l : list A) (i : nat) (x : A) : list A :=
  match l, i with
  | [], _ => []
  | _ :: t, O => x :: t
  | h :: t, S j => h :: upd t j x
  end.

(** [v[i] = x]: panics when out of bounds. *)
Definition store {A} (l : list A) (i : Z) (x : A) : res (list A) :=
  if (0 <=? i) && (i <? lenZ l) then Ok (upd l (Z.to_nat i) x) else Panic.

(** Arithmetic overflow behaviour: [Checked] is the debug profile (overflow
    panics; `cargo test`), [Wrapping] the release profile (overflow wraps;
    `cargo run --release`, Makefile:1-3). *)
Inductive profile := Checked | Wrapping.

Definition overflow (pr : profile) (bits : Z) (x : Z) : res Z :=
  if (0 <=? x) && (x <? 2 ^ bits) then Ok x
  else match pr with Checked => Panic | Wrapping => Ok (x mod 2 ^ bits) end.
