(** Sums and products the circuit's accumulator columns should hold.
    Specification only. *)
From Coq Require Import ZArith List.
From Verif Require Import Field.
Import ListNotations.
Local Open Scope F_scope.

Fixpoint fpow (x : Fr) (k : nat) : Fr := match k with O => f1 | S k => x * fpow x k end.

(** v_0 g^(n-1) + v_1 g^(n-2) + ... + v_(n-1). *)
Fixpoint power_sum (g : Fr) (l : list Fr) : Fr :=
  match l with [] => f0 | v :: l => v * fpow g (length l) + power_sum g l end.

(** A column [rs] holds the running sums of [l] with challenge [g]. *)
Definition running_sum (g : Fr) (l : list Fr) (rs : nat -> Fr) : Prop :=
  forall i v, nth_error l i = Some v -> rs (S i) = g * rs i + v.

(** A table row and its factor. *)
Definition trip : Type := (Fr * Fr * Fr)%type.
Definition factor (al a b c : Fr) (t : trip) : Fr := let '(x, y, z) := t in al - a * x - b * y - c * z.
Definition row_product (al a b c : Fr) (l : list trip) : Fr :=
  fold_right (fun t s => factor al a b c t * s) f1 l.
(** A column [prp] holds the running products of the rows [l]. *)
Definition running_product (al a b c : Fr) (l : list trip) (prp : nat -> Fr) : Prop :=
  forall i t, nth_error l i = Some t -> prp (S i) = prp i * factor al a b c t.

(** The first [k] entries of column [col], and of three columns side by side. *)
Definition entries (A : nat -> nat -> Fr) (col k : nat) : list Fr := map (A col) (seq 0 k).
Definition triples (A : nat -> nat -> Fr) (a b c k : nat) : list trip :=
  map (fun r => (A a r, A b r, A c r)) (seq 0 k).
