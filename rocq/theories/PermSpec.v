(** What a set of declared equalities means, and what it is for a permutation
    of cells to express them. *)
From Coq Require Import List.
From Verif Require Import Halo2Model PermModel.
Import ListNotations.

(** A cell is a column and a row. *)
Definition acell := (column * nat)%type.
Definition on_table (n : nat) (cols : list column) (x : acell) : Prop :=
  In (fst x) cols /\ snd x < n.

(** The least equivalence relation containing the declared pairs. *)
Inductive linked {A} (E : list (A * A)) : A -> A -> Prop :=
| linked_declared x y : In (x, y) E -> linked E x y
| linked_refl x : linked E x x
| linked_sym x y : linked E x y -> linked E y x
| linked_trans x y z : linked E x y -> linked E y z -> linked E x z.

(** [y] is met when [f] is applied again and again from [x]. *)
Definition on_cycle {A} (f : A -> A) (x y : A) : Prop := exists k, Nat.iter k f x = y.

(** [f] permutes the set [D]. *)
Definition permutes {A} (D : A -> Prop) (f : A -> A) : Prop :=
  (forall x, D x -> D (f x)) /\
  (forall x y, D x -> D y -> f x = f y -> x = y) /\
  (forall y, D y -> exists x, D x /\ f x = y).

(** The image of a cell according to the table key generation built: the entry
    at the column's position and the row, read back as a column and a row. *)
Definition image (p : perm) (x : acell) : option acell :=
  match position (column_eqb (fst x)) (pm_columns p) with
  | None => None
  | Some i =>
      match get2 (pm_mapping p) (i, snd x) with
      | None => None
      | Some (i', j') =>
          match nth_error (pm_columns p) i' with Some c => Some (c, j') | None => None end
      end
  end.

(** [p] expresses exactly the equalities [E] on the table. *)
Definition expresses (n : nat) (cols : list column) (E : list (acell * acell)) (p : perm) : Prop :=
  exists sigma : acell -> acell,
    (forall x, on_table n cols x -> image p x = Some (sigma x)) /\
    permutes (on_table n cols) sigma /\
    (forall x y, on_table n cols x -> on_table n cols y ->
       (on_cycle sigma x y <-> linked E x y)) /\
    (forall (V : Type) (v : acell -> V),
       (forall x, on_table n cols x -> v (sigma x) = v x) <->
       (forall x y, In (x, y) E -> v x = v y)).
