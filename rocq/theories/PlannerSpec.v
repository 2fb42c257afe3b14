(** What a floor planner has to guarantee. *)
From Coq Require Import List Arith.
From Verif Require Import Field Halo2Model.
Import ListNotations.

(** A region claims a column if one of its operations touches it, and reaches
    offset [i] if one of its operations touches some column at [i]. *)
Definition claims (ops : list rop) (c : rcol) : Prop :=
  exists o i, In o ops /\ rop_touch o = Some (c, i).
Definition reaches (ops : list rop) (i : nat) : Prop :=
  exists o c, In o ops /\ rop_touch o = Some (c, i).
(** The rows of a claimed column from the region's start to the furthest row it
    reaches belong to the region. *)
Definition occupies (start : nat) (ops : list rop) (c : rcol) (row : nat) : Prop :=
  claims ops c /\ exists i, reaches ops i /\ start <= row <= start + i.

(** The layouts obtained by some calls of the layouter, with the regions they
    assigned, in order. *)
Inductive planned : list (list rop) -> lay -> Prop :=
| pl_new : planned [] lay_new
| pl_region regions l ops : planned regions l -> planned (regions ++ [ops]) (assign_region ops l)
| pl_instance regions l c ic row : planned regions l -> planned regions (constrain_instance c ic row l)
| pl_table regions l l' col vals : planned regions l -> assign_table col vals l = EOk l' -> planned regions l'.
