(** What the opening argument is given. *)
From Coq Require Import List.
From Verif Require Import Base Moduli Field ArithSpec ShplonkModel.
Import ListNotations.

(** The check the pairing has to perform: e(l, s g2) = e(r, g2) exactly when r = s l. *)
Definition is_pairing {G G2 : Type} (scale : Fr -> G -> G) (scale2 : Fr -> G2 -> G2) (gen2 : G2)
    (check : G -> G2 -> G -> G2 -> bool) : Prop :=
  forall s l r, check l (scale2 s gen2) r gen2 = true <-> scale s l = r.
(** the point a reference to a commitment stands for *)
Definition element {G : Type} (zero : G) (add : G -> G -> G) (scale : Fr -> G -> G) (c : reference G) : G :=
  match c with
  | RPoint c => c
  | RMsm m => linear zero add scale (map fst m) (map snd m)
  end.
(** commitments compared by an equality *)
Definition is_equality {T : Type} (same : T -> T -> bool) : Prop := forall a b, same a b = true <-> a = b.
