(** What the extension fields are: E[w]/(w^2 - b) and E[w]/(w^3 - b) with the
    multiplication of polynomials, and powers in a field. *)
From Coq Require Import List Bool Field_theory ZArith.
From Verif Require Import CurveModel CurveSpec TowerModel.

(** A field: operations, squares, inverses and tests as they should be. *)
Record is_field {F} (K : base F) : Prop := {
  fd_field : field_theory (bzero K) (bone K) (badd K) (bmul K) (bsub K) (bopp K) (bdiv K) (binv K) eq;
  fd_square : forall x, bsquare K x = bmul K x x;
  fd_invert : forall x, binvert K x = None <-> x = bzero K;
  fd_eq : forall x y, beqb K x y = true <-> x = y
}.

Section Poly.
Context {E : Type}.
Variables (K : base E) (b : E).
Local Notation "x + y" := (badd K x y).
Local Notation "x * y" := (bmul K x y).
(** (x0 + x1 w) (y0 + y1 w) with w^2 = b *)
Definition times2 (x y : ext2 E) : ext2 E := Ext2 (e0 x * e0 y + b * (e1 x * e1 y)) (e0 x * e1 y + e1 x * e0 y).
(** (x0 + x1 w + x2 w^2) (y0 + y1 w + y2 w^2) with w^3 = b *)
Definition times3 (x y : ext3 E) : ext3 E :=
  Ext3 (h0 x * h0 y + b * (h1 x * h2 y + h2 x * h1 y)) (h0 x * h1 y + h1 x * h0 y + b * (h2 x * h2 y)) (h0 x * h2 y + h1 x * h1 y + h2 x * h0 y).
(** n factors *)
Fixpoint power (x : E) (n : nat) : E := match n with O => bone K | S n => x * power x n end.
Definition product (l : list E) : E := fold_right (bmul K) (bone K) l.
(** 1 + ... + 1 *)
Fixpoint ones (n : nat) : E := match n with O => bzero K | S n => bone K + ones n end.
End Poly.

(** xi = 9 + u in Fq2, v in Fq6 *)
Definition xi {F} (K : base F) : ext2 F := Ext2 (ones K 9) (bone K).
Definition vv {F} (K : base F) : ext3 (ext2 F) := Ext3 (f2_zero K) (f2_one K) (f2_zero K).
