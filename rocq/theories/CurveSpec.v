(** Points of the curves y^2 = x^3 + b and the textbook law on them. *)
From Coq Require Import List Bool Field_theory ZArith.
From Verif Require Import CurveModel.
Import ListNotations.

Definition binv {F} (K : base F) (x : F) : F := match binvert K x with Some y => y | None => bzero K end.
Definition bdiv {F} (K : base F) (x y : F) : F := bmul K x (binv K y).
Definition two {F} (K : base F) : F := badd K (bone K) (bone K).
Definition three {F} (K : base F) : F := badd K (two K) (bone K).

(** A field in which the curve y^2 = x^3 + b has no singular point. *)
Record is_base {F} (K : base F) (b : F) : Prop := {
  base_field : field_theory (bzero K) (bone K) (badd K) (bmul K) (bsub K) (bopp K) (bdiv K) (binv K) eq;
  base_square : forall x, bsquare K x = bmul K x x;
  base_invert : forall x, binvert K x = None <-> x = bzero K;
  base_eq : forall x y, beqb K x y = true <-> x = y;
  base_two : two K <> bzero K;
  base_three : three K <> bzero K;
  base_b : b <> bzero K
}.

(** points of the plane, and one at infinity *)
Inductive point (F : Type) := Infinity | Point (x y : F).
Arguments Infinity {F}.
Arguments Point {F}.

Section Law.
Context {F : Type}.
Variable K : base F.
Local Notation "x + y" := (badd K x y).
Local Notation "x - y" := (bsub K x y).
Local Notation "x * y" := (bmul K x y).
Local Notation "x / y" := (bdiv K x y).

Definition on_curve (b : F) (P : point F) : Prop :=
  match P with Infinity => True | Point x y => y * y = x * x * x + b end.
Definition pneg (P : point F) : point F :=
  match P with Infinity => Infinity | Point x y => Point x (bopp K y) end.
(** the line through two points, or the tangent *)
Definition slope (x1 y1 x2 y2 : F) : F :=
  if beqb K x1 x2 then three K * (x1 * x1) / (two K * y1) else (y2 - y1) / (x2 - x1).
(** the third point of the line on the curve, reflected *)
Definition pplus (P Q : point F) : point F :=
  match P, Q with
  | Infinity, _ => Q
  | _, Infinity => P
  | Point x1 y1, Point x2 y2 =>
      if beqb K x1 x2 && beqb K (y1 + y2) (bzero K) then Infinity
      else let l := slope x1 y1 x2 y2 in let x3 := l * l - x1 - x2 in Point x3 (l * (x1 - x3) - y1)
  end.
(** n summands *)
Fixpoint ptimes (n : nat) (P : point F) : point F :=
  match n with O => Infinity | S n => pplus P (ptimes n P) end.
Fixpoint psum (l : list (point F)) : point F :=
  match l with [] => Infinity | P :: l => pplus P (psum l) end.

(** What coordinates stand for: (x, y, z) for (x/z^2, y/z^3), and infinity if z = 0;
    affine coordinates for themselves, and infinity if both are 0. *)
Definition jac_point (p : jac F) : point F :=
  if beqb K (jz p) (bzero K) then Infinity else Point (jx p / (jz p * jz p)) (jy p / (jz p * jz p * jz p)).
Definition aff_point (p : aff F) : point F :=
  if beqb K (ax p) (bzero K) && beqb K (ay p) (bzero K) then Infinity else Point (ax p) (ay p).
End Law.
