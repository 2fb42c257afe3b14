(** The optimal ate pairing of a Barreto-Naehrig curve as the literature defines it,
    on the curve y^2 = x^3 + 3 over Fq12. *)
From Coq Require Import List Bool ZArith.
From Verif Require Import CurveModel CurveSpec TowerModel TowerSpec.
Import ListNotations.

Section Ate.
Context {F : Type}.
Variable K : base F.
Local Notation "x - y" := (bsub K x y).
Local Notation "x * y" := (bmul K x y).
(** the line through A and B, or the tangent, at P *)
Definition line_value (A B P : point F) : F :=
  match A, B, P with
  | Point x1 y1, Point x2 y2, Point x y => (y - y1) - slope K x1 y1 x2 y2 * (x - x1)
  | _, _, _ => bone K
  end.
(** Miller's algorithm with signed digits, from the second one on *)
Fixpoint miller (P Q : point F) (digits : list Z) (f : F) (T : point F) : F * point F :=
  match digits with
  | [] => (f, T)
  | d :: digits =>
      let f := f * f * line_value T T P in
      let T := pplus K T T in
      if Z.eqb d 1 then miller P Q digits (f * line_value T Q P) (pplus K T Q)
      else if Z.eqb d (-1) then miller P Q digits (f * line_value T (pneg K Q) P) (pplus K T (pneg K Q))
      else miller P Q digits f T
  end.
(** Frobenius on points *)
Definition frobenius (q : nat) (P : point F) : point F := match P with Infinity => Infinity | Point x y => Point (power K x q) (power K y q) end.
(** with n the final exponent *)
Definition ate (q n : nat) (digits : list Z) (P Q : point F) : F :=
  let (f, T) := miller P Q digits (bone K) Q in
  let Q1 := frobenius q Q in
  let Q2 := frobenius q Q1 in
  power K (f * line_value T Q1 P * line_value (pplus K T Q1) (pneg K Q2) P) n.
(** the second group: the points of order r on which Frobenius is multiplication by q *)
Definition second_group (q r : nat) (Q : point F) : Prop := ptimes K r Q = Infinity /\ frobenius q Q = ptimes K q Q.
End Ate.
(** the number with leading digit 1 and these digits *)
Definition digits_value (digits : list Z) : Z := fold_left (fun a d => 2 * a + d)%Z digits 1%Z.

(** Fq and Fq2 in Fq12; points of G1, and of the twist G2 by (x w^2, y w^3) *)
Definition embed {F} (K : base F) (a : ext2 F) : ext2 (ext3 (ext2 F)) := Ext2 (Ext3 a (f2_zero K) (f2_zero K)) (f6_zero K).
Definition embed1 {F} (K : base F) (a : F) : ext2 (ext3 (ext2 F)) := embed K (Ext2 a (bzero K)).
Definition root_w {F} (K : base F) : ext2 (ext3 (ext2 F)) := Ext2 (f6_zero K) (f6_one K).
Definition on_g1 {F} (K : base F) (P : point F) := match P with Infinity => Infinity | Point x y => Point (embed1 K x) (embed1 K y) end.
Definition untwist {F} (K : base F) (Q : point (ext2 F)) : point (ext2 (ext3 (ext2 F))) :=
  match Q with
  | Infinity => Infinity
  | Point x y => Point (bmul (f12_base K) (embed K x) (power (f12_base K) (root_w K) 2)) (bmul (f12_base K) (embed K y) (power (f12_base K) (root_w K) 3))
  end.
