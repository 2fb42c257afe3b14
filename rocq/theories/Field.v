(** Prime fields as canonical integers.

    [fe p] models the values of a halo2curves field type ([Fr], [Fq]) up to
    representation: the canonical integer in [0, p) that a limb vector in
    Montgomery form stands for (halo2curves/src/bn256/fr.rs:20-24,
    fq.rs:17-25).  The limb representation itself is modelled in Limb*.v, which
    proves that the limb operations implement the operations defined here. *)
From Coq Require Import ZArith Lia Bool Zpow_facts.
From Verif Require Import Moduli.
Local Open Scope Z_scope.

(** A canonical field element; the proof component is a boolean equation so
    that equality of elements is equality of their integers. *)
Record fe (p : positive) : Type := Fe {
  fval : Z;
  fok : ((0 <=? fval) && (fval <? Zpos p)) = true
}.
Arguments Fe {p} _ _.
Arguments fval {p} _.
Arguments fok {p} _.

Lemma mod_ok (p : positive) (x : Z) :
  ((0 <=? x mod Zpos p) && (x mod Zpos p <? Zpos p)) = true.
Proof.
  pose proof (Z.mod_pos_bound x (Zpos p) eq_refl) as H.
  apply andb_true_iff. split; [apply Z.leb_le|apply Z.ltb_lt]; lia.
Qed.

(** Reduction of an integer: models From<u64> (derive/field.rs:190-194,
    via [from_raw]) for arguments in range, and is used to define the
    operations. *)
Definition of_Z (p : positive) (x : Z) : fe p := Fe (x mod Zpos p) (mod_ok p x).

(** Binary extended gcd used to find a candidate inverse quickly; its result is
    checked by [finv], so nothing is assumed about it.  Not in the Rust code. *)
Definition half_mod (x p : Z) : Z := if Z.even x then Z.div2 x else Z.div2 (x + p).
Fixpoint bgcd (fuel : nat) (u v x y p : Z) : Z :=
  match fuel with
  | O => 0
  | S f =>
      if u =? 1 then x
      else if v =? 1 then y
      else if u =? 0 then 0
      else if Z.even u then bgcd f (Z.div2 u) v (half_mod x p) y p
      else if Z.even v then bgcd f u (Z.div2 v) x (half_mod y p) p
      else if u <? v then
             let d := y - x in bgcd f u (v - u) x (if d <? 0 then d + p else d) p
           else
             let d := x - y in bgcd f (u - v) v (if d <? 0 then d + p else d) y p
  end.

Section Ops.
Context {p : positive}.
Implicit Types a b : fe p.

(** halo2curves/src/bn256/fr.rs:  Field::zero / one (derive/field.rs:17-27) *)
Definition f0 : fe p := of_Z p 0.
Definition f1 : fe p := of_Z p 1.
(** derive/field.rs add / sub / neg / mul / square (value level) *)
Definition fadd a b : fe p := of_Z p (fval a + fval b).
Definition fsub a b : fe p := of_Z p (fval a - fval b).
Definition fopp a : fe p := of_Z p (- fval a).
Definition fmul a b : fe p := of_Z p (fval a * fval b).
(** bn256/fr.rs invert / fq.rs invert: exponentiation by p - 2; the [CtOption]
    is none exactly for zero (see [finvert]).  [finv] is the raw value, 0 for 0.
    Simplification for executability: a binary-gcd candidate is used when it
    multiplies to one, otherwise the exponentiation; FieldFacts.finv_pow proves
    that [finv] is always the exponentiation by p - 2. *)
Definition finv_pow a : fe p := of_Z p (Zpow_mod (fval a) (Zpos p - 2) (Zpos p)).
Definition finv a : fe p :=
  let y := bgcd (4 * Pos.size_nat p) (fval a) (Zpos p) 1 0 (Zpos p) in
  if (y * fval a) mod Zpos p =? 1 then of_Z p y else finv_pow a.
Definition fdiv a b : fe p := fmul a (finv b).
(** derived PartialEq on canonical representations *)
Definition feqb a b : bool := fval a =? fval b.
(** derive/field.rs Ord: compares big-endian canonical bytes; C32 proves the
    byte comparison is this integer comparison. *)
Definition fltb a b : bool := fval a <? fval b.
Definition fleb a b : bool := fval a <=? fval b.
(** checked inversion: [Field::invert] returns CtOption *)
Definition finvert a : option (fe p) := if feqb a f0 then None else Some (finv a).

End Ops.

(** The scalar field of the VM and circuit. *)
Definition r_pos : positive := Z.to_pos r_modulus.
Definition Fr : Type := fe r_pos.
Definition FrZ (x : Z) : Fr := of_Z r_pos x.

(** The base field of the curve. *)
Definition q_pos : positive := Z.to_pos q_modulus.
Definition Fq : Type := fe q_pos.
Definition FqZ (x : Z) : Fq := of_Z q_pos x.

Declare Scope F_scope.
Delimit Scope F_scope with F.
Bind Scope F_scope with fe.
Infix "+" := fadd : F_scope.
Infix "-" := fsub : F_scope.
Infix "*" := fmul : F_scope.
Infix "/" := fdiv : F_scope.
Notation "- x" := (fopp x) : F_scope.
Notation "0" := f0 : F_scope.
Notation "1" := f1 : F_scope.
Infix "=?" := feqb : F_scope.
