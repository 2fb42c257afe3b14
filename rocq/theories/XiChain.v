(** The power (9 + u)^((q-1)/6), by squaring and multiplying pairs of integers. *)
From Coq Require Import ZArith List Bool.
From Verif Require Import Moduli G1Chain.
Import ListNotations.
Local Open Scope Z_scope.

Local Notation q := q_modulus.
Definition xstep (s : Z * Z) (c : bool) : Z * Z :=
  let (a, b) := s in
  let s0 := red ((a + b) * (a + (q - b))) in
  let s1 := red (2 * (a * b)) in
  if c then (red (9 * s0 + (q - s1)), red (s0 + 9 * s1)) else (s0, s1).
(** the bits of (q - 1) / 6 below the first *)
Definition xi_bits : list bool := pos_bits (Z.to_pos ((q - 1) / 6)) [].
Definition xi_end : Z * Z := (0x1284b71c2865a7dfe8b99fdd76e68b605c521e08292f2176d60b35dadcc9e470, 0x246996f3b4fae7e6a6327cfe12150b8e747992778eeec7e5ca5cf05f80f362ac).
Lemma xi_chain : fold_left xstep xi_bits (9, 1) = xi_end.
Proof. vm_compute. reflexivity. Qed.
