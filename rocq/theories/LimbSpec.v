(** What a limb vector stands for, independently of the code. *)
From Coq Require Import ZArith Znumtheory List Lia.
From Verif Require Import Field LimbModel.
Import ListNotations.
Local Open Scope Z_scope.

(** 2^64 *)
Definition W : Z := 0x10000000000000000.
Lemma W_pow : W = 2 ^ 64. Proof. reflexivity. Qed.

(** a value of type u64 *)
Definition word (x : Z) : Prop := 0 <= x < W.
Definition words4 (x : limbs) : Prop := word (l0 x) /\ word (l1 x) /\ word (l2 x) /\ word (l3 x).
Definition words8 (x : limbs8) : Prop :=
  (word (w0 x) /\ word (w1 x) /\ word (w2 x) /\ word (w3 x)) /\
  (word (w4 x) /\ word (w5 x) /\ word (w6 x) /\ word (w7 x)).

(** the integer written in base 2^64, least significant limb first *)
Definition v4 (x : limbs) : Z := l0 x + W * (l1 x + W * (l2 x + W * l3 x)).
Definition v8 (x : limbs8) : Z :=
  w0 x + W * (w1 x + W * (w2 x + W * (w3 x + W * (w4 x + W * (w5 x + W * (w6 x + W * w7 x)))))).

(** limbs of a value below the modulus: the data invariant of Fr and Fq *)
Definition canonical (p : positive) (x : limbs) : Prop := words4 x /\ v4 x < Zpos p.

(** Montgomery form: [x] is the limb vector of [a * 2^256 mod p]
    (fr.rs:21-23, fq.rs:22-24) *)
Definition represents {p : positive} (x : limbs) (a : fe p) : Prop :=
  words4 x /\ v4 x = (fval a * 2 ^ 256) mod Zpos p.

(** a value of type u8, and the integer of a little-endian byte string *)
Definition byte (b : Z) : Prop := 0 <= b < 256.
Fixpoint le_int (l : list Z) : Z := match l with [] => 0 | b :: l => b + 256 * le_int l end.

(** powers *)
Definition fpow {p : positive} (a : fe p) (n : Z) : fe p := of_Z p (fval a ^ n).

(** the statements for one instance of the field macros *)
Definition inverse_claim (P : params) (p : positive) : Prop :=
  prime (Zpos p) /\
  (forall x (a : fe p), represents x a -> a <> f0 ->
     exists y b, linvert P x = Some y /\ represents y b /\ (b * a)%F = f1) /\
  (forall x, represents x (@f0 p) -> linvert P x = None).
Definition arithmetic_claim (P : params) (p : positive) : Prop :=
  (forall x, canonical p x <-> exists a : fe p, represents x a) /\
  (forall x y (a b : fe p), represents x a -> represents y b -> (x = y <-> a = b)) /\
  represents lzero (@f0 p) /\ represents (lone P) (@f1 p) /\
  (forall x y (a b : fe p), represents x a -> represents y b ->
     represents (ladd P x y) (of_Z p (fval a + fval b)) /\
     represents (lsub P x y) (of_Z p (fval a - fval b)) /\
     represents (lmul P x y) (of_Z p (fval a * fval b))) /\
  (forall x (a : fe p), represents x a ->
     represents (lneg P x) (of_Z p (- fval a)) /\
     represents (ldouble P x) (of_Z p (2 * fval a)) /\
     represents (lsquare P x) (of_Z p (fval a ^ 2))).
Definition repr_claim (P : params) (p : positive) : Prop :=
  (forall x (a : fe p), represents x a ->
     length (to_repr P x) = 32%nat /\ Forall byte (to_repr P x) /\ le_int (to_repr P x) = fval a /\
     from_repr P (to_repr P x) = Some x) /\
  (forall s, Forall byte s -> length s = 32%nat ->
     (le_int s < Zpos p ->
        exists x, from_repr P s = Some x /\ represents x (of_Z p (le_int s)) /\ to_repr P x = s) /\
     (Zpos p <= le_int s -> from_repr P s = None)).
Definition order_claim (P : params) (p : positive) : Prop :=
  forall x y (a b : fe p), represents x a -> represents y b -> lcmp P x y = (fval a ?= fval b).
Definition wide_claim (P : params) (p : positive) : Prop :=
  (forall s, Forall byte s -> length s = 64%nat -> represents (from_bytes_wide P s) (of_Z p (le_int s))) /\
  (forall w, words8 w -> represents (from_u512 P w) (of_Z p (v8 w))).
Definition convert_claim (P : params) (p : positive) : Prop :=
  (forall v, 0 <= v < 2 ^ 64 -> represents (from_u64 P v) (of_Z p v)) /\
  (forall v, 0 <= v < 2 ^ 128 -> represents (from_u128 P v) (of_Z p v)) /\
  (forall v, words4 v -> represents (from_raw P v) (of_Z p (v4 v))) /\
  (forall x (a : fe p), represents x a -> get_lower_128 P x = fval a mod 2 ^ 128) /\
  (forall x (a : fe p), represents x a -> is_odd P x = Z.odd (fval a)) /\
  (forall x (a : fe p) e, represents x a -> words4 e -> represents (lpow P x e) (of_Z p (fval a ^ v4 e))) /\
  (forall x, canonical p x -> from_raw_bytes P (to_raw_bytes x) = Some x) /\
  (forall s, Forall byte s ->
     (length s = 32%nat -> le_int s < Zpos p ->
        exists x, from_raw_bytes P s = Some x /\ canonical p x /\ to_raw_bytes x = s) /\
     (length s <> 32%nat \/ Zpos p <= le_int s -> from_raw_bytes P s = None)).

