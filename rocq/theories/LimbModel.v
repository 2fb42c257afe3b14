(** Field arithmetic on four 64-bit limbs in Montgomery form.

    Words (u64) are integers in [0, 2^64).  The macros field_common!,
    field_arithmetic! and field_specific! (halo2curves/src/derive/field.rs) are
    instantiated for Fr and Fq without the "asm" feature and with the "sparse"
    variant (bn256/fr.rs:126-140, bn256/fq.rs:101-115); their macro arguments are
    the record [params]. *)
From Coq Require Import ZArith List Bool.
From Verif Require Import Moduli Base.
Import ListNotations.
Local Open Scope Z_scope.

(** [x as u64] and [x as u128]: truncation *)
Definition lo64 (x : Z) : Z := Z.land x 0xffffffffffffffff.
Definition lo128 (x : Z) : Z := Z.land x 0xffffffffffffffffffffffffffffffff.

(** halo2curves/src/arithmetic.rs:72-76.  u128 arithmetic is truncated to 128
    bits; LimbFacts proves it never wraps on u64 arguments, so that a build with
    overflow checks does not panic here. *)
Definition adc (a b carry : Z) : Z * Z :=
  let ret := lo128 (a + b + carry) in (lo64 ret, Z.shiftr ret 64).
(** arithmetic.rs:79-83 *)
Definition sbb (a b borrow : Z) : Z * Z :=
  let ret := lo128 (a - (b + Z.shiftr borrow 63)) in (lo64 ret, Z.shiftr ret 64).
(** arithmetic.rs:86-90 *)
Definition mac (a b c carry : Z) : Z * Z :=
  let ret := lo128 (a + b * c + carry) in (lo64 ret, Z.shiftr ret 64).
(** u64::wrapping_mul *)
Definition wmul (a b : Z) : Z := lo64 (a * b).
(** u64 << 1 and u64 >> 63 *)
Definition shl1 (a : Z) : Z := lo64 (Z.shiftl a 1).
Definition shr63 (a : Z) : Z := Z.shiftr a 63.

(** bn256/fr.rs:24, fq.rs:25: [u64; 4] *)
Record limbs : Type := L4 { l0 : Z; l1 : Z; l2 : Z; l3 : Z }.
(** [u64; 8] *)
Record limbs8 : Type := L8 { w0 : Z; w1 : Z; w2 : Z; w3 : Z; w4 : Z; w5 : Z; w6 : Z; w7 : Z }.

(** Arguments of field_common! and field_arithmetic!, and the exponents used in
    invert. *)
Record params : Type := Par {
  modulus : limbs;
  inv : Z;
  pr_r : limbs;
  pr_r2 : limbs;
  pr_r3 : limbs;
  inv_exp : limbs
}.

Section Field.
Variable P : params.

(** derive/field.rs:451-467 *)
Definition lsub (x y : limbs) : limbs :=
  let '(d0, borrow) := sbb (l0 x) (l0 y) 0 in
  let '(d1, borrow) := sbb (l1 x) (l1 y) borrow in
  let '(d2, borrow) := sbb (l2 x) (l2 y) borrow in
  let '(d3, borrow) := sbb (l3 x) (l3 y) borrow in
  let '(d0, carry) := adc d0 (Z.land (l0 (modulus P)) borrow) 0 in
  let '(d1, carry) := adc d1 (Z.land (l1 (modulus P)) borrow) carry in
  let '(d2, carry) := adc d2 (Z.land (l2 (modulus P)) borrow) carry in
  let '(d3, _) := adc d3 (Z.land (l3 (modulus P)) borrow) carry in
  L4 d0 d1 d2 d3.

(** derive/field.rs:497-506 (sparse) *)
Definition ladd (x y : limbs) : limbs :=
  let '(d0, carry) := adc (l0 x) (l0 y) 0 in
  let '(d1, carry) := adc (l1 x) (l1 y) carry in
  let '(d2, carry) := adc (l2 x) (l2 y) carry in
  let '(d3, _) := adc (l3 x) (l3 y) carry in
  lsub (L4 d0 d1 d2 d3) (modulus P).

(** derive/field.rs:386-389 *)
Definition ldouble (x : limbs) : limbs := ladd x x.

(** derive/field.rs:508-544 (sparse) *)
Definition montgomery_reduce (r : limbs8) : limbs :=
  let m := modulus P in
  let k := wmul (w0 r) (inv P) in
  let '(_, carry) := mac (w0 r) k (l0 m) 0 in
  let '(r1, carry) := mac (w1 r) k (l1 m) carry in
  let '(r2, carry) := mac (w2 r) k (l2 m) carry in
  let '(r3, carry) := mac (w3 r) k (l3 m) carry in
  let '(r4, carry2) := adc (w4 r) 0 carry in
  let k := wmul r1 (inv P) in
  let '(_, carry) := mac r1 k (l0 m) 0 in
  let '(r2, carry) := mac r2 k (l1 m) carry in
  let '(r3, carry) := mac r3 k (l2 m) carry in
  let '(r4, carry) := mac r4 k (l3 m) carry in
  let '(r5, carry2) := adc (w5 r) carry2 carry in
  let k := wmul r2 (inv P) in
  let '(_, carry) := mac r2 k (l0 m) 0 in
  let '(r3, carry) := mac r3 k (l1 m) carry in
  let '(r4, carry) := mac r4 k (l2 m) carry in
  let '(r5, carry) := mac r5 k (l3 m) carry in
  let '(r6, carry2) := adc (w6 r) carry2 carry in
  let k := wmul r3 (inv P) in
  let '(_, carry) := mac r3 k (l0 m) 0 in
  let '(r4, carry) := mac r4 k (l1 m) carry in
  let '(r5, carry) := mac r5 k (l2 m) carry in
  let '(r6, carry) := mac r6 k (l3 m) carry in
  let '(r7, _) := adc (w7 r) carry2 carry in
  lsub (L4 r4 r5 r6 r7) m.

(** derive/field.rs:425-446: the schoolbook product *)
Definition mul_wide (x y : limbs) : limbs8 :=
  let '(r0, carry) := mac 0 (l0 x) (l0 y) 0 in
  let '(r1, carry) := mac 0 (l0 x) (l1 y) carry in
  let '(r2, carry) := mac 0 (l0 x) (l2 y) carry in
  let '(r3, r4) := mac 0 (l0 x) (l3 y) carry in
  let '(r1, carry) := mac r1 (l1 x) (l0 y) 0 in
  let '(r2, carry) := mac r2 (l1 x) (l1 y) carry in
  let '(r3, carry) := mac r3 (l1 x) (l2 y) carry in
  let '(r4, r5) := mac r4 (l1 x) (l3 y) carry in
  let '(r2, carry) := mac r2 (l2 x) (l0 y) 0 in
  let '(r3, carry) := mac r3 (l2 x) (l1 y) carry in
  let '(r4, carry) := mac r4 (l2 x) (l2 y) carry in
  let '(r5, r6) := mac r5 (l2 x) (l3 y) carry in
  let '(r3, carry) := mac r3 (l3 x) (l0 y) 0 in
  let '(r4, carry) := mac r4 (l3 x) (l1 y) carry in
  let '(r5, carry) := mac r5 (l3 x) (l2 y) carry in
  let '(r6, r7) := mac r6 (l3 x) (l3 y) carry in
  L8 r0 r1 r2 r3 r4 r5 r6 r7.
(** derive/field.rs:423-449 *)
Definition lmul (x y : limbs) : limbs := montgomery_reduce (mul_wide x y).

(** derive/field.rs:394-418: the product of a limb vector with itself *)
Definition square_wide (x : limbs) : limbs8 :=
  let '(r1, carry) := mac 0 (l0 x) (l1 x) 0 in
  let '(r2, carry) := mac 0 (l0 x) (l2 x) carry in
  let '(r3, r4) := mac 0 (l0 x) (l3 x) carry in
  let '(r3, carry) := mac r3 (l1 x) (l2 x) 0 in
  let '(r4, r5) := mac r4 (l1 x) (l3 x) carry in
  let '(r5, r6) := mac r5 (l2 x) (l3 x) 0 in
  let r7 := shr63 r6 in
  let r6 := Z.lor (shl1 r6) (shr63 r5) in
  let r5 := Z.lor (shl1 r5) (shr63 r4) in
  let r4 := Z.lor (shl1 r4) (shr63 r3) in
  let r3 := Z.lor (shl1 r3) (shr63 r2) in
  let r2 := Z.lor (shl1 r2) (shr63 r1) in
  let r1 := shl1 r1 in
  let '(r0, carry) := mac 0 (l0 x) (l0 x) 0 in
  let '(r1, carry) := adc 0 r1 carry in
  let '(r2, carry) := mac r2 (l1 x) (l1 x) carry in
  let '(r3, carry) := adc 0 r3 carry in
  let '(r4, carry) := mac r4 (l2 x) (l2 x) carry in
  let '(r5, carry) := adc 0 r5 carry in
  let '(r6, carry) := mac r6 (l3 x) (l3 x) carry in
  let '(r7, _) := adc 0 r7 carry in
  L8 r0 r1 r2 r3 r4 r5 r6 r7.
(** derive/field.rs:391-421 *)
Definition lsquare (x : limbs) : limbs := montgomery_reduce (square_wide x).

(** derive/field.rs:469-486; [(c as u64).wrapping_sub(1)] is 0 or 2^64-1 *)
Definition lneg (x : limbs) : limbs :=
  let m := modulus P in
  let '(d0, borrow) := sbb (l0 m) (l0 x) 0 in
  let '(d1, borrow) := sbb (l1 m) (l1 x) borrow in
  let '(d2, borrow) := sbb (l2 m) (l2 x) borrow in
  let '(d3, _) := sbb (l3 m) (l3 x) borrow in
  let c := if Z.lor (Z.lor (Z.lor (l0 x) (l1 x)) (l2 x)) (l3 x) =? 0 then 1 else 0 in
  let mask := lo64 (c - 1) in
  L4 (Z.land d0 mask) (Z.land d1 mask) (Z.land d2 mask) (Z.land d3 mask).

(** derive/field.rs:17-27 *)
Definition lzero : limbs := L4 0 0 0 0.
Definition lone : limbs := pr_r P.

(** derive/field.rs:29-47 *)
Definition from_u512 (w : limbs8) : limbs :=
  let d0 := L4 (w0 w) (w1 w) (w2 w) (w3 w) in
  let d1 := L4 (w4 w) (w5 w) (w6 w) (w7 w) in
  ladd (lmul d0 (pr_r2 P)) (lmul d1 (pr_r3 P)).

(** derive/field.rs:51,116-119 (no asm) *)
Definition from_raw (v : limbs) : limbs := lmul v (pr_r2 P).
(** derive/field.rs:190-194 *)
Definition from_u64 (v : Z) : limbs := lmul (L4 v 0 0 0) (pr_r2 P).
(** derive/field.rs:301-303 *)
Definition from_u128 (v : Z) : limbs := from_raw (L4 (lo64 v) (lo64 (Z.shiftr v 64)) 0 0).

(** derive/field.rs:136-142 *)
Definition is_less_than (x y : limbs) : bool :=
  let '(_, borrow) := sbb (l0 x) (l0 y) 0 in
  let '(_, borrow) := sbb (l1 x) (l1 y) borrow in
  let '(_, borrow) := sbb (l2 x) (l2 y) borrow in
  let '(_, borrow) := sbb (l3 x) (l3 y) borrow in
  Z.shiftr borrow 63 =? 1.

(** derived PartialEq on [u64; 4]; ct_eq (derive/field.rs:196-203) is the same
    test *)
Definition leqb (x y : limbs) : bool :=
  (l0 x =? l0 y) && (l1 x =? l1 y) && (l2 x =? l2 y) && (l3 x =? l3 y).

(** pasta_curves FieldExt::pow (crate pasta_curves 0.4.0, not in this
    repository): constant-time square and multiply over the bits of four limbs,
    most significant first.  [pow_bits n e x res] processes bits n-1 .. 0 of [e]. *)
Fixpoint pow_bits (n : nat) (e : Z) (x res : limbs) : limbs :=
  match n with
  | O => res
  | S n =>
      let sq := lsquare res in
      pow_bits n e x (if Z.testbit e (Z.of_nat n) then lmul sq x else sq)
  end.
Definition lpow (x : limbs) (e : limbs) : limbs :=
  let res := pow_bits 64 (l3 e) x lone in
  let res := pow_bits 64 (l2 e) x res in
  let res := pow_bits 64 (l1 e) x res in
  pow_bits 64 (l0 e) x res.

(** bn256/fr.rs:182-191, fq.rs:183-192; the CtOption is none exactly when the
    flag is false *)
Definition linvert (x : limbs) : option limbs :=
  if leqb x lzero then None else Some (lpow x (inv_exp P)).

(** u64::to_le_bytes, u64::from_le_bytes *)
Fixpoint le_bytes (n : nat) (x : Z) : list Z :=
  match n with O => [] | S n => Z.land x 0xff :: le_bytes n (Z.shiftr x 8) end.
Fixpoint le_value (l : list Z) : Z :=
  match l with [] => 0 | b :: l => b + 256 * le_value l end.

(** bn256/fr.rs:201-225, fq.rs:203-227.  A repr is a list of 32 bytes. *)
Definition limbs_of_bytes (b : list Z) : limbs :=
  L4 (le_value (firstn 8 b)) (le_value (firstn 8 (skipn 8 b)))
     (le_value (firstn 8 (skipn 16 b))) (le_value (firstn 8 (skipn 24 b))).
Definition from_repr (b : list Z) : option limbs :=
  let t := limbs_of_bytes b in
  let m := modulus P in
  let '(_, borrow) := sbb (l0 t) (l0 m) 0 in
  let '(_, borrow) := sbb (l1 t) (l1 m) borrow in
  let '(_, borrow) := sbb (l2 t) (l2 m) borrow in
  let '(_, borrow) := sbb (l3 t) (l3 m) borrow in
  let is_some := Z.land (Z.land borrow 0xff) 1 in
  let t := lmul t (pr_r2 P) in
  if is_some =? 1 then Some t else None.

(** bn256/fr.rs:227-239, fq.rs:229-242 *)
Definition bytes_of_limbs (x : limbs) : list Z :=
  le_bytes 8 (l0 x) ++ le_bytes 8 (l1 x) ++ le_bytes 8 (l2 x) ++ le_bytes 8 (l3 x).
Definition widen (x : limbs) : limbs8 := L8 (l0 x) (l1 x) (l2 x) (l3 x) 0 0 0 0.
Definition to_repr (x : limbs) : list Z := bytes_of_limbs (montgomery_reduce (widen x)).

(** derive/field.rs:205-218: compare the bytes pairwise from the last one; the
    first difference decides *)
Fixpoint find_diff (l : list (Z * Z)) : comparison :=
  match l with
  | [] => Eq
  | (a, b) :: l => match a ?= b with Eq => find_diff l | c => c end
  end.
Definition lcmp (x y : limbs) : comparison := find_diff (rev (combine (to_repr x) (to_repr y))).

(** derive/field.rs:320-326 *)
Definition get_lower_128 (x : limbs) : Z :=
  let t := montgomery_reduce (widen x) in Z.lor (l0 t) (Z.shiftl (l1 t) 64).
(** bn256/fr.rs:241-243, fq.rs:244-246 *)
Definition is_odd (x : limbs) : bool := Z.land (nth 0 (to_repr x) 0) 1 =? 1.

(** derive/field.rs:307-318 *)
Definition from_bytes_wide (b : list Z) : limbs :=
  let w i := le_value (firstn 8 (skipn (8 * i) b)) in
  from_u512 (L8 (w 0%nat) (w 1%nat) (w 2%nat) (w 3%nat) (w 4%nat) (w 5%nat) (w 6%nat) (w 7%nat)).

(** derive/field.rs:336-342 and 343-349: Montgomery limbs as raw bytes *)
Definition from_raw_bytes (b : list Z) : option limbs :=
  if negb (Nat.eqb (length b) 32) then None
  else let e := limbs_of_bytes b in if is_less_than e (modulus P) then Some e else None.
Definition to_raw_bytes (x : limbs) : list Z := bytes_of_limbs x.

End Field.

(** bn256/fr.rs:28-65 and the exponent of fr.rs:183-188 *)
Definition fr_params : params := {|
  modulus := L4 0x43e1f593f0000001 0x2833e84879b97091 0xb85045b68181585d 0x30644e72e131a029;
  inv := 0xc2e1f593efffffff;
  pr_r := L4 0xac96341c4ffffffb 0x36fc76959f60cd29 0x666ea36f7879462e 0x0e0a77c19a07df2f;
  pr_r2 := L4 0x1bb8e645ae216da7 0x53fe3ab1e35c59e3 0x8c49833d53bb8085 0x0216d0b17f4e44a5;
  pr_r3 := L4 0x5e94d8e1b4bf0040 0x2a489cbe1cfbb6b8 0x893cc664a19fcfed 0x0cf8594b7fcc657c;
  inv_exp := L4 0x43e1f593efffffff 0x2833e84879b97091 0xb85045b68181585d 0x30644e72e131a029
|}.
(** bn256/fq.rs:30-62 and the exponent of fq.rs:184-189 *)
Definition fq_params : params := {|
  modulus := L4 0x3c208c16d87cfd47 0x97816a916871ca8d 0xb85045b68181585d 0x30644e72e131a029;
  inv := 0x87d20782e4866389;
  pr_r := L4 0xd35d438dc58f0d9d 0x0a78eb28f5c70b3d 0x666ea36f7879462c 0x0e0a77c19a07df2f;
  pr_r2 := L4 0xf32cfc5b538afa89 0xb5e71911d44501fb 0x47ab1eff0a417ff6 0x06d89f71cab8351f;
  pr_r3 := L4 0xb1cd6dafda1530df 0x62f210e6a7283db6 0xef7f0b0c0ada0afb 0x20fd6e902d592544;
  inv_exp := L4 0x3c208c16d87cfd45 0x97816a916871ca8d 0xb85045b68181585d 0x30644e72e131a029
|}.

(** bn256/fr.rs:67-117 *)
Definition fr_generator : limbs := from_raw fr_params (L4 7 0 0 0).
Definition fr_S : Z := 28.
Definition fr_root_of_unity : limbs :=
  from_raw fr_params (L4 0xd34f1ed960c37c9c 0x3215cf6dd39329c8 0x98865ea93dd31f74 0x03ddb9f5166d18b7).
Definition fr_two_inv : limbs :=
  from_raw fr_params (L4 0xa1f0fac9f8000001 0x9419f4243cdcb848 0xdc2822db40c0ac2e 0x183227397098d014).
Definition fr_root_of_unity_inv : limbs :=
  from_raw fr_params (L4 0x0ed3e50a414e6dba 0xb22625f59115aba7 0x1bbe587180f34361 0x048127174daabc26).
Definition fr_delta : limbs :=
  from_raw fr_params (L4 0x870e56bbe533e9a2 0x5b5f898e5e963f25 0x64ec26aad4c86e71 0x09226b6e22c6f0ca).
Definition fr_zeta : limbs :=
  from_raw fr_params (L4 0xb8ca0b2d36636f23 0xcc37a73fec2bc5e9 0x048b6e193fd84104 0x30644e72e131a029).
(** bn256/fq.rs:64-69, 73-78, 87-92 *)
Definition fq_negative_one : limbs :=
  L4 0x68c3488912edefaa 0x8d087f6872aabf4f 0x51e1a24709081231 0x2259d6b14729c0fa.
Definition fq_two_inv : limbs :=
  from_raw fq_params (L4 0x9e10460b6c3e7ea4 0xcbc0b548b438e546 0xdc2822db40c0ac2e 0x183227397098d014).
Definition fq_zeta : limbs :=
  from_raw fq_params (L4 0x5763473177fffffe 0xd4f263f1acdb5c4f 0x59e26bcea0d48bac 0).

(** bn256/fq.rs:170-179 *)
Definition fq_sqrt (x : limbs) : option limbs :=
  let t := lpow fq_params x (L4 0x4f082305b61f3f52 0x65e05aa45a1c72a3 0x6e14116da0605617 0x0c19139cb84c680a) in
  if leqb (lsquare fq_params t) x then Some t else None.
(** bn256/fq.rs:124-142; LegendreSymbol (bn256/mod.rs) *)
Inductive legendre_symbol := LZero | LResidue | LNonResidue.
Definition fq_legendre (x : limbs) : legendre_symbol :=
  let s := lpow fq_params x (L4 0x9e10460b6c3e7ea3 0xcbc0b548b438e546 0xdc2822db40c0ac2e 0x183227397098d014) in
  if leqb s lzero then LZero else if leqb s (lone fq_params) then LResidue else LNonResidue.
