(** The extension fields of bn256: Fq2 (fq2.rs), Fq6 (fq6.rs), Fq12 (fq12.rs), all
    in halo2curves/src/bn256.

    Like the curve macro (CurveModel) the functions are written over the operations
    of the field below ([base]), so that they can be read on limb vectors, as the
    code runs them, and on field values.  A function that changes [self] in place
    returns the new value.  [x += y], [x -= y], [x *= y] are the operators
    (derive/mod.rs:79-175), which call the methods [add], [sub], [mul]; [mul] and
    [mul_assign] are different functions.  [double] of Fq is x + x
    (derive/field.rs:387-389). *)
From Coq Require Import List Bool ZArith.
From Verif Require Import Base LimbModel CurveModel.
Import ListNotations.

(** fq2.rs:13-16 and fq12.rs:10-13; fq6.rs:9-13 *)
Record ext2 (E : Type) := Ext2 { e0 : E; e1 : E }.
Arguments Ext2 {E}. Arguments e0 {E}. Arguments e1 {E}.
Record ext3 (E : Type) := Ext3 { h0 : E; h1 : E; h2 : E }.
Arguments Ext3 {E}. Arguments h0 {E}. Arguments h1 {E}. Arguments h2 {E}.

Definition bdouble {F} (K : base F) (x : F) : F := badd K x x.

Section Fq2.
Context {F : Type}.
Variable K : base F.
Local Notation "x + y" := (badd K x y).
Local Notation "x - y" := (bsub K x y).
Local Notation "x * y" := (bmul K x y).
Local Notation "- x" := (bopp K x).
(** fq2.rs:160-169 *)
Definition f2_mul_assign (s o : ext2 F) : ext2 F :=
  let t1 := e0 s * e0 o in
  let t0 := e0 s + e1 s in
  let t2 := e1 s * e1 o in
  let c1 := e0 o + e1 o in
  let c0 := t1 - t2 in
  let t1 := t1 + t2 in
  let t0 := t0 * c1 in
  let c1 := t0 - t1 in
  Ext2 c0 c1.
(** fq2.rs:171-180 *)
Definition f2_square_assign (s : ext2 F) : ext2 F :=
  let ab := e0 s * e1 s in
  let c0c1 := e0 s + e1 s in
  let c0 := - e1 s in
  let c0 := c0 + e0 s in
  let c0 := c0 * c0c1 in
  let c0 := c0 - ab in
  let c1 := bdouble K ab in
  Ext2 (c0 + ab) c1.
(** fq2.rs:182-192 *)
Definition f2_double (s : ext2 F) : ext2 F := Ext2 (bdouble K (e0 s)) (bdouble K (e1 s)).
(** fq2.rs:194-225 *)
Definition f2_add (s o : ext2 F) : ext2 F := Ext2 (e0 s + e0 o) (e1 s + e1 o).
Definition f2_sub (s o : ext2 F) : ext2 F := Ext2 (e0 s - e0 o) (e1 s - e1 o).
Definition f2_mul (s o : ext2 F) : ext2 F := f2_mul_assign o s.
Definition f2_neg (s : ext2 F) : ext2 F := Ext2 (- e0 s) (- e1 s).
(** fq2.rs:228-230 *)
Definition f2_conjugate (s : ext2 F) : ext2 F := Ext2 (e0 s) (- e1 s).
(** fq2.rs:232-234; [t] is FROBENIUS_COEFF_FQ2_C1 *)
Definition f2_frobenius (t : list F) (power : nat) (s : ext2 F) : ext2 F := Ext2 (e0 s) (e1 s * nth (power mod 2) t (bzero K)).
(** fq2.rs:237-256; mul_by_xi :259-278 has the same body *)
Definition f2_nonresidue (s : ext2 F) : ext2 F :=
  let t0 := e0 s in
  let t1 := e1 s in
  let s := f2_double s in
  let s := f2_double s in
  let s := f2_double s in
  let c0 := e0 s + t0 in
  let c0 := c0 - t1 in
  let c1 := e1 s + t1 in
  let c1 := c1 + t0 in
  Ext2 c0 c1.
(** fq2.rs:281-287 *)
Definition f2_norm (s : ext2 F) : F := bsquare K (e1 s) + bsquare K (e0 s).
(** fq2.rs:289-306 *)
Definition f2_invert (s : ext2 F) : option (ext2 F) :=
  let t1 := bsquare K (e1 s) in
  let t0 := bsquare K (e0 s) in
  let t0 := t0 + t1 in
  match binvert K t0 with
  | None => None
  | Some t => let c0 := e0 s * t in let c1 := e1 s * t in Some (Ext2 c0 (- c1))
  end.
(** fq2.rs:317-333, :46-50 *)
Definition f2_zero : ext2 F := Ext2 (bzero K) (bzero K).
Definition f2_one : ext2 F := Ext2 (bone K) (bzero K).
Definition f2_is_zero (s : ext2 F) : bool := bis_zero K (e0 s) && bis_zero K (e1 s).
Definition f2_eqb (s o : ext2 F) : bool := beqb K (e0 s) (e0 o) && beqb K (e1 s) (e1 o).
Definition f2_base : base (ext2 F) := Base f2_zero f2_one f2_add f2_sub f2_mul f2_neg f2_square_assign f2_invert f2_eqb.

(** [self.pow] is FieldExt::pow of pasta_curves, as for Fq (LimbModel.lpow): square
    and multiply over the four words of the exponent, most significant bit first. *)
Fixpoint f2_pow_bits (n : nat) (e : Z) (x res : ext2 F) : ext2 F :=
  match n with
  | O => res
  | S n => let sq := f2_square_assign res in f2_pow_bits n e x (if Z.testbit e (Z.of_nat n) then f2_mul sq x else sq)
  end.
Definition f2_pow (x : ext2 F) (e : limbs) : ext2 F :=
  let res := f2_pow_bits 64 (l3 e) x f2_one in
  let res := f2_pow_bits 64 (l2 e) x res in
  let res := f2_pow_bits 64 (l1 e) x res in
  f2_pow_bits 64 (l0 e) x res.
(** fq2.rs:343-397 *)
Definition f2_sqrt (t : list F) (neg_one : F) (s : ext2 F) : option (ext2 F) :=
  if f2_is_zero s then Some f2_zero
  else
    let a1 := f2_pow s (L4 0x4f082305b61f3f51 0x65e05aa45a1c72a3 0x6e14116da0605617 0x0c19139cb84c680a) in
    let alpha := f2_square_assign a1 in
    let alpha := f2_mul_assign alpha s in
    let a0 := f2_frobenius t 1 alpha in
    let a0 := f2_mul_assign a0 alpha in
    let neg1 := Ext2 neg_one (bzero K) in
    if f2_eqb a0 neg1 then None
    else
      let a1 := f2_mul_assign a1 s in
      if f2_eqb alpha neg1 then Some (f2_mul_assign a1 (Ext2 (bzero K) (bone K)))
      else
        let alpha := f2_add alpha f2_one in
        let alpha := f2_pow alpha (L4 0x9e10460b6c3e7ea3 0xcbc0b548b438e546 0xdc2822db40c0ac2e 0x183227397098d014) in
        Some (f2_mul_assign a1 alpha).
End Fq2.

Section Fq6.
Context {F : Type}.
Variable K : base F.
Local Notation E := (ext2 F).
Local Notation "x + y" := (f2_add K x y).
Local Notation "x - y" := (f2_sub K x y).
Local Notation "x * y" := (f2_mul K x y).
Local Notation sq := (f2_square_assign K).
Local Notation nr := (f2_nonresidue K).
Local Notation dbl := (f2_double K).
(** fq6.rs:84-133 *)
Definition f6_mul_assign (s o : ext3 E) : ext3 E :=
  let a_a := h0 s * h0 o in
  let b_b := h1 s * h1 o in
  let c_c := h2 s * h2 o in
  let t1 := h1 o + h2 o in
  let tmp := h1 s + h2 s in
  let t1 := t1 * tmp in
  let t1 := t1 - b_b in
  let t1 := t1 - c_c in
  let t1 := nr t1 in
  let t1 := t1 + a_a in
  let t3 := h0 o + h2 o in
  let tmp := h0 s + h2 s in
  let t3 := t3 * tmp in
  let t3 := t3 - a_a in
  let t3 := t3 + b_b in
  let t3 := t3 - c_c in
  let t2 := h0 o + h1 o in
  let tmp := h0 s + h1 s in
  let t2 := t2 * tmp in
  let t2 := t2 - a_a in
  let t2 := t2 - b_b in
  let c_c := nr c_c in
  let t2 := t2 + c_c in
  Ext3 t1 t2 t3.
(** fq6.rs:135-177 *)
Definition f6_square_assign (s : ext3 E) : ext3 E :=
  let s0 := sq (h0 s) in
  let ab := h0 s * h1 s in
  let s1 := dbl ab in
  let s2 := h0 s - h1 s in
  let s2 := s2 + h2 s in
  let s2 := sq s2 in
  let bc := h1 s * h2 s in
  let s3 := dbl bc in
  let s4 := sq (h2 s) in
  let c0 := nr s3 + s0 in
  let c1 := nr s4 + s1 in
  let c2 := s1 + s2 in
  let c2 := c2 + s3 in
  let c2 := c2 - s0 in
  let c2 := c2 - s4 in
  Ext3 c0 c1 c2.
(** fq6.rs:179-227 *)
Definition f6_double (s : ext3 E) : ext3 E := Ext3 (dbl (h0 s)) (dbl (h1 s)) (dbl (h2 s)).
Definition f6_add (s o : ext3 E) : ext3 E := Ext3 (h0 s + h0 o) (h1 s + h1 o) (h2 s + h2 o).
Definition f6_sub (s o : ext3 E) : ext3 E := Ext3 (h0 s - h0 o) (h1 s - h1 o) (h2 s - h2 o).
Definition f6_mul (s o : ext3 E) : ext3 E := f6_mul_assign o s.
Definition f6_neg (s : ext3 E) : ext3 E := Ext3 (f2_neg K (h0 s)) (f2_neg K (h1 s)) (f2_neg K (h2 s)).
(** fq6.rs:229-236; [t], [t1], [t2] are FROBENIUS_COEFF_FQ2_C1, _FQ6_C1 and _FQ6_C2 *)
Definition f6_frobenius (t : list F) (t1 t2 : list E) (power : nat) (s : ext3 E) : ext3 E :=
  let c0 := f2_frobenius K t power (h0 s) in
  let c1 := f2_frobenius K t power (h1 s) in
  let c2 := f2_frobenius K t power (h2 s) in
  Ext3 c0 (f2_mul_assign K c1 (nth (power mod 6) t1 (f2_zero K))) (f2_mul_assign K c2 (nth (power mod 6) t2 (f2_zero K))).
(** fq6.rs:239-254 *)
Definition f6_nonresidue (s : ext3 E) : ext3 E := Ext3 (nr (h2 s)) (h0 s) (h1 s).
(** fq6.rs:256-282 *)
Definition f6_mul_by_1 (s : ext3 E) (c1 : E) : ext3 E :=
  let b_b := h1 s * c1 in
  let tmp := h1 s + h2 s in
  let t1 := c1 * tmp in
  let t1 := t1 - b_b in
  let t1 := nr t1 in
  let tmp := h0 s + h1 s in
  let t2 := c1 * tmp in
  let t2 := t2 - b_b in
  Ext3 t1 t2 b_b.
(** fq6.rs:284-325 *)
Definition f6_mul_by_01 (s : ext3 E) (c0 c1 : E) : ext3 E :=
  let a_a := h0 s * c0 in
  let b_b := h1 s * c1 in
  let tmp := h1 s + h2 s in
  let t1 := c1 * tmp in
  let t1 := t1 - b_b in
  let t1 := nr t1 in
  let t1 := t1 + a_a in
  let tmp := h0 s + h2 s in
  let t3 := c0 * tmp in
  let t3 := t3 - a_a in
  let t3 := t3 + b_b in
  let t2 := c0 + c1 in
  let tmp := h0 s + h1 s in
  let t2 := t2 * tmp in
  let t2 := t2 - a_a in
  let t2 := t2 - b_b in
  Ext3 t1 t2 t3.
(** fq6.rs:327-375 *)
Definition f6_invert (s : ext3 E) : option (ext3 E) :=
  let c0 := nr (h2 s) in
  let c0 := c0 * h1 s in
  let c0 := f2_neg K c0 in
  let c0s := sq (h0 s) in
  let c0 := c0 + c0s in
  let c1 := sq (h2 s) in
  let c1 := nr c1 in
  let c01 := h0 s * h1 s in
  let c1 := c1 - c01 in
  let c2 := sq (h1 s) in
  let c02 := h0 s * h2 s in
  let c2 := c2 - c02 in
  let tmp1 := h2 s * c1 in
  let tmp2 := h1 s * c2 in
  let tmp1 := tmp1 + tmp2 in
  let tmp1 := nr tmp1 in
  let tmp2 := h0 s * c0 in
  let tmp1 := tmp1 + tmp2 in
  match f2_invert K tmp1 with
  | None => None
  | Some t => Some (Ext3 (t * c0) (t * c1) (t * c2))
  end.
(** fq6.rs:387-405, :25-29 *)
Definition f6_zero : ext3 E := Ext3 (f2_zero K) (f2_zero K) (f2_zero K).
Definition f6_one : ext3 E := Ext3 (f2_one K) (f2_zero K) (f2_zero K).
Definition f6_is_zero (s : ext3 E) : bool := f2_is_zero K (h0 s) && f2_is_zero K (h1 s).
Definition f6_eqb (s o : ext3 E) : bool := f2_eqb K (h0 s) (h0 o) && f2_eqb K (h1 s) (h1 o) && f2_eqb K (h2 s) (h2 o).
Definition f6_base : base (ext3 E) := Base f6_zero f6_one f6_add f6_sub f6_mul f6_neg f6_square_assign f6_invert f6_eqb.
End Fq6.

Section Fq12.
Context {F : Type}.
Variable K : base F.
Local Notation E := (ext2 F).
Local Notation E6 := (ext3 E).
Local Notation E12 := (ext2 E6).
Local Notation "x + y" := (f6_add K x y).
Local Notation "x - y" := (f6_sub K x y).
Local Notation "x * y" := (f6_mul K x y).
Local Notation nr := (f6_nonresidue K).
(** fq12.rs:83-95 *)
Definition f12_mul_assign (s o : E12) : E12 :=
  let t0 := e0 s * e0 o in
  let t1 := e1 s * e1 o in
  let t2 := e0 o + e1 o in
  let c1 := e1 s + e0 s in
  let c1 := c1 * t2 in
  let c1 := c1 - t0 in
  let c1 := c1 - t1 in
  let t1 := nr t1 in
  Ext2 (t0 + t1) c1.
(** fq12.rs:97-112 *)
Definition f12_square_assign (s : E12) : E12 :=
  let ab := e0 s * e1 s in
  let c0c1 := e0 s + e1 s in
  let c0 := nr (e1 s) in
  let c0 := c0 + e0 s in
  let c0 := c0 * c0c1 in
  let c0 := c0 - ab in
  let c1 := ab + ab in
  let ab := nr ab in
  let c0 := c0 - ab in
  Ext2 c0 c1.
(** fq12.rs:114-163 *)
Definition f12_double (s : E12) : E12 := Ext2 (f6_double K (e0 s)) (f6_double K (e1 s)).
Definition f12_add (s o : E12) : E12 := Ext2 (e0 s + e0 o) (e1 s + e1 o).
Definition f12_sub (s o : E12) : E12 := Ext2 (e0 s - e0 o) (e1 s - e1 o).
Definition f12_mul (s o : E12) : E12 := f12_mul_assign o s.
Definition f12_neg (s : E12) : E12 := Ext2 (f6_neg K (e0 s)) (f6_neg K (e1 s)).
Definition f12_conjugate (s : E12) : E12 := Ext2 (e0 s) (f6_neg K (e1 s)).
(** fq12.rs:172-179; [t12] is FROBENIUS_COEFF_FQ12_C1 *)
Definition f12_frobenius (t : list F) (t1 t2 t12 : list E) (power : nat) (s : E12) : E12 :=
  let c0 := f6_frobenius K t t1 t2 power (e0 s) in
  let c1 := f6_frobenius K t t1 t2 power (e1 s) in
  let g := nth (power mod 12) t12 (f2_zero K) in
  Ext2 c0 (Ext3 (f2_mul_assign K (h0 c1) g) (f2_mul_assign K (h1 c1) g) (f2_mul_assign K (h2 c1) g)).
(** fq12.rs:181-194 *)
Definition f12_mul_by_014 (s : E12) (c0 c1 c4 : E) : E12 :=
  let aa := f6_mul_by_01 K (e0 s) c0 c1 in
  let bb := f6_mul_by_1 K (e1 s) c4 in
  let o := f2_add K c1 c4 in
  let d1 := e1 s + e0 s in
  let d1 := f6_mul_by_01 K d1 c0 o in
  let d1 := d1 - aa in
  let d1 := d1 - bb in
  let d0 := nr bb in
  Ext2 (d0 + aa) d1.
(** fq12.rs:196-211 *)
Definition f12_mul_by_034 (s : E12) (c0 c3 c4 : E) : E12 :=
  let t0 := Ext3 (f2_mul K (h0 (e0 s)) c0) (f2_mul K (h1 (e0 s)) c0) (f2_mul K (h2 (e0 s)) c0) in
  let t1 := f6_mul_by_01 K (e1 s) c3 c4 in
  let o := f2_add K c0 c3 in
  let t2 := e0 s + e1 s in
  let t2 := f6_mul_by_01 K t2 o c4 in
  let t2 := t2 - t0 in
  let c1 := t2 - t1 in
  let t1 := nr t1 in
  Ext2 (t0 + t1) c1.
(** fq12.rs:213-229 *)
Definition f12_invert (s : E12) : option E12 :=
  let c0s := f6_square_assign K (e0 s) in
  let c1s := f6_square_assign K (e1 s) in
  let c1s := nr c1s in
  let c0s := c0s - c1s in
  match f6_invert K c0s with
  | None => None
  | Some t => Some (Ext2 (f6_mul_assign K t (e0 s)) (f6_neg K (f6_mul_assign K t (e1 s))))
  end.
(** fq12.rs:232-242 *)
Definition fp4_square (a0 a1 : E) : E * E :=
  let t0 := f2_square_assign K a0 in
  let t1 := f2_square_assign K a1 in
  let t2 := f2_nonresidue K t1 in
  let c0 := f2_add K t2 t0 in
  let t2 := f2_add K a0 a1 in
  let t2 := f2_square_assign K t2 in
  let t2 := f2_sub K t2 t0 in
  (c0, f2_sub K t2 t1).
(** fq12.rs:231-276 *)
Definition f12_cyclotomic_square (s : E12) : E12 :=
  let c00 := h0 (e0 s) in let c01 := h1 (e0 s) in let c02 := h2 (e0 s) in
  let c10 := h0 (e1 s) in let c11 := h1 (e1 s) in let c12 := h2 (e1 s) in
  let (t3, t4) := fp4_square c00 c11 in
  let t2 := f2_sub K t3 c00 in
  let t2 := f2_double K t2 in
  let c00 := f2_add K t2 t3 in
  let t2 := f2_add K t4 c11 in
  let t2 := f2_double K t2 in
  let c11 := f2_add K t2 t4 in
  let (t3, t4) := fp4_square c10 c02 in
  let (t5, t6) := fp4_square c01 c12 in
  let t2 := f2_sub K t3 c01 in
  let t2 := f2_double K t2 in
  let c01 := f2_add K t2 t3 in
  let t2 := f2_add K t4 c12 in
  let t2 := f2_double K t2 in
  let c12 := f2_add K t2 t4 in
  let t3 := f2_nonresidue K t6 in
  let t2 := f2_add K t3 c10 in
  let t2 := f2_double K t2 in
  let c10 := f2_add K t2 t3 in
  let t2 := f2_sub K t5 c02 in
  let t2 := f2_double K t2 in
  let c02 := f2_add K t2 t5 in
  Ext2 (Ext3 c00 c01 c02) (Ext3 c10 c11 c12).
(** fq12.rs:287-303, ct_eq :24-28 *)
Definition f12_zero : E12 := Ext2 (f6_zero K) (f6_zero K).
Definition f12_one : E12 := Ext2 (f6_one K) (f6_zero K).
Definition f12_is_zero (s : E12) : bool := f6_is_zero K (e0 s) && f6_is_zero K (e1 s).
Definition f12_eqb (s o : E12) : bool := f6_eqb K (e0 s) (e0 o) && f6_eqb K (e1 s) (e1 o).
Definition f12_base : base E12 := Base f12_zero f12_one f12_add f12_sub f12_mul f12_neg f12_square_assign f12_invert f12_eqb.
End Fq12.

(** The tables of constants, as limb vectors *)
Local Open Scope Z_scope.
(** FROBENIUS_COEFF_FQ6_C1 fq6.rs:424-502 *)
Definition frob6_c1 : list (ext2 limbs) := [
  Ext2 (L4 0xd35d438dc58f0d9d 0x0a78eb28f5c70b3d 0x666ea36f7879462c 0x0e0a77c19a07df2f) (L4 0x0 0x0 0x0 0x0);
  Ext2 (L4 0xb5773b104563ab30 0x347f91c8a9aa6454 0x7a007127242e0991 0x1956bcd8118214ec) (L4 0x6e849f1ea0aa4757 0xaa1c7b6d89f89141 0xb6e713cdfae0ca3a 0x26694fbb4e82ebc3);
  Ext2 (L4 0x3350c88e13e80b9c 0x7dce557cdb5e56b9 0x6001b4b8b615564a 0x2682e617020217e0) (L4 0x0 0x0 0x0 0x0);
  Ext2 (L4 0xc9af22f716ad6bad 0xb311782a4aa662b2 0x19eeaf64e248c7f4 0x20273e77e3439f82) (L4 0xacc02860f7ce93ac 0x3933d5817ba76b4c 0x69e6188b446c8467 0x0a46036d4417cc55);
  Ext2 (L4 0x71930c11d782e155 0xa6bb947cffbe3323 0xaa303344d4741444 0x2c3b3f0d26594943) (L4 0x0 0x0 0x0 0x0);
  Ext2 (L4 0xf91aba2654e8e3b1 0x4771cb2fdc92ce12 0xdcb16ae0fc8bdf35 0x274aa195cd9d8be4) (L4 0x5cfc50ae18811f8b 0x4bb28433cb43988c 0x4fd35f13c3b56219 0x301949bd2fc8883a)].
(** FROBENIUS_COEFF_FQ6_C2 fq6.rs:504-580 *)
Definition frob6_c2 : list (ext2 limbs) := [
  Ext2 (L4 0xd35d438dc58f0d9d 0x0a78eb28f5c70b3d 0x666ea36f7879462c 0x0e0a77c19a07df2f) (L4 0x0 0x0 0x0 0x0);
  Ext2 (L4 0x7361d77f843abe92 0xa5bb2bd3273411fb 0x9c941f314b3e2399 0x15df9cddbb9fd3ec) (L4 0x5dddfd154bd8c949 0x62cb29a5a4445b60 0x37bc870a0c7dd2b9 0x24830a9d3171f0fd);
  Ext2 (L4 0x71930c11d782e155 0xa6bb947cffbe3323 0xaa303344d4741444 0x2c3b3f0d26594943) (L4 0x0 0x0 0x0 0x0);
  Ext2 (L4 0x448a93a57b6762df 0xbfd62df528fdeadf 0xd858f5d00e9bd47a 0x06b03d4d3476ec58) (L4 0x2b19daf4bcc936d1 0xa1a54e7a56f4299f 0xb533eee05adeaef1 0x170c812b84dda0b2);
  Ext2 (L4 0x3350c88e13e80b9c 0x7dce557cdb5e56b9 0x6001b4b8b615564a 0x2682e617020217e0) (L4 0x0 0x0 0x0 0x0);
  Ext2 (L4 0x843420f1d8dadbd6 0x31f010c9183fcdb2 0x436330b527a76049 0x13d47447f11adfe4) (L4 0xef494023a857fa74 0x2a925d02d5ab101a 0x83b015829ba62f10 0x2539111d0c13aea3)].
(** FROBENIUS_COEFF_FQ12_C1 fq12.rs:322-474 *)
Definition frob12_c1 : list (ext2 limbs) := [
  Ext2 (L4 0xd35d438dc58f0d9d 0x0a78eb28f5c70b3d 0x666ea36f7879462c 0x0e0a77c19a07df2f) (L4 0x0 0x0 0x0 0x0);
  Ext2 (L4 0xaf9ba69633144907 0xca6b1d7387afb78a 0x11bded5ef08a2087 0x02f34d751a1f3a7c) (L4 0xa222ae234c492d72 0xd00f02a4565de15b 0xdc2ff3a253dfc926 0x10a75716b3899551);
  Ext2 (L4 0xca8d800500fa1bf2 0xf0c5d61468b39769 0x0e201271ad0d4418 0x04290f65bad856e6) (L4 0x0 0x0 0x0 0x0);
  Ext2 (L4 0x365316184e46d97d 0x0af7129ed4c96d9f 0x659da72fca1009b5 0x08116d8983a20d23) (L4 0xb1df4af7c39c1939 0x3d9f02878a73bf7f 0x9b2220928caf0ae0 0x26684515eff054a6);
  Ext2 (L4 0x3350c88e13e80b9c 0x7dce557cdb5e56b9 0x6001b4b8b615564a 0x2682e617020217e0) (L4 0x0 0x0 0x0 0x0);
  Ext2 (L4 0x86b76f821b329076 0x408bf52b4d19b614 0x53dfb9d0d985e92d 0x051e20146982d2a7) (L4 0x0fbc9cd47752ebc7 0x6d8fffe33415de24 0xbef22cf038cf41b9 0x15c0edff3c66bf54);
  Ext2 (L4 0x68c3488912edefaa 0x8d087f6872aabf4f 0x51e1a24709081231 0x2259d6b14729c0fa) (L4 0x0 0x0 0x0 0x0);
  Ext2 (L4 0x8c84e580a568b440 0xcd164d1de0c21302 0xa692585790f737d5 0x2d7100fdc71265ad) (L4 0x99fdddf38c33cfd5 0xc77267ed1213e931 0xdc2052142da18f36 0x1fbcf75c2da80ad7);
  Ext2 (L4 0x71930c11d782e155 0xa6bb947cffbe3323 0xaa303344d4741444 0x2c3b3f0d26594943) (L4 0x0 0x0 0x0 0x0);
  Ext2 (L4 0x05cd75fe8a3623ca 0x8c8a57f293a85cee 0x52b29e86b7714ea8 0x2852e0e95d8f9306) (L4 0x8a41411f14e0e40e 0x59e26809ddfe0b0d 0x1d2e2523f4d24d7d 0x09fc095cf1414b83);
  Ext2 (L4 0x08cfc388c494f1ab 0x19b315148d1373d4 0x584e90fdcb6c0213 0x09e1685bdf2f8849) (L4 0x0 0x0 0x0 0x0);
  Ext2 (L4 0xb5691c94bd4a6cd1 0x56f575661b581478 0x64708be5a7fb6f30 0x2b462e5e77aecd82) (L4 0x2c63ef42612a1180 0x29f16aae345bec69 0xf95e18c648b216a4 0x1aa36073a4cae0d4)].
(** FROBENIUS_COEFF_FQ2_C1 fq2.rs:607-623 *)
Definition frob2_c1 : list limbs := [(L4 0xd35d438dc58f0d9d 0x0a78eb28f5c70b3d 0x666ea36f7879462c 0x0e0a77c19a07df2f); (L4 0x68c3488912edefaa 0x8d087f6872aabf4f 0x51e1a24709081231 0x2259d6b14729c0fa)].
(** XI_TO_Q_MINUS_1_OVER_2 engine.rs:28-41 *)
Definition xi_half : ext2 limbs := Ext2 (L4 0xe4bbdd0c2936b629 0xbb30f162e133bacb 0x31a9d1b6f9645366 0x253570bea500f8dd) (L4 0xa1d77ce45ffe77c7 0x07affd117826d1db 0x6d16bd27bb7edc6b 0x2c87200285defecc).
(** NEGATIVE_ONE fq.rs:64-69 *)
Definition negative_one : limbs := L4 0x68c3488912edefaa 0x8d087f6872aabf4f 0x51e1a24709081231 0x2259d6b14729c0fa.
(** Fq2::from_bytes fq2.rs:133-145 on 64 bytes; [c0.unwrap()] panics before the
    result is made; from_repr :550-555 has the same effect *)
Definition f2_from_bytes (bytes : list Z) : res (option (ext2 limbs)) :=
  match from_repr fq_params (firstn 32 bytes), from_repr fq_params (skipn 32 bytes) with
  | Some c0, Some c1 => Ok (Some (Ext2 c0 c1))
  | _, _ => Panic
  end.
(** to_bytes fq2.rs:149-156 *)
Definition f2_to_bytes (s : ext2 limbs) : list Z := to_repr fq_params (e0 s) ++ to_repr fq_params (e1 s).
(** the constants a function needs, over any base field *)
Record tables (F : Type) := Tables { t_2 : list F; t_6a : list (ext2 F); t_6b : list (ext2 F); t_12 : list (ext2 F); t_half : ext2 F }.
Arguments Tables {F}. Arguments t_2 {F}. Arguments t_6a {F}. Arguments t_6b {F}. Arguments t_12 {F}. Arguments t_half {F}.
Definition limb_tables : tables limbs := Tables frob2_c1 frob6_c1 frob6_c2 frob12_c1 xi_half.
Definition map2 {A B} (f : A -> B) (x : ext2 A) : ext2 B := Ext2 (f (e0 x)) (f (e1 x)).
Definition map_tables {A B} (f : A -> B) (t : tables A) : tables B :=
  Tables (map f (t_2 t)) (map (map2 f) (t_6a t)) (map (map2 f) (t_6b t)) (map (map2 f) (t_12 t)) (map2 f (t_half t)).
Definition frob12 {F} (K : base F) (t : tables F) (power : nat) (s : ext2 (ext3 (ext2 F))) : ext2 (ext3 (ext2 F)) :=
  f12_frobenius K (t_2 t) (t_6a t) (t_6b t) (t_12 t) power s.
