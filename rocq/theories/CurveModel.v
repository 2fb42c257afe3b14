(** Group arithmetic of the curve macro, halo2curves/src/derive/curve.rs.

    The macro is instantiated for G1 over Fq and for G2 over Fq2
    (bn256/curve.rs:24-48).  As in the macro, the base field is a parameter; it is
    given by its operations ([base]), which can be those on field values or
    those on limb vectors.  [conditional_select(a, b, c)] is b if c and a otherwise;
    [Choice] is a boolean and [CtOption] an option. *)
From Coq Require Import List Bool ZArith.
From Verif Require Import Base.
Import ListNotations.

(** A base field by its operations. *)
Record base (F : Type) := Base {
  bzero : F; bone : F; badd : F -> F -> F; bsub : F -> F -> F; bmul : F -> F -> F; bopp : F -> F; bsquare : F -> F; binvert : F -> option F; beqb : F -> F -> bool
}.
Arguments Base {F}.
Arguments bzero {F}. Arguments bone {F}. Arguments badd {F}. Arguments bsub {F}. Arguments bmul {F}. Arguments bopp {F}. Arguments bsquare {F}. Arguments binvert {F}. Arguments beqb {F}.

(** :157-168 *)
Record jac (F : Type) := Jac { jx : F; jy : F; jz : F }.
Arguments Jac {F}. Arguments jx {F}. Arguments jy {F}. Arguments jz {F}.
Record aff (F : Type) := Aff { ax : F; ay : F }.
Arguments Aff {F}. Arguments ax {F}. Arguments ay {F}.

Section Curve.
Context {F : Type}.
Variables (K : base F) (b : F).
Local Notation "x + y" := (badd K x y).
Local Notation "x - y" := (bsub K x y).
Local Notation "x * y" := (bmul K x y).
Local Notation "- x" := (bopp K x).
Definition bis_zero (x : F) : bool := beqb K x (bzero K).

(** :454-464 *)
Definition jac_identity : jac F := Jac (bzero K) (bzero K) (bzero K).
Definition jac_is_identity (p : jac F) : bool := bis_zero (jz p).
(** :697-715 *)
Definition aff_identity : aff F := Aff (bzero K) (bzero K).
Definition aff_is_identity (p : aff F) : bool := bis_zero (ax p) && bis_zero (ay p).
Definition aff_to_curve (p : aff F) : jac F := Jac (ax p) (ay p) (if aff_is_identity p then bzero K else bone K).

(** ct_eq :273-294 *)
Definition jac_eq (p q : jac F) : bool :=
  let z := bsquare K (jz q) in
  let x1 := jx p * z in
  let z := z * jz q in
  let y1 := jy p * z in
  let z := bsquare K (jz p) in
  let x2 := jx q * z in
  let z := z * jz p in
  let y2 := jy q * z in
  (jac_is_identity p && jac_is_identity q) || (negb (jac_is_identity p) && negb (jac_is_identity q) && beqb K x1 x2 && beqb K y1 y2).
(** ct_eq :581-588 *)
Definition aff_eq (p q : aff F) : bool :=
  (aff_is_identity p && aff_is_identity q) || (negb (aff_is_identity p) && negb (aff_is_identity q) && beqb K (ax p) (ax q) && beqb K (ay p) (ay q)).

(** is_on_curve :335-343, new_jacobian :353-356 *)
Definition jac_on_curve (p : jac F) : bool :=
  let z2 := bsquare K (jz p) in
  let z4 := bsquare K z2 in
  let z6 := z4 * z2 in
  beqb K (bsquare K (jy p) - bsquare K (jx p) * jx p) (z6 * b) || bis_zero (jz p).
Definition new_jacobian (x y z : F) : option (jac F) := let p := Jac x y z in if jac_on_curve p then Some p else None.
(** :744-748, from_xy :754-759 *)
Definition aff_on_curve (p : aff F) : bool := beqb K (bsquare K (ay p) - bsquare K (ax p) * ax p) b || aff_is_identity p.
Definition from_xy (x y : F) : option (aff F) := let p := Aff x y in if aff_on_curve p then Some p else None.

(** to_affine :400-413 *)
Definition jac_to_affine (p : jac F) : aff F :=
  let zinv := match binvert K (jz p) with Some z => z | None => bzero K end in
  let zinv2 := bsquare K zinv in
  let x := jx p * zinv2 in
  let zinv3 := zinv2 * zinv in
  let y := jy p * zinv3 in
  if bis_zero zinv then aff_identity else Aff x y.

(** batch_normalize :363-398.  The first loop leaves the product of the earlier
    non-zero z in q.x; [normal_forth] returns these products and the last one. *)
Fixpoint normal_forth (acc : F) (p : list (jac F)) : list F * F :=
  match p with
  | [] => ([], acc)
  | p :: ps => let acc' := if jac_is_identity p then acc else acc * jz p in let (qs, a) := normal_forth acc' ps in (acc :: qs, a)
  end.
(** the second loop, on the reversed lists *)
Fixpoint normal_back (acc : F) (p : list (jac F)) (q : list F) : list (aff F) :=
  match p, q with
  | p :: ps, qx :: qs =>
      let skip := jac_is_identity p in
      let tmp := qx * acc in
      let acc' := if skip then acc else acc * jz p in
      let tmp2 := bsquare K tmp in
      let tmp3 := tmp2 * tmp in
      let r := Aff (jx p * tmp2) (jy p * tmp3) in
      (if skip then aff_identity else r) :: normal_back acc' ps qs
  | _, _ => []
  end.
Definition batch_normalize (p : list (jac F)) (q_len : nat) : res (list (aff F)) :=
  if Nat.eqb (length p) q_len then
    let (qs, acc) := normal_forth (bone K) p in
    match binvert K acc with
    | None => Panic
    | Some acc => Ok (rev (normal_back acc (rev p) (rev qs)))
    end
  else Panic.

(** double :423-448 *)
Definition jac_double (p : jac F) : jac F :=
  let a := bsquare K (jx p) in
  let b := bsquare K (jy p) in
  let c := bsquare K b in
  let d := jx p + b in
  let d := bsquare K d in
  let d := d - a - c in
  let d := d + d in
  let e := a + a + a in
  let f := bsquare K e in
  let z3 := jz p * jy p in
  let z3 := z3 + z3 in
  let x3 := f - (d + d) in
  let c := c + c in
  let c := c + c in
  let c := c + c in
  let y3 := e * (d - x3) - c in
  if jac_is_identity p then jac_identity else Jac x3 y3 z3.

(** Neg :778-796, :938-955 *)
Definition jac_neg (p : jac F) : jac F := Jac (jx p) (- jy p) (jz p).
Definition aff_neg (p : aff F) : aff F := Aff (ax p) (- ay p).

(** Add of two Jacobian points :810-852 *)
Definition jac_add (p q : jac F) : jac F :=
  if jac_is_identity p then q
  else if jac_is_identity q then p
  else
    let z1z1 := bsquare K (jz p) in
    let z2z2 := bsquare K (jz q) in
    let u1 := jx p * z2z2 in
    let u2 := jx q * z1z1 in
    let s1 := jy p * z2z2 * jz q in
    let s2 := jy q * z1z1 * jz p in
    if beqb K u1 u2 then
      if beqb K s1 s2 then jac_double p else jac_identity
    else
      let h := u2 - u1 in
      let i := bsquare K (h + h) in
      let j := h * i in
      let r := s2 - s1 in
      let r := r + r in
      let v := u1 * i in
      let x3 := bsquare K r - j - v - v in
      let s1 := s1 * j in
      let s1 := s1 + s1 in
      let y3 := r * (v - x3) - s1 in
      let z3 := bsquare K (jz p + jz q) - z1z1 - z2z2 in
      let z3 := z3 * h in
      Jac x3 y3 z3.
(** Add of an affine point :854-894 *)
Definition jac_add_mixed (p : jac F) (q : aff F) : jac F :=
  if jac_is_identity p then aff_to_curve q
  else if aff_is_identity q then p
  else
    let z1z1 := bsquare K (jz p) in
    let u2 := ax q * z1z1 in
    let s2 := ay q * z1z1 * jz p in
    if beqb K (jx p) u2 then
      if beqb K (jy p) s2 then jac_double p else jac_identity
    else
      let h := u2 - jx p in
      let hh := bsquare K h in
      let i := hh + hh in
      let i := i + i in
      let j := h * i in
      let r := s2 - jy p in
      let r := r + r in
      let v := jx p * i in
      let x3 := bsquare K r - j - v - v in
      let j := jy p * j in
      let j := j + j in
      let y3 := r * (v - x3) - j in
      let z3 := bsquare K (jz p + h) - z1z1 - hh in
      Jac x3 y3 z3.
(** Add of two affine points :965-1001 *)
Definition aff_add (p q : aff F) : jac F :=
  if aff_is_identity p then aff_to_curve q
  else if aff_is_identity q then aff_to_curve p
  else
    if beqb K (ax p) (ax q) then
      if beqb K (ay p) (ay q) then jac_double (aff_to_curve p) else jac_identity
    else
      let h := ax q - ax p in
      let hh := bsquare K h in
      let i := hh + hh in
      let i := i + i in
      let j := h * i in
      let r := ay q - ay p in
      let r := r + r in
      let v := ax p * i in
      let x3 := bsquare K r - j - v - v in
      let j := ay p * j in
      let j := j + j in
      let y3 := r * (v - x3) - j in
      let z3 := h + h in
      Jac x3 y3 z3.
(** the other additions and the subtractions :896-910, :957-963, :1003-1017 *)
Definition jac_sub (p q : jac F) : jac F := jac_add p (jac_neg q).
Definition jac_sub_mixed (p : jac F) (q : aff F) : jac F := jac_add_mixed p (aff_neg q).
Definition jac_add_mixed' (p : aff F) (q : jac F) : jac F := jac_add_mixed q p.
Definition aff_sub (p q : aff F) : jac F := aff_add p (aff_neg q).
Definition jac_sub_mixed' (p : aff F) (q : jac F) : jac F := jac_add_mixed' p (jac_neg q).
(** Sum :798-808 *)
Definition jac_sum (l : list (jac F)) : jac F := fold_left jac_add l jac_identity.

(** The bits of a byte, most significant first, and of the scalar's little-endian
    bytes from the last byte to the first :924-928 *)
Definition byte_bits (x : Z) : list bool := map (fun i => Z.testbit x i) [7; 6; 5; 4; 3; 2; 1; 0]%Z.
Definition scalar_bits (repr : list Z) : list bool := flat_map byte_bits (rev repr).
(** Mul :914-936, :1019-1042 *)
Definition jac_mul (p : jac F) (repr : list Z) : jac F :=
  fold_left (fun acc (bit : bool) => let acc := jac_double acc in if bit then jac_add acc p else acc) (scalar_bits repr) jac_identity.
Definition aff_mul (p : aff F) (repr : list Z) : jac F :=
  fold_left (fun acc (bit : bool) => let acc := jac_double acc in if bit then jac_add_mixed acc p else acc) (scalar_bits repr) jac_identity.
End Curve.
