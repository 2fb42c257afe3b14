(** Serialisation: byte readers and writers, field elements, affine points,
    expressions, selector assignments.

    A byte is an integer; a writer is the list of bytes it appends (writing to a
    [Vec<u8>] never fails, halo2curves/src/io.rs:93-108); a reader consumes a
    prefix of a byte list ([Read for &[u8]], io.rs:13-33).

    Simplifications: the texts of error messages are dropped; an [Fr] inside an
    expression is the value its limb vector stands for ([fr_limbs] and [fr_value]
    go through the code's own conversions); the recursion of
    [Expression::read] carries the number of stack frames left, and running out
    of them is a crash. *)
From Coq Require Import ZArith List Bool.
From Verif Require Import Base Moduli Field LimbModel Halo2Model SelectorModel.
Import ListNotations.
Local Open Scope Z_scope.

(** [io::Result] of a read that may also panic *)
Inductive ior (A : Type) := IOk (a : A) (rest : list Z) | IErr | IPanic.
Arguments IOk {A} _ _.
Arguments IErr {A}.
Arguments IPanic {A}.
Definition reader A := list Z -> ior A.
Definition iret {A} (a : A) : reader A := fun b => IOk a b.
Definition ifail {A} : reader A := fun _ => IErr.
Definition ipanic {A} : reader A := fun _ => IPanic.
(** the [?] operator *)
Definition ibind {A B} (r : reader A) (f : A -> reader B) : reader B := fun b =>
  match r b with IOk a rest => f a rest | IErr => IErr | IPanic => IPanic end.
Notation "'do!' x '<-' e ';' k" := (ibind e (fun x => k))
  (at level 200, x pattern, e at level 100, k at level 200, right associativity).
(** [Result::unwrap] *)
Definition iunwrap {A} (r : reader A) : reader A := fun b =>
  match r b with IErr => IPanic | x => x end.
(** a computation that does not read *)
Definition ilift {A} (x : res A) : reader A :=
  match x with Ok a => iret a | Panic => ipanic end.
(** [(0..n).map(|_| r).collect::<Result<Vec<_>, _>>()] *)
Fixpoint irepeat {A} (n : nat) (r : reader A) : reader (list A) :=
  match n with
  | O => iret []
  | S n => do! x <- r; do! l <- irepeat n r; iret (x :: l)
  end.

(** io.rs:14-32 *)
Definition read_exact (n : nat) : reader (list Z) := fun b =>
  if Nat.ltb (length b) n then IErr else IOk (firstn n b) (skipn n b).

(** u32::to_be_bytes of a value cast to 32 bits, u32::from_be_bytes,
    i32::from_be_bytes, and the one-byte versions *)
Definition be_bytes (n : nat) (x : Z) : list Z := rev (le_bytes n x).
Definition be_value (l : list Z) : Z := le_value (rev l).
Definition u32_be (x : nat) : list Z := be_bytes 4 (Z.of_nat x).
Definition i32_be (x : Z) : list Z := be_bytes 4 x.
Definition read_u32 : reader nat := do! b <- read_exact 4; iret (Z.to_nat (be_value b)).
Definition read_i32 : reader Z :=
  do! b <- read_exact 4; let v := be_value b in iret (if v <? 2 ^ 31 then v else v - 2 ^ 32).
Definition read_u8 : reader Z := do! b <- read_exact 1; iret (be_value b).

(** halo2_proofs/src/helpers.rs:12-24 *)
Inductive serde_format := Processed | RawBytes | RawBytesUnchecked.

Section Field.
Variable P : params.
(** derive/field.rs:350-357 *)
Definition read_limb : reader Z := do! b <- read_exact 8; iret (le_value b).
Definition read_raw_unchecked : reader limbs :=
  do! a <- iunwrap read_limb; do! b <- iunwrap read_limb;
  do! c <- iunwrap read_limb; do! d <- iunwrap read_limb; iret (L4 a b c d).
(** derive/field.rs:358-369 *)
Definition read_raw : reader limbs :=
  do! a <- read_limb; do! b <- read_limb; do! c <- read_limb; do! d <- read_limb;
  let e := L4 a b c d in
  if is_less_than e (modulus P) then iret e else ifail.
(** derive/field.rs:370-375 *)
Definition write_raw (x : limbs) : list Z :=
  le_bytes 8 (l0 x) ++ le_bytes 8 (l1 x) ++ le_bytes 8 (l2 x) ++ le_bytes 8 (l3 x).
(** SerdePrimeField::read, write (helpers.rs:115-126, 133-138) *)
Definition read_field (f : serde_format) : reader limbs :=
  match f with
  | Processed => do! b <- read_exact 32; match from_repr P b with Some x => iret x | None => ifail end
  | RawBytes => read_raw
  | RawBytesUnchecked => read_raw_unchecked
  end.
Definition write_field (f : serde_format) (x : limbs) : list Z :=
  match f with Processed => to_repr P x | _ => write_raw x end.
End Field.

(** the stored form of a value and the value of a stored form *)
Definition fr_limbs (a : Fr) : limbs :=
  from_raw fr_params (L4 (lo64 (fval a)) (lo64 (Z.shiftr (fval a) 64))
                         (lo64 (Z.shiftr (fval a) 128)) (lo64 (Z.shiftr (fval a) 192))).
Definition fr_value (x : limbs) : Fr := FrZ (le_value (to_repr fr_params x)).
Definition read_fr (f : serde_format) : reader Fr := do! x <- read_field fr_params f; iret (fr_value x).
Definition write_fr (f : serde_format) (a : Fr) : list Z := write_field fr_params f (fr_limbs a).

(** Expression::write (plonk/circuit.rs:721-778) *)
Definition write_query (q : query) : list Z := u32_be (q_index q) ++ u32_be (q_col q) ++ i32_be (q_rot q).
Fixpoint write_expr (f : serde_format) (e : expr) : list Z :=
  match e with
  | EConst c => [0] ++ write_fr f c
  | ESelector s => [1] ++ u32_be (sel_index s) ++ [if sel_simple s then 1 else 0]
  | EFixed q => [2] ++ write_query q
  | EAdvice q p => [3] ++ write_query q ++ be_bytes 1 (Z.of_nat p)
  | EInstance q => [4] ++ write_query q
  | EChallenge c => [5] ++ u32_be (ch_index c) ++ be_bytes 1 (Z.of_nat (ch_phase c))
  | ENeg a => [6] ++ write_expr f a
  | ESum a b => [7] ++ write_expr f a ++ write_expr f b
  | EProd a b => [8] ++ write_expr f a ++ write_expr f b
  | EScaled a c => [9] ++ write_expr f a ++ write_fr f c
  end.
(** Expression::read (plonk/circuit.rs:780-880) *)
Definition read_query : reader query :=
  do! i <- read_u32; do! c <- read_u32; do! r <- read_i32; iret (Query i c r).
Fixpoint read_expr (stack : nat) (f : serde_format) : reader expr :=
  match stack with
  | O => ipanic
  | S n =>
      do! t <- read_u8;
      match t with
      | 0 => do! c <- iunwrap (read_fr f); iret (EConst c)
      | 1 => do! i <- read_u32; do! a <- read_u8; iret (ESelector (Sel i (negb (a =? 0))))
      | 2 => do! q <- read_query; iret (EFixed q)
      | 3 => do! q <- read_query; do! p <- read_u8; iret (EAdvice q (Z.to_nat p))
      | 4 => do! q <- read_query; iret (EInstance q)
      | 5 => do! i <- read_u32; do! p <- read_u8; iret (EChallenge (Chal i (Z.to_nat p)))
      | 6 => do! a <- read_expr n f; iret (ENeg a)
      | 7 => do! a <- read_expr n f; do! b <- read_expr n f; iret (ESum a b)
      | 8 => do! a <- read_expr n f; do! b <- read_expr n f; iret (EProd a b)
      | 9 => do! a <- read_expr n f; do! c <- read_fr f; iret (EScaled a c)
      | _ => ifail
      end
  end.

(** SelectorAssignment::write, read (compress_selectors.rs:37-58); the reader
    takes no format and unwraps the expression *)
Definition write_selassign (f : serde_format) (a : selassign) : list Z :=
  u32_be (sa_selector a) ++ u32_be (sa_combination a) ++ write_expr f (sa_expr a).
Definition read_selassign (stack : nat) : reader selassign :=
  do! s <- read_u32; do! c <- read_u32; do! e <- iunwrap (read_expr stack RawBytes);
  iret (SelAssign s c e).

(** ** Affine points.  bn256/curve.rs:24-48 instantiates derive/curve.rs for
    G1 over Fq and G2 over Fq2. *)
Record g1 := G1 { g1_x : limbs; g1_y : limbs }.
Record fq2 := Fq2 { c0 : limbs; c1 : limbs }.
Record g2 := G2 { g2_x : fq2; g2_y : fq2 }.

(** derive/curve.rs:697-706 *)
Definition g1_identity : g1 := G1 lzero lzero.
Definition is_identity (a : g1) : bool := leqb (g1_x a) lzero && leqb (g1_y a) lzero.
(** bn256/curve.rs:68 *)
Definition g1_b : limbs := from_raw fq_params (L4 3 0 0 0).
(** derive/curve.rs:744-748 *)
Definition is_on_curve (a : g1) : bool :=
  leqb (lsub fq_params (lsquare fq_params (g1_y a))
         (lmul fq_params (lsquare fq_params (g1_x a)) (g1_x a))) g1_b
  || is_identity a.

(** derive/curve.rs:636-648 *)
Definition g1_to_bytes (a : g1) : list Z :=
  if is_identity a then repeat 0 32
  else
    let sign := Z.land (Z.shiftl (Z.land (nth 0 (to_repr fq_params (g1_y a)) 0) 1) 7) 0xff in
    let xb := to_repr fq_params (g1_x a) in
    upd xb 31 (Z.lor (nth 31 xb 0) sign).
(** derive/curve.rs:604-630 *)
Definition g1_from_bytes (b : list Z) : option g1 :=
  let ysign := Z.shiftr (nth 31 b 0) 7 in
  let tmp := upd b 31 (Z.land (nth 31 b 0) 0x7f) in
  match from_repr fq_params tmp with
  | None => None
  | Some x =>
      if leqb x lzero && (ysign =? 0) then Some g1_identity
      else
        let x3 := lmul fq_params (lsquare fq_params x) x in
        match fq_sqrt (ladd fq_params x3 g1_b) with
        | None => None
        | Some y =>
            let sign := Z.land (nth 0 (to_repr fq_params y) 0) 1 in
            let y := if negb (ysign =? sign) then lneg fq_params y else y in
            Some (G1 x y)
        end
  end.

(** derive/curve.rs:657-667 *)
Definition g1_from_raw_bytes (b : list Z) : option g1 :=
  if negb (Nat.eqb (length b) 64) then None
  else
    match from_raw_bytes fq_params (firstn 32 b), from_raw_bytes fq_params (firstn 32 (skipn 32 b)) with
    | Some x, Some y => let r := G1 x y in if is_on_curve r then Some r else None
    | _, _ => None
    end.
(** derive/curve.rs:673-685 *)
Definition g1_write_raw (a : g1) : list Z := write_raw (g1_x a) ++ write_raw (g1_y a).
Definition g1_read_raw : reader g1 :=
  do! x <- read_raw fq_params; do! y <- read_raw fq_params; iret (G1 x y).
Definition g1_read_raw_unchecked : reader g1 :=
  do! x <- read_raw_unchecked; do! y <- read_raw_unchecked; iret (G1 x y).
(** SerdeCurveAffine::read, write (helpers.rs:89-104, 26-34) *)
Definition read_g1 (f : serde_format) : reader g1 :=
  match f with
  | Processed => do! b <- read_exact 32; match g1_from_bytes b with Some a => iret a | None => ifail end
  | RawBytes => g1_read_raw
  | RawBytesUnchecked => g1_read_raw_unchecked
  end.
Definition write_g1 (f : serde_format) (a : g1) : list Z :=
  match f with Processed => g1_to_bytes a | _ => g1_write_raw a end.

(** bn256/fq2.rs:598-606 and derive/curve.rs:673-685 for G2; the compressed form
    of G2 is not modelled (the project only uses RawBytes) *)
Definition fq2_write_raw (x : fq2) : list Z := write_raw (c0 x) ++ write_raw (c1 x).
Definition fq2_read_raw : reader fq2 :=
  do! a <- read_raw fq_params; do! b <- read_raw fq_params; iret (Fq2 a b).
Definition g2_write_raw (a : g2) : list Z := fq2_write_raw (g2_x a) ++ fq2_write_raw (g2_y a).
Definition g2_read_raw : reader g2 := do! x <- fq2_read_raw; do! y <- fq2_read_raw; iret (G2 x y).

(** ** Commitment parameters (poly/kzg/commitment.rs:22-30) *)
Record kzg := Kzg { kz_k : Z; kz_n : Z; kz_g : list g1; kz_gl : list g1; kz_g2 : g2; kz_sg2 : g2 }.
(** write_custom with RawBytes (poly/kzg/commitment.rs:155-171, 308-310) *)
Definition write_kzg (p : kzg) : list Z :=
  le_bytes 4 (kz_k p) ++ flat_map g1_write_raw (kz_g p) ++ flat_map g1_write_raw (kz_gl p)
  ++ g2_write_raw (kz_g2 p) ++ g2_write_raw (kz_sg2 p).
(** shrink (poly/kzg/commitment.rs:282-288): truncates the bases, keeps k and n.
    [1 << k] is a usize here. *)
Definition shrink (p : kzg) (k : Z) : res kzg :=
  if k <=? kz_k p then
    let n := Z.to_nat (2 ^ k) in
    Ok (Kzg (kz_k p) (kz_n p) (firstn n (kz_g p)) (firstn n (kz_gl p)) (kz_g2 p) (kz_sg2 p))
  else Panic.
(** [1 << k] for an i32 literal and a u32 [k], then [as u64]
    (ckb_bf_base/src/utils.rs:86,101): the shift amount is checked in the debug
    profile and masked to five bits in the release profile; the sign bit is
    extended by the cast *)
Definition shl_i32_as_u64 (pr : profile) (k : Z) : res Z :=
  let v k := let x := 2 ^ k in (if x <? 2 ^ 31 then x else x - 2 ^ 32) mod 2 ^ 64 in
  if k <? 32 then Ok (v k) else match pr with Checked => Panic | Wrapping => Ok (v (k mod 32)) end.
(** ckb_bf_base/src/lib.rs:17 *)
Definition SHRINK_K : Z := 1.
(** read_verifier_params (ckb_bf_base/src/utils.rs:77-105) *)
Definition read_verifier_params (pr : profile) : reader kzg :=
  do! kb <- read_exact 4;
  let k := le_value kb in
  do! n <- ilift (shl_i32_as_u64 pr k);
  let shrink_n := Z.to_nat (2 ^ SHRINK_K) in
  do! g <- irepeat shrink_n g1_read_raw;
  do! gl <- irepeat shrink_n g1_read_raw;
  do! a <- g2_read_raw;
  do! b <- g2_read_raw;
  iret (Kzg k n g gl a b).
