(** The structured reference string and commitments
    (halo2_proofs/src/poly/kzg/commitment.rs, arithmetic.rs [g_to_lagrange]).

    The two groups are any types with the operations the code uses; affine and
    projective coordinates are the same point. *)
From Coq Require Import ZArith List Arith Bool.
From Verif Require Import Base Moduli Field LimbModel SerdeModel DomainModel ArithModel.
Import ListNotations.
Local Open Scope Z_scope.

(** Fr::ROOT_OF_UNITY_INV, Fr::TWO_INV (bn256/fr.rs:67-117) *)
Definition ROOT_INV : Fr := fr_value fr_root_of_unity_inv.
Definition TWO_INV : Fr := fr_value fr_two_inv.

(** poly/kzg/commitment.rs:24-31 *)
Record srs (G1 G2 : Type) := Srs {
  sr_k : Z; sr_n : Z; sr_g : list G1; sr_gl : list G1; sr_g2 : G2; sr_s_g2 : G2 }.
Arguments Srs {G1 G2}.
Arguments sr_k {G1 G2}.
Arguments sr_n {G1 G2}.
Arguments sr_g {G1 G2}.
Arguments sr_gl {G1 G2}.
Arguments sr_g2 {G1 G2}.
Arguments sr_s_g2 {G1 G2}.

Fixpoint map_res {A B} (f : A -> res B) (l : list A) : res (list B) :=
  match l with
  | [] => Ok []
  | a :: l => let! b := f a in let! bs := map_res f l in Ok (b :: bs)
  end.

Section Srs.
Context {G1 G2 : Type}.
Variables (zero : G1) (add sub : G1 -> G1 -> G1) (scale : Fr -> G1 -> G1) (gen : G1).
Variables (scale2 : Fr -> G2 -> G2) (gen2 : G2).

(** [unsafe_setup_with_s] (poly/kzg/commitment.rs:76-142).  [invert().unwrap()]
    panics on zero. *)
Definition setup (k : Z) (s : Fr) : res (srs G1 G2) :=
  if k <=? S_ then
    let n := 2 ^ k in
    let idx := seq 0 (Z.to_nat n) in
    let g := map (fun i => scale (pow_vartime s (Z.of_nat i)) gen) idx in
    let root := squarings (Z.to_nat (S_ - k)) (finv ROOT_INV) in
    let n_inv := finv (FrZ n) in
    let multiplier := ((pow_vartime s n - f1) * n_inv)%F in
    let! gl := map_res (fun i =>
        let root_pow := pow_vartime root (Z.of_nat i) in
        if feqb (s - root_pow)%F f0 then Panic
        else Ok (scale (multiplier * root_pow * finv (s - root_pow))%F gen)) idx in
    Ok (Srs k n g gl gen2 (scale2 s gen2))
  else Panic.

(** [g_to_lagrange] (arithmetic.rs:326-350) *)
Definition g_to_lagrange (g : list G1) (k : Z) : res (list G1) :=
  let n_inv := pow_vartime TWO_INV k in
  let omega_inv := squarings (Z.to_nat (S_ - k)) ROOT_INV in
  let! g := fft add sub scale g omega_inv (Z.to_nat k) in
  Ok (map (scale n_inv) g).

(** [downsize] (poly/kzg/commitment.rs:272-280) *)
Definition downsize (p : srs G1 G2) (k : Z) : res (srs G1 G2) :=
  if k <=? sr_k p then
    let n := 2 ^ k in
    let g := firstn (Z.to_nat n) (sr_g p) in
    let! gl := g_to_lagrange g k in
    Ok (Srs k n g gl (sr_g2 p) (sr_s_g2 p))
  else Panic.
(** [shrink] (poly/kzg/commitment.rs:282-288): [k] and [n] stay *)
Definition srs_shrink (p : srs G1 G2) (k : Z) : res (srs G1 G2) :=
  if k <=? sr_k p then
    let n := Z.to_nat (2 ^ k) in
    Ok (Srs (sr_k p) (sr_n p) (firstn n (sr_g p)) (firstn n (sr_gl p)) (sr_g2 p) (sr_s_g2 p))
  else Panic.

Definition commit_with (bases : list G1) (poly : list Fr) : res G1 :=
  if (length poly <=? length bases)%nat then best_multiexp add zero poly (firstn (length poly) bases) else Panic.
(** [commit] (poly/kzg/commitment.rs:340-347) *)
Definition commit (p : srs G1 G2) (poly : list Fr) : res G1 := commit_with (sr_g p) poly.
(** [commit_lagrange] (poly/kzg/commitment.rs:294-305) *)
Definition commit_lagrange (p : srs G1 G2) (values : list Fr) : res G1 := commit_with (sr_gl p) values.
End Srs.
