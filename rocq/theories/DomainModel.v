(** Evaluation domains (halo2_proofs/src/poly/domain.rs).

    Simplifications: [batch_invert] (crate ff) replaces every non-zero element by
    its inverse and leaves zeros; [pow_vartime] (crate ff) is exponentiation; a
    loop that pushes more elements than the assertion after it allows is a
    panic; the search for [extended_k] gives up after 256 steps (it only takes
    that long when it would never end). *)
From Coq Require Import ZArith List Bool Zpow_facts.
From Verif Require Import Base Moduli Field LimbModel SerdeModel.
Import ListNotations.
Local Open Scope Z_scope.

Definition pow_vartime (a : Fr) (n : Z) : Fr := FrZ (Zpow_mod (fval a) n (Zpos r_pos)).
Definition batch_invert (l : list Fr) : list Fr := map finv l.

(** Fr::root_of_unity(), S, ZETA (bn256/fr.rs:67-117) *)
Definition ROOT : Fr := fr_value fr_root_of_unity.
Definition ZETA : Fr := fr_value fr_zeta.
Definition S_ : Z := 28.

(** [1u64 << k]: masked to six bits in the release profile *)
Definition shl_u64 (pr : profile) (k : Z) : res Z :=
  if k <? 64 then Ok (2 ^ k) else match pr with Checked => Panic | Wrapping => Ok (2 ^ (k mod 64)) end.

(** poly/domain.rs:19-37 *)
Record domain := Domain {
  d_n : Z; d_k : Z; d_extended_k : Z; d_omega : Fr; d_omega_inv : Fr;
  d_extended_omega : Fr; d_extended_omega_inv : Fr; d_g_coset : Fr; d_g_coset_inv : Fr;
  d_quotient_poly_degree : Z; d_ifft_divisor : Fr; d_extended_ifft_divisor : Fr;
  d_t_evaluations : list Fr; d_barycentric_weight : Fr }.

(** poly/domain.rs:51-54 *)
Fixpoint extended_search (pr : profile) (fuel : nat) (ek target : Z) : res Z :=
  match fuel with
  | O => Panic
  | S f => let! x := shl_u64 pr ek in
           if x <? target then extended_search pr f (ek + 1) target else Ok ek
  end.
Fixpoint squarings (n : nat) (x : Fr) : Fr :=
  match n with O => x | S n => squarings n (x * x)%F end.
(** the loop of poly/domain.rs:89-98: push the running power until it comes back
    to the start; [None] when it has not come back within [fuel] steps *)
Fixpoint coset_loop (fuel : nat) (orig step cur : Fr) : option (list Fr) :=
  match fuel with
  | O => None
  | S f =>
      let next := (cur * step)%F in
      if feqb next orig then Some [cur]
      else match coset_loop f orig step next with Some l => Some (cur :: l) | None => None end
  end.

(** EvaluationDomain::new (poly/domain.rs:40-147) *)
Definition domain_new (pr : profile) (j k : Z) : res domain :=
  let! q := overflow pr 32 (j - 1) in
  let! n := shl_u64 pr k in
  let! target := overflow pr 64 (n * q) in
  let! ek := extended_search pr 256 k target in
  let extended_omega := squarings (Z.to_nat (S_ - ek)) ROOT in
  let omega := squarings (Z.to_nat (ek - k)) extended_omega in
  let orig := pow_vartime ZETA n in
  let step := pow_vartime extended_omega n in
  let! count := shl_u64 pr (ek - k) in
  let! evals := match coset_loop (Z.to_nat count) orig step orig with
                | Some l => if lenZ l =? count then Ok l else Panic
                | None => Panic
                end in
  let t := batch_invert (map (fun c => (c - f1)%F) evals) in
  let! nk := shl_u64 pr k in
  let! nek := shl_u64 pr ek in
  Ok {| d_n := n; d_k := k; d_extended_k := ek; d_omega := omega; d_omega_inv := finv omega;
        d_extended_omega := extended_omega; d_extended_omega_inv := finv extended_omega;
        d_g_coset := ZETA; d_g_coset_inv := (ZETA * ZETA)%F; d_quotient_poly_degree := q;
        d_ifft_divisor := finv (FrZ nk); d_extended_ifft_divisor := finv (FrZ nek);
        d_t_evaluations := t; d_barycentric_weight := finv (FrZ n) |}.
