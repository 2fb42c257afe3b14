(** What it means that the polynomials of a proof are the ones the prover's
    functions compute from an assignment, and which challenges are unlucky. *)
From Coq Require Import ZArith List Arith.
From Verif Require Import Base Moduli Field LimbSpec PolyFacts RootFacts Halo2Model SelectorSpec DomainModel
  VkModel IopModel IopSpec ProverModel.
Import ListNotations.
Local Open Scope F_scope.

(** [p] takes the values [f] on the rows *)
Definition on_rows (v : vkey) (n : nat) (p : list Fr) (f : nat -> Fr) : Prop :=
  forall r, (r < n)%nat -> peval p (fpow (d_omega (vk_domain v)) (Z.of_nat r)) = f r.
Definition table_column (a : assignment) (col : column) (r : nat) : Fr := cell_value a (col, r).

(** The permuted columns of the lookups; the rows after the usable ones are
    filled by [fa] and [fs]. *)
Definition permuted (v : vkey) (n : nat) (a : assignment) (theta : Fr) (linput ltable : nat -> list Fr) : Prop :=
  let c := vk_cs v in let u := usable_rows n c in
  forall i l, nth_error (lookups c) i = Some l -> exists a' s' fa fs,
    permute_pair u (compressed_row (eval a) theta (fst l)) (compressed_row (eval a) theta (snd l)) = POk (a', s') /\
    on_rows v n (linput i) (with_random u a' fa) /\ on_rows v n (ltable i) (with_random u s' fs).

(** The running products of the permutation and of the lookups. *)
Definition products (v : vkey) (n : nat) (a : assignment) (S linput ltable : nat -> list Fr) (theta beta gamma : Fr)
    (product lproduct : nat -> list Fr) : Prop :=
  let c := vk_cs v in let u := usable_rows n c in
  let row p r := peval p (fpow (d_omega (vk_domain v)) (Z.of_nat r)) in
  (exists random zs,
    perm_commit v n beta gamma random (map (table_column a) (perm_columns c))
      (map (fun i => row (S i)) (seq 0 (length (perm_columns c)))) = POk zs /\
    forall i z, nth_error zs i = Some z -> on_rows v n (product i) z) /\
  forall i l, nth_error (lookups c) i = Some l -> exists random,
    on_rows v n (lproduct i) (lookup_product n (blinding_factors c) beta gamma
      (compressed_row (eval a) theta (fst l)) (compressed_row (eval a) theta (snd l)) (row (linput i)) (row (ltable i)) random).

(** A challenge that would make a denominator of a running product zero. *)
Definition lucky (v : vkey) (n : nat) (a : assignment) (S : nat -> list Fr) (theta beta gamma : Fr) : Prop :=
  let c := vk_cs v in let u := usable_rows n c in
  (forall i col r, nth_error (perm_columns c) i = Some col -> (r < u)%nat ->
     cell_value a (col, r) + beta * peval (S i) (fpow (d_omega (vk_domain v)) (Z.of_nat r)) + gamma <> f0) /\
  forall l r, In l (lookups c) -> (r < u)%nat ->
    beta + compressed_row (eval a) theta (fst l) r <> f0 /\ gamma + compressed_row (eval a) theta (snd l) r <> f0.
