(** Property C34: the copy-constraint permutation. *)
From Coq Require Import ZArith List.
From Verif Require Import Moduli Field Halo2Model CircuitModel PermModel PermSpec PermFacts PermClaims.
From Verif Require Import LimbSpec RootFacts.
Import ListNotations.

(** C34: whatever copies are declared between cells of the table, building the
    permutation ends without error, and the result is a bijection of the cells
    whose cycles are the classes of the declared equalities; an assignment is
    invariant under it iff it satisfies every declared equality. *)
Theorem C34_copies : forall n cols E, NoDup cols ->
  (forall x y, In (x, y) E -> on_table n cols x /\ on_table n cols y) ->
  forall fuel, length cols * n <= fuel ->
  exists p, perm_copies fuel (perm_new n cols) E = COk p /\ expresses n cols E p.
Proof. exact (fun n cols E ND H fuel F => copies_express n cols fuel ND F E H). Qed.
Print Assumptions C34_copies.

(** C34: no declaration makes it panic or run forever; it fails exactly when a
    declared cell is not on the table. *)
Theorem C34_total : forall n cols E, NoDup cols -> forall fuel, length cols * n <= fuel ->
  (exists p, perm_copies fuel (perm_new n cols) E = COk p /\
     forall x y, In (x, y) E -> on_table n cols x /\ on_table n cols y) \/
  (exists e, perm_copies fuel (perm_new n cols) E = CErr e /\
     exists x y, In (x, y) E /\ ~ (on_table n cols x /\ on_table n cols y)).
Proof. exact (fun n cols E ND fuel F => copies_verdict n cols fuel ND F E). Qed.
Print Assumptions C34_total.

(** C34: for every key generated for this project's circuit, the copy
    constraints hold iff every cell equals its image. *)
Theorem C34_project : forall n m cc sc asm, bf_keygen n m = EOk (cc, sc, asm) ->
  exists p, perm_copies (length (perm_columns sc) * n) (perm_new n (perm_columns sc))
              (rev (asm_copies asm)) = COk p /\
    expresses n (perm_columns sc) (rev (asm_copies asm)) p /\
    forall a, copies_hold (asm_copies asm) a <->
      forall x y, on_table n (perm_columns sc) x -> image p x = Some y -> cell_value a x = cell_value a y.
Proof. exact project_permutation. Qed.
Print Assumptions C34_project.

(** C34: the permutation polynomials of the keys hold, at every cell, the name
    of its image, and no two cells hold the same name. *)
Theorem C34_polynomials : forall k cols fuel E p,
  (0 <= k <= 28)%Z -> NoDup cols -> (Z.of_nat (length cols) <= (r_modulus - 1) / 2 ^ 28)%Z ->
  let n := Z.to_nat (2 ^ k) in
  length cols * n <= fuel -> perm_copies fuel (perm_new n cols) E = COk p ->
  let value i j := get2 (perm_polys delta_c (omega_c k) n p) (i, j) in
  (forall i j c, nth_error cols i = Some c -> j < n -> exists i' j' c',
     nth_error cols i' = Some c' /\ j' < n /\ image p (c, j) = Some (c', j') /\
     value i j = Some (Some (fpow delta_c (Z.of_nat i') * fpow (omega_c k) (Z.of_nat j'))%F)) /\
  (forall i j i' j' v, value i j = Some (Some v) -> value i' j' = Some (Some v) -> i = i' /\ j = j').
Proof. exact polys_hold. Qed.
Print Assumptions C34_polynomials.

(** three columns, four rows: a chain over all columns, a second class, a
    repeated and a reflexive declaration *)
Definition c34_cols := [CAdvice (ACol 0 0); CFixed 1; CInstance 0].
Definition c34_E :=
  [((CAdvice (ACol 0 0), 0), (CInstance 0, 3)); ((CInstance 0, 3), (CFixed 1, 2));
   ((CFixed 1, 0), (CFixed 1, 1)); ((CAdvice (ACol 0 0), 0), (CFixed 1, 2));
   ((CInstance 0, 1), (CInstance 0, 1)); ((CAdvice (ACol 0 0), 3), (CFixed 1, 2))].
Example C34_case :
  match perm_copies 12 (perm_new 4 c34_cols) c34_E with
  | COk p =>
      map (image p) [(CAdvice (ACol 0 0), 0); (CInstance 0, 3); (CFixed 1, 2); (CAdvice (ACol 0 0), 3)] =
        map Some [(CInstance 0, 3); (CFixed 1, 2); (CAdvice (ACol 0 0), 3); (CAdvice (ACol 0 0), 0)] /\
      image p (CFixed 1, 0) = Some (CFixed 1, 1) /\ image p (CFixed 1, 1) = Some (CFixed 1, 0) /\
      image p (CInstance 0, 1) = Some (CInstance 0, 1)
  | _ => False
  end.
Proof. vm_compute. repeat split. Qed.
Example C34_case_error : perm_copies 12 (perm_new 4 c34_cols) [((CFixed 1, 4), (CFixed 1, 0))] = CErr BoundsFailure /\
  perm_copies 12 (perm_new 4 c34_cols) [((CFixed 2, 0), (CFixed 1, 0))] = CErr ColumnNotInPermutation.
Proof. vm_compute. split; reflexivity. Qed.
