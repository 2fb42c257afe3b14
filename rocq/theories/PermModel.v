(** The permutation built at key generation for the copy constraints.

    Simplifications: [usize] is [nat]; the [ColumnNotInPermutation] error does
    not carry the offending column; the commitments to the permutation
    polynomials ([build_vk], last loop) and their coefficient and coset forms
    ([build_pk]) are not built here, only their values. *)
From Coq Require Import ZArith List Bool Arith.
From Verif Require Import Base Field Halo2Model.
Import ListNotations.

(** Indexing a [Vec<Vec<_>>] with a pair, reading and writing; [None] is the
    panic of an index out of bounds. *)
Definition get2 {A} (t : list (list A)) (i : nat * nat) : option A :=
  match nth_error t (fst i) with Some row => nth_error row (snd i) | None => None end.
Definition set2 {A} (t : list (list A)) (i : nat * nat) (x : A) : option (list (list A)) :=
  match nth_error t (fst i) with
  | Some row => if snd i <? length row then Some (upd t (fst i) (upd row (snd i) x)) else None
  | None => None
  end.
Definition pair_eqb (a b : nat * nat) : bool := Nat.eqb (fst a) (fst b) && Nat.eqb (snd a) (snd b).

(** [permutation::keygen::Assembly]
    (halo2_proofs/src/plonk/permutation/keygen.rs:17-26). *)
Record perm := mkPerm {
  pm_columns : list column;
  pm_mapping : list (list (nat * nat));
  pm_aux : list (list (nat * nat));
  pm_sizes : list (list nat)
}.

(** [Assembly::new] (permutation/keygen.rs:29-47). *)
Definition perm_new (n : nat) (cols : list column) : perm :=
  let cells := map (fun i => map (fun j => (i, j)) (seq 0 n)) (seq 0 (length cols)) in
  mkPerm cols cells cells (map (fun _ => repeat 1 n) cols).

(** The [loop] of [Assembly::copy] (permutation/keygen.rs:90-97): walk the
    cycle of [stop] from [i], labelling every cell with [label].  The loop has
    no bound in the source; running out of fuel stands for not terminating. *)
Inductive walk := WDone (aux : list (list (nat * nat))) | WPanic | WDiverge.
Fixpoint relabel (fuel : nat) (mapping : list (list (nat * nat))) (label stop : nat * nat)
    (i : nat * nat) (aux : list (list (nat * nat))) : walk :=
  match fuel with
  | O => WDiverge
  | S fuel =>
      match set2 aux i label with
      | None => WPanic
      | Some aux =>
          match get2 mapping i with
          | None => WPanic
          | Some i => if pair_eqb i stop then WDone aux else relabel fuel mapping label stop i aux
          end
      end
  end.

(** What a call of [copy] does. *)
Inductive cres := COk (p : perm) | CErr (e : herror) | CPanic | CDiverge.
Definition orpanic {A} (o : option A) (k : A -> cres) : cres :=
  match o with Some a => k a | None => CPanic end.
Notation "'olet' x ':=' e 'in' k" := (orpanic e (fun x => k))
  (at level 200, x pattern, e at level 100, k at level 200, right associativity).

(** [Assembly::copy] (permutation/keygen.rs:49-104); [fuel] bounds the walk. *)
Definition perm_copy (fuel : nat) (p : perm) (lc : column) (lr : nat) (rc : column) (rr : nat)
    : cres :=
  match position (column_eqb lc) (pm_columns p) with
  | None => CErr ColumnNotInPermutation
  | Some li =>
  match position (column_eqb rc) (pm_columns p) with
  | None => CErr ColumnNotInPermutation
  | Some ri =>
      olet lrow := nth_error (pm_mapping p) li in
      olet rrow := nth_error (pm_mapping p) ri in
      if (length lrow <=? lr) || (length rrow <=? rr) then CErr BoundsFailure else
      olet left_cycle := get2 (pm_aux p) (li, lr) in
      olet right_cycle := get2 (pm_aux p) (ri, rr) in
      if pair_eqb left_cycle right_cycle then COk p else
      olet ls := get2 (pm_sizes p) left_cycle in
      olet rs := get2 (pm_sizes p) right_cycle in
      let '(left_cycle, right_cycle) :=
        if ls <? rs then (right_cycle, left_cycle) else (left_cycle, right_cycle) in
      olet ls := get2 (pm_sizes p) left_cycle in
      olet rs := get2 (pm_sizes p) right_cycle in
      olet sizes := set2 (pm_sizes p) left_cycle (ls + rs) in
      match relabel fuel (pm_mapping p) left_cycle right_cycle right_cycle (pm_aux p) with
      | WPanic => CPanic
      | WDiverge => CDiverge
      | WDone aux =>
          olet tmp := get2 (pm_mapping p) (li, lr) in
          olet v := get2 (pm_mapping p) (ri, rr) in
          olet mapping := set2 (pm_mapping p) (li, lr) v in
          olet mapping := set2 mapping (ri, rr) tmp in
          COk (mkPerm (pm_columns p) mapping aux sizes)
      end
  end
  end.

(** The copies a circuit declares, one after the other; key generation stops at
    the first error (plonk/keygen.rs:144-160). *)
Fixpoint perm_copies (fuel : nat) (p : perm) (l : list ((column * nat) * (column * nat))) : cres :=
  match l with
  | [] => COk p
  | ((lc, lr), (rc, rr)) :: l =>
      match perm_copy fuel p lc lr rc rr with
      | COk p => perm_copies fuel p l
      | e => e
      end
  end.

(** The values of the permutation polynomials in [build_vk] and [build_pk]
    (permutation/keygen.rs:112-147, 168-202): cell [(i,j)] holds
    [delta^i' * omega^j'] for its image [(i',j')]. *)
Fixpoint powers {T} (mul : T -> T -> T) (base : T) (cur : T) (n : nat) : list T :=
  match n with O => [] | S n => cur :: powers mul base (mul cur base) n end.
Definition deltaomega (delta omega : Fr) (m n : nat) : list (list Fr) :=
  map (fun d => map (fun o => fmul o d) (powers fmul omega f1 n)) (powers fmul delta f1 m).
Definition perm_polys (delta omega : Fr) (n : nat) (p : perm) : list (list (option Fr)) :=
  let t := deltaomega delta omega (length (pm_columns p)) n in
  map (map (fun c => get2 t c)) (pm_mapping p).
