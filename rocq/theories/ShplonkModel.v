(** The multi-opening argument SHPLONK
    (halo2_proofs/src/poly/kzg/multiopen/shplonk.rs, shplonk/verifier.rs,
    shplonk/prover.rs) and the accumulator it ends in (poly/kzg/msm.rs).

    Simplifications:
    - commitments are compared by address (poly/query.rs:39-41, 112-122); here
      they carry a name with a decidable equality;
    - challenges are arguments;
    - the groups are any types with the operations used; the pairing check is an
      argument. *)
From Coq Require Import ZArith List Arith Bool.
From Verif Require Import Base Moduli Field LimbModel SelectorModel DomainModel IopModel ArithModel KzgModel.
Import ListNotations.
Local Open Scope F_scope.

(** BTreeSet<F>: the order of field elements is that of their canonical
    representatives (halo2curves derive/field.rs:205-224) *)
Fixpoint set_insert (x : Fr) (s : list Fr) : list Fr :=
  match s with
  | [] => [x]
  | y :: t => if (fval x <? fval y)%Z then x :: s else if feqb x y then s else y :: set_insert x t
  end.
Fixpoint set_eqb (a b : list Fr) : bool :=
  match a, b with
  | [], [] => true
  | x :: a, y :: b => feqb x y && set_eqb a b
  | _, _ => false
  end.
Definition set_mem (x : Fr) (s : list Fr) : bool := existsb (feqb x) s.

Section Sets.
Context {T : Type}.
Variable same : T -> T -> bool.
(** a query: commitment, point, evaluation (poly/query.rs) *)
Definition query := (T * Fr * Fr)%type.

(** poly/kzg/multiopen/shplonk.rs:63-69 *)
Definition get_eval (queries : list query) (c : T) (point : Fr) : res Fr :=
  match find (fun q => same (fst (fst q)) c && feqb (snd (fst q)) point) queries with
  | Some q => Ok (snd q)
  | None => Panic
  end.
(** one turn of the loop at shplonk.rs:82-97 *)
Fixpoint add_point (c : T) (point : Fr) (m : list (T * list Fr)) : list (T * list Fr) :=
  match m with
  | [] => [(c, [point])]
  | (c', s) :: m => if same c' c then (c', set_insert point s) :: m else (c', s) :: add_point c point m
  end.
Definition commitment_sets (queries : list query) : list (T * list Fr) :=
  fold_left (fun m q => add_point (fst (fst q)) (snd (fst q)) m) queries [].
Definition super_points (queries : list query) : list Fr :=
  fold_left (fun s q => set_insert (snd (fst q)) s) queries [].
(** one turn of the loop at shplonk.rs:107-117 *)
Fixpoint add_commitment (c : T) (set : list Fr) (m : list (list Fr * list T)) : list (list Fr * list T) :=
  match m with
  | [] => [(set, [c])]
  | (s, cs) :: m => if set_eqb s set then (s, cs ++ [c]) :: m else (s, cs) :: add_commitment c set m
  end.
Definition rotation_sets_of (m : list (T * list Fr)) : list (list Fr * list T) :=
  fold_left (fun m cs => add_commitment (fst cs) (snd cs) m) m [].
(** RotationSet (shplonk.rs:43-47) *)
Record rotation_set := RSet { rs_commitments : list (T * list Fr); rs_points : list Fr }.
(** [construct_intermediate_sets] (shplonk.rs:54-145) *)
Definition intermediate_sets (queries : list query) : res (list rotation_set * list Fr) :=
  let! rs := rmap (fun sc : list Fr * list T =>
      let! cs := rmap (fun c => let! es := rmap (get_eval queries c) (fst sc) in Ok (c, es)) (snd sc) in
      Ok (RSet cs (fst sc))) (rotation_sets_of (commitment_sets queries)) in
  Ok (rs, super_points queries).
End Sets.
Arguments query : clear implicits.
Arguments rotation_set : clear implicits.

(** ** Verifier *)
Section Verifier.
Context {G T : Type}.
(** MSMKZG (poly/kzg/msm.rs:14-60): scalars with their bases *)
Definition msm := list (Fr * G).
Definition msm_scale (k : Fr) (m : msm) : msm := map (fun t => (fst t * k, snd t)) m.
Variable same : T -> T -> bool.
(** CommitmentReference (poly/query.rs:104-107) *)
Inductive reference := RPoint (c : G) | RMsm (m : msm).
Variable commitment : T -> reference.
(** the term of one commitment (shplonk/verifier.rs:110-121) *)
Definition term_msm (power : Fr) (c : T) : msm :=
  match commitment c with RPoint c => [(power, c)] | RMsm m => msm_scale power m end.

(** the inner loop (shplonk/verifier.rs:99-128): the terms and the accumulated
    evaluations *)
Fixpoint inner_terms (u : Fr) (points : list Fr) (cs : list (T * list Fr)) (powers : list Fr) : res (msm * Fr) :=
  match cs, powers with
  | c :: cs, p :: powers =>
      let! r_x := lagrange_interpolate points (snd c) in
      let r_eval := p * eval_polynomial r_x u in
      let! (m, r) := inner_terms u points cs powers in
      Ok (term_msm p (fst c) ++ m, r_eval + r)
  | _, _ => Ok ([], f0)
  end.
(** the outer loop (shplonk/verifier.rs:80-133): [first] is [None] before the
    first set, then the inverse it determined *)
Fixpoint outer_terms (u y : Fr) (super : list Fr) (sets : list (rotation_set T)) (powers : list Fr)
    (first : option Fr) : res (msm * Fr) :=
  match sets, powers with
  | s :: sets, pv :: powers =>
      let diffs := filter (fun p => negb (set_mem p (rs_points s))) super in
      let z_diff := evaluate_vanishing_polynomial diffs u in
      let! (z_diff, inv) :=
        match first with
        | None => match finvert z_diff with Some i => Ok (f1, i) | None => Panic end
        | Some i => Ok (z_diff * i, i)
        end in
      let! (inner, r_inner) := inner_terms u (rs_points s) (rs_commitments s) (powers_of (length (rs_commitments s)) y) in
      match rs_commitments s with
      | [] => Panic
      | _ =>
        let! (rest, r) := outer_terms u y super sets powers (Some inv) in
        Ok (msm_scale (pv * z_diff) inner ++ rest, pv * r_inner * z_diff + r)
      end
  | _, _ => Ok ([], f0)
  end.
(** [verify_proof] (shplonk/verifier.rs:53-147), given the challenges and the two
    points of the proof: the two sides of the accumulator.  [z_0] stays zero when
    there are no queries. *)
Definition shplonk_sides (g0 : G) (queries : list (query T)) (y v : Fr) (h1 : G) (u : Fr) (h2 : G) : res (msm * msm) :=
  let! (sets, super) := intermediate_sets same queries in
  let z_0 := match sets with [] => f0 | s :: _ => evaluate_vanishing_polynomial (rs_points s) u end in
  let! (outer, r) := outer_terms u y super sets (powers_of (length sets) v) None in
  Ok ([(f1, h2)], outer ++ [(- r, g0); (- z_0, h1); (u, h2)]).

(** DualMSM::check (poly/kzg/msm.rs:152-169); the right-hand side is paired with
    the negated g2 *)
Variables (zero : G) (add : G -> G -> G).
Context {G2 : Type}.
Variable pairing_check : G -> G2 -> G -> G2 -> bool.
Definition msm_eval (m : msm) : res G := best_multiexp add zero (map fst m) (map snd m).
Definition dual_check (s_g2 g2 : G2) (sides : msm * msm) : res bool :=
  let! l := msm_eval (fst sides) in
  let! r := msm_eval (snd sides) in
  Ok (pairing_check l s_g2 r g2).
(** SingleStrategy::process (poly/kzg/strategy.rs:142-154) of the verifier;
    [params.g[0]] panics without bases *)
Definition shplonk_verify (p : srs G G2) (queries : list (query T)) (y v : Fr) (h1 : G) (u : Fr) (h2 : G) : res bool :=
  match sr_g p with
  | [] => Panic
  | g0 :: _ =>
      let! sides := shplonk_sides g0 queries y v h1 u h2 in
      dual_check (sr_s_g2 p) (sr_g2 p) sides
  end.
End Verifier.
Arguments reference : clear implicits.
Arguments msm : clear implicits.

(** ** Prover *)

(** [Polynomial] arithmetic (poly.rs:230-256): the coefficients of the left
    operand beyond the right one's stay, and slicing panics when there are two of
    them *)
Fixpoint zip_left (f : Fr -> Fr -> Fr) (a b : list Fr) : list Fr :=
  match a, b with
  | x :: a, y :: b => f x y :: zip_left f a b
  | _, _ => a
  end.
Definition poly_add (a b : list Fr) : res (list Fr) :=
  if (length a <=? S (length b))%nat then Ok (zip_left fadd a b) else Panic.
Definition poly_sub (a b : list Fr) : res (list Fr) :=
  if (length a <=? S (length b))%nat then Ok (zip_left fsub a b) else Panic.
(** poly.rs:274-296 *)
Definition poly_scale (a : list Fr) (k : Fr) : list Fr := map (fun c => c * k) a.
(** poly.rs:298-306 *)
Definition poly_sub_const (a : list Fr) (k : Fr) : res (list Fr) :=
  match a with [] => Panic | c :: a => Ok ((c - k) :: a) end.
(** [zip(powers(k)).map(scale).reduce(add).unwrap()] *)
Definition combine_polys (ps : list (list Fr)) (k : Fr) : res (list Fr) :=
  match map (fun pk => poly_scale (fst pk) (snd pk)) (combine ps (powers_of (length ps) k)) with
  | [] => Panic
  | p :: ps => fold_left (fun acc p => let! acc := acc in poly_add acc p) ps (Ok p)
  end.
(** shplonk/prover.rs:26-32 *)
Definition div_by_vanishing (p : list Fr) (roots : list Fr) : res (list Fr) :=
  fold_left (fun p r => let! p := p in kate_division p r) roots (Ok p).
(** [resize(n, zero)] *)
Definition resize (n : nat) (p : list Fr) : list Fr := firstn n p ++ repeat f0 (n - length p).

Section Prover.
Context {T : Type}.
Variable same : T -> T -> bool.
Variable poly : T -> list Fr.

(** the queries with their evaluations (poly/query.rs:44-60) *)
Definition prover_queries (qs : list (T * Fr)) : list (query T) :=
  map (fun q => (fst q, snd q, eval_polynomial (poly (fst q)) (snd q))) qs.
(** [extend], [quotient_contribution] of a commitment (shplonk/prover.rs:40-74) *)
Definition numerator (points : list Fr) (c : T * list Fr) : res (list Fr) :=
  let! r := lagrange_interpolate points (snd c) in
  if (length r <=? length (poly (fst c)))%nat then Ok (zip_left fsub (poly (fst c)) r) else Panic.
(** the closure [quotient_contribution] (shplonk/prover.rs:138-171) *)
Definition quotient_contribution (n : nat) (y : Fr) (s : rotation_set T) : res (list Fr) :=
  let! ns := rmap (numerator (rs_points s)) (rs_commitments s) in
  let! n_x := combine_polys ns y in
  let! q := div_by_vanishing n_x (rs_points s) in
  Ok (resize n q).
(** shplonk/prover.rs:173-203: the polynomial committed to first *)
Definition shplonk_h (n : nat) (qs : list (T * Fr)) (y v : Fr) : res (list Fr) :=
  let! (sets, super) := intermediate_sets same (prover_queries qs) in
  let! qp := rmap (quotient_contribution n y) sets in
  combine_polys qp v.
(** [linearisation_contribution] (shplonk/prover.rs:56-60, 209-238) *)
Definition linear_term (u : Fr) (points : list Fr) (c : T * list Fr) : res (list Fr) :=
  let! r := lagrange_interpolate points (snd c) in
  poly_sub_const (poly (fst c)) (eval_polynomial r u).
Definition linearisation (super : list Fr) (y u : Fr) (s : rotation_set T) : res (list Fr * Fr) :=
  let diffs := filter (fun p => negb (set_mem p (rs_points s))) super in
  let z_i := evaluate_vanishing_polynomial diffs u in
  let! cs := rmap (linear_term u (rs_points s)) (rs_commitments s) in
  let! l := combine_polys cs y in
  Ok (poly_scale l z_i, z_i).
(** shplonk/prover.rs:240-280: the polynomial committed to last *)
Definition shplonk_h2 (pr : profile) (qs : list (T * Fr)) (y v : Fr) (h_x : list Fr) (u : Fr) : res (list Fr) :=
  let! (sets, super) := intermediate_sets same (prover_queries qs) in
  let! ls := rmap (linearisation super y u) sets in
  let! l := combine_polys (map fst ls) v in
  let zt := evaluate_vanishing_polynomial super u in
  let! l := poly_sub l (poly_scale h_x zt) in
  let! _ := match pr with
            | Checked => if feqb (eval_polynomial l u) f0 then Ok tt else Panic
            | Wrapping => Ok tt
            end in
  let! h := div_by_vanishing l [u] in
  match ls with
  | [] => Panic
  | (_, z) :: _ => match finvert z with Some i => Ok (poly_scale h i) | None => Panic end
  end.
End Prover.
