(** What selector compression has to preserve. *)
From Coq Require Import ZArith List Bool Arith.
From Verif Require Import Field Halo2Model.
Import ListNotations.
From Coq Require Import Permutation.

(** The selectors and the queries of fixed columns an expression mentions. *)
Fixpoint selectors_in (e : expr) : list selector :=
  match e with
  | ESelector s => [s]
  | ENeg a | EScaled a _ => selectors_in a
  | ESum a b | EProd a b => selectors_in a ++ selectors_in b
  | _ => []
  end.
Fixpoint fixed_in (e : expr) : list query :=
  match e with
  | EFixed q => [q]
  | ENeg a | EScaled a _ => fixed_in a
  | ESum a b | EProd a b => fixed_in a ++ fixed_in b
  | _ => []
  end.

(** The queries of advice and instance columns and the challenges it mentions. *)
Fixpoint others_in (e : expr) : list expr :=
  match e with
  | EAdvice _ _ | EInstance _ | EChallenge _ => [e]
  | ENeg a | EScaled a _ => others_in a
  | ESum a b | EProd a b => others_in a ++ others_in b
  | _ => []
  end.

(** All expressions of a constraint system. *)
Definition gate_exprs (c : cs) : list expr := concat (gates c).
Definition lookup_exprs (c : cs) : list expr :=
  flat_map (fun l : list expr * list expr => fst l ++ snd l) (lookups c).

(** What configuring a circuit through the public interface guarantees:
    selectors were handed out by the constraint system, each simple or not once
    and for all; expressions were built by the operators, fixed columns exist
    and their queries are registered, and lookups mention no simple selector. *)
Record configured (c : cs) : Prop := {
  cf_sel : exists kind : nat -> bool, forall e s,
    In e (gate_exprs c) \/ In e (lookup_exprs c) -> In s (selectors_in e) ->
    sel_index s < num_selectors c /\ sel_simple s = kind (sel_index s);
  cf_built : forall e, In e (gate_exprs c) -> well_built e = true;
  cf_lookup : forall e s, In e (lookup_exprs c) -> In s (selectors_in e) -> sel_simple s = false;
  cf_fixed : forall e q, In e (gate_exprs c) \/ In e (lookup_exprs c) -> In q (fixed_in e) ->
    q_col q < num_fixed c /\ nth_error (fixed_queries c) (q_index q) = Some (q_col q, q_rot q)
}.

(** Whether a selector is enabled on a row, from its activation vector. *)
Definition active (acts : list (list bool)) (s row : nat) : bool := nth row (nth s acts []) false.

(** The assignment with the new fixed columns appended to the old ones. *)
Definition extended (c : cs) (polys : list (list Fr)) (a : assignment) : assignment :=
  mkAssign (as_n a) (as_sel a)
    (fun col row => if col <? num_fixed c then as_fixed a col row
                    else nth row (nth (col - num_fixed c) polys []) f0)
    (as_advice a) (as_instance a) (as_challenge a).

(** [c'] with the new columns [polys] is [c] without its selectors, [reps]
    giving the expression that replaces each selector. *)
Record compressed (c : cs) (acts : list (list bool)) (n : nat) (c' : cs) (polys : list (list Fr))
    (reps : list (nat * expr)) : Prop := {
  (** every selector gets one expression *)
  cp_all : Permutation (map fst reps) (seq 0 (num_selectors c));
  (** which is non-zero exactly on the rows where the selector is enabled *)
  cp_rows : forall s e a row, In (s, e) reps -> as_n a = n -> row < n ->
    (eval (extended c polys a) row e <> f0 <-> active acts s row = true);
  (** the new columns are full and appended to the old ones *)
  cp_columns : num_fixed c' = num_fixed c + length polys /\ forall p, In p polys -> length p = n;
  (** no selector is left, and the degree does not grow *)
  cp_gone : forall e, In e (gate_exprs c') \/ In e (lookup_exprs c') -> selectors_in e = [];
  cp_degree : cs_degree c' <= cs_degree c;
  cp_configured : configured c';
  (** advice, instance, challenges and the permutation are untouched *)
  cp_rest : (num_advice c', num_instance c', num_challenges c', advice_queries c', instance_queries c',
             perm_columns c') =
            (num_advice c, num_instance c, num_challenges c, advice_queries c, instance_queries c,
             perm_columns c) /\ usable_rows n c' = usable_rows n c;
  (** no query of another kind is introduced, old queries of fixed columns keep
      their place, lookups keep their widths and gates their numbers of
      constraints *)
  cp_others : forall e' l, In e' (gate_exprs c') \/ In e' (lookup_exprs c') -> In l (others_in e') ->
    exists e, (In e (gate_exprs c) \/ In e (lookup_exprs c)) /\ In l (others_in e);
  cp_queries : exists fq, fixed_queries c' = fixed_queries c ++ fq /\
    forall q, In q fq -> fst q < num_fixed c';
  cp_widths : Forall2 (fun l l' => length (fst l') = length (fst l) /\ length (snd l') = length (snd l))
    (lookups c) (lookups c');
  cp_gates : Forall2 (fun g g' => length g' = length g) (gates c) (gates c');
  cp_phases : advice_phases c' = advice_phases c;
  (** the same assignments are accepted *)
  cp_same : forall copies a, as_n a = n ->
    (forall s row, s < num_selectors c -> row < n -> as_sel a s row = active acts s row) ->
    (forall x y i r, In (x, y) copies -> x = (CFixed i, r) \/ y = (CFixed i, r) -> i < num_fixed c) ->
    (satisfied c copies a <-> satisfied c' copies (extended c polys a))
}.
