(** What the statements about the prover's evaluation of the constraints refer
    to. *)
From Coq Require Import ZArith List.
From Verif Require Import Base Moduli Field LimbSpec LimbModel Halo2Model SelectorModel DomainModel VkModel PolyFacts IopModel IopSpec ArithModel SerdeModel GraphModel.
Import ListNotations.

(** the columns of an environment, as an assignment of [size] rows *)
Definition table (E : env) (size : nat) : assignment :=
  mkAssign size (fun _ _ => false) (fun i r => nth r (nth i (en_fixed E) []) f0) (fun i r => nth r (nth i (en_advice E) []) f0)
    (fun i r => nth r (nth i (en_instance E) []) f0) (fun i => nth i (en_challenges E) f0).
(** everything an expression refers to is there, and no selector is left *)
Fixpoint covered (E : env) (size : nat) (e : expr) : Prop :=
  match e with
  | EConst _ => True
  | ESelector _ => False
  | EFixed q => exists col, nth_error (en_fixed E) (q_col q) = Some col /\ length col = size
  | EAdvice q _ => exists col, nth_error (en_advice E) (q_col q) = Some col /\ length col = size
  | EInstance q => exists col, nth_error (en_instance E) (q_col q) = Some col /\ length col = size
  | EChallenge c => ch_index c < length (en_challenges E)
  | ENeg a => covered E size a
  | ESum a b | EProd a b => covered E size a /\ covered E size b
  | EScaled a _ => covered E size a
  end.
(** a selector that is not multiplied by the constant zero *)
Fixpoint meets_selector (e : expr) : bool :=
  match e with
  | ESelector _ => true
  | ENeg a => meets_selector a
  | ESum a b | EProd a b => orb (meets_selector a) (meets_selector b)
  | EScaled a f => if feqb f f0 then false else meets_selector a
  | _ => false
  end.
(** x_1 y^(m-1) + ... + x_m, after [start] *)
Definition combined (y start : Fr) (l : list Fr) : Fr := fold_left (fun acc x => (acc * y + x)%F) l start.

(** the evaluations of a prover's polynomials a verifier asks for *)
Definition at_rotation (v : vkey) (p : list Fr) (x : Fr) (t : Z) : Fr := peval p (rotate_omega (vk_domain v) x t).
Definition set_evals (v : vkey) (x : Fr) (sets : list (list Fr)) : list pset :=
  map (fun iz : nat * list Fr => PSet (peval (snd iz) x) (at_rotation v (snd iz) x 1)
         (if S (fst iz) <? length sets then Some (at_rotation v (snd iz) x (- (Z.of_nat (blinding_factors (vk_cs v)) + 1))) else None))
    (combine (seq 0 (length sets)) sets).
Definition evaluations (v : vkey) (advice fixed sigma sets : list (list Fr)) (lks : list lookup_polys) (random : list Fr) (x : Fr) : evals :=
  Evals (map (fun q : advice_col * Z => at_rotation v (nth (ac_index (fst q)) advice []) x (snd q)) (advice_queries (vk_cs v)))
    (map (fun q : nat * Z => at_rotation v (nth (fst q) fixed []) x (snd q)) (fixed_queries (vk_cs v)))
    (peval random x) (map (fun s => peval s x) sigma) (set_evals v x sets)
    (map (fun l => LEval (peval (lp_product l) x) (at_rotation v (lp_product l) x 1) (peval (lp_input l) x)
                     (at_rotation v (lp_input l) x (-1)) (peval (lp_table l) x)) lks).

(** ** Proving keys *)
(** [p] has [n] coefficients and takes the values of a column on the rows *)
Definition takes (v : vkey) (n : nat) (col p : list Fr) : Prop :=
  length p = n /\ forall r, r < n -> peval p (fpow (d_omega (vk_domain v)) (Z.of_nat r)) = nth r col f0.
(** the column that is one on some of its rows and zero on the others *)
Definition indicator (n : nat) (on : nat -> bool) : list Fr := map (fun r => if on r then f1 else f0) (seq 0 n).
(** a proving key for a verifying key: same columns, as polynomials *)
Record matches (commit : list Fr -> g1) (v : vkey) (n : nat) (pk : pkey) : Prop := {
  ma_vk : pk_vk pk = v;
  ma_fixed : map commit (pk_fixed_values pk) = vk_fixed v /\ Forall2 (takes v n) (pk_fixed_values pk) (pk_fixed_polys pk);
  ma_sigma : map commit (pk_permutations pk) = vk_permutation v /\ Forall2 (takes v n) (pk_permutations pk) (pk_sigma_polys pk);
  ma_lengths : forall col, In col (pk_fixed_values pk) \/ In col (pk_permutations pk) -> length col = n;
  ma_l0 : takes v n (indicator n (fun r => r =? 0)) (pk_l0 pk);
  ma_last : takes v n (indicator n (fun r => r =? usable_rows n (vk_cs v))) (pk_l_last pk);
  ma_active : takes v n (indicator n (fun r => r <? usable_rows n (vk_cs v))) (pk_l_active_row pk);
  ma_graphs : evaluator_new (vk_cs v) = Ok (pk_ev pk) }.

(** ** The polynomials of a proof *)
(** [N] polynomials of [n] coefficients *)
Definition polys_of (n N : nat) (ps : list (list Fr)) : Prop := length ps = N /\ forall p, In p ps -> length p = n.
Definition lookup_polys_of (n N : nat) (lks : list lookup_polys) : Prop :=
  polys_of n N (map lp_product lks) /\ polys_of n N (map lp_input lks) /\ polys_of n N (map lp_table lks).
(** the public columns, with zeros after the public values *)
Definition padded (n : nat) (insts : list (list Fr)) : list (list Fr) := map (fun l => map (fun r => nth r l f0) (seq 0 n)) insts.
Definition no_lookup : lookup_polys := LPolys [] [] [].
Definition commitments (pk : pkey) (advice sets : list (list Fr)) (lks : list lookup_polys) (random : list Fr) (pieces : list (list Fr)) : committed :=
  Committed (fun i => nth i advice []) (fun i => nth i (pk_fixed_polys pk) []) (fun i => nth i (pk_sigma_polys pk) [])
    (fun i => nth i sets []) (fun i => lp_product (nth i lks no_lookup)) (fun i => lp_input (nth i lks no_lookup))
    (fun i => lp_table (nth i lks no_lookup)) pieces random.
