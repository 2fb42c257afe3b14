(** What it means that a proof is accepted when the commitment scheme does its
    job, and what a verifying key has to be for acceptance to mean something. *)
From Coq Require Import ZArith List Arith.
From Verif Require Import Base Moduli Field LimbSpec PolyFacts RootFacts SerdeModel Halo2Model PermModel PermSpec
  SelectorSpec DomainModel DomainSpec VkModel IopModel IopRows.
Import ListNotations.

(** ** Accepted proofs *)

(** The polynomials behind the commitments, as lists of coefficients. *)
Record committed := Committed {
  cm_advice : nat -> list Fr; cm_fixed : nat -> list Fr; cm_sigma : nat -> list Fr;
  cm_product : nat -> list Fr;
  cm_lproduct : nat -> list Fr; cm_linput : nat -> list Fr; cm_ltable : nat -> list Fr;
  cm_quotient : list (list Fr); cm_random : list Fr }.
Definition poly_of (P : committed) (xn : Fr) (h : handle) : list Fr :=
  match h with
  | HAdvice i => cm_advice P i | HFixed i => cm_fixed P i | HSigma i => cm_sigma P i
  | HProduct i => cm_product P i
  | HLookupProduct i => cm_lproduct P i | HLookupInput i => cm_linput P i | HLookupTable i => cm_ltable P i
  | HQuotient => h_combine (fun x => map (fmul x)) padd [] xn (cm_quotient P)
  | HRandom => cm_random P
  end.

(** The verifier gets through to the openings, and every opening it asks for is
    the value of the committed polynomial at that point. *)
Definition accepts (v : vkey) (pn : Z) (insts : list (list Fr)) (chs : list Fr)
    (theta beta gamma y x : Fr) (P : committed) : Prop :=
  exists scalars e rest ops,
    read_evals v scalars = Some (e, rest) /\
    verify_openings v pn insts chs theta beta gamma y x e = VOpen ops /\
    forall h pt val, In (h, pt, val) ops -> peval (poly_of P (fpow x pn) h) pt = val.

(** All polynomials have at most [n] coefficients, and there are as many pieces
    of the quotient as the verifier reads. *)
Record bounded (v : vkey) (n : nat) (P : committed) : Prop := {
  bd_advice : forall i, length (cm_advice P i) <= n;
  bd_fixed : forall i, length (cm_fixed P i) <= n;
  bd_sigma : forall i, length (cm_sigma P i) <= n;
  bd_product : forall i, length (cm_product P i) <= n;
  bd_lproduct : forall i, length (cm_lproduct P i) <= n;
  bd_linput : forall i, length (cm_linput P i) <= n;
  bd_ltable : forall i, length (cm_ltable P i) <= n;
  bd_quotient : length (cm_quotient P) = Z.to_nat (d_quotient_poly_degree (vk_domain v)) /\
    forall q, In q (cm_quotient P) -> length q <= n;
  bd_random : length (cm_random P) <= n }.

(** ** Keys *)

(** Every query of an expression is registered under its index, no selector is
    left, and challenges exist. *)
Fixpoint registered (c : cs) (e : expr) : Prop :=
  match e with
  | EConst _ => True
  | ESelector _ => False
  | EFixed q => nth_error (fixed_queries c) (q_index q) = Some (q_col q, q_rot q)
  | EAdvice q ph => nth_error (advice_queries c) (q_index q) = Some (ACol (q_col q) ph, q_rot q)
  | EInstance q => nth_error (instance_queries c) (q_index q) = Some (q_col q, q_rot q)
  | EChallenge ch => ch_index ch < num_challenges c
  | ENeg a | EScaled a _ => registered c a
  | ESum a b | EProd a b => registered c a /\ registered c b
  end.
Definition queried (c : cs) (col : column) : Prop :=
  match col with
  | CAdvice a => In (a, cur) (advice_queries c)
  | CFixed i => In (i, cur) (fixed_queries c)
  | CInstance i => In (i, cur) (instance_queries c)
  end.
Record well_formed (c : cs) : Prop := {
  wf_exprs : forall e, In e (gate_exprs c) \/ In e (lookup_exprs c) -> registered c e;
  wf_perm : forall col, In col (perm_columns c) -> queried c col;
  wf_nodup : NoDup (perm_columns c);
  wf_tags : (Z.of_nat (length (perm_columns c)) < 2 ^ 20)%Z;
  wf_instance : forall q, In q (instance_queries c) -> fst q < num_instance c;
  wf_fixed : forall q, In q (fixed_queries c) -> fst q < num_fixed c;
  wf_lookups : forall l, In l (lookups c) -> length (fst l) = length (snd l) }.

(** [v] is a key for 2^k rows, whose fixed columns hold [fixed] and whose
    permutation was built from [copies]; [F] and [S] are the polynomials behind
    its commitments. *)
Record key_for (v : vkey) (k : Z) (fixed : nat -> nat -> Fr) (copies : list (acell * acell))
    (F S : nat -> list Fr) : Prop := {
  kf_cs : well_formed (vk_cs v);
  kf_degree : vk_degree v = cs_degree (vk_cs v);
  kf_k : (0 <= k <= 28)%Z;
  kf_domain : exists j, domain_for j k (vk_domain v) /\ (Z.of_nat (vk_degree v) <= j < 2 ^ 32)%Z;
  kf_rows : minimum_rows (vk_cs v) <= Z.to_nat (2 ^ k);
  kf_perm : length (vk_permutation v) = length (perm_columns (vk_cs v));
  kf_fixed : forall i r, i < num_fixed (vk_cs v) -> r < Z.to_nat (2 ^ k) ->
    peval (F i) (fpow (d_omega (vk_domain v)) (Z.of_nat r)) = fixed i r;
  kf_usable : forall x y, In (x, y) copies ->
    snd x < usable_rows (Z.to_nat (2 ^ k)) (vk_cs v) /\ snd y < usable_rows (Z.to_nat (2 ^ k)) (vk_cs v);
  kf_sigma : exists p,
    perm_copies (length (perm_columns (vk_cs v)) * Z.to_nat (2 ^ k))
      (perm_new (Z.to_nat (2 ^ k)) (perm_columns (vk_cs v))) copies = COk p /\
    forall i r, i < length (perm_columns (vk_cs v)) -> r < Z.to_nat (2 ^ k) ->
      get2 (perm_polys DELTA (d_omega (vk_domain v)) (Z.to_nat (2 ^ k)) p) (i, r) =
      Some (Some (peval (S i) (fpow (d_omega (vk_domain v)) (Z.of_nat r)))) }.

(** [F i] takes the values of the [i]-th column on the powers of [w]. *)
Definition interpolates (w : Fr) (cols : list (list Fr)) (F : nat -> list Fr) : Prop :=
  forall i col r x, nth_error cols i = Some col -> nth_error col r = Some x ->
    peval (F i) (fpow w (Z.of_nat r)) = x.

(** The assignment a list of advice polynomials stands for. *)
Definition assigned (n : nat) (w : Fr) (fixed : nat -> nat -> Fr) (advice : nat -> list Fr)
    (insts : list (list Fr)) (chs : list Fr) : assignment :=
  mkAssign n (fun _ _ => false) fixed (fun i r => peval (advice i) (fpow w (Z.of_nat r)))
    (instance_fn insts) (fun i => nth i chs f0).

(** ** The rounds of the protocol *)

(** How many challenges of each round have to be answered: [u] usable rows, [n]
    rows. *)
Definition lookup_width (c : cs) : nat := fold_right Nat.max 0 (map (fun l => length (fst l)) (lookups c)).
Definition need_theta (c : cs) (u : nat) : nat := (lookup_width c - 1) * u + 1.
Definition need_beta (c : cs) (u : nat) : nat := Nat.max (length (perm_columns c)) 2 * u + 1.
Definition need_gamma (c : cs) (u : nat) : nat := 2 * Nat.max (length (perm_columns c)) 1 * u + 1.
(** the number of constraints: gates, permutation, five for each lookup *)
Definition perm_constraints (sets : nat) : nat := if sets =? 0 then 0 else 2 + (sets - 1) + sets.
Definition need_y (v : vkey) : nat :=
  length (gate_exprs (vk_cs v)) +
  perm_constraints (length (chunks (chunk_len v) (perm_columns (vk_cs v)))) + 5 * length (lookups (vk_cs v)).
Definition need_x (v : vkey) (n : nat) : nat := (Z.to_nat (d_quotient_poly_degree (vk_domain v)) + 1) * n.

(** A prover that, after committing to [advice], answers that many challenges of
    every round: theta, then the permuted lookup columns, then beta and gamma,
    then the products, then y, then the quotient, then x. *)
Definition convincing (v : vkey) (k : Z) (insts : list (list Fr)) (chs : list Fr)
    (F S : nat -> list Fr) (advice : nat -> list Fr) : Prop :=
  let n := Z.to_nat (2 ^ k) in
  let c := vk_cs v in
  let u := usable_rows n c in
  many (need_theta c u) (fun theta => exists linput ltable,
  many (need_beta c u) (fun beta =>
  many (need_gamma c u) (fun gamma => exists product lproduct random,
  many (Nat.max 1 (need_y v)) (fun y => exists quotient,
    let P := Committed advice F S product lproduct linput ltable quotient random in
    bounded v n P /\
    many (need_x v n) (fun x => accepts v (2 ^ k) insts chs theta beta gamma y x P))))).

(** A prover that commits to first-phase columns with the values [A0] before the
    circuit's own challenges are drawn, and completes them convincingly
    whatever these turn out to be. *)
Definition can_convince (v : vkey) (k : Z) (insts : list (list Fr)) (F S : nat -> list Fr)
    (A0 : nat -> nat -> Fr) : Prop :=
  forall chs, length chs = num_challenges (vk_cs v) -> exists advice,
    (forall i, length (advice i) <= Z.to_nat (2 ^ k)) /\
    (forall col r, r < Z.to_nat (2 ^ k) -> nth col (advice_phases (vk_cs v)) 0 = 0 ->
      peval (advice col) (fpow (d_omega (vk_domain v)) (Z.of_nat r)) = A0 col r) /\
    convincing v k insts chs F S advice.

(** With the columns committed to in a key: whatever polynomials the
    commitments stand for. *)
Definition provable (commit : list Fr -> g1) (v : vkey) (k : Z) (insts : list (list Fr))
    (A0 : nat -> nat -> Fr) : Prop :=
  exists cols sigma,
    vk_fixed v = map commit cols /\ vk_permutation v = map commit sigma /\
    (forall col, In col cols \/ In col sigma -> length col = Z.to_nat (2 ^ k)) /\
    forall F S,
      interpolates (d_omega (vk_domain v)) cols F -> interpolates (d_omega (vk_domain v)) sigma S ->
      (forall i, length (F i) <= Z.to_nat (2 ^ k) /\ length (S i) <= Z.to_nat (2 ^ k)) ->
      can_convince v k insts F S A0.

(** The entries of a column whose positions are [r] up to multiples of [n], added
    up. *)
Definition folded (n : nat) (l : list Fr) (r : nat) : Fr :=
  fold_right fadd f0 (map (fun i => if i mod n =? r then nth i l f0 else f0) (seq 0 (length l))).
