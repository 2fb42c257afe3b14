(** Proving keys ([keygen_pk], halo2_proofs/src/plonk/keygen.rs) and
    [create_proof] (plonk/prover.rs with the provers of the permutation, lookup
    and vanishing arguments and of SHPLONK), down to the bytes of the proof.

    Simplifications, besides those of ProverModel, GraphModel, ShplonkModel and
    TranscriptModel:
    - one circuit and one vector of public columns per call, as the command line
      program calls it (ckb_bf_prover/src/main.rs);
    - the random number generator is a record of arbitrary values; blinds are
      drawn but never used by KZG commitments (poly/kzg/commitment.rs:294-347);
    - where the code computes several values before it writes the first one, the
      model may write in between: this only affects which of two failures is
      reported;
    - [Err] of any kind is [PFail];
    - the values of the permutation columns on the extended domain
      (permutation/keygen.rs:225-236) are computed and dropped by the code. *)
From Coq Require Import ZArith List Bool Arith.
From Verif Require Import Base Moduli Field LimbModel Halo2Model CircuitModel VMModel SelectorModel PermModel SerdeModel DomainModel
  VkModel IopModel ArithModel KzgModel ShplonkModel TranscriptModel VerifierModel ProverModel GraphModel.
Import ListNotations.
Local Open Scope nat_scope.

(** ** Proving keys *)

Definition to_coeff (d : domain) (values : list Fr) : res (list Fr) := lagrange_to_coeff fadd fsub fmul d values.
(** [empty_lagrange], [empty_coeff] (poly/domain.rs:147-170, 233-240) *)
Definition empty (d : domain) : list Fr := repeat f0 (Z.to_nat (2 ^ d_k d)).
(** keygen_pk_impl after the synthesis (plonk/keygen.rs:327-407), permutation
    build_pk (plonk/permutation/keygen.rs:168-242); [c], [a]: what
    [create_domain] and the synthesis gave *)
Definition build_pk (n : nat) (v : vkey) (c : cs) (a : assembly) : eres pkey :=
  let d := vk_domain v in
  let fixed := map (fun col => map (asm_fixed a col) (seq 0 n)) (seq 0 (num_fixed c)) in
  match compress_selectors c (selector_rows c n a) with
  | Panic => EPanic
  | Ok (c', polys, _) =>
      let fixed := fixed ++ polys in
      elet fixed_polys := lift_panic (rmap (to_coeff d) fixed) in
      let cols := perm_columns c in
      match perm_copies (length cols * n) (perm_new n cols) (rev (asm_copies a)) with
      | COk p =>
          elet sigma := lift_panic (rmap unwrap_all (perm_polys DELTA (d_omega d) n p)) in
          elet sigma_polys := lift_panic (rmap (to_coeff d) sigma) in
          let bf := blinding_factors c' in
          elet l0 := lift_panic (let! l0 := aset (empty d) 0 f1 in to_coeff d l0) in
          let size := length (empty d) in
          let l_blind r := if size - bf <=? r then f1 else f0 in
          elet l_last := lift_panic (aset (empty d) (n - bf - 1) f1) in
          let l_active := map (fun r => (f1 - (nth r l_last f0 + l_blind r))%F) (seq 0 size) in
          elet l_last := lift_panic (to_coeff d l_last) in
          elet l_active := lift_panic (to_coeff d l_active) in
          elet ev := lift_panic (evaluator_new (vk_cs v)) in
          EOk (PKey v l0 l_last l_active fixed fixed_polys sigma sigma_polys ev)
      | CErr e => EErr e
      | _ => EPanic
      end
  end.
(** [keygen_pk] for the project's circuit (plonk/keygen.rs:277-407) *)
Definition keygen_pk (pr : profile) (k : Z) (v : vkey) (m : matrix) : eres pkey :=
  let n := circuit_rows k in
  elet _ := lift_panic (create_domain pr k) in
  elet (_, c, a) := bf_keygen n m in
  build_pk n v c a.

(** ** Writing a proof *)
Definition of_res {A} (r : res A) : pres A := match r with Ok a => POk a | Panic => PPanic end.
Definition of_eres {A} (r : eres A) : pres A := match r with EOk a => POk a | EErr _ => PFail | EPanic => PPanic end.
(** the state is that of the transcript *)
Definition prover A := wstate -> pres (A * wstate).
Definition wret {A} (a : A) : prover A := fun w => POk (a, w).
Definition wbind {A B} (m : prover A) (f : A -> prover B) : prover B := fun w => pbind (m w) (fun aw => f (fst aw) (snd aw)).
Notation "'put!' x '<-' e ';' k" := (wbind e (fun x => k))
  (at level 200, x pattern, e at level 100, k at level 200, right associativity).
Definition wlift {A} (r : pres A) : prover A := fun w => pbind r (fun a => POk (a, w)).
Definition wres {A} (r : res A) : prover A := wlift (of_res r).
Fixpoint wmap {A B} (f : A -> prover B) (l : list A) : prover (list B) :=
  match l with
  | [] => wret []
  | a :: l => put! b <- f a; put! bs <- wmap f l; wret (b :: bs)
  end.
Definition send_point (p : g1) : prover unit := fun w =>
  match write_point p w with Some w => POk (tt, w) | None => PFail end.
Definition send_scalar (s : Fr) : prover unit := fun w => POk (tt, write_scalar s w).
(** [common_scalar]: absorbed, not written *)
Definition absorb (s : Fr) : prover unit := fun w => POk (tt, (fst w ++ scalar_bytes s, snd w)).

(** the values of the random number generator: the rows of the lookup columns
    and of the running products that are filled at random *)
Record coins := Coins {
  co_input : nat -> nat -> Fr; co_table : nat -> nat -> Fr; co_product : nat -> nat -> Fr; co_lproduct : nat -> nat -> Fr }.

Section Create.
Variable hash : list Z -> list Z.
Variable transcript_repr : vkey -> Fr.
Context {G : Type}.
Variables (zero : G) (add : G -> G -> G) (of_affine : g1 -> G) (to_affine : G -> g1).
Variables (pr : profile) (p : kzg) (pk : pkey).
Local Notation v := (pk_vk pk).
Local Notation d := (vk_domain (pk_vk pk)).
Local Notation c := (vk_cs (pk_vk pk)).
(** [params.n()] *)
Local Notation n := (Z.to_nat (kz_n p)).

Definition draw : prover Fr := fun w => of_res (wsqueeze hash w).
(** [commit_lagrange(..).to_affine()], [commit(..).to_affine()] and
    [write_point] *)
Definition commit_values (values : list Fr) : res g1 :=
  let! cm := commit_lagrange zero add (srs_of of_affine p) values in Ok (to_affine cm).
(** the commitments of the keys (plonk/keygen.rs:249-252 and
    plonk/permutation/keygen.rs:156-163); [keygen_vk] takes a total function,
    the panic for a column of another length becomes the identity *)
Definition commit_or_identity (col : list Fr) : g1 := match commit_values col with Ok g => g | Panic => g1_identity end.
Definition commit_poly (poly : list Fr) : res g1 :=
  let! cm := commit zero add (srs_of of_affine p) poly in Ok (to_affine cm).
Definition send_values (values : list Fr) : prover unit := put! cm <- wres (commit_values values); send_point cm.
Definition send_poly (poly : list Fr) : prover unit := put! cm <- wres (commit_poly poly); send_point cm.
(** [unusable_rows_start] *)
Definition usable : nat := n - (blinding_factors c + 1).

(** the public columns (plonk/prover.rs:78-131); [QUERY_INSTANCE] is false
    (shplonk/prover.rs:111) *)
Definition public_column (values : list Fr) : prover (list Fr) :=
  put! _ <- wlift (if length (empty d) =? n then POk tt else PPanic);
  put! _ <- wlift (if length (empty d) - (blinding_factors c + 1) <? length values then PFail else POk tt);
  put! _ <- wmap absorb values;
  wret (map (fun r => nth r values f0) (seq 0 (length (empty d)))).

(** the loop over the phases (plonk/prover.rs:297-414): the columns of the phase
    are assigned, committed to and kept; then its challenges are drawn *)
Fixpoint write_phase {A} (write : nat -> prover A) (ph : nat) (phs : list nat) (i : nat) (xs : list A) : prover (list A) :=
  match phs, xs with
  | q :: phs, x :: xs =>
      put! x <- (if Nat.eqb ph q then write i else wret x);
      put! xs <- write_phase write ph phs (S i) xs;
      wret (x :: xs)
  | _, _ => wret xs
  end.
Variable synth : nat -> (nat -> option Fr) -> pres (nat -> nat -> Fr).
Fixpoint write_phases (phs : list nat) (advice : list (list Fr)) (chs : list (option Fr))
    : prover (list (list Fr) * list (option Fr)) :=
  match phs with
  | [] => wret (advice, chs)
  | ph :: phs =>
      put! w <- wlift (synth ph (fun i => nth i chs None));
      put! advice <- write_phase (fun i => let col := map (w i) (seq 0 n) in put! _ <- send_values col; wret col)
                       ph (advice_phases c) 0 advice;
      put! chs <- write_phase (fun _ => put! x <- draw; wret (Some x)) ph (challenge_phases c) 0 chs;
      write_phases phs advice chs
  end.

(** [compress_expressions] (plonk/lookup/prover.rs:92-113) *)
Definition compressed_values (E : env) (theta : Fr) (es : list expr) : res (list Fr) :=
  let! rows := rmap (fun e => rmap (fun i => simple_evaluate E n i e) (seq 0 n)) es in
  fold_left (fun acc row => let! acc := acc in poly_add (poly_scale acc theta) row) rows (Ok (empty d)).
(** lookup::prover::Permuted (plonk/lookup/prover.rs:27-37) *)
Record permuted_lookup := PermutedLookup {
  pl_input : list Fr; pl_table : list Fr; pl_perm_input : list Fr; pl_perm_table : list Fr;
  pl_input_poly : list Fr; pl_table_poly : list Fr }.
Definition row_of (l : list Fr) (r : nat) : Fr := nth r l f0.
(** [commit_permuted] (plonk/lookup/prover.rs:66-162) *)
Definition commit_permuted (co : coins) (E : env) (theta : Fr) (il : nat * (list expr * list expr)) : prover permuted_lookup :=
  put! a <- wres (compressed_values E theta (fst (snd il)));
  put! t <- wres (compressed_values E theta (snd (snd il)));
  put! (a', t') <- wlift (permute_pair usable (row_of a) (row_of t));
  let a' := map (with_random usable a' (co_input co (fst il))) (seq 0 n) in
  let t' := map (with_random usable t' (co_table co (fst il))) (seq 0 n) in
  put! a_poly <- wres (to_coeff d a');
  put! t_poly <- wres (to_coeff d t');
  put! _ <- send_values a';
  put! _ <- send_values t';
  wret (PermutedLookup a t a' t' a_poly t_poly).

(** permutation commit (plonk/permutation/prover.rs:45-189) *)
Definition commit_sets (co : coins) (E : env) (beta gamma : Fr) : prover (list (list Fr)) :=
  put! cols <- wres (rmap (env_column E) (perm_columns c));
  put! zs <- wlift (perm_commit v n beta gamma (co_product co) (map row_of cols) (map row_of (pk_permutations pk)));
  wmap (fun z => let z := map z (seq 0 n) in put! _ <- send_values z; wres (to_coeff d z)) zs.
(** [commit_product] (plonk/lookup/prover.rs:169-308) *)
Definition commit_lookup (co : coins) (beta gamma : Fr) (ip : nat * permuted_lookup) : prover lookup_polys :=
  let l := snd ip in
  let z := map (lookup_product n (blinding_factors c) beta gamma (row_of (pl_input l)) (row_of (pl_table l))
             (row_of (pl_perm_input l)) (row_of (pl_perm_table l)) (co_lproduct co (fst ip))) (seq 0 n) in
  put! _ <- send_values z;
  put! z <- wres (to_coeff d z);
  wret (LPolys z (pl_input_poly l) (pl_table_poly l)).

(** [chunks_exact(n)] (plonk/vanishing/prover.rs:93-96); panics when n is zero *)
Fixpoint chunks_exact (fuel : nat) (l : list Fr) : list (list Fr) :=
  match fuel with
  | O => []
  | S f => if length l <? n then [] else firstn n l :: chunks_exact f (skipn n l)
  end.
(** vanishing construct (plonk/vanishing/prover.rs:71-122) *)
Definition construct (h : list Fr) : prover (list (list Fr)) :=
  put! h <- wres (divide_by_vanishing_poly fmul d h);
  put! h <- wres (extended_to_coeff fadd fsub fmul d h);
  put! _ <- wlift (if n =? 0 then PPanic else POk tt);
  let pieces := chunks_exact (length h) h in
  put! _ <- wmap send_poly pieces;
  wret pieces.
(** [h_poly] (plonk/vanishing/prover.rs:133-137) *)
Definition assemble (xn : Fr) (pieces : list (list Fr)) : res (list Fr) :=
  fold_left (fun acc piece => let! acc := acc in poly_add (poly_scale acc xn) piece) (rev pieces) (Ok (empty d)).

(** the polynomials the proof is about *)
Record polys := Polys {
  po_advice : list (list Fr); po_sets : list (list Fr); po_lookups : list lookup_polys;
  po_pieces : list (list Fr); po_random : list Fr }.
(** all messages up to the challenge x (plonk/prover.rs:56-539) *)
Definition write_messages (insts : list (list Fr)) (co : coins) : prover (polys * Fr) :=
  put! _ <- wlift (if length insts =? num_instance c then POk tt else PFail);
  put! _ <- absorb (transcript_repr v);
  put! instance <- wmap public_column insts;
  put! instance_polys <- wres (rmap (to_coeff d) instance);
  put! (advice, chs) <- write_phases (phases c) (repeat (empty d) (num_advice c)) (repeat None (num_challenges c));
  put! chs <- wres (unwrap_all chs);
  put! theta <- draw;
  let E beta gamma y := Env (pk_fixed_values pk) advice instance chs beta gamma theta y in
  put! pls <- wmap (commit_permuted co (E f0 f0 f0) theta) (enum (lookups c));
  put! beta <- draw;
  put! gamma <- draw;
  put! sets <- commit_sets co (E beta gamma f0) beta gamma;
  put! lks <- wmap (commit_lookup co beta gamma) (enum pls);
  put! random <- wres (to_coeff d (repeat f1 (length (empty d))));
  put! _ <- send_poly random;
  put! y <- draw;
  put! advice <- wres (rmap (to_coeff d) advice);
  put! h <- wres (evaluate_h pk advice instance_polys chs y beta gamma theta lks sets);
  put! pieces <- construct h;
  put! x <- draw;
  wret (Polys advice sets lks pieces random, x).

Definition eval_column (cols : list (list Fr)) (i : nat) (x : Fr) : res Fr :=
  let! col := at_ cols i in Ok (eval_polynomial col x).
(** permutation evaluate (plonk/permutation/prover.rs:233-277) *)
Fixpoint set_scalars (x x_next x_last : Fr) (sets : list (list Fr)) : list Fr :=
  match sets with
  | [] => []
  | [z] => [eval_polynomial z x; eval_polynomial z x_next]
  | z :: sets => eval_polynomial z x :: eval_polynomial z x_next :: eval_polynomial z x_last :: set_scalars x x_next x_last sets
  end.
(** the evaluations, in the order they are written (plonk/prover.rs:564-618,
    plonk/vanishing/prover.rs:146-147, plonk/permutation/prover.rs:218-277,
    plonk/lookup/prover.rs:311-339) *)
Definition proof_scalars (po : polys) (x : Fr) : res (list Fr) :=
  let at_rot := rotate_omega d x in
  let x_next := at_rot next in
  let x_inv := at_rot prev in
  let x_last := at_rot (- (Z.of_nat (blinding_factors c) + 1))%Z in
  let! adv := rmap (fun q : advice_col * Z => eval_column (po_advice po) (ac_index (fst q)) (at_rot (snd q))) (advice_queries c) in
  let! fix_ := rmap (fun q : nat * Z => eval_column (pk_fixed_polys pk) (fst q) (at_rot (snd q))) (fixed_queries c) in
  Ok (adv ++ fix_ ++ eval_polynomial (po_random po) x :: map (fun s => eval_polynomial s x) (pk_sigma_polys pk) ++
      set_scalars x x_next x_last (po_sets po) ++
      flat_map (fun l => [eval_polynomial (lp_product l) x; eval_polynomial (lp_product l) x_next; eval_polynomial (lp_input l) x;
                          eval_polynomial (lp_input l) x_inv; eval_polynomial (lp_table l) x]) (po_lookups po)).
(** the openings (plonk/prover.rs:620-666, plonk/permutation/prover.rs:207-215,
    280-320, plonk/lookup/prover.rs:343-383, plonk/vanishing/prover.rs:159-177);
    polynomials are compared by address, here by their place *)
Definition proof_queries (po : polys) (x : Fr) : list (handle * Fr) :=
  let at_rot := rotate_omega d x in
  let x_next := at_rot next in
  let x_inv := at_rot prev in
  let x_last := at_rot (- (Z.of_nat (blinding_factors c) + 1))%Z in
  let sets := seq 0 (length (po_sets po)) in
  map (fun q : advice_col * Z => (HAdvice (ac_index (fst q)), at_rot (snd q))) (advice_queries c) ++
  flat_map (fun i => [(HProduct i, x); (HProduct i, x_next)]) sets ++
  map (fun i => (HProduct i, x_last)) (tl (rev sets)) ++
  flat_map (fun i => [(HLookupProduct i, x); (HLookupInput i, x); (HLookupTable i, x); (HLookupInput i, x_inv); (HLookupProduct i, x_next)])
    (seq 0 (length (po_lookups po))) ++
  map (fun q : nat * Z => (HFixed (fst q), at_rot (snd q))) (fixed_queries c) ++
  map (fun i => (HSigma i, x)) (seq 0 (length (pk_sigma_polys pk))) ++
  [(HQuotient, x); (HRandom, x)].
Definition proof_poly (po : polys) (h_poly : list Fr) (h : handle) : res (list Fr) :=
  match h with
  | HAdvice i => at_ (po_advice po) i
  | HFixed i => at_ (pk_fixed_polys pk) i
  | HSigma i => at_ (pk_sigma_polys pk) i
  | HProduct i => at_ (po_sets po) i
  | HLookupProduct i => let! l := at_ (po_lookups po) i in Ok (lp_product l)
  | HLookupInput i => let! l := at_ (po_lookups po) i in Ok (lp_input l)
  | HLookupTable i => let! l := at_ (po_lookups po) i in Ok (lp_table l)
  | HQuotient => Ok h_poly
  | HRandom => Ok (po_random po)
  end.

(** SHPLONK up to its last challenge (poly/kzg/multiopen/shplonk/prover.rs:118-205) *)
Definition open_first (poly : handle -> list Fr) (qs : list (handle * Fr)) : prover (Fr * Fr * list Fr * Fr) :=
  put! y <- draw;
  put! vv <- draw;
  put! h <- wres (shplonk_h handle_eqb poly n qs y vv);
  put! _ <- send_poly h;
  put! u <- draw;
  wret (y, vv, h, u).
(** [create_proof] (plonk/prover.rs:40-672), all but the last point; the
    polynomials and points of the openings *)
Definition write_first (insts : list (list Fr)) (co : coins)
    : prover ((handle -> list Fr) * list (handle * Fr) * (Fr * Fr * list Fr * Fr)) :=
  put! (po, x) <- write_messages insts co;
  put! scalars <- wres (proof_scalars po x);
  put! _ <- wmap send_scalar scalars;
  put! h_poly <- wres (assemble (pow_vartime x (kz_n p)) (po_pieces po));
  let qs := proof_queries po x in
  put! _ <- wres (rmap (fun q => proof_poly po h_poly (fst q)) qs);
  let poly h := match proof_poly po h_poly h with Ok poly => poly | Panic => empty d end in
  put! o <- open_first poly qs;
  wret (poly, qs, o).
(** the last point (shplonk/prover.rs:207-295) *)
Definition write_proof (insts : list (list Fr)) (co : coins) : prover unit :=
  put! ((poly, qs), (y, vv, h, u)) <- write_first insts co;
  put! h2 <- wres (shplonk_h2 handle_eqb poly pr qs y vv h u);
  send_poly h2.
(** the transcript starts empty and is finalized into the bytes written *)
Definition create_proof (insts : list (list Fr)) (co : coins) : pres (list Z) :=
  pbind (write_proof insts co ([], [])) (fun r => POk (snd (snd r))).
End Create.

(** the synthesis of the project's circuit in one phase *)
Definition bf_synth (v : vkey) (n : nat) (m : matrix) (insts : list (list Fr)) (phase : nat) (ch : nat -> option Fr)
    : pres (nat -> nat -> Fr) :=
  match bf_configure with
  | Panic => PPanic
  | Ok (conf, _) =>
      of_eres (elet ops := synthesize conf m (VEnv ch (ve_instance (prover_env phase insts (fun _ => f0)))) in
               witness_phase (vk_cs v) n phase insts ops)
  end.
