(** [verify_proof] on the bytes of a proof (halo2_proofs/src/plonk/verifier.rs),
    as the on-chain program calls it (ckb_bf_verifier/src/main.rs:126-134):
    Blake2b transcript, SHPLONK, one proof, one vector of public columns.

    Simplifications, besides those of IopModel, ShplonkModel, TranscriptModel:
    - the key's digest [transcript_repr] (plonk.rs:176-204, a hash of its debug
      output) is an argument;
    - the group is any type with the operations used and a map from affine
      points; of the pairing only the handling of points at infinity is modelled,
      the product of the pairings that are left is an argument;
    - the checked arithmetic of [chunk_len] is left out: the degree is at least
      two. *)
From Coq Require Import ZArith List Bool Arith.
From Verif Require Import Base Field LimbModel Halo2Model SelectorModel SerdeModel DomainModel VkModel PermModel IopModel
  ArithModel KzgModel ShplonkModel TranscriptModel EntryModel.
Import ListNotations.
Local Open Scope Z_scope.

(** ** The pairing (halo2curves/src/bn256/engine.rs, poly/kzg/msm.rs:152-167) *)

(** derive/curve.rs:704-706 for G2, 938-947 *)
Definition fq2_is_zero (a : fq2) : bool := leqb (c0 a) lzero && leqb (c1 a) lzero.
Definition g2_is_identity (a : g2) : bool := fq2_is_zero (g2_x a) && fq2_is_zero (g2_y a).
Definition fq2_neg (a : fq2) : fq2 := Fq2 (lneg fq_params (c0 a)) (lneg fq_params (c1 a)).
Definition g2_neg (a : g2) : g2 := G2 (g2_x a) (fq2_neg (g2_y a)).
Definition g2_identity : g2 := G2 (Fq2 lzero lzero) (Fq2 lzero lzero).

Section Verifier.
Variable hash : list Z -> list Z.
Variable transcript_repr : vkey -> Fr.
Context {G : Type}.
Variables (zero : G) (add : G -> G -> G) (of_affine : g1 -> G) (is_zero : G -> bool).
(** whether the product of the pairings of these points is one *)
Variable pairing_product : list (G * g2) -> bool.

(** DualMSM::check (poly/kzg/msm.rs:152-167) with [multi_miller_loop]
    (bn256/engine.rs:563-569), which skips pairs with a point at infinity *)
Definition pairing_check (l : G) (s_g2 : g2) (r : G) (g2_ : g2) : bool :=
  pairing_product (filter (fun pq : G * g2 => negb (is_zero (fst pq)) && negb (g2_is_identity (snd pq)))
                     [(l, s_g2); (r, g2_neg g2_)]).

(** ** Reading a proof *)

(** [phases] (plonk/circuit.rs:2218-2226) *)
Definition phases (c : cs) : list nat := seq 0 (S (fold_left Nat.max (advice_phases c) 0%nat)).
(** the two inner loops (plonk/verifier.rs:101-117) *)
Fixpoint read_phase {A} (read : transcript A) (ph : nat) (phs : list nat) (xs : list A) : transcript (list A) :=
  match phs, xs with
  | p :: phs, x :: xs =>
      get! x <- (if Nat.eqb ph p then read else tret x);
      get! xs <- read_phase read ph phs xs;
      tret (x :: xs)
  | _, _ => tret xs
  end.
Fixpoint read_phases (c : cs) (phs : list nat) (advice : list g1) (chs : list Fr) : transcript (list g1 * list Fr) :=
  match phs with
  | [] => tret (advice, chs)
  | ph :: phs =>
      get! advice <- read_phase read_point ph (advice_phases c) advice;
      get! chs <- read_phase (squeeze hash) ph (challenge_phases c) chs;
      read_phases c phs advice chs
  end.
(** [common_scalar] on all public values (plonk/verifier.rs:85-91) *)
Fixpoint absorb_scalars (l : list Fr) : transcript unit :=
  match l with
  | [] => tret tt
  | s :: l => get! _ <- common_scalar s; absorb_scalars l
  end.
(** the scalars read at plonk/verifier.rs:218-241: advice, fixed, random,
    permutation (common, then three for each set but two for the last one),
    lookups *)
Definition sets_count (v : vkey) : nat := length (chunks (chunk_len v) (perm_columns (vk_cs v))).
Definition scalars_count (v : vkey) : nat :=
  length (advice_queries (vk_cs v)) + length (fixed_queries (vk_cs v)) + 1 + length (vk_permutation v) +
  (3 * sets_count v - (if Nat.eqb (sets_count v) 0 then 0 else 1)) + 5 * length (lookups (vk_cs v)).

(** the points and challenges of a proof *)
Record messages := Messages {
  ms_advice : list g1; ms_lookups : list (g1 * g1); ms_products : list g1; ms_lproducts : list g1;
  ms_random : g1; ms_h : list g1;
  ms_challenges : list Fr; ms_theta : Fr; ms_beta : Fr; ms_gamma : Fr; ms_y : Fr; ms_x : Fr }.
(** from the start to the challenge x (plonk/verifier.rs:74-170) *)
Definition read_messages (v : vkey) (insts : list (list Fr)) : transcript messages :=
  let c := vk_cs v in
  get! _ <- common_scalar (transcript_repr v);
  get! _ <- absorb_scalars (concat insts);
  get! (advice, chs) <- read_phases c (phases c) (repeat g1_identity (num_advice c)) (repeat f0 (num_challenges c));
  get! theta <- squeeze hash;
  get! lks <- trepeat (length (lookups c)) (get! a <- read_point; get! b <- read_point; tret (a, b));
  get! beta <- squeeze hash;
  get! gamma <- squeeze hash;
  get! _ <- (if (chunk_len v =? 0)%nat then tlift Panic else tret tt);
  get! products <- trepeat (sets_count v) read_point;
  get! lproducts <- trepeat (length (lookups c)) read_point;
  get! random <- read_point;
  get! y <- squeeze hash;
  get! h <- trepeat (Z.to_nat (d_quotient_poly_degree (vk_domain v))) read_point;
  get! x <- squeeze hash;
  tret (Messages advice lks products lproducts random h chs theta beta gamma y x).

(** the commitments the queries refer to (plonk/verifier.rs:327-389); indexing
    panics.  The quotient's is assembled at plonk/vanishing/verifier.rs:101-111. *)
Definition pt (p : g1) : reference G := RPoint (of_affine p).
Definition h_msm (xn : Fr) (h : list g1) : msm G :=
  h_combine msm_scale (fun a b => a ++ b) [] xn (map (fun p => [(f1, of_affine p)]) h).
Definition commitment (v : vkey) (m : messages) (xn : Fr) (h : handle) : res (reference G) :=
  match h with
  | HAdvice i => let! p := at_ (ms_advice m) i in Ok (pt p)
  | HFixed i => let! p := at_ (vk_fixed v) i in Ok (pt p)
  | HSigma i => let! p := at_ (vk_permutation v) i in Ok (pt p)
  | HProduct i => let! p := at_ (ms_products m) i in Ok (pt p)
  | HLookupProduct i => let! p := at_ (ms_lproducts m) i in Ok (pt p)
  | HLookupInput i => let! p := at_ (ms_lookups m) i in Ok (pt (fst p))
  | HLookupTable i => let! p := at_ (ms_lookups m) i in Ok (pt (snd p))
  | HQuotient => Ok (RMsm (h_msm xn (ms_h m)))
  | HRandom => Ok (pt (ms_random m))
  end.
Definition resolve (v : vkey) (m : messages) (xn : Fr) (h : handle) : reference G :=
  match commitment v m xn h with Ok c => c | Panic => RMsm [] end.

(** commitments are compared by address: by their place *)
Definition handle_eqb (a b : handle) : bool :=
  match a, b with
  | HAdvice i, HAdvice j | HFixed i, HFixed j | HSigma i, HSigma j | HProduct i, HProduct j
  | HLookupProduct i, HLookupProduct j | HLookupInput i, HLookupInput j | HLookupTable i, HLookupTable j => Nat.eqb i j
  | HQuotient, HQuotient | HRandom, HRandom => true
  | _, _ => false
  end.

Definition srs_of (p : kzg) : srs G g2 :=
  Srs (kz_k p) (kz_n p) (map of_affine (kz_g p)) (map of_affine (kz_gl p)) (kz_g2 p) (kz_sg2 p).

(** from the start to the openings (plonk/verifier.rs:74-389): the messages and
    the openings the commitment scheme has to check *)
Definition read_claims (p : kzg) (v : vkey) (insts : list (list Fr)) : transcript (messages * list opening) :=
  get! m <- read_messages v insts;
  get! _ <- tlift (instance_evals v (kz_n p) insts (ms_x m));
  get! scalars <- trepeat (scalars_count v) read_scalar;
  match read_evals v scalars with
  | None => fun _ _ => TErr
  | Some (e, _) =>
      match verify_openings v (kz_n p) insts (ms_challenges m) (ms_theta m) (ms_beta m) (ms_gamma m) (ms_y m) (ms_x m) e with
      | VInvalidInstances => fun _ _ => TErr
      | VPanic => fun _ _ => TPanic
      | VOpen ops =>
          get! _ <- tlift (rmap (fun o : opening => commitment v m (pow_vartime (ms_x m) (kz_n p)) (fst (fst o))) ops);
          tret (m, ops)
      end
  end.
(** the rest (shplonk/verifier.rs:53-147, poly/kzg/strategy.rs:142-154): the
    challenges and points of the opening argument, then the check *)
Definition read_opening (p : kzg) (v : vkey) (insts : list (list Fr)) : transcript (messages * list opening * (Fr * Fr * g1 * Fr)) :=
  get! mo <- read_claims p v insts;
  get! y <- squeeze hash;
  get! vv <- squeeze hash;
  get! h1 <- read_point;
  get! u <- squeeze hash;
  tret (mo, (y, vv, h1, u)).
Definition verify_transcript (p : kzg) (v : vkey) (insts : list (list Fr)) : transcript bool :=
  get! ((m, ops), (y, vv, h1, u)) <- read_opening p v insts;
  get! h2 <- read_point;
  tlift (shplonk_verify handle_eqb (resolve v m (pow_vartime (ms_x m) (kz_n p))) zero add pairing_check (srs_of p) ops y vv
           (of_affine h1) u (of_affine h2)).
(** [verify_proof] (plonk/verifier.rs:28-400); the transcript starts empty *)
Definition verify_proof (p : kzg) (v : vkey) (insts : list (list Fr)) (proof : list Z) : res bool :=
  if negb (length insts =? num_instance (vk_cs v))%nat then Ok false else
  match verify_transcript p v insts [] proof with
  | TOk b _ _ => Ok b
  | TErr => Ok false
  | TPanic => Panic
  end.
End Verifier.

(** The on-chain program, all of it. *)
Definition bf_program (hash : list Z -> list Z) (transcript_repr : vkey -> Fr) {G : Type} (zero : G) (add : G -> G -> G)
    (of_affine : g1 -> G) (is_zero : G -> bool) (pairing_product : list (G * g2) -> bool)
    (pr : profile) (stack : nat) : (nat -> option (list Z)) -> exit :=
  bf_verifier pr stack (verify_proof hash transcript_repr zero add of_affine is_zero pairing_product).
