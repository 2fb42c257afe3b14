(** The whole argument as an interactive protocol: the prover commits to
    polynomials, the verifier of proof bytes decides. *)
From Coq Require Import ZArith List Arith Bool.
From Verif Require Import Base Moduli Field LimbSpec PolyFacts SerdeModel Halo2Model SelectorModel DomainModel VkModel IopModel IopRows IopSpec ArithSpec KzgModel ShplonkModel
  TranscriptModel VerifierModel.
Import ListNotations.

(** A key with other points. *)
Definition with_points (v : vkey) (fixed sigma : list g1) : vkey :=
  VKey (vk_domain v) fixed sigma (vk_cs v) (vk_degree v) (vk_assignments v).
(** Queries are of columns that exist, and no column is queried twice at the same
    rotation of [n] rows. *)
Definition orderly_queries (v : vkey) (n : nat) : Prop :=
  (forall q, In q (advice_queries (vk_cs v)) -> ac_index (fst q) < num_advice (vk_cs v)) /\
  NoDup (map (fun q => (ac_index (fst q), (snd q mod Z.of_nat n)%Z)) (advice_queries (vk_cs v))) /\
  NoDup (map (fun q => (fst q, (snd q mod Z.of_nat n)%Z)) (fixed_queries (vk_cs v))).

Section Argument.
Context {G : Type}.
Variables (zero : G) (add : G -> G -> G) (scale : Fr -> G -> G) (gen : G) (scale2 : Fr -> g2 -> g2) (gen2 : g2).
Variables (of_affine : g1 -> G) (is_zero : G -> bool) (pairing_product : list (G * g2) -> bool).

(** What the verifier decides when it has read the messages [m], the scalars and
    the two points of the opening argument and has drawn [y], [vv] and [u]. *)
Definition decide (p : kzg) (v : vkey) (insts : list (list Fr)) (m : messages) (scalars : list Fr) (y vv : Fr) (h1 : g1) (u : Fr) (h2 : g1) : res bool :=
  match read_evals v scalars with
  | None => Ok false
  | Some (e, _) =>
      match verify_openings v (kz_n p) insts (ms_challenges m) (ms_theta m) (ms_beta m) (ms_gamma m) (ms_y m) (ms_x m) e with
      | VInvalidInstances => Ok false
      | VPanic => Panic
      | VOpen ops => shplonk_verify handle_eqb (resolve of_affine v m (pow_vartime (ms_x m) (kz_n p))) zero add (pairing_check is_zero pairing_product)
                       (srs_of of_affine p) ops y vv (of_affine h1) u (of_affine h2)
      end
  end.

(** What is read from the bytes of a proof: messages, scalars, two challenges, a
    point, a challenge, a point. *)
Definition heard (hash : list Z -> list Z) (transcript_repr : vkey -> Fr) (v : vkey) (insts : list (list Fr)) (proof : list Z)
    (m : messages) (scalars : list Fr) (y vv : Fr) (h1 : g1) (u : Fr) (h2 : g1) : Prop :=
  exists s1 b1 s2 b2 s3 b3 s4 b4 s5 b5 s6 b6 s7 b7,
    read_messages hash transcript_repr v insts [] proof = TOk m s1 b1 /\
    trepeat (scalars_count v) read_scalar s1 b1 = TOk scalars s2 b2 /\
    squeeze hash s2 b2 = TOk y s3 b3 /\ squeeze hash s3 b3 = TOk vv s4 b4 /\ read_point s4 b4 = TOk h1 s5 b5 /\
    squeeze hash s5 b5 = TOk u s6 b6 /\ read_point s6 b6 = TOk h2 s7 b7.

(** The points of the key and of the messages commit to these polynomials. *)
Definition commits (p : kzg) (q : list Fr) (a : g1) : Prop := commit zero add (srs_of of_affine p) q = Ok (of_affine a).
Definition commits_all (p : kzg) (n : nat) (f : nat -> list Fr) (l : list g1) : Prop :=
  length l = n /\ forall i a, nth_error l i = Some a -> commits p (f i) a.
Record carries (p : kzg) (v : vkey) (m : messages) (P : committed) : Prop := {
  ca_advice : commits_all p (num_advice (vk_cs v)) (cm_advice P) (ms_advice m);
  ca_fixed : commits_all p (num_fixed (vk_cs v)) (cm_fixed P) (vk_fixed v);
  ca_sigma : commits_all p (length (perm_columns (vk_cs v))) (cm_sigma P) (vk_permutation v);
  ca_products : commits_all p (sets_count v) (cm_product P) (ms_products m);
  ca_lproducts : commits_all p (length (lookups (vk_cs v))) (cm_lproduct P) (ms_lproducts m);
  ca_linputs : commits_all p (length (lookups (vk_cs v))) (cm_linput P) (map fst (ms_lookups m));
  ca_ltables : commits_all p (length (lookups (vk_cs v))) (cm_ltable P) (map snd (ms_lookups m));
  ca_random : commits p (cm_random P) (ms_random m);
  ca_h : Forall2 (commits p) (cm_quotient P) (ms_h m) }.

(** The end of the protocol: after [x] the prover sends evaluations and answers
    that many challenges of the opening argument, with polynomials, for that many
    secrets of the set-up.  There are as many openings as scalars and one for the
    quotient. *)
Definition argues (v : vkey) (k : Z) (insts : list (list Fr)) (chs : list Fr) (theta beta gamma y x : Fr) (P : committed) : Prop :=
  let n := Z.to_nat (2 ^ k) in
  let count := scalars_count v + 1 in
  exists scalars,
  many count (fun y' => many count (fun v' => exists H1,
  many (n + count) (fun u => exists H2,
  many (n + 1) (fun s => exists p fixed sigma m h1 h2,
    let w := with_points v fixed sigma in
    setup scale gen scale2 gen2 k s = Ok (srs_of of_affine p) /\ carries p w m P /\
    (ms_challenges m, ms_theta m, ms_beta m, ms_gamma m, ms_y m, ms_x m) = (chs, theta, beta, gamma, y, x) /\
    commits p H1 h1 /\ commits p H2 h2 /\
    decide p w insts m scalars y' v' h1 u h2 = Ok true)))).

(** The rounds before, as in [convincing]; one challenge [x] more has to be
    answered, since at zero all rotations are one point. *)
Definition rounds (v : vkey) (k : Z) (F S : nat -> list Fr) (advice : nat -> list Fr) (ends : Fr -> Fr -> Fr -> Fr -> committed -> Prop) : Prop :=
  let n := Z.to_nat (2 ^ k) in
  let c := vk_cs v in
  let u := usable_rows n c in
  many (need_theta c u) (fun theta => exists linput ltable,
  many (need_beta c u) (fun beta =>
  many (need_gamma c u) (fun gamma => exists product lproduct random,
  many (Nat.max 1 (need_y v)) (fun y => exists quotient,
    let P := Committed advice F S product lproduct linput ltable quotient random in
    bounded v n P /\ ends theta beta gamma y P)))).
Definition arguing (v : vkey) (k : Z) (insts : list (list Fr)) (chs : list Fr) (F S : nat -> list Fr) (advice : nat -> list Fr) : Prop :=
  rounds v k F S advice (fun theta beta gamma y P =>
    many (1 + need_x v (Z.to_nat (2 ^ k))) (fun x => argues v k insts chs theta beta gamma y x P)).
(** As [can_convince], with this protocol. *)
Definition can_argue (v : vkey) (k : Z) (insts : list (list Fr)) (F S : nat -> list Fr) (A0 : nat -> nat -> Fr) : Prop :=
  forall chs, length chs = num_challenges (vk_cs v) -> exists advice,
    (forall i, length (advice i) <= Z.to_nat (2 ^ k)) /\
    (forall col r, r < Z.to_nat (2 ^ k) -> nth col (advice_phases (vk_cs v)) 0 = 0 ->
      peval (advice col) (fpow (d_omega (vk_domain v)) (Z.of_nat r)) = A0 col r) /\
    arguing v k insts chs F S advice.
End Argument.
