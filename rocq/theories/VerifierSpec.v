(** What the statements about the verifier of proof bytes refer to. *)
From Coq Require Import ZArith List.
From Verif Require Import Base Moduli Field LimbModel LimbSpec SerdeModel Halo2Model VkModel IopModel IopSpec EntrySpec KzgModel TranscriptModel VerifierModel DomainModel.
Import ListNotations.


(** a hash with digests of 64 bytes *)
Definition digest64 (hash : list Z -> list Z) : Prop := forall l, Forall byte (hash l) /\ length (hash l) = 64.
(** the challenge squeezed after absorbing [st]: the digest modulo the order *)
Definition challenge_of (hash : list Z -> list Z) (st : list Z) : Fr := of_Z r_pos (le_int (hash st)).

(** ** Conversations *)
Inductive move := MPoint (p : g1) | MScalar (s : Fr) | MChallenge (c : Fr).
(** the prover's side takes the state of its transcript from [w] to [w'] *)
Fixpoint writes (hash : list Z -> list Z) (l : list move) (w w' : wstate) : Prop :=
  match l with
  | [] => w' = w
  | MPoint p :: l => exists w1, write_point p w = Some w1 /\ writes hash l w1 w'
  | MScalar s :: l => writes hash l (write_scalar s w) w'
  | MChallenge c :: l => exists w1, wsqueeze hash w = Ok (c, w1) /\ writes hash l w1 w'
  end.
(** the verifier's side: bytes absorbed, bytes left *)
Fixpoint reads (hash : list Z -> list Z) (l : list move) (st b st' b' : list Z) : Prop :=
  match l with
  | [] => st' = st /\ b' = b
  | MPoint p :: l => exists st1 b1, read_point st b = TOk p st1 b1 /\ reads hash l st1 b1 st' b'
  | MScalar s :: l => exists st1 b1, read_scalar st b = TOk s st1 b1 /\ reads hash l st1 b1 st' b'
  | MChallenge c :: l => exists st1 b1, squeeze hash st b = TOk c st1 b1 /\ reads hash l st1 b1 st' b'
  end.

(** ** Keys a verifier can work with: everything referred to is there *)
Record complete_key (v : vkey) : Prop := {
  ck_cs : well_formed (vk_cs v);
  ck_degree : 3 <= vk_degree v;
  ck_fixed : length (vk_fixed v) = num_fixed (vk_cs v);
  ck_perm : length (vk_permutation v) = length (perm_columns (vk_cs v));
  ck_advice : forall q, In q (advice_queries (vk_cs v)) -> ac_index (fst q) < num_advice (vk_cs v) }.

(** ** Sizes: points and scalars of a proof *)
Definition phase_count (ph : nat) (phs : list nat) (k : nat) : nat := count_occ Nat.eq_dec (firstn k phs) ph.
Definition phases_count (phs : list nat) (all : list nat) (k : nat) : nat := list_sum (map (fun ph => phase_count ph all k) phs).
Definition advice_reads (v : vkey) : nat := phases_count (phases (vk_cs v)) (advice_phases (vk_cs v)) (num_advice (vk_cs v)).
Definition points_count (v : vkey) : nat :=
  advice_reads v + 3 * length (lookups (vk_cs v)) + sets_count v + 1 + Z.to_nat (d_quotient_poly_degree (vk_domain v)).
Definition proof_size (v : vkey) : nat := 32 * (points_count v + 2 + scalars_count v).

(** ** The statement: a program and an input *)
Definition statement (ws inp : list Z) : list (list Fr) := [column ws; column inp].
Definition in_field (l : list Z) : Prop := Forall (fun x => (0 <= x < r_modulus)%Z) l /\ (lenZ l < r_modulus)%Z.
Definition zero_proof (v : vkey) : list Z := repeat 0%Z (proof_size v).

(** the challenge x of this proof is on the domain, or its challenge u is where a
    polynomial is opened *)
Definition unlucky (hash : list Z -> list Z) (transcript_repr : vkey -> Fr) {G} (of_affine : g1 -> G)
    (p : kzg) (v : vkey) (insts : list (list Fr)) (proof : list Z) : Prop :=
  (exists m st rest, read_messages hash transcript_repr v insts [] proof = TOk m st rest /\ pow_vartime (ms_x m) (kz_n p) = f1) \/
  (exists m ops y vv h1 u st rest, read_opening hash transcript_repr of_affine p v insts [] proof = TOk (m, ops, (y, vv, h1, u)) st rest /\
     exists t, u = rotate_omega (vk_domain v) (ms_x m) t).
