(** Properties C82 and C83: the proof protocol as a whole, with commitments. *)
From Coq Require Import ZArith List Bool Lia.
From Verif Require Import Base Moduli Field LimbSpec PolyFacts SerdeModel VMModel CircuitSpec CircuitModel Halo2Model DomainModel VkModel SoundSpec IopModel IopRows
  ArithSpec KzgModel ShplonkModel ShplonkSpec TranscriptModel VerifierModel VerifierSpec VerifierBind VerifierProject VerifierCases IopSpec ArgueSpec ArgueThms ArgueProject ArgueCase
  Prop_Serde Prop_Entry Prop_Verifier.
Import ListNotations IopSpec.

(** C82: whoever answers enough challenges of every round, of the opening argument
    as well, with commitments that make the verifier of proof bytes decide for
    them, holds an assignment that satisfies the circuit. *)
Theorem C82_sound : forall (G : Type) (zero : G) add sub scale gen scale2 gen2 of_affine is_zero pairing_product,
  is_module zero add sub scale -> is_pairing scale scale2 gen2 (pairing_check is_zero pairing_product) -> gen <> zero ->
  forall v k fixed copies F S insts chs advice,
  key_for v k fixed copies F S -> orderly_queries v (Z.to_nat (2 ^ k)) ->
  length chs = num_challenges (vk_cs v) -> (forall l, In l insts -> (Z.of_nat (length l) <= 2 ^ k)%Z) ->
  arguing zero add scale gen scale2 gen2 of_affine is_zero pairing_product v k insts chs F S advice ->
  satisfied (vk_cs v) copies (assigned (Z.to_nat (2 ^ k)) (d_omega (vk_domain v)) fixed advice insts chs) /\
  length insts = num_instance (vk_cs v).
Proof.
  intros G zero add sub scale gen scale2 gen2 of_affine is_zero pairing_product M Hp Hg v k fixed copies F S insts chs advice HK HQ Hc HL HA.
  exact (argue_sound zero add sub scale gen scale2 gen2 of_affine is_zero pairing_product M Hp v k fixed copies F S HK HQ insts chs advice Hc HL Hg HA).
Qed.
Print Assumptions C82_sound.
(** And whoever holds one can answer. *)
Theorem C82_complete : forall (G : Type) (zero : G) add sub scale gen scale2 gen2 of_affine to_affine is_zero pairing_product,
  is_module zero add sub scale -> is_pairing scale scale2 gen2 (pairing_check is_zero pairing_product) ->
  (forall g, of_affine (to_affine g) = g) ->
  forall v k fixed copies F S insts chs advice,
  key_for v k fixed copies F S -> orderly_queries v (Z.to_nat (2 ^ k)) ->
  length chs = num_challenges (vk_cs v) -> length insts = num_instance (vk_cs v) -> (forall l, In l insts -> (Z.of_nat (length l) <= 2 ^ k)%Z) ->
  (forall i, length (F i) <= Z.to_nat (2 ^ k) /\ length (S i) <= Z.to_nat (2 ^ k) /\ length (advice i) <= Z.to_nat (2 ^ k)) ->
  (Z.of_nat (scalars_count v) < 2 ^ 60)%Z -> (Z.of_nat (need_y v + lookup_width (vk_cs v)) < 2 ^ 60)%Z ->
  satisfied (vk_cs v) copies (assigned (Z.to_nat (2 ^ k)) (d_omega (vk_domain v)) fixed advice insts chs) ->
  arguing zero add scale gen scale2 gen2 of_affine is_zero pairing_product v k insts chs F S advice.
Proof.
  intros G zero add sub scale gen scale2 gen2 of_affine to_affine is_zero pairing_product M Hp Hback v k fixed copies F S insts chs advice HK HQ Hc Hi HL HB SC SM X.
  exact (argue_complete zero add sub scale gen scale2 gen2 of_affine is_zero pairing_product M Hp v k fixed copies F S HK HQ insts chs to_affine Hback SC advice Hc Hi HL X
    (fun i => proj1 (HB i)) (fun i => proj1 (proj2 (HB i))) (fun i => proj2 (proj2 (HB i))) SM).
Qed.
Print Assumptions C82_complete.
(** The decision of the protocol is that of the verifier of proof bytes on what
    the bytes say. *)
Theorem C82_bytes : forall hash transcript_repr (G : Type) (zero : G) add of_affine is_zero pairing_product p v insts proof, complete_key v ->
  verify_proof hash transcript_repr zero add of_affine is_zero pairing_product p v insts proof = Ok true <->
  length insts = num_instance (vk_cs v) /\ exists m scalars y vv h1 u h2,
    heard hash transcript_repr v insts proof m scalars y vv h1 u h2 /\
    decide zero add of_affine is_zero pairing_product p v insts m scalars y vv h1 u h2 = Ok true.
Proof. intros hash transcript_repr G zero add of_affine is_zero pairing_product p v insts proof K. exact (decides_iff hash transcript_repr zero add of_affine is_zero pairing_product p v insts proof K). Qed.
Print Assumptions C82_bytes.
(** ",+." on "a" with 512 rows, in the group of the scalars. *)
Example C82_case : exists v fixed copies F S insts chs advice,
  insts = public_inputs (map FrZ [44; 43; 46]%Z) [97%Z] /\
  is_module (f0 : Fr) fadd fsub fmul /\ is_pairing (fmul : Fr -> Fr -> Fr) times2 (point2 f1) (pairing_check null sums) /\ (f1 : Fr) <> f0 /\
  (forall g, of_point (to_point g) = g) /\
  key_for v 9 fixed copies F S /\ orderly_queries v 512 /\ length chs = num_challenges (vk_cs v) /\ length insts = num_instance (vk_cs v) /\
  (forall l, In l insts -> (Z.of_nat (length l) <= 2 ^ 9)%Z) /\
  (forall i, length (F i) <= 512 /\ length (S i) <= 512 /\ length (advice i) <= 512) /\
  (Z.of_nat (scalars_count v) < 2 ^ 60)%Z /\ (Z.of_nat (need_y v + lookup_width (vk_cs v)) < 2 ^ 60)%Z /\
  satisfied (vk_cs v) copies (assigned 512 (d_omega (vk_domain v)) fixed advice insts chs) /\
  arguing f0 fadd fmul f1 times2 (point2 f1) of_point null sums v 9 insts chs F S advice.
Proof. exact small_argument. Qed.
Example C82_bytes_case : exists v hash proof, complete_key v /\ length proof = proof_size v /\ exists m scalars y vv h1 u h2,
  heard hash (fun _ => f0) v (statement [43%Z] [65%Z]) proof m scalars y vv h1 u h2 /\
  decide (f0 : Fr) fadd (fun _ => f0) (fun a => feqb a f0) (weighed f0) c27_params v (statement [43%Z] [65%Z]) m scalars y vv h1 u h2 = Ok true.
Proof.
  destruct C70_case as (v & hash & proof & K & _ & L & _ & A). exists v, hash, proof. split; [exact K|]. split; [exact L|].
  apply (C82_bytes _ _ _ _ _ _ _ _ _ _ _ _ K) in A. exact (proj2 A).
Qed.

(** C83: for keys of the project: exactly the public inputs and first-phase columns
    the circuit accepts can be argued for. *)
Theorem C83_exactly_accepted : forall (G : Type) (zero : G) add sub scale gen scale2 gen2 of_affine to_affine is_zero pairing_product,
  is_module zero add sub scale -> gen <> zero -> is_pairing scale scale2 gen2 (pairing_check is_zero pairing_product) ->
  (forall g, of_affine (to_affine g) = g) ->
  forall commit pr k m v, keygen_vk commit pr k m = EOk v -> (0 <= k < 63)%Z ->
  exists cols sigma,
    vk_fixed v = map commit cols /\ vk_permutation v = map commit sigma /\
    (forall col, In col cols \/ In col sigma -> length col = Z.to_nat (2 ^ k)) /\
    forall F S insts A0,
      interpolates (d_omega (vk_domain v)) cols F -> interpolates (d_omega (vk_domain v)) sigma S ->
      (forall i, length (F i) <= Z.to_nat (2 ^ k) /\ length (S i) <= Z.to_nat (2 ^ k)) ->
      (forall l, In l insts -> length l <= usable_rows (Z.to_nat (2 ^ k)) (vk_cs v)) ->
      (can_argue zero add scale gen scale2 gen2 of_affine is_zero pairing_product v k insts F S A0 <-> accepted (Z.to_nat (2 ^ k)) m insts CircuitFacts.conf A0).
Proof.
  intros G zero add sub scale gen scale2 gen2 of_affine to_affine is_zero pairing_product M Hg Hp Hback.
  exact (argue_iff zero add sub scale gen scale2 gen2 of_affine to_affine is_zero pairing_product M Hg Hp Hback).
Qed.
Print Assumptions C83_exactly_accepted.
Example C83_case : exists v, keygen_vk (fun _ => serde_g) Wrapping 9 c47_matrix = EOk v /\
  is_module (f0 : Fr) fadd fsub fmul /\ is_pairing (fmul : Fr -> Fr -> Fr) times2 (point2 f1) (pairing_check null sums) /\ (f1 : Fr) <> f0 /\
  (forall g, of_point (to_point g) = g).
Proof.
  destruct C47_case as (v & K & _). exists v. split; [exact K|]. split; [exact scalar_module|]. split; [exact sums_pairing|]. split; [exact one_not_zero|exact of_to_point].
Qed.
