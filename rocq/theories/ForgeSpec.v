(** A prover that runs the unmodified code on columns of its own. *)
From Coq Require Import ZArith List.
From Verif Require Import Base Moduli Field PolyFacts Halo2Model SelectorSpec DomainModel VkModel IopModel IopSpec ProverModel ProverSpec GraphModel CreateModel
  TranscriptModel VerifierModel.
Import ListNotations.

(** Columns may depend on the challenges. *)
Definition columns := list Fr -> nat -> nat -> Fr.
(** in place of the circuit's synthesis; unknown challenges are taken as zero *)
Definition column_synth (c : cs) (A : columns) (phase : nat) (ch : nat -> option Fr) : pres (nat -> nat -> Fr) :=
  POk (A (map (fun i => match ch i with Some x => x | None => f0 end) (seq 0 (num_challenges c)))).
(** Columns of the first phase do not depend on challenges. *)
Definition causal (c : cs) (A : columns) : Prop := forall chs chs' col r, nth col (advice_phases c) 0 = 0 -> A chs col r = A chs' col r.
(** The challenges drawn from these bytes make no denominator of a running
    product of these columns zero. *)
Definition fortunate_for (A : columns) (hash : list Z -> list Z) (transcript_repr : vkey -> Fr) (pk : pkey) (n : nat) (insts : list (list Fr)) (bytes : list Z) : Prop :=
  let v := pk_vk pk in
  exists ms st rest,
    read_messages hash transcript_repr v insts [] bytes = TOk ms st rest /\
    lucky v n (mkAssign n (fun _ _ => false) (fun i r => nth r (nth i (pk_fixed_values pk) []) f0) (A (ms_challenges ms)) (instance_fn insts) (fun i => nth i (ms_challenges ms) f0))
      (fun i => nth i (pk_sigma_polys pk) []) (ms_theta ms) (ms_beta ms) (ms_gamma ms).
