(** Which challenges let an honest prover's running products exist. *)
From Coq Require Import ZArith List.
From Verif Require Import Base Moduli Field PolyFacts Halo2Model VMModel CircuitModel SelectorSpec DomainModel VkModel IopModel IopSpec ProverModel ProverSpec GraphModel
  TranscriptModel VerifierModel.
Import ListNotations.

(** The challenges drawn from these bytes make no denominator of a running
    product of this matrix zero: [adv] is the witness the circuit asks for under
    them. *)
Definition fortunate (hash : list Z -> list Z) (transcript_repr : vkey -> Fr) (pk : pkey) (n : nat) (m : matrix) (insts : list (list Fr)) (bytes : list Z) : Prop :=
  let v := pk_vk pk in
  exists ms st rest adv,
    read_messages hash transcript_repr v insts [] bytes = TOk ms st rest /\
    bf_witness n m insts (fun i => nth i (ms_challenges ms) f0) = EOk adv /\
    lucky v n (mkAssign n (fun _ _ => false) (fun i r => nth r (nth i (pk_fixed_values pk) []) f0) adv (instance_fn insts) (fun i => nth i (ms_challenges ms) f0))
      (fun i => nth i (pk_sigma_polys pk) []) (ms_theta ms) (ms_beta ms) (ms_gamma ms).
