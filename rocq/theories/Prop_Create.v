(** C80 - C81: proofs created for completed runs are accepted. *)
From Coq Require Import ZArith List Bool Arith Lia.
From Verif Require Import Base Moduli Field LimbSpec LimbModel PolyFacts Halo2Model SelectorSpec CircuitModel VMModel BFSpec CompileSpec PermSpec SerdeModel SerdeSpec
  DomainModel VkModel VkSpec EntryModel EntrySpec IopModel IopSpec ProverModel ProverSpec ArithSpec KzgModel ShplonkSpec TranscriptModel VerifierModel VerifierSpec VerifierProject
  GraphModel CreateModel CreateSpec CreateThms CreateCase.
Import ListNotations.
Local Open Scope nat_scope.

(** C80.  For every completed run that fits the circuit both keys exist and,
    whatever the coins, creating a proof writes bytes up to the challenge u and
    then either meets an unlucky x or u, where it divides by zero, or finishes;
    if no denominator of a running product was zero the proof has the size the
    key determines and the verifier accepts it, also under parameters shrunk
    to any smaller size. *)
Theorem C80_proof : forall hash transcript_repr {G : Type} (zero : G) add sub scale gen scale2 gen2 of_affine to_affine is_zero pairing_product p k t,
  digest64 hash -> is_module zero add sub scale -> (forall g, exists x y, g1_point (to_affine g) x y) -> (forall g, of_affine (to_affine g) = g) ->
  is_pairing scale scale2 gen2 (pairing_check is_zero pairing_product) -> setup scale gen scale2 gen2 k t = Ok (srs_of of_affine p) -> (9 <= k <= 24)%Z ->
  let n := Z.to_nat (2 ^ k) in
  forall pr src b inp cfg c fuel s p' i,
  parses src b -> (1 <= program_words b <= 65535)%Z -> in_range 8 inp -> exec 8 b (initial inp) (Done cfg) -> unread cfg = [] ->
  compile pr src = Ok c -> VMModel.run pr fuel (start c (easygen inp)) = Finished s -> (lenZ (instruction_matrix (mat s)) + 6 < 2 ^ k)%Z ->
  (0 <= i <= k)%Z -> shrink p i = Ok p' ->
  exists v pk, keygen_vk (commit_or_identity zero add of_affine to_affine p) pr k (mat s) = EOk v /\ keygen_pk pr k v (mat s) = EOk pk /\
  forall co, let insts := public_inputs c inp in let synth := bf_synth v n (mat s) insts in
  exists a st bytes, write_first hash transcript_repr zero add of_affine to_affine p pk synth insts co ([], []) = POk (a, (st, bytes)) /\ Forall byte bytes /\
  (exists ms st rest, read_messages hash transcript_repr v insts [] bytes = TOk ms st rest) /\
  (unlucky hash transcript_repr of_affine p v insts bytes \/
   exists last, create_proof hash transcript_repr zero add of_affine to_affine pr p pk synth insts co = POk (bytes ++ last) /\ Forall byte last /\
     (fortunate hash transcript_repr pk n (mat s) insts bytes -> length (bytes ++ last) = proof_size v /\
        verify_proof hash transcript_repr zero add of_affine is_zero pairing_product p' v insts (bytes ++ last) = Ok true)).
Proof. intros. eapply run_proof; eassumption. Qed.
Print Assumptions C80_proof.
(** few challenges are unfortunate: whatever theta, all beta but (number of
    lookups) * n, and then all gamma but (lookups + permuted columns) * n, are
    fine; runs of the project have one lookup and 16 permuted columns *)
Theorem C80_fortunate : forall v n a (S : nat -> list Fr) theta,
  exists bad, length bad <= length (lookups (vk_cs v)) * n /\
  forall beta, ~ List.In beta bad -> exists bad', length bad' <= (length (lookups (vk_cs v)) + length (perm_columns (vk_cs v))) * n /\
  forall gamma, ~ List.In gamma bad' -> lucky v n a S theta beta gamma.
Proof. exact lucky_few. Qed.
Print Assumptions C80_fortunate.
Theorem C80_sizes : forall commit pr k m v, keygen_vk commit pr k m = EOk v -> (0 <= k < 63)%Z ->
  length (lookups (vk_cs v)) = 1 /\ length (perm_columns (vk_cs v)) = 16.
Proof. exact CreateProject.key_sizes. Qed.
Print Assumptions C80_sizes.

(** C81.  The transaction that carries such a proof, the key, the shrunk
    parameters, the code and the input makes the on-chain program exit with 0. *)
Theorem C81_accepted : forall hash transcript_repr {G : Type} (zero : G) add sub scale gen scale2 gen2 of_affine to_affine is_zero pairing_product p k t,
  digest64 hash -> is_module zero add sub scale -> (forall g, exists x y, g1_point (to_affine g) x y) -> (forall g, of_affine (to_affine g) = g) ->
  is_pairing scale scale2 gen2 (pairing_check is_zero pairing_product) -> setup scale gen scale2 gen2 k t = Ok (srs_of of_affine p) -> (9 <= k <= 24)%Z ->
  let n := Z.to_nat (2 ^ k) in
  forall pr stack src b inp cfg ws fuel s p',
  parses src b -> (1 <= program_words b < 1024)%Z -> in_range 8 inp -> length inp < 1024 -> exec 8 b (initial inp) (Done cfg) -> unread cfg = [] ->
  compile_to_u16 pr src = Ok ws -> VMModel.run pr fuel (start (map FrZ ws) (easygen inp)) = Finished s -> (lenZ (instruction_matrix (mat s)) + 6 < 2 ^ k)%Z ->
  valid_params p -> shrink p SHRINK_K = Ok p' -> 18 <= stack ->
  exists v pk, keygen_vk (commit_or_identity zero add of_affine to_affine p) pr k (mat s) = EOk v /\ keygen_pk pr k v (mat s) = EOk pk /\
  forall co, let insts := statement ws inp in let synth := bf_synth v n (mat s) insts in
  exists a st bytes, write_first hash transcript_repr zero add of_affine to_affine p pk synth insts co ([], []) = POk (a, (st, bytes)) /\ Forall byte bytes /\
  (exists ms st rest, read_messages hash transcript_repr v insts [] bytes = TOk ms st rest) /\
  (unlucky hash transcript_repr of_affine p v insts bytes \/
   exists last, create_proof hash transcript_repr zero add of_affine to_affine pr p pk synth insts co = POk (bytes ++ last) /\
     (fortunate hash transcript_repr pk n (mat s) insts bytes ->
        bf_program hash transcript_repr zero add of_affine is_zero pairing_product pr stack
          (tx_witness (write_kzg p') (write_vk RawBytes v) (bytes ++ last) (code_bytes ws) inp) = Exit 0)).
Proof. intros. eapply run_accepted; eassumption. Qed.
Print Assumptions C81_accepted.

(** ",+." on "a" in a circuit of 512 rows, over the group with one element and
    with a hash that picks fortunate challenges: all hypotheses of C80 and C81
    hold, the proof is created and the on-chain program exits with 0 *)
Example C81_case : exists hash s p' v pk proof,
  let insts := statement [44; 43; 46]%Z [97%Z] in
  digest64 hash /\ VMModel.run Wrapping 10 (start (map FrZ [44; 43; 46]%Z) (easygen [97%Z])) = Finished s /\
  setup scale1 Datatypes.tt scale1' one_g2 9 f0 = Ok (srs_of lift1 one_params) /\ shrink one_params SHRINK_K = Ok p' /\
  keygen_vk (commit_or_identity Datatypes.tt plus1 lift1 one_group one_params) Wrapping 9 (mat s) = EOk v /\ keygen_pk Wrapping 9 v (mat s) = EOk pk /\
  create_proof hash (fun _ => f0) Datatypes.tt plus1 lift1 one_group Wrapping one_params pk (bf_synth v (Z.to_nat (2 ^ 9)) (mat s) insts) insts no_coins = POk proof /\
  bf_program hash (fun _ => f0) Datatypes.tt plus1 lift1 (fun _ => true) (fun _ => true) Wrapping 18
    (tx_witness (write_kzg p') (write_vk RawBytes v) proof (code_bytes [44; 43; 46]%Z) [97%Z]) = Exit 0.
Proof. exact small_accepted. Qed.
Example C80_case : is_module Datatypes.tt plus1 plus1 scale1 /\ (forall g, exists x y, g1_point (one_group g) x y) /\ (forall g, lift1 (one_group g) = g) /\
  is_pairing scale1 scale1' one_g2 (pairing_check (fun _ : unit => true) (fun _ => true)) /\ setup scale1 Datatypes.tt scale1' one_g2 9 f0 = Ok (srs_of lift1 one_params) /\
  valid_params one_params.
Proof. split; [exact one_module|]. split; [exact one_points|]. split; [intros []; reflexivity|]. split; [exact one_pairing|]. split; [exact one_setup|exact one_valid]. Qed.
