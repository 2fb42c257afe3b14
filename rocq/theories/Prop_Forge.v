(** C84 and C85: what provers with columns of their own get accepted. *)
From Coq Require Import ZArith List Bool Arith Lia.
From Verif Require Import CircuitSpec SoundSpec.
From Verif Require Import Base Moduli Field LimbSpec LimbModel PolyFacts Halo2Model SelectorSpec CircuitModel CircuitFacts VMModel BFSpec CompileSpec SerdeModel SerdeSpec
  DomainModel VkModel VkSpec EntryModel EntrySpec IopModel IopSpec ProverModel ProverSpec ArithSpec KzgModel ShplonkSpec TranscriptModel VerifierModel VerifierSpec VerifierProject
  GraphModel CreateModel CreateSpec CreateCase ForgeSpec ForgeThms ForgeCase.
Import ListNotations.
Local Open Scope nat_scope.

(** C84.  Columns that satisfy the circuit for all challenges, those of the first
    phase being the same for all, are enough: the code of [create_proof], run with
    these columns in place of the circuit's witness, writes a proof that is
    accepted, under the conditions of C80 on challenges. *)
Theorem C84_columns : forall (G : Type) (zero : G) add sub scale gen scale2 gen2 of_affine to_affine is_zero pairing_product p k t,
  is_module zero add sub scale -> (forall g, exists x y, g1_point (to_affine g) x y) -> (forall g, of_affine (to_affine g) = g) ->
  is_pairing scale scale2 gen2 (pairing_check is_zero pairing_product) -> setup scale gen scale2 gen2 k t = Ok (srs_of of_affine p) -> (9 <= k <= 24)%Z ->
  let n := Z.to_nat (2 ^ k) in
  forall pr m v, keygen_vk (commit_or_identity zero add of_affine to_affine p) pr k m = EOk v ->
  exists pk asm, keygen_pk pr k v m = EOk pk /\ bf_keygen n m = EOk (conf, bcs, asm) /\
  forall hash transcript_repr p' i insts (A : columns), digest64 hash -> (0 <= i <= k)%Z -> shrink p i = Ok p' ->
    length insts = num_instance bcs -> (forall l, List.In l insts -> length l <= usable_rows n bcs) -> causal bcs A ->
    (forall chs, length chs = num_challenges bcs -> satisfied bcs (asm_copies asm) (assign_with n asm (A chs) insts (fun i => nth i chs f0))) ->
  forall co, let synth := column_synth bcs A in
  exists a st bytes, write_first hash transcript_repr zero add of_affine to_affine p pk synth insts co ([], []) = POk (a, (st, bytes)) /\ Forall byte bytes /\
  (exists ms st rest, read_messages hash transcript_repr v insts [] bytes = TOk ms st rest) /\
  (unlucky hash transcript_repr of_affine p v insts bytes \/
   exists last, create_proof hash transcript_repr zero add of_affine to_affine pr p pk synth insts co = POk (bytes ++ last) /\ Forall byte last /\
     (fortunate_for A hash transcript_repr pk n insts bytes -> length (bytes ++ last) = proof_size v /\
        verify_proof hash transcript_repr zero add of_affine is_zero pairing_product p' v insts (bytes ++ last) = Ok true)).
Proof.
  intros G zero add sub scale gen scale2 gen2 of_affine to_affine is_zero pairing_product p k t H1 H2 H3 H4 H5 H6.
  exact (columns_proof zero add sub scale gen scale2 gen2 of_affine to_affine is_zero pairing_product p k t H1 H2 H3 H4 H5 H6).
Qed.
Print Assumptions C84_columns.

(** C85 is false: the on-chain program accepts transactions for programs that do
    not run to completion.  With the key of any completed run of any program the
    same code writes accepted proofs for every program and every input that fit
    the buffers and the circuit, showing any output of the length written by the
    run of the key. *)
Theorem C85_any_statement_refuted : forall (G : Type) (zero : G) add sub scale gen scale2 gen2 of_affine to_affine is_zero pairing_product p k t,
  is_module zero add sub scale -> (forall g, exists x y, g1_point (to_affine g) x y) -> (forall g, of_affine (to_affine g) = g) ->
  is_pairing scale scale2 gen2 (pairing_check is_zero pairing_product) -> setup scale gen scale2 gen2 k t = Ok (srs_of of_affine p) -> (9 <= k <= 24)%Z ->
  let n := Z.to_nat (2 ^ k) in
  forall pr stack src b inp cfg c fuel s p',
  parses src b -> (1 <= program_words b <= 65535)%Z -> in_range 8 inp -> exec 8 b (initial inp) (Done cfg) ->
  compile pr src = Ok c -> VMModel.run pr fuel (start c (easygen inp)) = Finished s -> (lenZ (instruction_matrix (mat s)) + 6 < 2 ^ k)%Z ->
  valid_params p -> shrink p SHRINK_K = Ok p' -> 18 <= stack ->
  exists v pk, keygen_vk (commit_or_identity zero add of_affine to_affine p) pr k (mat s) = EOk v /\ keygen_pk pr k v (mat s) = EOk pk /\
  forall ws inp' outs, Forall (fun w => (0 <= w < 65536)%Z) ws -> length ws < 1024 -> length ws + 7 <= n -> length inp' < 1024 -> length inp' + 7 <= n ->
  length outs = length (written cfg) ->
  exists A : columns, (forall chs, output_shown conf (A chs) (length outs) = outs) /\
  forall hash transcript_repr co, digest64 hash -> let insts := statement ws inp' in let synth := column_synth bcs A in
  exists a st bytes, write_first hash transcript_repr zero add of_affine to_affine p pk synth insts co ([], []) = POk (a, (st, bytes)) /\ Forall byte bytes /\
  (exists ms st rest, read_messages hash transcript_repr v insts [] bytes = TOk ms st rest) /\
  (unlucky hash transcript_repr of_affine p v insts bytes \/
   exists last, create_proof hash transcript_repr zero add of_affine to_affine pr p pk synth insts co = POk (bytes ++ last) /\
     (fortunate_for A hash transcript_repr pk n insts bytes ->
        bf_program hash transcript_repr zero add of_affine is_zero pairing_product pr stack
          (tx_witness (write_kzg p') (write_vk RawBytes v) (bytes ++ last) (code_bytes ws) inp') = Exit 0)).
Proof.
  intros G zero add sub scale gen scale2 gen2 of_affine to_affine is_zero pairing_product p k t H1 H2 H3 H4 H5 H6.
  exact (forged_transaction zero add sub scale gen scale2 gen2 of_affine to_affine is_zero pairing_product p k t H1 H2 H3 H4 H5 H6).
Qed.
Print Assumptions C85_any_statement_refuted.
(** "+[]" with the key of the run of "+++++" *)
Theorem C85_diverging_refuted : exists src b ws src' c' s,
  parses src b /\ (forall o, ~ exec 8 b (initial []) o) /\ compile_to_u16 Wrapping src = Ok ws /\
  compile Wrapping src' = Ok c' /\ VMModel.run Wrapping 10 (start c' (easygen [])) = Finished s /\
  forall (G : Type) (zero : G) add sub scale gen scale2 gen2 of_affine to_affine is_zero pairing_product p k t p',
  is_module zero add sub scale -> (forall g, exists x y, g1_point (to_affine g) x y) -> (forall g, of_affine (to_affine g) = g) ->
  is_pairing scale scale2 gen2 (pairing_check is_zero pairing_product) -> setup scale gen scale2 gen2 k t = Ok (srs_of of_affine p) -> (9 <= k <= 24)%Z ->
  valid_params p -> shrink p SHRINK_K = Ok p' ->
  exists v pk A, keygen_vk (commit_or_identity zero add of_affine to_affine p) Wrapping k (mat s) = EOk v /\ keygen_pk Wrapping k v (mat s) = EOk pk /\
  forall hash transcript_repr co, digest64 hash -> let insts := statement ws [] in let synth := column_synth bcs A in
  exists a st bytes, write_first hash transcript_repr zero add of_affine to_affine p pk synth insts co ([], []) = POk (a, (st, bytes)) /\ Forall byte bytes /\
  (exists ms st rest, read_messages hash transcript_repr v insts [] bytes = TOk ms st rest) /\
  (unlucky hash transcript_repr of_affine p v insts bytes \/
   exists last, create_proof hash transcript_repr zero add of_affine to_affine Wrapping p pk synth insts co = POk (bytes ++ last) /\
     (fortunate_for A hash transcript_repr pk (Z.to_nat (2 ^ k)) insts bytes ->
        bf_program hash transcript_repr zero add of_affine is_zero pairing_product Wrapping 18
          (tx_witness (write_kzg p') (write_vk RawBytes v) (bytes ++ last) (code_bytes ws) []) = Exit 0)).
Proof. exact diverging_transaction. Qed.
Print Assumptions C85_diverging_refuted.
(** All hypotheses hold in the group of one element (see also C80_case), with a hash
    that picks fortunate challenges; there the forged transaction of "+[]" is
    accepted. *)
Example C85_case : exists hash s p' v pk A proof,
  let insts := statement spin_words [] in
  digest64 hash /\ VMModel.run Wrapping 10 (start (map FrZ plus5) (easygen [])) = Finished s /\
  setup scale1 Datatypes.tt scale1' one_g2 9 f0 = Ok (srs_of lift1 one_params) /\ shrink one_params SHRINK_K = Ok p' /\
  keygen_vk (commit_or_identity Datatypes.tt plus1 lift1 one_group one_params) Wrapping 9 (mat s) = EOk v /\ keygen_pk Wrapping 9 v (mat s) = EOk pk /\
  create_proof hash (fun _ => f0) Datatypes.tt plus1 lift1 one_group Wrapping one_params pk (column_synth bcs A) insts no_coins = POk proof /\
  bf_program hash (fun _ => f0) Datatypes.tt plus1 lift1 (fun _ => true) (fun _ => true) Wrapping 18
    (tx_witness (write_kzg p') (write_vk RawBytes v) proof (code_bytes spin_words) []) = Exit 0.
Proof. exact spin_accepted. Qed.
Example C84_case : is_module Datatypes.tt plus1 plus1 scale1 /\ (forall g, exists x y, g1_point (one_group g) x y) /\ (forall g, lift1 (one_group g) = g) /\
  is_pairing scale1 scale1' one_g2 (pairing_check (fun _ : unit => true) (fun _ => true)) /\ setup scale1 Datatypes.tt scale1' one_g2 9 f0 = Ok (srs_of lift1 one_params) /\
  parses spin [Inc; Loop []] /\ compile_to_u16 Wrapping spin = Ok spin_words.
Proof. split; [exact one_module|]. split; [exact one_points|]. split; [intros []; reflexivity|]. split; [exact one_pairing|]. split; [exact one_setup|]. split; [apply spins|apply spins]. Qed.
