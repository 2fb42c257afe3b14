(** Properties C68 to C74: the transcript and the verifier of proof bytes. *)
From Coq Require Import ZArith List Bool Lia.
From Verif Require Import Base Moduli Field FieldFacts LimbModel LimbSpec LimbFacts LimbField FieldClaims VMModel Halo2Model CircuitModel CircuitFacts
  SerdeModel SerdeSpec DomainModel VkModel VkSpec EntryModel EntrySpec IopModel ArithModel ArithSpec KzgModel
  TranscriptModel VerifierModel VerifierSpec VerifierFacts VerifierThms VerifierBind VerifierProject VerifierCases Prop_Serde Prop_Entry.
Import ListNotations.

(** C68: what the prover writes, the verifier reads: the same points, scalars and
    challenges in the same order, the same bytes absorbed; and whatever the
    verifier reads could have been written by a prover. *)
Theorem C68_conversation : forall hash l,
  (forall st proof rest, Forall (fun m => match m with MPoint p => exists x y, g1_point p x y | _ => True end) l ->
    writes hash l ([], []) (st, proof) -> reads hash l [] (proof ++ rest) st rest) /\
  (forall st bytes rest, Forall byte bytes -> reads hash l [] bytes st rest ->
    exists proof, bytes = proof ++ rest /\ writes hash l ([], []) (st, proof)).
Proof. exact conversation_spec. Qed.
Print Assumptions C68_conversation.
Example C68_case : exists st proof, writes (late_hash 70) [MScalar (FrZ 5); MPoint g1_identity; MChallenge f1] ([], []) (st, proof) /\
  length st = 99 /\ length proof = 64 /\ g1_point g1_identity f0 f0.
Proof.
  eexists. eexists. split; [|split; [|split]].
  - cbn [writes]. eexists. split; [vm_compute; reflexivity|]. eexists. split; [|reflexivity]. vm_compute. reflexivity.
  - reflexivity.
  - reflexivity.
  - exact identity_point.
Qed.

(** C69: the challenge x is drawn from everything before it.  Two proofs that reach
    the same transcript there have the same key, program, input and messages. *)
Theorem C69_challenge_x : forall hash transcript_repr v1 v2 ws1 ws2 i1 i2 b1 b2 m1 m2 st1 st2 r1 r2, digest64 hash ->
  in_field ws1 -> in_field ws2 -> in_field i1 -> in_field i2 -> (transcript_repr v1 = transcript_repr v2 -> v1 = v2) -> Forall byte b1 -> Forall byte b2 ->
  read_messages hash transcript_repr v1 (statement ws1 i1) [] b1 = TOk m1 st1 r1 ->
  read_messages hash transcript_repr v2 (statement ws2 i2) [] b2 = TOk m2 st2 r2 ->
  ms_x m1 = challenge_of hash st1 /\
  (st1 = st2 -> v1 = v2 /\ ws1 = ws2 /\ i1 = i2 /\ m1 = m2 /\ exists c, b1 = c ++ r1 /\ b2 = c ++ r2).
Proof.
  intros hash tr v1 v2 ws1 ws2 i1 i2 b1 b2 m1 m2 st1 st2 r1 r2 D W1 W2 I1 I2 Hv F1 F2 H1 H2. split; [exact (messages_x hash tr v1 _ D _ _ _ _ _ H1)|].
  intros <-. exact (binds_x hash tr v1 v2 ws1 ws2 i1 i2 b1 b2 m1 m2 st1 r1 r2 W1 W2 I1 I2 Hv F1 F2 H1 H2).
Qed.
Print Assumptions C69_challenge_x.
(** C69: so is the challenge u of the opening argument, also from the evaluations
    and the first point of that argument. *)
Theorem C69_challenge_u : forall hash transcript_repr G (of_affine : g1 -> G) p v1 v2 ws1 ws2 i1 i2 b1 b2 m1 m2 o1 o2 st1 st2 r1 r2, digest64 hash ->
  in_field ws1 -> in_field ws2 -> in_field i1 -> in_field i2 -> (transcript_repr v1 = transcript_repr v2 -> v1 = v2) -> Forall byte b1 -> Forall byte b2 ->
  read_opening hash transcript_repr of_affine p v1 (statement ws1 i1) [] b1 = TOk (m1, o1) st1 r1 ->
  read_opening hash transcript_repr of_affine p v2 (statement ws2 i2) [] b2 = TOk (m2, o2) st2 r2 ->
  snd o1 = challenge_of hash st1 /\
  (st1 = st2 -> v1 = v2 /\ ws1 = ws2 /\ i1 = i2 /\ (m1, o1) = (m2, o2) /\ exists c, b1 = c ++ r1 /\ b2 = c ++ r2).
Proof.
  intros hash tr G of_affine p v1 v2 ws1 ws2 i1 i2 b1 b2 m1 m2 o1 o2 st1 st2 r1 r2 D W1 W2 I1 I2 Hv F1 F2 H1 H2.
  split; [exact (opening_u hash tr of_affine p v1 _ D _ _ _ _ _ H1)|].
  intros <-. exact (binds_u hash tr of_affine p v1 v2 ws1 ws2 i1 i2 b1 b2 _ _ st1 r1 r2 W1 W2 I1 I2 Hv F1 F2 H1 H2).
Qed.
Print Assumptions C69_challenge_u.
Example generated : exists v, complete_key v /\ num_instance (vk_cs v) = 2.
Proof.
  destruct C47_case as (v & K & _ & _). exists v. destruct (keygen_complete _ _ _ _ _ K) as (C & N & _); [lia|]. auto.
Qed.
Example C69_case : exists v m o st rest1 m' st', complete_key v /\ in_field [43%Z] /\ in_field [] /\
  let hash := late_hash (absorbed v (statement [43%Z] [])) in
  digest64 hash /\
  read_messages hash (fun _ => f0) v (statement [43%Z] []) [] (zero_prefix v) = TOk m' st' rest1 /\
  read_opening hash (fun _ => f0) (fun _ => (f0 : Fr)) scalar_params v (statement [43%Z] []) [] (zero_prefix v) = TOk (m, o) st [].
Proof.
  destruct generated as (v & K & N).
  destruct (late_opening (fun _ => f0) (fun _ : g1 => (f0 : Fr)) scalar_params v (statement [43%Z] []) K) as (m & ops & y & vv & h1 & st & H & _); [rewrite N; reflexivity|reflexivity|].
  destruct (opening_msgs _ _ _ _ _ _ _ _ _ _ _ _ _ H) as (s1 & b1 & H1). exists v, (m, ops), (y, vv, h1, f1), st, b1, m, s1.
  split; [exact K|]. split; [split; [repeat constructor; vm_compute; congruence|vm_compute; reflexivity]|].
  split; [split; [constructor|vm_compute; reflexivity]|]. split; [apply late_digest|]. split; [exact H1|exact H].
Qed.

(** C70 fails: bytes behind an accepted proof change nothing. *)
Theorem C70_trailing_refuted : forall hash transcript_repr G (zero : G) add of_affine is_zero pairing_product p v insts proof extra,
  verify_proof hash transcript_repr zero add of_affine is_zero pairing_product p v insts proof = Ok true ->
  verify_proof hash transcript_repr zero add of_affine is_zero pairing_product p v insts (proof ++ extra) = Ok true.
Proof. exact (fun hash tr G zero add of_affine is_zero pp p v insts proof extra => trailing_bytes hash tr zero add of_affine is_zero pp p v insts proof extra). Qed.
Print Assumptions C70_trailing_refuted.
(** C70, what holds: the size that matters is known beforehand and nothing shorter
    is accepted. *)
Theorem C70_size_partial : forall hash transcript_repr G (zero : G) add of_affine is_zero pairing_product p v insts proof, Forall byte proof ->
  verify_proof hash transcript_repr zero add of_affine is_zero pairing_product p v insts proof = Ok true ->
  proof_size v <= length proof /\
  verify_proof hash transcript_repr zero add of_affine is_zero pairing_product p v insts (firstn (proof_size v) proof) = Ok true.
Proof. exact (fun hash tr G zero add of_affine is_zero pp p v insts proof => accepted_size hash tr zero add of_affine is_zero pp p v insts proof). Qed.
Print Assumptions C70_size_partial.
Example C70_case : exists v hash proof, complete_key v /\ digest64 hash /\ length proof = proof_size v /\ Forall byte proof /\
  verify_proof hash (fun _ => f0) (f0 : Fr) fadd (fun _ => f0) (fun a => feqb a f0) (weighed f0) c27_params v (statement [43%Z] [65%Z]) proof = Ok true.
Proof.
  destruct generated as (v & K & N). exists v, (late_hash (absorbed v (statement [43%Z] [65%Z]))), (zero_proof v).
  split; [exact K|]. split; [apply late_digest|]. split; [apply repeat_length|]. split; [apply Forall_forall; intros z I; apply repeat_spec in I; subst z; unfold byte; lia|].
  apply (late_accepted (fun _ => f0) f0 fadd fsub fmul (fun _ => f0) (fun a => feqb a f0) (weighed f0) scalar_module c27_params v (statement [43%Z] [65%Z]) K);
    [rewrite N; reflexivity|vm_compute; reflexivity|reflexivity|reflexivity|discriminate|reflexivity].
Qed.

(** C71 fails: where one public column ends and the next begins is not absorbed. *)
Theorem C71_columns_refuted : forall hash transcript_repr v (a b c : Fr) st proof,
  read_messages hash transcript_repr v [[a]; [b; c]] st proof = read_messages hash transcript_repr v [[a; b]; [c]] st proof.
Proof. intros. apply columns_not_bound. reflexivity. Qed.
Print Assumptions C71_columns_refuted.

(** C72: the verifier panics only if the challenge x is on the domain or the
    challenge u is one of the points where something is opened. *)
Theorem C72_panics : forall hash transcript_repr G zero add sub scale (of_affine : g1 -> G) is_zero pairing_product p v insts proof,
  is_module zero add sub scale -> digest64 hash -> complete_key v -> kz_g p <> [] ->
  verify_proof hash transcript_repr zero add of_affine is_zero pairing_product p v insts proof = Panic ->
  unlucky hash transcript_repr of_affine p v insts proof.
Proof.
  exact (fun hash tr G zero add sub scale of_affine is_zero pp p v insts proof M => panics_only hash tr zero add sub scale of_affine is_zero pp M p v insts proof).
Qed.
Print Assumptions C72_panics.
(** C72: with x on the domain nothing is decided. *)
Theorem C72_domain : forall hash transcript_repr G (zero : G) add of_affine is_zero pairing_product p v insts proof r st rest,
  verify_transcript hash transcript_repr zero add of_affine is_zero pairing_product p v insts [] proof = TOk r st rest ->
  exists m st1 rest1, read_messages hash transcript_repr v insts [] proof = TOk m st1 rest1 /\ pow_vartime (ms_x m) (kz_n p) <> f1.
Proof.
  exact (fun hash tr G zero add of_affine is_zero pp p v insts proof r st rest => decided_off hash tr zero add of_affine is_zero pp p v insts proof r st rest).
Qed.
Print Assumptions C72_domain.
Example C72_case : exists v hash, complete_key v /\ digest64 hash /\
  verify_proof hash (fun _ => f0) (f0 : Fr) fadd (fun _ => f0) (fun a => feqb a f0) (weighed f0) c27_params v (statement [43%Z] [65%Z]) (zero_proof v) = Panic.
Proof.
  destruct generated as (v & K & N). exists v, (fun _ => 1%Z :: repeat 0%Z 63). split; [exact K|]. split.
  - intros l. split; [|reflexivity]. constructor; [unfold byte; lia|]. apply Forall_forall. intros z I. apply repeat_spec in I. subst z. unfold byte. lia.
  - apply ones_panic; [vm_compute; congruence|reflexivity|rewrite N; reflexivity].
Qed.

(** C73 fails: with parameters whose points of the second group are at infinity, a
    proof of zeros is accepted for every statement, but for unlucky challenges. *)
Theorem C73_identity_refuted : forall hash transcript_repr G zero add sub scale (of_affine : g1 -> G) is_zero pairing_product p v insts,
  is_module zero add sub scale -> digest64 hash -> complete_key v -> length insts = num_instance (vk_cs v) ->
  pairing_product [] = true -> kz_g p <> [] -> kz_g2 p = g2_identity -> kz_sg2 p = g2_identity ->
  let verdict := verify_proof hash transcript_repr zero add of_affine is_zero pairing_product p v insts (zero_proof v) in
  verdict = Ok true \/ verdict = Panic /\ unlucky hash transcript_repr of_affine p v insts (zero_proof v).
Proof. exact (@zeros_forged). Qed.
Print Assumptions C73_identity_refuted.
(** C73: the on-chain program accepts it: it takes the parameters from the
    witness. *)
Theorem C73_program_refuted : forall hash transcript_repr G zero add sub scale (of_affine : g1 -> G) is_zero pairing_product pr stack commit k m v p p' src ws input,
  digest64 hash -> is_module zero add sub scale -> pairing_product [] = true ->
  (forall l, g1_coords (commit l)) -> 18 <= stack -> (0 <= k < 63)%Z -> keygen_vk commit pr k m = EOk v -> (lenZ (write_vk RawBytes v) <= 4096)%Z ->
  valid_params p -> (1 <= kz_k p < 31)%Z -> shrink p SHRINK_K = Ok p' -> kz_g2 p = g2_identity -> kz_sg2 p = g2_identity ->
  compile_to_u16 pr src = Ok ws -> length ws < 1024 -> length input < 1024 ->
  let run := bf_program hash transcript_repr zero add of_affine is_zero pairing_product pr stack
    (tx_witness (write_kzg p') (write_vk RawBytes v) (zero_proof v) (code_bytes ws) input) in
  run = Exit 0 \/ run = Crash /\ unlucky hash transcript_repr of_affine p' v (statement ws input) (zero_proof v).
Proof. exact (@forged_zeros). Qed.
Print Assumptions C73_program_refuted.
(** here with the parameters of C27 and one of the generated keys *)
Example C73_case : exists v hash, complete_key v /\ digest64 hash /\ num_instance (vk_cs v) = 2 /\ kz_g2 c27_params = g2_identity /\ kz_sg2 c27_params = g2_identity /\
  ~ unlucky hash (fun _ => f0) (fun _ => (f0 : Fr)) c27_params v (statement [43%Z] [65%Z]) (zero_proof v).
Proof.
  destruct generated as (v & K & N). exists v, (late_hash (absorbed v (statement [43%Z] [65%Z]))).
  split; [exact K|]. split; [apply late_digest|]. split; [exact N|]. split; [reflexivity|]. split; [reflexivity|].
  apply late_lucky; [apply Forall_forall; intros z I; apply repeat_spec in I; subst z; unfold byte; lia|reflexivity].
Qed.

(** C74 fails: who knows the secret of the parameters completes any proof without
    its last point to an accepted one, whatever it claims. *)
Theorem C74_forged_refuted : forall hash transcript_repr G zero add sub scale (of_affine : g1 -> G) is_zero pairing_product s p v insts b m ops y vv h1 u st,
  is_module zero add sub scale -> kz_g p <> [] -> length insts = num_instance (vk_cs v) ->
  (forall l r, pairing_check is_zero pairing_product l (kz_sg2 p) r (kz_g2 p) = true <-> scale s l = r) ->
  read_opening hash transcript_repr of_affine p v insts [] b = TOk (m, ops, (y, vv, h1, u)) st [] ->
  u <> s -> (forall t, u <> rotate_omega (vk_domain v) (ms_x m) t) ->
  exists h2, forall q qx qy, g1_point q qx qy -> of_affine q = h2 ->
    verify_proof hash transcript_repr zero add of_affine is_zero pairing_product p v insts (b ++ g1_to_bytes q) = Ok true.
Proof.
  exact (fun hash tr G zero add sub scale of_affine is_zero pp s p v insts b m ops y vv h1 u st M =>
    forged_last hash tr zero add sub scale of_affine is_zero pp M s p v insts b m ops y vv h1 u st).
Qed.
Print Assumptions C74_forged_refuted.
Example C74_case : exists v hash m ops y vv h1 st, complete_key v /\ digest64 hash /\ num_instance (vk_cs v) = 2 /\
  (forall l r : Fr, pairing_check (fun a => feqb a f0) (weighed (FrZ 2)) l (kz_sg2 scalar_params) r (kz_g2 scalar_params) = true <-> (FrZ 2 * l)%F = r) /\
  read_opening hash (fun _ => f0) (fun _ => FrZ 3) scalar_params v (statement [43%Z] [65%Z]) [] (zero_prefix v) = TOk (m, ops, (y, vv, h1, f1)) st [] /\
  f1 <> FrZ 2 /\ (forall t, f1 <> rotate_omega (vk_domain v) (ms_x m) t).
Proof.
  destruct generated as (v & K & N). exists v, (late_hash (absorbed v (statement [43%Z] [65%Z]))).
  destruct (late_opening (fun _ => f0) (fun _ : g1 => FrZ 3) scalar_params v (statement [43%Z] [65%Z]) K) as (m & ops & y & vv & h1 & st & H & X); [rewrite N; reflexivity|reflexivity|].
  exists m, ops, y, vv, h1, st. split; [exact K|]. split; [apply late_digest|]. split; [exact N|]. split; [apply scalar_pairing|]. split; [exact H|].
  split; [intros E; apply (f_equal (fval (p := r_pos))) in E; vm_compute in E; discriminate E|].
  intros t. rewrite X, rotate_zero. exact Fr_1_neq_0.
Qed.
