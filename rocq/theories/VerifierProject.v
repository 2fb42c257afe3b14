(** The project's keys are complete, its proofs fit the buffer, and what that
    means for the on-chain program. *)
From Coq Require Import ZArith List Arith Bool Lia.
From Verif Require Import Base Moduli Field FieldFacts LimbModel LimbSpec LimbField LimbConst FieldClaims SerdeModel SerdeSpec Halo2Model VMModel CircuitModel CircuitFacts
  SelectorModel SelectorSpec SelectorFacts SelectorClaims SelectorMain VkModel VkSpec VkFacts EntryModel EntrySpec EntryFacts DomainModel DomainSpec DomainFacts
  IopModel IopSpec IopKey IopProject ArithModel ArithSpec TransformFacts KzgModel ShplonkModel TranscriptModel VerifierModel VerifierFacts VerifierSpec VerifierTotal VerifierThms VerifierBind.
Import ListNotations.

Lemma alloc_query s e s' : alloc_column s = Ok (e, s') -> length (fixed_queries (fst s')) <= length (fixed_queries (fst s)) + 1.
Proof.
  destruct s as [c cols]. unfold alloc_column, fixed_column, query_fixed_index. cbn [bind fixed_queries].
  destruct (position _ _) as [j|]; cbn [bind]; intros [= _ <-]; cbn [fst fixed_queries]; [|rewrite app_length; cbn [length]]; lia.
Qed.
Lemma alone_queries sels : forall combs asgs s rest combs' asgs' s', alone alloc_column sels combs asgs s = Ok (rest, combs', asgs', s') ->
  length (fixed_queries (fst s')) + length rest <= length (fixed_queries (fst s)) + length sels.
Proof.
  induction sels as [|d sels IH]; intros combs asgs s rest combs' asgs' s' H; cbn [alone] in H; [injection H as <- <- <- <-; lia|].
  destruct (sd_deg d =? 0).
  - apply bind_ok in H as ([e s1] & EA & H). apply alloc_query in EA. apply IH in H. cbn [length]. lia.
  - apply bind_ok in H as ([[[r1 c1] a1] s1] & EA & H). apply IH in EA. injection H as <- <- <- <-. cbn [length]. lia.
Qed.
Lemma combine_queries n md sels : forall i added combs asgs s combs' asgs' s', combine_all alloc_column n md sels i added combs asgs s = Ok (combs', asgs', s') ->
  length (fixed_queries (fst s')) <= length (fixed_queries (fst s)) + length sels.
Proof.
  induction sels as [|d sels IH]; intros i added combs asgs s combs' asgs' s' H; cbn [combine_all] in H; [injection H as <- <- <-; lia|].
  destruct (nth i added false); [apply IH in H; cbn [length]; lia|]. destruct (md <? sd_deg d); [discriminate|].
  destruct (try_selectors md sels (i + 1) (sd_deg d - 1) [d] (upd added i true)) as [comb added'].
  apply bind_ok in H as ([q s1] & EA & H). destruct (assign_comb _ _ _ _ _ _) as [col new]. apply alloc_query in EA. apply IH in H. cbn [length]. lia.
Qed.
Lemma describe_length acts : forall i ds, length (describe i acts ds) <= length acts.
Proof. induction acts as [|a acts IH]; intros i [|d ds]; cbn [describe length]; try lia. specialize (IH (S i) ds). lia. Qed.
Lemma compress_queries c acts c' polys asgs : compress_selectors c acts = Ok (c', polys, asgs) ->
  length (fixed_queries c') <= length (fixed_queries c) + num_selectors c.
Proof.
  intros H. unfold compress_selectors in H. destruct (Nat.eqb_spec (length acts) (num_selectors c)) as [LA|]; [|discriminate]. cbn [negb] in H.
  apply bind_ok in H as (ds & ED & H). apply bind_ok in H as ([[p1 a1] [c1 cols]] & EP & H).
  apply bind_ok in H as ([m r] & _ & H). apply bind_ok in H as (m' & _ & H). apply bind_ok in H as (r' & _ & H). apply bind_ok in H as (c2 & ES & H).
  injection H as <- <- <-. unfold substitute in ES. apply bind_ok in ES as (gs & _ & ES). apply bind_ok in ES as (ls & _ & ES). injection ES as <-. cbn [fixed_queries].
  pose proof (describe_length acts 0 ds) as LD. rewrite LA in LD. unfold process in EP. destruct (describe 0 acts ds) as [|d0 rest] eqn:Ed; [injection EP as _ _ <- _; lia|].
  destruct (negb _); [discriminate|]. apply bind_ok in EP as ([[[rest1 cb] a2] s2] & EA & EP). apply alone_queries in EA. apply combine_queries in EP.
  cbn [fst] in *. lia.
Qed.

Lemma compressed_rest c acts n c' polys reps : compressed c acts n c' polys reps ->
  num_advice c' = num_advice c /\ num_instance c' = num_instance c /\ advice_queries c' = advice_queries c /\ perm_columns c' = perm_columns c.
Proof. intros CP. destruct (cp_rest _ _ _ _ _ _ CP) as [R _]. injection R as R1 R2 R3 R4 R5 R6. auto. Qed.
Lemma keygen_complete commit pr k m v : keygen_vk commit pr k m = EOk v -> (0 <= k < 63)%Z ->
  complete_key v /\ num_instance (vk_cs v) = 2 /\ (Z.of_nat (proof_size v) <= 8192)%Z.
Proof.
  intros H Hk. pose proof H as H0. apply keygen_vk_parts in H0 as (d & a & c2 & polys2 & asgs2 & p & sigma2 & Ed & EK2 & Ec2 & _ & _ & Ev).
  destruct (project_key _ _ _ _ _ H Hk) as (asm & c' & polys & asgs & sigma & EK & Ec & Ecs & EF & EP & LF & LS & _).
  destruct (project_compressed _ _ _ _ _ EK) as (c3 & polys3 & asgs3 & Ec3 & CP & _). rewrite Ec in Ec3. apply ok_inj in Ec3. injection Ec3 as <- <- <-.
  destruct (compressed_rest _ _ _ _ _ _ CP) as (R1 & R2 & R4 & R6).
  assert (DG : vk_degree v = cs_degree (vk_cs v)) by (rewrite Ev; reflexivity).
  assert (K : complete_key v).
  { constructor; rewrite ?Ecs.
    - apply (compressed_well_formed _ _ _ _ _ _ CP bcs_well_queried).
    - rewrite DG. unfold cs_degree. lia.
    - rewrite EF, map_length. exact LF.
    - rewrite EP, map_length. exact LS.
    - rewrite R4, R1. assert (X : forallb (fun q => ac_index (fst q) <? num_advice bcs) (advice_queries bcs) = true) by (vm_compute; reflexivity).
      rewrite forallb_forall in X. intros q Iq. apply Nat.ltb_lt, X, Iq. }
  split; [exact K|]. split; [rewrite Ecs, R2; vm_compute; reflexivity|].
  assert (Q : d_quotient_poly_degree (vk_domain v) = 10%Z).
  { rewrite Ev. cbn [from_parts vk_domain].
    assert (Hk24 : (0 <= k <= 24)%Z).
    { destruct (Z_le_gt_dec k 24) as [L|L]; [lia|]. rewrite bcs_degree in Ed. change (Z.of_nat 11) with 11%Z in Ed.
      rewrite (domain_refused pr k) in Ed by lia. discriminate Ed. }
    destruct (domain_correct pr 11 k) as (d2 & E2 & D2); [lia|lia|change (Z.log2_up (11 - 1)) with 4%Z; lia|].
    rewrite bcs_degree in Ed. change (Z.of_nat 11) with 11%Z in Ed. rewrite Ed in E2. apply ok_inj in E2. subst d2. destruct (df_size _ _ _ D2) as (_ & _ & ->). reflexivity. }
  pose proof (compress_queries _ _ _ _ _ Ec) as LQ.
  assert (LL : length (lookups c') = length (lookups bcs)) by (pose proof (cp_widths _ _ _ _ _ _ CP) as W; clear - W; induction W; cbn [length]; congruence).
  assert (PH : advice_reads v = phases_count (phases bcs) (advice_phases bcs) (num_advice bcs)).
  { unfold advice_reads, phases. rewrite Ecs, (cp_phases _ _ _ _ _ _ CP), R1. reflexivity. }
  assert (N1 : phases_count (phases bcs) (advice_phases bcs) (num_advice bcs) <= 40) by (vm_compute; lia).
  assert (N2 : length (fixed_queries bcs) = 1) by (vm_compute; reflexivity). assert (N3 : num_selectors bcs = 15) by (vm_compute; reflexivity).
  assert (N4 : length (lookups bcs) = 1) by (vm_compute; reflexivity). assert (N5 : length (advice_queries bcs) = 52) by (vm_compute; reflexivity).
  assert (N6 : length (perm_columns bcs) = 16) by (vm_compute; reflexivity).
  assert (CH : sets_count v <= 16) by (rewrite <- N6, <- R6, <- Ecs; apply chunks_few).
  unfold proof_size, points_count, scalars_count. rewrite (ck_perm _ K), Q, PH, Ecs, R4, R6, LL, N4, N5, N6. change (Z.to_nat 10) with 10.
  rewrite N2, N3 in LQ. destruct (sets_count v =? 0); lia.
Qed.

Lemma public_statement ws input : public_inputs (map FrZ ws) input = statement ws input.
Proof. unfold public_inputs, statement, column, lenZ. rewrite map_length. reflexivity. Qed.

Section Program.
Variable hash : list Z -> list Z.
Variable transcript_repr : vkey -> Fr.
Context {G : Type}.
Variables (zero : G) (add sub : G -> G -> G) (scale : Fr -> G -> G) (of_affine : g1 -> G) (is_zero : G -> bool).
Variable pairing_product : list (G * g2) -> bool.
Notation bf_program := (bf_program hash transcript_repr zero add of_affine is_zero pairing_product).
Notation read_messages := (read_messages hash transcript_repr).
Notation read_opening := (read_opening hash transcript_repr of_affine).

Theorem zeros_forged p v insts : is_module zero add sub scale -> digest64 hash -> complete_key v -> length insts = num_instance (vk_cs v) ->
  pairing_product [] = true -> kz_g p <> [] -> kz_g2 p = g2_identity -> kz_sg2 p = g2_identity ->
  let verdict := verify_proof hash transcript_repr zero add of_affine is_zero pairing_product p v insts (zero_proof v) in
  verdict = Ok true \/ verdict = Panic /\ unlucky hash transcript_repr of_affine p v insts (zero_proof v).
Proof.
  intros M D K HI HP NE E1 E2 verdict. subst verdict.
  destruct (zeros_accepted hash transcript_repr zero add of_affine is_zero pairing_product p v insts HI HP E1 E2) as [H|H]; [|left; exact H].
  right. split; [exact H|]. exact (panics_only hash transcript_repr zero add sub scale of_affine is_zero pairing_product M p v _ _ D K NE H).
Qed.
Theorem forged_zeros pr stack commit k m v p p' src ws input : digest64 hash -> is_module zero add sub scale -> pairing_product [] = true ->
  (forall l, g1_coords (commit l)) -> 18 <= stack -> (0 <= k < 63)%Z -> keygen_vk commit pr k m = EOk v -> (lenZ (write_vk RawBytes v) <= 4096)%Z ->
  valid_params p -> (1 <= kz_k p < 31)%Z -> shrink p SHRINK_K = Ok p' -> kz_g2 p = g2_identity -> kz_sg2 p = g2_identity ->
  compile_to_u16 pr src = Ok ws -> length ws < 1024 -> length input < 1024 ->
  let run := bf_program pr stack (tx_witness (write_kzg p') (write_vk RawBytes v) (zero_proof v) (code_bytes ws) input) in
  run = Exit 0 \/ run = Crash /\ unlucky hash transcript_repr of_affine p' v (statement ws input) (zero_proof v).
Proof.
  intros D M HP HC Hs Hk KG LK VP Kp Sh E1 E2 C L Li run. subst run. unfold VerifierModel.bf_program.
  assert (CC : compile pr src = Ok (map FrZ ws)) by (unfold compile; rewrite C; reflexivity).
  assert (VK : valid_key pr stack bcs v) by (apply (keygen_valid commit pr k m v HC ltac:(lia) KG stack Hs)).
  destruct (keygen_complete _ _ _ _ _ KG Hk) as (K & NI & SZ).
  assert (LP : (lenZ (zero_proof v) <= 8192)%Z) by (unfold lenZ, zero_proof; rewrite repeat_length; exact SZ).
  rewrite (transaction pr stack _ p p' v (zero_proof v) src ws (map FrZ ws) input VP Kp Sh VK LK LP C CC L Li), public_statement.
  unfold shrink in Sh. destruct (SHRINK_K <=? kz_k p)%Z eqn:EK; [|discriminate]. apply ok_inj in Sh. subst p'.
  match goal with |- context [VerifierModel.verify_proof _ _ _ _ _ _ _ ?p' _ _ _] => set (p2 := p') end.
  assert (NE : kz_g p2 <> []).
  { subst p2. cbn [kz_g]. pose proof (vp_g _ VP) as LG. assert (0 < 2 ^ kz_k p)%Z by (apply Z.pow_pos_nonneg; lia).
    destruct (kz_g p) as [|g0 gs]; [cbn [length] in LG; lia|]. assert (0 < 2 ^ SHRINK_K)%Z by (apply Z.pow_pos_nonneg; unfold SHRINK_K; lia).
    destruct (Z.to_nat (2 ^ SHRINK_K)) eqn:EZ; [lia|]. discriminate. }
  assert (HI : length (statement ws input) = num_instance (vk_cs v)) by (rewrite NI; reflexivity).
  destruct (zeros_forged p2 v (statement ws input) M D K HI HP NE E1 E2) as [H|[H U]]; rewrite H; [left; reflexivity|right; split; [reflexivity|exact U]].
Qed.
End Program.

(** ** On the domain nothing is accepted or rejected *)
Lemma open_off v pn insts chs theta beta gamma y x e l : verify_openings v pn insts chs theta beta gamma y x e = VOpen l -> pow_vartime x pn <> f1.
Proof.
  unfold verify_openings. destruct (negb _); [discriminate|]. intros H E. rewrite E in H. revert H.
  destruct (instance_evals v pn insts x) as [inst|]; [|discriminate]. cbn [bind]. destruct (l_values v x f1) as [[[l0 ll] lb]|]; [|discriminate]. cbn [bind].
  destruct (expressions _ _ _ _ _ _ _ _ _ _ _) as [es|]; [|discriminate]. cbn [bind]. assert (X : expected_h y f1 es = Panic).
  { unfold expected_h. assert (Z1 : (f1 - f1 = @f0 r_pos)%F) by fring. rewrite Z1. reflexivity. }
  rewrite X. discriminate.
Qed.
Section Off.
Variable hash : list Z -> list Z.
Variable transcript_repr : vkey -> Fr.
Context {G : Type}.
Variables (zero : G) (add : G -> G -> G) (of_affine : g1 -> G) (is_zero : G -> bool).
Variable pairing_product : list (G * g2) -> bool.
Theorem decided_off p v insts b r st rest : verify_transcript hash transcript_repr zero add of_affine is_zero pairing_product p v insts [] b = TOk r st rest ->
  exists m st1 rest1, read_messages hash transcript_repr v insts [] b = TOk m st1 rest1 /\ pow_vartime (ms_x m) (kz_n p) <> f1.
Proof.
  intros H. unfold verify_transcript, read_opening, read_claims in H. apply bind_first in H as (mo & st1 & b1 & H & _). apply bind_first in H as (mo2 & st2 & b2 & H & _).
  apply bind_first in H as (m & st3 & b3 & E & H). exists m, st3, b3. split; [exact E|].
  apply bind_first in H as (il & st4 & b4 & _ & H). apply bind_first in H as (sc & st5 & b5 & _ & H).
  destruct (read_evals v sc) as [[e ?]|]; [|discriminate]. match type of H with (match ?o with _ => _ end) _ _ = _ => destruct o as [| |ops] eqn:O end; [discriminate|discriminate|].
  exact (open_off _ _ _ _ _ _ _ _ _ _ _ O).
Qed.
(** a constant hash that lands on the domain *)
Lemma ones_panic p v insts : (0 <= kz_n p)%Z -> (forall l, hash l = 1%Z :: repeat 0%Z 63) -> length insts = num_instance (vk_cs v) ->
  verify_proof hash transcript_repr zero add of_affine is_zero pairing_product p v insts (zero_proof v) = Panic.
Proof.
  intros Hn Hh HI. assert (D : digest64 hash).
  { intros l. rewrite Hh. split; [|reflexivity]. constructor; [unfold byte; lia|]. apply Forall_forall. intros z I. apply repeat_spec in I. subst z. unfold byte. lia. }
  unfold verify_proof. rewrite HI, Nat.eqb_refl. cbn [negb].
  destruct (zeros_verify hash transcript_repr zero add of_affine is_zero pairing_product p v insts HI [] []) as [H|(r & st & H)]; rewrite app_nil_r in H; fold (zero_proof v) in H;
    rewrite H; [reflexivity|]. exfalso. apply decided_off in H as (m & st1 & rest1 & E & N). apply N.
  rewrite (messages_x hash transcript_repr v insts D _ _ _ _ _ E). assert (X : challenge_of hash st1 = f1) by (unfold challenge_of; rewrite Hh; apply fe_eq; vm_compute; reflexivity).
  rewrite X, pow_vartime_is by exact Hn. apply fpow_one. exact Hn.
Qed.
End Off.
Theorem columns_not_bound hash transcript_repr v i1 i2 st b : concat i1 = concat i2 ->
  read_messages hash transcript_repr v i1 st b = read_messages hash transcript_repr v i2 st b.
Proof. intros E. unfold read_messages. rewrite E. reflexivity. Qed.
