(** Proof bytes for columns that satisfy the circuit, wherever they come from. *)
From Coq Require Import ZArith List Arith Bool Lia.
From Verif Require Import CircuitSpec SoundSpec Attack.
From Verif Require Import Base Moduli Field FieldFacts LimbModel LimbSpec PolyFacts RootFacts Halo2Model SelectorModel SelectorSpec SelectorClaims SelectorMain CircuitModel CircuitFacts LayoutFacts KeygenFacts VMModel BFSpec CompileSpec CompileFacts Completeness
  PermSpec SerdeModel SerdeSpec DomainModel DomainSpec DomainFacts VkModel VkSpec VkFacts EntryModel EntrySpec EntryFacts IopModel IopSpec IopLagrange IopCoeff IopFull IopKey IopProject IopClaims ArithSpec KzgModel KzgFacts ShplonkSpec
  TranscriptModel VerifierModel VerifierSpec VerifierThms VerifierProject ProverModel ProverSpec GraphModel GraphSpec CreateModel PkFacts GraphProject RunKey Agree CreateValues
  CreateMessages CreateProject CreateSpec KeySize CreateThms ParamsFacts ForgeSpec ForgeColumns.
Import ListNotations IopPoly IopSpec.
Local Open Scope nat_scope.

Section Columns.
Context {G : Type}.
Variables (zero : G) (add sub : G -> G -> G) (scale : Fr -> G -> G) (gen : G).
Variables (scale2 : Fr -> g2 -> g2) (gen2 : g2).
Variables (of_affine : g1 -> G) (to_affine : G -> g1) (is_zero : G -> bool) (pairing_product : list (G * g2) -> bool).
Variables (p : kzg) (k : Z) (t : Fr).
Hypothesis M : is_module zero add sub scale.
Hypothesis Hpoint : forall g, exists x y, g1_point (to_affine g) x y.
Hypothesis Hback : forall g, of_affine (to_affine g) = g.
Hypothesis Hcheck : is_pairing scale scale2 gen2 (pairing_check is_zero pairing_product).
Hypothesis Hsetup : setup scale gen scale2 gen2 k t = Ok (srs_of of_affine p).
Hypothesis Hk : (9 <= k <= 24)%Z.
Local Notation key_commit := (commit_or_identity zero add of_affine to_affine p).
Local Notation n := (Z.to_nat (2 ^ k)).

Theorem columns_proof pr m v : keygen_vk key_commit pr k m = EOk v ->
  exists pk asm, keygen_pk pr k v m = EOk pk /\ bf_keygen n m = EOk (conf, bcs, asm) /\
  forall hash transcript_repr p' i insts (A : columns), digest64 hash -> (0 <= i <= k)%Z -> shrink p i = Ok p' ->
    length insts = num_instance bcs -> (forall l, List.In l insts -> length l <= usable_rows n bcs) -> causal bcs A ->
    (forall chs, length chs = num_challenges bcs -> satisfied bcs (asm_copies asm) (assign_with n asm (A chs) insts (fun i => nth i chs f0))) ->
  forall co, let synth := column_synth bcs A in
  exists a st bytes, write_first hash transcript_repr zero add of_affine to_affine p pk synth insts co ([], []) = POk (a, (st, bytes)) /\ Forall byte bytes /\
  (exists ms st rest, read_messages hash transcript_repr v insts [] bytes = TOk ms st rest) /\
  (unlucky hash transcript_repr of_affine p v insts bytes \/
   exists last, create_proof hash transcript_repr zero add of_affine to_affine pr p pk synth insts co = POk (bytes ++ last) /\ Forall byte last /\
     (fortunate_for A hash transcript_repr pk n insts bytes -> length (bytes ++ last) = proof_size v /\
        verify_proof hash transcript_repr zero add of_affine is_zero pairing_product p' v insts (bytes ++ last) = Ok true)).
Proof.
  intros Ev.
  destruct (project_pk key_commit pr k m v Ev ltac:(lia)) as (pk & asm & c' & polys & asgs & sigma & Epk & EK & Ec & Ecs & X).
  cbv zeta in X. match type of X with vk_fixed v = map _ ?l /\ _ => set (cols := l) in X end. destruct X as (HVf & HVp & Lc & Ls & Lcols & Lsigma & KF & HP & Hd & Hg).
  assert (Hn : Z.of_nat n = (2 ^ k)%Z) by (apply Z2Nat.id, Z.pow_nonneg; lia).
  assert (HK : key_for v k (fixed_of asm polys) (rev (asm_copies asm)) (fun i => nth i (pk_fixed_polys pk) []) (fun i => nth i (pk_sigma_polys pk) [])).
  { apply KF; (apply (columns_interpolate v n); [assumption|]); apply HP. }
  exists pk, asm. split; [exact Epk|]. split; [exact EK|].
  intros hash transcript_repr p' i insts A Hhash Hi Hsh Hinst Hfit HA HS co synth.
  destruct (key_shape key_commit pr k m v Ev ltac:(lia)) as (S1 & S2 & S3 & S4 & S5).
  destruct (key_facts key_commit pr k m v Ev ltac:(lia)) as (F1 & F2 & F3).
  destruct (keygen_complete key_commit pr k m v Ev ltac:(lia)) as (CK & _ & _).
  destruct (key_phases key_commit pr k m v Ev ltac:(lia)) as (K1 & K2 & K3 & K4).
  assert (Hom : d_omega (vk_domain v) = omega_c k).
  { destruct (keygen_vk_parts _ _ _ _ _ Ev) as (d & a & c2 & polys2 & asgs2 & p2 & sigma2 & Ed & _ & _ & _ & _ & Ev2).
    rewrite bcs_degree in Ed. change (Z.of_nat 11) with 11%Z in Ed. rewrite Ev2. cbn [from_parts vk_domain].
    apply (domain_omega pr 11 k d); [lia|lia|change (Z.log2_up (11 - 1)) with 4%Z; lia|exact Ed]. }
  pose proof (pk_has_vk _ _ _ _ _ HP) as EV.
  pose (W0 := A (repeat f0 (num_challenges bcs))). pose (W1 := A).
  assert (SAT : forall chs advice, length chs = num_challenges (vk_cs v) ->
    (forall i r, i < num_advice (vk_cs v) -> r < n -> peval (advice i) (fpow (d_omega (vk_domain v)) (Z.of_nat r)) = W1 chs i r) ->
    satisfied (vk_cs v) (rev (asm_copies asm)) (assigned n (d_omega (vk_domain v)) (fixed_of asm polys) advice insts chs)).
  { intros chs advice Lchs HAd.
    pose (advice' := fun i => coeffs n (d_omega_inv (vk_domain v)) (d_barycentric_weight (vk_domain v)) (W1 chs i)).
    assert (AE : forall i r, (r < n)%nat -> peval (advice' i) (fpow (d_omega (vk_domain v)) (Z.of_nat r)) = W1 chs i r).
    { intros i0 r Hr2. unfold advice'. rewrite coeffs_eval. exact (interp_at n _ _ (Hw _ 11 k n Hn Hd) (Hwi _ 11 k Hd) _ (Hni _ 11 k n Hn Hd) (W1 chs i0) r Hr2). }
    assert (Y : satisfied bcs (asm_copies asm) (assign_with n asm (fun i r => peval (advice' i) (fpow (d_omega (vk_domain v)) (Z.of_nat r))) insts (fun i => nth i chs f0))).
    { eapply satisfied_ext; [..|exact (HS chs ltac:(rewrite <- F1; exact Lchs))]; try reflexivity.
      + cbn [as_n assign_with]. lia.
      + intros i0 r Hr2. cbn [assign_with as_advice as_n] in *. symmetry. apply AE, Hr2.
      + intros x y I. cbn [as_n assign_with]. pose proof (keygen_copies_usable _ _ _ _ _ EK eq_refl x y I) as U. unfold usable_rows in U. lia. }
    apply (project_sat _ _ _ _ _ _ _ EK Ec) in Y.
    apply (satisfied_agree (vk_cs v) (assigned n (d_omega (vk_domain v)) (fixed_of asm polys) advice' insts chs)).
    - exact (ck_cs _ CK).
    - exact (ck_advice _ CK).
    - cbn [assigned as_n]. lia.
    - constructor; try reflexivity. intros i0 r Hi0 Hr2. cbn [assigned as_n as_advice] in *. rewrite HAd by assumption. apply AE, Hr2.
    - exact (key_on_table _ _ _ _ _ _ HK).
    - rewrite Ecs. exact Y. }
  rewrite <- Ecs in Lc, Ls.
  subst v. set (v := pk_vk pk) in *.
  assert (N0 : forall (A : Type) c (a : A), map (fun _ : nat => a) (seq 0 c) = repeat a c).
  { clear. intros A c a. generalize 0. induction c as [|c IH]; intros s0; cbn [seq map repeat]; [reflexivity|]. rewrite IH. reflexivity. }
  assert (Hs0 : synth 0 (fun i => nth i (repeat None (num_challenges (vk_cs v))) None) = POk W0).
  { unfold synth, column_synth, W0. do 2 f_equal. etransitivity; [|apply N0]. apply map_ext. intros i0. rewrite nth_repeat. reflexivity. }
  assert (Hs1 : forall chs, length chs = num_challenges (vk_cs v) -> synth 1 (fun i => nth i (map Some chs) None) = POk (W1 chs)).
  { intros chs L. unfold synth, column_synth, W1. do 2 f_equal. apply nth_ext with (d := f0) (d' := f0); [rewrite map_length, seq_length, <- F1; symmetry; exact L|].
    intros j Hj. rewrite map_length, seq_length in Hj. rewrite (nth_map' _ _ _ 0) by (rewrite seq_length; exact Hj). rewrite seq_nth by exact Hj. cbn [Nat.add].
    rewrite (nth_indep (map Some chs) None (Some f0)) by (rewrite map_length; lia). rewrite (map_nth Some). reflexivity. }
  assert (WW : forall chs i r, (if nth i (advice_phases (vk_cs v)) 0 =? 0 then W0 i r else W1 chs i r) = W1 chs i r).
  { intros chs i0 r. destruct (Nat.eqb_spec (nth i0 (advice_phases (vk_cs v)) 0) 0) as [E|]; [|reflexivity]. apply HA. rewrite <- S3. exact E. }
  assert (AV : forall chs i r, i < num_advice (vk_cs v) -> r < n ->
    peval (nth i (advice_polys pk k W0 W1 chs) []) (fpow (d_omega (vk_domain v)) (Z.of_nat r)) = W1 chs i r).
  { intros chs i0 r Hi0 Hr. etransitivity; [symmetry; exact (advice_row pk 11 k _ _ cols sigma HK Hd Lc Ls W0 W1 chs i0 r Hi0 Hr)|]. unfold advice_values.
    rewrite (nth_map' _ _ _ 0) by (rewrite seq_length; exact Hi0). rewrite seq_nth by exact Hi0.
    rewrite (nth_map' _ _ _ 0) by (rewrite seq_length; exact Hr). rewrite seq_nth by exact Hr. exact (WW chs i0 r). }
  assert (HSat : forall chs, length chs = num_challenges (vk_cs v) -> satisfied (vk_cs v) (rev (asm_copies asm)) (asg pk k (fixed_of asm polys) insts W0 W1 chs)).
  { intros chs L. unfold asg. apply SAT; [exact L|]. intros i0 r Hi0 Hr. apply AV; assumption. }
  destruct (created hash transcript_repr zero add sub scale gen scale2 gen2 of_affine to_affine p pk 11 k t Hhash M Hpoint Hsetup _ _ cols sigma HK HP Hd ltac:(lia) Hom Hg
    (ck_advice _ CK) Lc Ls Lcols Lsigma insts ltac:(rewrite Hinst; symmetry; exact F2) ltac:(intros l I; fold v; rewrite F3; apply Hfit, I) synth W0 W1 Hs0 Hs1 K1 K2 K3 ltac:(intros i0 q E; apply K4, (nth_error_In _ _ E)) HSat co Hback HVf HVp
    is_zero pairing_product p' Hcheck ltac:(exists i; split; [exact Hi|apply shrink_srs, Hsh]) pr) as (a & st & bytes & E1 & E2 & ER & E3).
  exists a, st, bytes. split; [exact E1|]. split; [exact E2|]. split; [exact ER|]. destruct E3 as [E3|(last & E3 & E4 & E5)]; [left; exact E3|right].
  exists last. split; [exact E3|]. split; [exact E4|]. intros (ms & st' & rest & R & LK). apply E5. exists ms, st', rest. split; [exact R|].
  refine (lucky_agree v n _ _ _ _ _ _ _ _ _ (ck_cs _ CK) (ck_advice _ CK) LK).
  - lia.
  - reflexivity.
  - constructor; cbn [asg assigned as_n as_fixed as_advice as_instance as_challenge]; try reflexivity; intros i0 r Hi0 Hr.
    + exact (fixed_row pk k _ _ cols sigma HK HP Lc i0 r Hi0 Hr).
    + symmetry. apply AV; assumption.
Qed.

(** The on-chain program on the transaction with the key of a run and any code and
    input. *)
Lemma any_transaction v pr stack verify q q' src b inp c fuel s ws inp' proof :
  parses src b -> (1 <= program_words b <= 65535)%Z -> in_range 8 inp -> compile pr src = Ok c ->
  VMModel.run pr fuel (start c (easygen inp)) = Finished s -> 18 <= stack -> keygen_vk key_commit pr k (mat s) = EOk v ->
  valid_params q -> (1 <= kz_k q < 31)%Z -> shrink q SHRINK_K = Ok q' -> length proof = proof_size v ->
  Forall (fun w => (0 <= w < 65536)%Z) ws -> length ws < 1024 -> length inp' < 1024 ->
  bf_verifier pr stack verify (tx_witness (write_kzg q') (write_vk RawBytes v) proof (code_bytes ws) inp') =
  match verify q' v (statement ws inp') proof with
  | Panic => Crash | Ok false => Exit (-2) | Ok true => Exit 0
  end.
Proof.
  intros Hp Hw Hin C Hr Hs KG VP Kp Sh LP Rw Lw Li.
  assert (LK := run_key_bytes key_commit pr k v pr src b inp c fuel s Hp Hw Hin C Hr ltac:(lia) KG).
  destruct (keygen_complete _ _ _ _ _ KG ltac:(lia)) as (K & NI & SZ).
  assert (VK : valid_key pr stack bcs v) by (apply (keygen_valid key_commit pr k (mat s) v (commit_coords zero add of_affine to_affine p Hpoint) ltac:(lia) KG stack Hs)).
  unfold bf_verifier. apply reaches_entry.
  destruct (params_round pr q VP Kp) as (p1 & S1 & _ & _ & G1 & GL & _ & _ & R & _).
  rewrite S1 in Sh. apply ok_inj in Sh. subst p1.
  assert (W : words_of (code_bytes ws) ws) by (apply code_words, Rw).
  exists (write_kzg q'), (write_vk RawBytes v), (code_bytes ws), inp', ws, [], [].
  unfold tx_witness, loads. cbn [nth_error]. repeat apply conj; try reflexivity; try assumption.
  - rewrite kzg_length, G1, GL, !firstn_length. lia.
  - rewrite LP. exact SZ.
  - rewrite (words_length _ _ W). lia.
  - lia.
  - rewrite <- (app_nil_r (write_kzg q')). apply R.
  - rewrite <- (app_nil_r (write_vk RawBytes v)). apply read_write_vk; [exact VK|discriminate].
Qed.

(** A prover with columns of its own, from the key of any completed run. *)
Theorem forged_transaction pr stack src b inp cfg c fuel s p' :
  parses src b -> (1 <= program_words b <= 65535)%Z -> in_range 8 inp -> exec 8 b (initial inp) (Done cfg) ->
  compile pr src = Ok c -> VMModel.run pr fuel (start c (easygen inp)) = Finished s -> (lenZ (instruction_matrix (mat s)) + 6 < 2 ^ k)%Z ->
  valid_params p -> shrink p SHRINK_K = Ok p' -> 18 <= stack ->
  exists v pk, keygen_vk key_commit pr k (mat s) = EOk v /\ keygen_pk pr k v (mat s) = EOk pk /\
  forall ws inp' outs, Forall (fun w => (0 <= w < 65536)%Z) ws -> length ws < 1024 -> length ws + 7 <= n -> length inp' < 1024 -> length inp' + 7 <= n ->
  length outs = length (written cfg) ->
  exists A : columns, (forall chs, output_shown conf (A chs) (length outs) = outs) /\
  forall hash transcript_repr co, digest64 hash -> let insts := statement ws inp' in let synth := column_synth bcs A in
  exists a st bytes, write_first hash transcript_repr zero add of_affine to_affine p pk synth insts co ([], []) = POk (a, (st, bytes)) /\ Forall byte bytes /\
  (exists ms st rest, read_messages hash transcript_repr v insts [] bytes = TOk ms st rest) /\
  (unlucky hash transcript_repr of_affine p v insts bytes \/
   exists last, create_proof hash transcript_repr zero add of_affine to_affine pr p pk synth insts co = POk (bytes ++ last) /\
     (fortunate_for A hash transcript_repr pk n insts bytes ->
        bf_program hash transcript_repr zero add of_affine is_zero pairing_product pr stack
          (tx_witness (write_kzg p') (write_vk RawBytes v) (bytes ++ last) (code_bytes ws) inp') = Exit 0)).
Proof.
  intros P1 P2 P3 P4 P6 P7 P8 VP Hsh Hst.
  assert (P9 : (2 ^ 9 <= 2 ^ k <= 2 ^ 24)%Z) by (split; apply Z.pow_le_mono_r; lia).
  change (2 ^ 9)%Z with 512%Z in P9. change (2 ^ 24)%Z with 16777216%Z in P9.
  assert (Hn : Z.of_nat n = (2 ^ k)%Z) by (apply Z2Nat.id; lia).
  assert (N3 : (Z.of_nat n < 2 ^ 64)%Z) by (rewrite Hn; change (2 ^ 64)%Z with 18446744073709551616%Z; lia).
  destruct (key_exists pr src b inp cfg c fuel s n P1 P2 P3 P4 P6 P7 N3) as ([[cc sc] asm0] & EK0).
  { apply Nat2Z.inj_lt. lia. } { unfold lenZ in P8. apply Nat2Z.inj_lt. lia. }
  destruct (keygen_vk_total key_commit pr k (mat s) cc sc asm0 ltac:(lia) EK0) as [v Ev].
  destruct (columns_proof pr (mat s) v Ev) as (pk & asm & Epk & EK & H).
  exists v, pk. split; [exact Ev|]. split; [exact Epk|]. intros ws inp' outs Rw Lw Lw' Li Li' Lo.
  destruct (every_columns pr src b inp cfg c fuel s n asm (statement ws inp') outs P1 P2 P3 P4 P6 P7 N3 EK eq_refl) as (A & A1 & A2 & A3).
  { intros l [<-|[<-|[]]]; unfold column; cbn [length]; rewrite map_length; lia. } { exact Lo. }
  exists A. split; [exact A3|]. intros hash transcript_repr co Hhash insts synth.
  destruct (H hash transcript_repr p' SHRINK_K insts A Hhash ltac:(unfold SHRINK_K; lia) Hsh) with (co := co) as (a & st & bytes & E1 & E2 & ER & E3).
  { reflexivity. } { intros l I. rewrite bcs_usable. revert l I. intros l [<-|[<-|[]]]; unfold column; cbn [length]; rewrite map_length; lia. }
  { exact A1. } { intros chs _. apply A2. }
  exists a, st, bytes. split; [exact E1|]. split; [exact E2|]. split; [exact ER|]. destruct E3 as [E3|(last & E3 & _ & E5)]; [left; exact E3|right].
  exists last. split; [exact E3|]. intros FF. destruct (E5 FF) as [L V]. unfold bf_program.
  rewrite (any_transaction v pr stack _ p p' src b inp c fuel s ws inp' (bytes ++ last) P1 P2 P3 P6 P7 Hst Ev VP
    ltac:(rewrite (setup_k scale gen scale2 gen2 of_affine p k t Hsetup); lia) Hsh L Rw Lw Li). change (statement ws inp') with insts. rewrite V. reflexivity.
Qed.
End Columns.
