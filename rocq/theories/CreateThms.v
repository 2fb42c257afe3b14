(** Proofs created for completed runs. *)
From Coq Require Import ZArith List Arith Bool Lia.
From Verif Require Import Base Moduli Field FieldFacts LimbModel LimbSpec PolyFacts RootFacts Halo2Model SelectorSpec CircuitModel CircuitFacts VMModel BFSpec CompileSpec CompileFacts Completeness
  PermSpec SerdeModel SerdeSpec DomainModel DomainSpec DomainFacts VkModel VkSpec VkFacts EntryModel EntrySpec IopModel IopSpec IopKey IopProject ArithSpec KzgModel KzgFacts ShplonkSpec
  TranscriptModel VerifierModel VerifierSpec VerifierThms VerifierProject ProverModel ProverSpec GraphModel GraphSpec CreateModel PkFacts GraphProject RunKey Agree CreateValues
  CreateMessages CreateProject CreateSpec KeySize.
Import ListNotations IopPoly IopSpec.
Local Open Scope nat_scope.

Section Runs.
Variable hash : list Z -> list Z.
Variable transcript_repr : vkey -> Fr.
Context {G : Type}.
Variables (zero : G) (add sub : G -> G -> G) (scale : Fr -> G -> G) (gen : G).
Variables (scale2 : Fr -> g2 -> g2) (gen2 : g2).
Variables (of_affine : g1 -> G) (to_affine : G -> g1) (is_zero : G -> bool) (pairing_product : list (G * g2) -> bool).
Variables (p : kzg) (k : Z) (t : Fr).
Hypothesis Hhash : digest64 hash.
Hypothesis M : is_module zero add sub scale.
Hypothesis Hpoint : forall g, exists x y, g1_point (to_affine g) x y.
Hypothesis Hback : forall g, of_affine (to_affine g) = g.
Hypothesis Hcheck : is_pairing scale scale2 gen2 (pairing_check is_zero pairing_product).
Hypothesis Hsetup : setup scale gen scale2 gen2 k t = Ok (srs_of of_affine p).
Hypothesis Hk : (9 <= k <= 24)%Z.
Local Notation key_commit := (commit_or_identity zero add of_affine to_affine p).
Local Notation n := (Z.to_nat (2 ^ k)).

Lemma setup_k : kz_k p = k.
Proof. clear - Hsetup. unfold setup in Hsetup. destruct (k <=? S_)%Z; [|discriminate]. destruct (map_res _ _); cbn [bind] in Hsetup; [|discriminate]. injection Hsetup as E _ _ _ _ _. congruence. Qed.
Lemma shrink_srs i p' : shrink p i = Ok p' -> srs_shrink (srs_of of_affine p) i = Ok (srs_of of_affine p').
Proof.
  clear. unfold shrink, srs_shrink. cbn [srs_of sr_k sr_n sr_g sr_gl sr_g2 sr_s_g2]. destruct (i <=? kz_k p)%Z; [|discriminate]. intros [= <-].
  unfold srs_of. cbn [kz_k kz_n kz_g kz_gl kz_g2 kz_sg2]. rewrite !firstn_map. reflexivity.
Qed.
Lemma identity_coords : g1_coords g1_identity.
Proof. split; (split; [vm_compute; repeat split; intros; discriminate|reflexivity]). Qed.
Lemma commit_coords l : g1_coords (key_commit l).
Proof.
  unfold commit_or_identity, commit_values. destruct (commit_lagrange _ _ _ _) as [g|]; cbn [bind]; [|exact identity_coords].
  destruct (Hpoint g) as (x & y & Hx & Hy & _). split; [destruct Hx as [H E]|destruct Hy as [H E]]; (split; [exact H|rewrite E; apply Z.mod_pos_bound; reflexivity]).
Qed.

Theorem run_proof pr src b inp cfg c fuel s p' i :
  parses src b -> (1 <= program_words b <= 65535)%Z -> in_range 8 inp -> exec 8 b (initial inp) (Done cfg) -> unread cfg = [] ->
  compile pr src = Ok c -> VMModel.run pr fuel (start c (easygen inp)) = Finished s -> (lenZ (instruction_matrix (mat s)) + 6 < 2 ^ k)%Z ->
  (0 <= i <= k)%Z -> shrink p i = Ok p' ->
  exists v pk, keygen_vk key_commit pr k (mat s) = EOk v /\ keygen_pk pr k v (mat s) = EOk pk /\
  forall co, let insts := public_inputs c inp in let synth := bf_synth v n (mat s) insts in
  exists a st bytes, write_first hash transcript_repr zero add of_affine to_affine p pk synth insts co ([], []) = POk (a, (st, bytes)) /\ Forall byte bytes /\
  (exists ms st rest, read_messages hash transcript_repr v insts [] bytes = TOk ms st rest) /\
  (unlucky hash transcript_repr of_affine p v insts bytes \/
   exists last, create_proof hash transcript_repr zero add of_affine to_affine pr p pk synth insts co = POk (bytes ++ last) /\ Forall byte last /\
     (fortunate hash transcript_repr pk n (mat s) insts bytes -> length (bytes ++ last) = proof_size v /\
        verify_proof hash transcript_repr zero add of_affine is_zero pairing_product p' v insts (bytes ++ last) = Ok true)).
Proof.
  intros P1 P2 P3 P4 P5 P6 P7 P8 Hi Hsh.
  destruct (run_keys key_commit pr src b inp cfg c fuel s k P1 P2 P3 P4 P5 P6 P7 Hk P8) as (v & pk & fixed & copies & Ev & Epk & HK & Hinst & HW).
  exists v, pk. split; [exact Ev|]. split; [exact Epk|]. intros co insts synth.
  destruct (project_facts key_commit pr k (mat s) v Ev ltac:(lia)) as (pk' & cols & sigma & fixed' & copies' & E' & HP & HVf & HVp & Lc & Ls & Lcols & Lsigma & _ & Hd & Hg).
  rewrite Epk in E'. apply eok_inj in E'. subst pk'.
  destruct (keygen_complete key_commit pr k (mat s) v Ev ltac:(lia)) as (CK & _ & _).
  destruct (key_phases key_commit pr k (mat s) v Ev ltac:(lia)) as (K1 & K2 & K3 & K4).
  assert (Hw : d_omega (vk_domain v) = omega_c k).
  { destruct (keygen_vk_parts _ _ _ _ _ Ev) as (d & a & c2 & polys2 & asgs2 & p2 & sigma2 & Ed & _ & _ & _ & _ & Ev2).
    rewrite bcs_degree in Ed. change (Z.of_nat 11) with 11%Z in Ed. rewrite Ev2. cbn [from_parts vk_domain].
    apply (domain_omega pr 11 k d); [lia|lia|change (Z.log2_up (11 - 1)) with 4%Z; lia|exact Ed]. }
  pose proof (pk_has_vk _ _ _ _ _ HP) as EV.
  pose (W0 := phase0 k (mat s) v insts). pose (W1 := phase1 k (mat s) v insts).
  assert (SW : forall chs, length chs = num_challenges (vk_cs v) -> exists adv, bf_witness n (mat s) insts (fun i => nth i chs f0) = EOk adv /\
    ((forall l, List.In l insts -> length l <= usable_rows n (vk_cs v)) /\
     synth 0 (fun i => nth i (repeat None (num_challenges (vk_cs v))) None) = POk W0 /\ synth 1 (fun i => nth i (map Some chs) None) = POk (W1 chs) /\
     forall i r, adv i r = if nth i (advice_phases (vk_cs v)) 0 =? 0 then W0 i r else W1 chs i r) /\
    forall advice, (forall i r, i < num_advice (vk_cs v) -> r < n -> peval (advice i) (fpow (d_omega (vk_domain v)) (Z.of_nat r)) = adv i r) ->
      satisfied (vk_cs v) copies (assigned n (d_omega (vk_domain v)) fixed advice insts chs)).
  { intros chs L. destruct (HW chs L) as (adv & EW & SAT). exists adv. split; [exact EW|]. split; [|exact SAT].
    exact (synth_witness key_commit pr k (mat s) v Ev ltac:(lia) insts chs adv L EW). }
  subst v. set (v := pk_vk pk) in *.
  destruct (SW (repeat f0 (num_challenges (vk_cs v))) (repeat_length _ _)) as (adv0 & _ & (Hfit & Hs0 & _ & _) & _).
  assert (Hs1 : forall chs, length chs = num_challenges (vk_cs v) -> synth 1 (fun i => nth i (map Some chs) None) = POk (W1 chs)).
  { intros chs L. destruct (SW chs L) as (adv & _ & (_ & _ & H1 & _) & _). exact H1. }
  assert (AV : forall chs i r, i < num_advice (vk_cs v) -> r < n ->
    peval (nth i (advice_polys pk k W0 W1 chs) []) (fpow (d_omega (vk_domain v)) (Z.of_nat r)) = if nth i (advice_phases (vk_cs v)) 0 =? 0 then W0 i r else W1 chs i r).
  { intros chs i0 r Hi0 Hr. etransitivity; [symmetry; exact (advice_row pk 11 k fixed copies cols sigma HK Hd Lc Ls W0 W1 chs i0 r Hi0 Hr)|]. unfold advice_values.
    rewrite (nth_map' _ _ _ 0) by (rewrite seq_length; exact Hi0). rewrite seq_nth by exact Hi0.
    rewrite (nth_map' _ _ _ 0) by (rewrite seq_length; exact Hr). rewrite seq_nth by exact Hr. reflexivity. }
  assert (HSat : forall chs, length chs = num_challenges (vk_cs v) -> satisfied (vk_cs v) copies (asg pk k fixed insts W0 W1 chs)).
  { intros chs L. destruct (SW chs L) as (adv & _ & (_ & _ & _ & E) & S). unfold asg. apply S. intros i0 r Hi0 Hr. rewrite E. apply AV; assumption. }
  destruct (created hash transcript_repr zero add sub scale gen scale2 gen2 of_affine to_affine p pk 11 k t Hhash M Hpoint Hsetup fixed copies cols sigma HK HP Hd ltac:(lia) Hw Hg
    (ck_advice _ CK) Lc Ls Lcols Lsigma insts Hinst Hfit synth W0 W1 Hs0 Hs1 K1 K2 K3 ltac:(intros i0 q E; apply K4, (nth_error_In _ _ E)) HSat co Hback HVf HVp
    is_zero pairing_product p' Hcheck ltac:(exists i; split; [exact Hi|apply shrink_srs, Hsh]) pr) as (a & st & bytes & E1 & E2 & ER & E3).
  exists a, st, bytes. split; [exact E1|]. split; [exact E2|]. split; [exact ER|]. destruct E3 as [E3|(last & E3 & E4 & E5)]; [left; exact E3|right].
  exists last. split; [exact E3|]. split; [exact E4|]. intros (ms & st' & rest & adv & R & Wt & LK). apply E5. exists ms, st', rest. split; [exact R|].
  pose proof (mf_challenges _ _ (yields_messages hash transcript_repr _ insts _ _ _ _ _ R)) as L.
  destruct (SW _ L) as (adv' & Wt' & (_ & _ & _ & Ea) & _). assert (Ew : adv' = adv) by (apply eok_inj; etransitivity; [symmetry; exact Wt'|exact Wt]). subst adv'.
  refine (lucky_agree v n _ _ _ _ _ _ _ _ _ (ck_cs _ CK) (ck_advice _ CK) LK).
  - apply Nat2Z.inj_lt. rewrite Z2Nat.id; [|apply Z.pow_nonneg; lia]. apply Z.pow_pos_nonneg; lia.
  - reflexivity.
  - constructor; cbn [asg assigned as_n as_fixed as_advice as_instance as_challenge]; try reflexivity; intros i0 r Hi0 Hr.
    + exact (fixed_row pk k fixed copies cols sigma HK HP Lc i0 r Hi0 Hr).
    + rewrite Ea. symmetry. apply AV; assumption.
Qed.

Theorem run_accepted pr stack src b inp cfg ws fuel s p' :
  parses src b -> (1 <= program_words b < 1024)%Z -> in_range 8 inp -> length inp < 1024 -> exec 8 b (initial inp) (Done cfg) -> unread cfg = [] ->
  compile_to_u16 pr src = Ok ws -> VMModel.run pr fuel (start (map FrZ ws) (easygen inp)) = Finished s -> (lenZ (instruction_matrix (mat s)) + 6 < 2 ^ k)%Z ->
  valid_params p -> shrink p SHRINK_K = Ok p' -> 18 <= stack ->
  exists v pk, keygen_vk key_commit pr k (mat s) = EOk v /\ keygen_pk pr k v (mat s) = EOk pk /\
  forall co, let insts := statement ws inp in let synth := bf_synth v n (mat s) insts in
  exists a st bytes, write_first hash transcript_repr zero add of_affine to_affine p pk synth insts co ([], []) = POk (a, (st, bytes)) /\ Forall byte bytes /\
  (exists ms st rest, read_messages hash transcript_repr v insts [] bytes = TOk ms st rest) /\
  (unlucky hash transcript_repr of_affine p v insts bytes \/
   exists last, create_proof hash transcript_repr zero add of_affine to_affine pr p pk synth insts co = POk (bytes ++ last) /\
     (fortunate hash transcript_repr pk n (mat s) insts bytes ->
        bf_program hash transcript_repr zero add of_affine is_zero pairing_product pr stack
          (tx_witness (write_kzg p') (write_vk RawBytes v) (bytes ++ last) (code_bytes ws) inp) = Exit 0)).
Proof.
  intros P1 P2 P3 P3' P4 P5 P6 P7 P8 VP Hsh Hst.
  assert (CC : compile pr src = Ok (map FrZ ws)) by (unfold compile; rewrite P6; reflexivity).
  destruct (run_proof pr src b inp cfg (map FrZ ws) fuel s p' SHRINK_K P1 ltac:(lia) P3 P4 P5 CC P7 P8 ltac:(unfold SHRINK_K; lia) Hsh) as (v & pk & Ev & Epk & H).
  exists v, pk. split; [exact Ev|]. split; [exact Epk|]. intros co insts synth. specialize (H co). rewrite public_statement in H. cbv zeta in H.
  destruct H as (a & st & bytes & E1 & E2 & ER & E3). exists a, st, bytes. split; [exact E1|]. split; [exact E2|]. split; [exact ER|]. destruct E3 as [E3|(last & E3 & _ & E5)]; [left; exact E3|right].
  exists last. split; [exact E3|]. intros F. destruct (E5 F) as [L V]. unfold bf_program.
  rewrite (run_transaction key_commit k v pr stack _ p p' src b inp ws fuel s (bytes ++ last) P1 P2 P3 P6 P3' P7 commit_coords Hst ltac:(lia) Ev VP
    ltac:(rewrite setup_k; lia) Hsh L). rewrite V. reflexivity.
Qed.
End Runs.
