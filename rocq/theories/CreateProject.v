(** The synthesis of the project's circuit during proving: what it assigns in
    each phase is the witness of the circuit. *)
From Coq Require Import ZArith List Arith Bool Lia.
From Verif Require Import Base Moduli Field FieldFacts PolyFacts Halo2Model SelectorModel SelectorSpec SelectorFacts SelectorClaims SelectorMain CircuitModel
  CircuitFacts LayoutFacts WitnessFacts VMModel SerdeModel DomainModel DomainSpec DomainFacts VkModel VkFacts VerifierModel VerifierProject ProverModel CreateModel IopKey IopProject.
Import ListNotations.
Local Open Scope nat_scope.

(** ** Environments with the same challenges *)
Definition same_env (a b : venv) : Prop := (forall i, i < 11 -> ve_challenge a i = ve_challenge b i) /\ ve_instance a = ve_instance b.

Lemma gloop_ext {X St} (f : nat -> X -> St -> list rop) g g' xs idx s : (forall x s, g x s = g' x s) -> gloop f g xs idx s = gloop f g' xs idx s.
Proof. intros H. revert idx s. induction xs as [|x xs IH]; intros idx s; cbn [gloop]; [reflexivity|]. rewrite H, IH. reflexivity. Qed.

Lemma same_get a b i : same_env a b -> get_chv a (get_ch (challenges conf) i) = get_chv b (get_ch (challenges conf) i).
Proof.
  intros [H _]. unfold get_chv. apply H.
  assert (X : forallb (fun c => ch_index c <? 11) (ch_dummy :: bf_challenges (challenges conf)) = true) by (vm_compute; reflexivity).
  rewrite forallb_forall in X. apply Nat.ltb_lt, X. unfold get_ch.
  destruct (nth_in_or_default i (bf_challenges (challenges conf)) ch_dummy) as [I|I]; [right; exact I|left; symmetry; exact I].
Qed.
Lemma all_ops_same m a b : same_env a b -> all_ops m a = all_ops m b.
Proof.
  intros H. pose proof (fun i => same_get a b i H) as C. pose proof (proj1 H) as C0. pose proof (proj2 H) as CI. unfold all_ops. apply f_equal2; [reflexivity|]. apply f_equal2; [|reflexivity].
  apply f_equal. unfold region_ops. apply f_equal2; [|apply f_equal2; [|apply f_equal2; [|apply f_equal2; [|apply f_equal2]]]].
  - unfold pops. apply f_equal2; [reflexivity|]. apply gloop_ext. intros x [[[? ?] ?] ?]. unfold pstep, output_rs_ch, input_rs_ch. rewrite !C. reflexivity.
  - unfold mops. apply f_equal2; [reflexivity|]. apply gloop_ext. intros x t. unfold mstep. rewrite !C. reflexivity.
  - unfold iops. apply f_equal2; [reflexivity|]. apply gloop_ext. intros x t. unfold istep, inst_rs_ch. rewrite !C. reflexivity.
  - unfold oops. rewrite (C0 9) by lia. reflexivity.
  - unfold uops. rewrite (C0 10), CI by lia. reflexivity.
  - unfold gops. rewrite (C0 8), CI by lia. reflexivity.
Qed.

(** ** Constraint systems with the same advice columns and usable rows *)
Lemma witness_op_same c c' n ph insts o w : usable_rows n c = usable_rows n c' -> num_advice c = num_advice c' -> witness_op c n ph insts o w = witness_op c' n ph insts o w.
Proof. intros U A. unfold witness_op. rewrite U, A. reflexivity. Qed.
Lemma witness_phase_same c c' n ph insts ops : usable_rows n c = usable_rows n c' -> num_advice c = num_advice c' -> witness_phase c n ph insts ops = witness_phase c' n ph insts ops.
Proof.
  intros U A. unfold witness_phase. apply f_equal2; [|reflexivity]. generalize (fun _ _ : nat => (f0 : Fr)) as w.
  induction ops as [|o ops IH]; intros w; cbn [witness_ops]; [reflexivity|]. rewrite (witness_op_same c c') by assumption.
  destruct (witness_op c' n ph insts o w); cbn [ebind]; [apply IH|reflexivity|reflexivity].
Qed.

(** ** The phases of the challenges after the selectors are compressed *)
Lemma alloc_phases s e s' : alloc_column s = Ok (e, s') -> challenge_phases (fst s') = challenge_phases (fst s).
Proof.
  destruct s as [c cols]. unfold alloc_column, fixed_column, query_fixed_index. cbn [bind fixed_queries].
  destruct (position _ _) as [j|]; cbn [bind]; intros [= _ <-]; reflexivity.
Qed.
Lemma alone_phases sels : forall combs asgs s rest combs' asgs' s', alone alloc_column sels combs asgs s = Ok (rest, combs', asgs', s') ->
  challenge_phases (fst s') = challenge_phases (fst s).
Proof.
  induction sels as [|d sels IH]; intros combs asgs s rest combs' asgs' s' H; cbn [alone] in H; [injection H as <- <- <- <-; reflexivity|].
  destruct (sd_deg d =? 0).
  - apply bind_ok in H as ([e s1] & EA & H). apply alloc_phases in EA. apply IH in H. congruence.
  - apply bind_ok in H as ([[[r1 c1] a1] s1] & EA & H). apply IH in EA. injection H as <- <- <- <-. exact EA.
Qed.
Lemma combine_phases n md sels : forall i added combs asgs s combs' asgs' s', combine_all alloc_column n md sels i added combs asgs s = Ok (combs', asgs', s') ->
  challenge_phases (fst s') = challenge_phases (fst s).
Proof.
  induction sels as [|d sels IH]; intros i added combs asgs s combs' asgs' s' H; cbn [combine_all] in H; [injection H as <- <- <-; reflexivity|].
  destruct (nth i added false); [apply IH in H; exact H|]. destruct (md <? sd_deg d); [discriminate|].
  destruct (try_selectors md sels (i + 1) (sd_deg d - 1) [d] (upd added i true)) as [comb added'].
  apply bind_ok in H as ([q s1] & EA & H). destruct (assign_comb _ _ _ _ _ _) as [col new]. apply alloc_phases in EA. apply IH in H. congruence.
Qed.
Lemma compress_phases c acts c' polys asgs : compress_selectors c acts = Ok (c', polys, asgs) -> challenge_phases c' = challenge_phases c.
Proof.
  intros H. unfold compress_selectors in H. destruct (Nat.eqb_spec (length acts) (num_selectors c)) as [LA|]; [|discriminate]. cbn [negb] in H.
  apply bind_ok in H as (ds & ED & H). apply bind_ok in H as ([[p1 a1] [c1 cols]] & EP & H).
  apply bind_ok in H as ([m r] & _ & H). apply bind_ok in H as (m' & _ & H). apply bind_ok in H as (r' & _ & H). apply bind_ok in H as (c2 & ES & H).
  injection H as <- <- <-. unfold substitute in ES. apply bind_ok in ES as (gs & _ & ES). apply bind_ok in ES as (ls & _ & ES). injection ES as <-. cbn [challenge_phases].
  unfold process in EP. destruct (describe 0 acts ds) as [|d0 rest] eqn:Ed; [injection EP as _ _ <- _; reflexivity|].
  destruct (negb _); [discriminate|]. apply bind_ok in EP as ([[[rest1 cb] a2] s2] & EA & EP). apply alone_phases in EA. apply combine_phases in EP.
  cbn [fst] in *. congruence.
Qed.

Section Key.
Variables (commit : list Fr -> g1) (pr : profile) (k : Z) (m : matrix) (v : vkey).
Hypothesis Hvk : keygen_vk commit pr k m = EOk v.
Hypothesis Hk : (0 <= k < 63)%Z.
Notation c := (vk_cs v).
Notation n := (Z.to_nat (2 ^ k)).

Lemma key_shape : num_advice c = num_advice bcs /\ num_challenges c = 11 /\ advice_phases c = advice_phases bcs /\ challenge_phases c = repeat 0 11 /\
  usable_rows n c = usable_rows n bcs.
Proof.
  destruct (project_key _ _ _ _ _ Hvk Hk) as (asm & c' & polys & asgs & sigma & EK & Ec & Ecs & _).
  destruct (project_compressed _ _ _ _ _ EK) as (c3 & polys3 & asgs3 & Ec3 & CP & _). rewrite Ec in Ec3. apply ok_inj in Ec3. injection Ec3 as <- <- <-.
  rewrite Ecs. destruct (cp_rest _ _ _ _ _ _ CP) as [R U]. injection R as R1 R2 R3 R4 R5 R6. rewrite R1, R3, U, (cp_phases _ _ _ _ _ _ CP), (compress_phases _ _ _ _ _ Ec).
  repeat apply conj; reflexivity.
Qed.
Lemma key_sizes : length (lookups c) = 1 /\ length (perm_columns c) = 16.
Proof.
  destruct (project_key _ _ _ _ _ Hvk Hk) as (asm & c' & polys & asgs & sigma & EK & Ec & Ecs & _).
  destruct (project_compressed _ _ _ _ _ EK) as (c3 & polys3 & asgs3 & Ec3 & CP & _). rewrite Ec in Ec3. apply ok_inj in Ec3. injection Ec3 as <- <- <-.
  rewrite Ecs. destruct (cp_rest _ _ _ _ _ _ CP) as [R U]. injection R as R1 R2 R3 R4 R5 R6. rewrite R6. split; [|reflexivity].
  transitivity (length (lookups bcs)); [|reflexivity]. pose proof (cp_widths _ _ _ _ _ _ CP) as W. clear - W. induction W; cbn [length]; congruence.
Qed.
Lemma key_phases : phases c = [0; 1] /\ challenge_phases c = repeat 0 (num_challenges c) /\ length (advice_phases c) = num_advice c /\
  forall ph, In ph (advice_phases c) -> ph = 0 \/ ph = 1.
Proof.
  destruct key_shape as (A & B & C & D & _). unfold phases. rewrite A, B, C, D. repeat apply conj; try reflexivity.
  assert (X : forallb (fun ph => ph <? 2) (advice_phases bcs) = true) by (vm_compute; reflexivity).
  rewrite forallb_forall in X. intros ph I. apply X, Nat.ltb_lt in I. lia.
Qed.

Variable insts : list (list Fr).
Definition w_of (phase : nat) (ch : nat -> option Fr) : nat -> nat -> Fr := match bf_synth v n m insts phase ch with POk w => w | _ => fun _ _ => f0 end.
Definition phase0 : nat -> nat -> Fr := w_of 0 (fun i => nth i (repeat None (num_challenges c)) None).
Definition phase1 (chs : list Fr) : nat -> nat -> Fr := w_of 1 (fun i => nth i (map Some chs) None).

Lemma synth_is ph ch ch' : (forall i, i < 11 -> ch i = ve_challenge (prover_env ph insts ch') i) ->
  bf_synth v n m insts ph ch = of_eres (elet ops := synthesize conf m (prover_env ph insts ch') in witness_phase bcs n ph insts ops).
Proof.
  intros H. unfold bf_synth. rewrite configure_ok. apply f_equal. rewrite !synthesize_eq.
  rewrite (all_ops_same m _ (prover_env ph insts ch')) by (split; [exact H|reflexivity]).
  destruct (getchar_ok (processor_matrix m)); [|reflexivity]. cbn [ebind]. destruct key_shape as (A & _ & _ & _ & U). apply witness_phase_same; assumption.
Qed.
Lemma synth_witness (chs : list Fr) adv : length chs = num_challenges c -> bf_witness n m insts (fun i => nth i chs f0) = EOk adv ->
  (forall l, In l insts -> length l <= usable_rows n c) /\
  bf_synth v n m insts 0 (fun i => nth i (repeat None (num_challenges c)) None) = POk phase0 /\
  bf_synth v n m insts 1 (fun i => nth i (map Some chs) None) = POk (phase1 chs) /\
  forall i r, adv i r = if nth i (advice_phases c) 0 =? 0 then phase0 i r else phase1 chs i r.
Proof.
  intros L E. destruct key_shape as (A & B & C & D & U). rewrite bf_witness_eq in E.
  destruct (existsb _ insts) eqn:X; [discriminate|].
  unfold phase0, phase1, w_of.
  rewrite (synth_is 0 _ (fun i => nth i chs f0)) by (intros i _; cbn [prover_env ve_challenge Nat.eqb]; apply nth_repeat).
  rewrite (synth_is 1 _ (fun i => nth i chs f0)).
  2:{ intros i Hi. cbn [prover_env ve_challenge Nat.eqb]. transitivity (nth i (map Some chs) (Some f0)); [apply nth_indep; rewrite map_length; lia|apply (map_nth Some)]. }
  destruct (synthesize conf m (prover_env 0 insts _)) as [o0| |]; [|discriminate|discriminate]. cbn [ebind] in *.
  destruct (witness_phase bcs n 0 insts o0) as [w0| |]; [|discriminate|discriminate]. cbn [ebind] in *.
  destruct (synthesize conf m (prover_env 1 insts _)) as [o1| |]; [|discriminate|discriminate]. cbn [ebind] in *.
  destruct (witness_phase bcs n 1 insts o1) as [w1| |]; [|discriminate|discriminate]. cbn [ebind of_eres] in *. injection E as <-.
  split; [|split; [reflexivity|split; [reflexivity|]]].
  - intros l I. rewrite U. destruct (usable_rows n bcs <? length l) eqn:Y; [|apply Nat.ltb_ge; exact Y].
    assert (Z : existsb (fun l => usable_rows n bcs <? length l) insts = true) by (apply existsb_exists; eauto). congruence.
  - intros i r. rewrite C. reflexivity.
Qed.
End Key.
