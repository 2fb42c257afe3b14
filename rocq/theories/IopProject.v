(** The protocol for the project's generated keys: what the verifier can be
    convinced of is exactly what the circuit is satisfied by. *)
From Coq Require Import ZArith List Arith Lia Bool Permutation.
From Verif Require Import Base ListFacts Moduli Field FieldFacts LimbSpec LimbField RootFacts PolyFacts VMModel Halo2Model CircuitModel CircuitFacts
  KeygenFacts SelectorModel PermModel PermSpec SelectorSpec SelectorClaims SelectorMain DomainModel DomainSpec DomainFacts VkModel VkFacts
  SoundSpec IopModel IopPoly IopRows IopSpec IopLagrange IopTotal IopCoeff IopKey ProverModel ProverSpec IopFull.
Import ListNotations.

Lemma without_selectors c copies a sel : (forall e, In e (gate_exprs c) \/ In e (lookup_exprs c) -> selectors_in e = []) ->
  satisfied c copies a -> satisfied c copies (mkAssign (as_n a) sel (as_fixed a) (as_advice a) (as_instance a) (as_challenge a)).
Proof.
  intros N. set (b := mkAssign _ _ _ _ _ _).
  assert (NS : forall e row, In e (gate_exprs c) \/ In e (lookup_exprs c) -> eval b row e = eval a row e).
  { intros e row I. apply N in I. clear - I. induction e; cbn [selectors_in] in I.
    - reflexivity.
    - discriminate.
    - reflexivity.
    - reflexivity.
    - reflexivity.
    - reflexivity.
    - exact (f_equal fopp (IHe I)).
    - apply app_eq_nil in I as [I1 I2]. exact (f_equal2 fadd (IHe1 I1) (IHe2 I2)).
    - apply app_eq_nil in I as [I1 I2]. exact (f_equal2 fmul (IHe1 I1) (IHe2 I2)).
    - exact (f_equal (fun x => fmul x f) (IHe I)). }
  intros (A & B & C). split; [|split].
  - intros g q row Ig Iq Hr. rewrite NS by (left; apply in_gate_exprs; eauto). apply (A g q row Ig Iq Hr).
  - intros l row Il Hr. destruct (B l row Il Hr) as (r' & Hr' & E). exists r'. split; [exact Hr'|].
    assert (M : forall es rw, (forall e, In e es -> In e (lookup_exprs c)) -> map (eval b rw) es = map (eval a rw) es).
    { intros es rw I. apply map_ext_in. intros e Ie. apply NS. right. apply I, Ie. }
    rewrite (M (fst l) row), (M (snd l) r') by (intros; apply in_lookup_exprs; eauto). exact E.
  - exact C.
Qed.
Lemma satisfied_rev c copies a : satisfied c (rev copies) a <-> satisfied c copies a.
Proof.
  split; intros (A & B & C); (split; [exact A|split; [exact B|]]); intros x y I; apply C; apply in_rev; rewrite ?rev_involutive; exact I.
Qed.

Lemma chunks_few {A} len (l : list A) : (length (chunks len l) <= length l)%nat.
Proof.
  enough (G : forall f (l : list A), (length (chunks_go f len l) <= f)%nat) by apply G.
  induction f as [|f IH]; intros x; cbn [chunks_go length]; [lia|]. destruct x; cbn [length]; [lia|]. apply le_n_S, IH.
Qed.

Section Sat.
Variables (n : nat) (m : matrix) (cc : main_config) (asm : assembly) (c' : cs) (polys : list (list Fr)) (asgs : list selassign).
Hypothesis EK : bf_keygen n m = EOk (cc, bcs, asm).
Hypothesis Ec : compress_selectors bcs (selector_rows bcs n asm) = Ok (c', polys, asgs).
Lemma project_sat w advice insts chs :
  satisfied c' (rev (asm_copies asm)) (assigned n w (fixed_of asm polys) advice insts chs) <->
  satisfied bcs (asm_copies asm) (assign_with n asm (fun i r => peval (advice i) (fpow w (Z.of_nat r))) insts (fun i => nth i chs f0)).
Proof.
  destruct (project_compressed _ _ _ _ _ EK) as (c2 & polys2 & asgs2 & Ec2 & CP & _ & SAT).
  rewrite Ec in Ec2. apply ok_inj in Ec2. injection Ec2 as <- <- <-.
  rewrite satisfied_rev, SAT. split; intros H.
  - exact (without_selectors _ _ _ (as_sel (extended bcs polys (assign_with n asm
        (fun i r => peval (advice i) (fpow w (Z.of_nat r))) insts (fun i => nth i chs f0)))) (cp_gone _ _ _ _ _ _ CP) H).
  - exact (without_selectors _ _ _ (fun _ _ => false) (cp_gone _ _ _ _ _ _ CP) H).
Qed.
Lemma small_key v : vk_cs v = c' -> vk_degree v = cs_degree c' -> (Z.of_nat (need_y v + lookup_width (vk_cs v)) < 2 ^ 60)%Z.
Proof.
  intros Ev Ed. destruct (project_compressed _ _ _ _ _ EK) as (c2 & polys2 & asgs2 & Ec2 & CP & _ & SAT).
  rewrite Ec in Ec2. apply ok_inj in Ec2. injection Ec2 as <- <- <-.
  destruct (cp_rest _ _ _ _ _ _ CP) as [R _]. pose proof (f_equal snd R) as R6. cbn [snd] in R6.
  assert (G : length (gate_exprs c') = length (gate_exprs bcs)).
  { pose proof (cp_gates _ _ _ _ _ _ CP) as H. unfold gate_exprs. clear - H. induction H as [|g g' l l' E H IH]; [reflexivity|].
    cbn [concat]. rewrite !app_length, E, IH. reflexivity. }
  assert (L : length (lookups c') = length (lookups bcs) /\ lookup_width c' = lookup_width bcs).
  { pose proof (cp_widths _ _ _ _ _ _ CP) as H. unfold lookup_width. clear - H. induction H as [|g g' l l' E H IH]; [split; reflexivity|].
    cbn [map length fold_right]. destruct IH as [-> ->]. rewrite (proj1 E). split; reflexivity. }
  assert (CL : (length (chunks (chunk_len v) (perm_columns bcs)) <= length (perm_columns bcs))%nat).
  { apply chunks_few. }
  unfold need_y. rewrite Ev, G, R6, (proj1 L), (proj2 L). unfold perm_constraints.
  assert (X : (length (gate_exprs bcs) + 3 * length (perm_columns bcs) + 2 + 5 * length (lookups bcs) + lookup_width bcs <= 1000)%nat)
    by (vm_compute; lia).
  destruct (_ =? _)%nat; lia.
Qed.
End Sat.

Theorem project_iff commit pr k m v : keygen_vk commit pr k m = EOk v -> (0 <= k < 63)%Z ->
  exists asm cols sigma,
    bf_keygen (Z.to_nat (2 ^ k)) m = EOk (conf, bcs, asm) /\
    vk_fixed v = map commit cols /\ vk_permutation v = map commit sigma /\
    (forall col, In col cols \/ In col sigma -> length col = Z.to_nat (2 ^ k)) /\
    (forall F S, interpolates (d_omega (vk_domain v)) cols F -> interpolates (d_omega (vk_domain v)) sigma S ->
      exists fixed copies, key_for v k fixed copies F S) /\
    forall F S insts chs advice,
      interpolates (d_omega (vk_domain v)) cols F -> interpolates (d_omega (vk_domain v)) sigma S ->
      (forall i, length (F i) <= Z.to_nat (2 ^ k) /\ length (S i) <= Z.to_nat (2 ^ k) /\ length (advice i) <= Z.to_nat (2 ^ k)) ->
      length chs = num_challenges bcs -> (forall l, In l insts -> (Z.of_nat (length l) <= 2 ^ k)%Z) ->
      (convincing v k insts chs F S advice <->
       satisfied bcs (asm_copies asm) (assign_with (Z.to_nat (2 ^ k)) asm
         (fun i r => peval (advice i) (fpow (d_omega (vk_domain v)) (Z.of_nat r))) insts (fun i => nth i chs f0)) /\
       length insts = num_instance bcs).
Proof.
  intros H Hk. destruct (project_key commit pr k m v H Hk) as (asm & c' & polys & asgs & sigma & EK & Ec & Ev & E1 & E2 & _ & _ & L1 & L2 & HKF).
  exists asm. eexists. exists sigma. split; [exact EK|]. split; [exact E1|]. split; [exact E2|].
  split; [intros col [I|I]; [apply L1, I|apply L2, I]|].
  split; [intros F S HF HS; do 2 eexists; exact (HKF F S HF HS)|].
  intros F S insts chs advice HF HS HB Hc HL. specialize (HKF F S HF HS).
  destruct (project_compressed _ _ _ _ _ EK) as (c2 & polys2 & asgs2 & Ec2 & CP & _ & SAT).
  rewrite Ec in Ec2. apply ok_inj in Ec2. injection Ec2 as <- <- <-.
  destruct (cp_rest _ _ _ _ _ _ CP) as [R UR]. injection R as R1 R2 R3 R4 R5 R6.
  assert (Hc' : length chs = num_challenges (vk_cs v)) by (rewrite Ev, R3; exact Hc).
  split.
  - intros HC. destruct (iop_sound v k _ _ F S insts chs advice HKF Hc' HL HC) as [X Y]. rewrite Ev, R2 in Y. split; [|exact Y].
    rewrite Ev in X. apply (project_sat _ _ _ _ _ _ _ EK Ec) in X. exact X.
  - intros [X Y]. apply (project_sat _ _ _ _ _ _ _ EK Ec) in X. rewrite <- Ev in X.
    apply (complete v k _ _ F S HKF insts chs advice Hc').
    + rewrite Ev, R2. exact Y.
    + exact HL.
    + exact X.
    + apply HB.
    + apply HB.
    + apply HB.
    + apply (small_key _ _ _ _ _ _ _ EK Ec v Ev). rewrite (kf_degree _ _ _ _ _ _ HKF), Ev. reflexivity.
Qed.

(** ** Statements the verifier can be convinced of *)
Lemma eval_challenges a b row (c : cs) e : as_n a = as_n b -> as_sel a = as_sel b -> as_fixed a = as_fixed b -> as_advice a = as_advice b ->
  as_instance a = as_instance b -> (forall i, (i < num_challenges c)%nat -> as_challenge a i = as_challenge b i) ->
  (forall l, In l (others_in e) -> other_ok c l = true) -> eval a row e = eval b row e.
Proof.
  intros H1 H2 H3 H4 H5 H6. induction e; intros H; cbn [others_in] in H; unfold eval; cbn [evaluate].
  - reflexivity.
  - rewrite H2. reflexivity.
  - rewrite H3, H1. reflexivity.
  - rewrite H4, H1. reflexivity.
  - rewrite H5, H1. reflexivity.
  - apply H6. specialize (H _ (or_introl eq_refl)). cbn [other_ok] in H. apply Nat.ltb_lt in H. exact H.
  - exact (f_equal fopp (IHe H)).
  - exact (f_equal2 fadd (IHe1 (fun l I => H l (in_or_app _ _ _ (or_introl I)))) (IHe2 (fun l I => H l (in_or_app _ _ _ (or_intror I))))).
  - exact (f_equal2 fmul (IHe1 (fun l I => H l (in_or_app _ _ _ (or_introl I)))) (IHe2 (fun l I => H l (in_or_app _ _ _ (or_intror I))))).
  - exact (f_equal (fun x => fmul x f) (IHe H)).
Qed.
Lemma satisfied_challenges a b (c : cs) copies : well_queried c -> as_n a = as_n b -> as_sel a = as_sel b -> as_fixed a = as_fixed b ->
  as_advice a = as_advice b -> as_instance a = as_instance b ->
  (forall i, (i < num_challenges c)%nat -> as_challenge a i = as_challenge b i) ->
  satisfied c copies a -> satisfied c copies b.
Proof.
  intros WQ H1 H2 H3 H4 H5 H6.
  assert (E : forall e row, In e (gate_exprs c) \/ In e (lookup_exprs c) -> eval b row e = eval a row e).
  { intros e row I. symmetry. apply (eval_challenges a b row c); try assumption. intros l Il. exact (wq_others _ WQ e l I Il). }
  intros (A & B & C). split; [|split].
  - intros g q row Ig Iq Hr. rewrite E by (left; apply in_gate_exprs; eauto). apply (A g q row Ig Iq). rewrite H1. exact Hr.
  - intros l row Il Hr. rewrite <- H1 in Hr |- *. destruct (B l row Il Hr) as (r' & Hr' & X). exists r'. split; [exact Hr'|].
    assert (M : forall es rw, (forall e, In e es -> In e (lookup_exprs c)) -> map (eval b rw) es = map (eval a rw) es).
    { intros es rw I. apply map_ext_in. intros e Ie. apply E. right. apply I, Ie. }
    rewrite (M (fst l) row), (M (snd l) r') by (intros; apply in_lookup_exprs; eauto). exact X.
  - intros x y I. specialize (C x y I). unfold cell_value in *. rewrite <- H3, <- H4, <- H5. exact C.
Qed.

Lemma keygen_copies_usable n m s c asm : bf_keygen n m = EOk (c, s, asm) -> s = bcs ->
  forall x y, In (x, y) (asm_copies asm) -> (snd x < usable_rows n bcs /\ snd y < usable_rows n bcs)%nat.
Proof.
  intros H _ x y I. apply keygen_asm in H as (_ & _ & H). apply (keygen_usable _ _ _ _ _ H); [intros ? ? []|exact I].
Qed.
Lemma key_domain commit pr k m v : keygen_vk commit pr k m = EOk v -> (0 <= k < 63)%Z ->
  domain_for 11 k (vk_domain v) /\ (k <= 24)%Z.
Proof.
  intros H Hk. apply keygen_vk_parts in H as (d & a & c' & polys & asgs & p & sigma & Ed & _ & _ & _ & _ & Ev). subst v.
  assert (Hk24 : (0 <= k <= 24)%Z).
  { destruct (Z_le_gt_dec k 24) as [L|L]; [lia|]. rewrite bcs_degree in Ed. change (Z.of_nat 11) with 11%Z in Ed.
    rewrite (domain_refused pr k) in Ed by lia. discriminate Ed. }
  split; [|lia]. unfold from_parts. cbn [vk_domain].
  destruct (domain_correct pr 11 k) as (d2 & E2 & D2); [lia|lia|change (Z.log2_up (11 - 1)) with 4%Z; lia|].
  rewrite bcs_degree in Ed. change (Z.of_nat 11) with 11%Z in Ed. rewrite Ed in E2. apply ok_inj in E2. subst d2. exact D2.
Qed.

Theorem accepted_iff commit pr k m v : keygen_vk commit pr k m = EOk v -> (0 <= k < 63)%Z ->
  exists cols sigma,
    vk_fixed v = map commit cols /\ vk_permutation v = map commit sigma /\
    (forall col, In col cols \/ In col sigma -> length col = Z.to_nat (2 ^ k)) /\
    (forall F S, interpolates (d_omega (vk_domain v)) cols F -> interpolates (d_omega (vk_domain v)) sigma S ->
      exists fixed copies, key_for v k fixed copies F S) /\
    forall F S insts A0,
      interpolates (d_omega (vk_domain v)) cols F -> interpolates (d_omega (vk_domain v)) sigma S ->
      (forall i, length (F i) <= Z.to_nat (2 ^ k) /\ length (S i) <= Z.to_nat (2 ^ k)) ->
      (forall l, In l insts -> length l <= usable_rows (Z.to_nat (2 ^ k)) (vk_cs v)) ->
      (can_convince v k insts F S A0 <-> accepted (Z.to_nat (2 ^ k)) m insts conf A0).
Proof.
  intros H Hk. destruct (project_iff commit pr k m v H Hk) as (asm & cols & sigma & EK & E1 & E2 & L & HKF & HI).
  destruct (project_key commit pr k m v H Hk) as (asm2 & c' & polys & asgs & sigma2 & EK2 & Ec & Ev & _).
  rewrite EK in EK2. apply eok_inj in EK2. pose proof (f_equal snd EK2) as EA. cbn [snd] in EA. subst asm2. clear EK2.
  destruct (project_compressed _ _ _ _ _ EK) as (c2 & polys2 & asgs2 & Ec2 & CP & _ & _).
  rewrite Ec in Ec2. apply ok_inj in Ec2. injection Ec2 as <- <- <-.
  destruct (cp_rest _ _ _ _ _ _ CP) as [R UR]. pose proof (cp_phases _ _ _ _ _ _ CP) as PH.
  assert (R3 : num_challenges c' = num_challenges bcs).
  { pose proof (f_equal (fun t => snd (fst (fst (fst t)))) R) as X. exact X. }
  rewrite <- Ev in PH, R3, UR.
  exists cols, sigma. split; [exact E1|]. split; [exact E2|]. split; [exact L|]. split; [exact HKF|].
  intros F S insts A0 HF HS HB HL. set (n := Z.to_nat (2 ^ k)) in *.
  set (w := d_omega (vk_domain v)) in *.
  assert (P2 : (0 < 2 ^ k)%Z) by (apply Z.pow_pos_nonneg; lia).
  assert (Hn : Z.of_nat n = (2 ^ k)%Z) by (unfold n; lia).
  assert (HL2 : forall l, In l insts -> (Z.of_nat (length l) <= 2 ^ k)%Z).
  { intros l I. specialize (HL l I). unfold usable_rows in HL. lia. }
  assert (HCp : forall x y, In (x, y) (asm_copies asm) -> (snd x < n)%nat /\ (snd y < n)%nat).
  { pose proof (keygen_copies_usable _ _ _ _ _ EK eq_refl) as U. intros x y I. specialize (U x y I). unfold usable_rows in U. lia. }
  split.
  - intros HC. exists bcs, asm. split; [exact EK|]. rewrite UR in HL.
    assert (NI : length insts = num_instance bcs).
    { destruct (HC (repeat f0 (num_challenges (vk_cs v))) (repeat_length _ _)) as (advice & LA & _ & CV).
      apply (HI F S insts (repeat f0 (num_challenges (vk_cs v))) advice) in CV; try assumption.
      - apply CV.
      - intros i. destruct (HB i). auto.
      - rewrite repeat_length. exact R3. }
    split; [exact NI|]. split; [exact HL|]. intros ch.
    assert (LC : length (map ch (seq 0 (num_challenges bcs))) = num_challenges bcs) by (rewrite map_length; apply seq_length).
    destruct (HC (map ch (seq 0 (num_challenges bcs)))) as (advice & LA & AG & CV); [rewrite R3; exact LC|].
    apply (HI F S insts _ advice) in CV; try assumption; [|intros i; destruct (HB i); auto]. destruct CV as [CV _].
    exists (fun col r => if r <? n then peval (advice col) (fpow w (Z.of_nat r)) else A0 col r). split.
    + intros col r Hp. destruct (Nat.ltb_spec r n) as [Hr|Hr]; [|reflexivity]. apply AG; [exact Hr|rewrite PH; exact Hp].
    + set (B := fun (col r : nat) => if r <? n then peval (advice col) (fpow w (Z.of_nat r)) else A0 col r).
      assert (S1 : satisfied bcs (asm_copies asm) (assign_with n asm B insts (fun i => nth i (map ch (seq 0 (num_challenges bcs))) f0))).
      { eapply satisfied_ext; [..|exact CV]; try reflexivity.
        - cbn [as_n assign_with]. lia.
        - intros i r Hr. cbn [assign_with as_advice as_n] in *. unfold B. apply Nat.ltb_lt in Hr. rewrite Hr. reflexivity.
        - exact HCp. }
      apply (satisfied_challenges _ (assign_with n asm B insts ch) _ _ bcs_well_queried) in S1; try reflexivity; [exact S1|].
      intros i Hi. cbn [assign_with as_challenge].
      transitivity (nth i (map ch (seq 0 (num_challenges bcs))) (ch 0%nat)); [apply nth_indep; exact (eq_ind_r (fun t => (i < t)%nat) Hi LC)|].
      rewrite map_nth, seq_nth by exact Hi. reflexivity.
  - intros (s & asm2 & EK2 & NI & _ & HA) chs Hc. rewrite EK in EK2. apply eok_inj in EK2.
    pose proof (f_equal snd EK2) as EA. pose proof (f_equal (fun t => snd (fst t)) EK2) as ES. cbn [fst snd] in EA, ES. subst asm2 s. clear EK2.
    destruct (HA (fun i => nth i chs f0)) as (A & AG & SAT).
    destruct (key_domain commit pr k m v H Hk) as [Hd _].
    pose (advice := fun i => coeffs n (d_omega_inv (vk_domain v)) (d_barycentric_weight (vk_domain v)) (A i)).
    assert (AE : forall i r, (r < n)%nat -> peval (advice i) (fpow w (Z.of_nat r)) = A i r).
    { intros i r Hr. unfold advice. rewrite coeffs_eval.
      exact (interp_at n w _ (Hw _ 11 k n Hn Hd) (Hwi _ 11 k Hd) _ (Hni _ 11 k n Hn Hd) (A i) r Hr). }
    assert (LA : forall i, (length (advice i) <= n)%nat).
    { intros i. unfold advice. rewrite coeffs_length. lia. }
    exists advice. split; [exact LA|]. split.
    + intros col r Hr Hp. rewrite AE by exact Hr. apply AG. rewrite <- PH. exact Hp.
    + apply (HI F S insts chs advice); try assumption.
      * intros i. destruct (HB i). auto.
      * rewrite <- R3. exact Hc.
      * split; [|exact NI]. eapply satisfied_ext; [..|exact SAT]; try reflexivity.
        -- cbn [as_n assign_with]. lia.
        -- intros i r Hr. cbn [assign_with as_advice as_n] in *. symmetry. apply AE, Hr.
        -- exact HCp.
Qed.
