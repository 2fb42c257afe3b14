(** The keys of completed runs and their witnesses. *)
From Coq Require Import ZArith List Arith Bool Lia.
From Verif Require Import Base Moduli Field FieldFacts LimbSpec LimbModel PolyFacts Halo2Model SelectorModel SelectorSpec SelectorClaims SelectorMain CircuitModel
  CircuitFacts LayoutFacts WitnessFacts Completeness VMModel BFSpec CompileSpec PermModel PermSpec PermClaims SerdeModel DomainModel DomainSpec DomainFacts VkModel VkFacts IopModel
  IopPoly IopSpec IopLagrange IopCoeff IopFull IopKey IopProject IopClaims VerifierSpec VerifierProject GraphModel GraphSpec CreateModel PkFacts Agree.
Import ListNotations IopPoly.
Local Open Scope nat_scope.

Theorem run_keys commit pr src p inp cfg c fuel s k :
  parses src p -> (1 <= program_words p <= 65535)%Z -> in_range 8 inp ->
  exec 8 p (initial inp) (Done cfg) -> unread cfg = [] ->
  compile pr src = Ok c -> VMModel.run pr fuel (start c (easygen inp)) = Finished s ->
  (9 <= k <= 24)%Z -> (lenZ (instruction_matrix (mat s)) + 6 < 2 ^ k)%Z ->
  exists v pk fixed copies,
    keygen_vk commit pr k (mat s) = EOk v /\ keygen_pk pr k v (mat s) = EOk pk /\
    key_for v k fixed copies (fun i => nth i (pk_fixed_polys pk) []) (fun i => nth i (pk_sigma_polys pk) []) /\
    length (public_inputs c inp) = num_instance (vk_cs v) /\
    forall chs, length chs = num_challenges (vk_cs v) ->
    exists adv, bf_witness (Z.to_nat (2 ^ k)) (mat s) (public_inputs c inp) (fun i => nth i chs f0) = EOk adv /\
    forall advice, (forall i r, i < num_advice (vk_cs v) -> r < Z.to_nat (2 ^ k) ->
        peval (advice i) (fpow (d_omega (vk_domain v)) (Z.of_nat r)) = adv i r) ->
      satisfied (vk_cs v) copies (assigned (Z.to_nat (2 ^ k)) (d_omega (vk_domain v)) fixed advice (public_inputs c inp) chs).
Proof.
  intros Hp Hwd Hin He Hu Hc Hr Hk Hl. set (n := Z.to_nat (2 ^ k)) in *.
  assert (P9 : (2 ^ 9 <= 2 ^ k <= 2 ^ 24)%Z) by (split; apply Z.pow_le_mono_r; lia).
  change (2 ^ 9)%Z with 512%Z in P9. change (2 ^ 24)%Z with 16777216%Z in P9.
  assert (Hn : Z.of_nat n = (2 ^ k)%Z) by (unfold n; lia).
  assert (N1 : (262 < n)%nat) by (apply Nat2Z.inj_lt; lia).
  assert (N2 : (length (instruction_matrix (mat s)) + 6 < n)%nat) by (unfold lenZ in Hl; apply Nat2Z.inj_lt; lia).
  assert (N3 : (Z.of_nat n < 2 ^ 64)%Z) by (change (2 ^ 64)%Z with 18446744073709551616%Z; lia).
  pose proof (fun ch => C12_lemma pr src p inp cfg c fuel s n ch Hp Hwd Hin He Hu Hc Hr N1 N2 N3) as C12.
  destruct (C12 (fun _ => f0)) as (cc & sc & asm0 & _ & EK0 & _).
  destruct (keygen_vk_total commit pr k (mat s) cc sc asm0 ltac:(lia) EK0) as [v Ev].
  destruct (project_pk commit pr k (mat s) v Ev ltac:(lia)) as (pk & asm & c' & polys & asgs & sigma & E & EK & Ec & Ecs & X).
  cbv zeta in X. destruct X as (E1 & E2 & L1 & L2 & L3 & L4 & KF & PK & DF & GZ).
  assert (KP : key_for v k (fixed_of asm polys) (rev (asm_copies asm)) (fun i => nth i (pk_fixed_polys pk) []) (fun i => nth i (pk_sigma_polys pk) [])).
  { apply KF; (apply (columns_interpolate v n); [assumption|]); apply PK. }
  destruct (key_facts commit pr k (mat s) v Ev ltac:(lia)) as (F1 & F2 & F3).
  exists v, pk, (fixed_of asm polys), (rev (asm_copies asm)). split; [exact Ev|]. split; [exact E|]. split; [exact KP|].
  split; [rewrite F2; apply two_instances|].
  intros chs Hch. destruct (C12 (fun i => nth i chs f0)) as (cc2 & sc2 & asm2 & adv & EK2 & EW & SAT).
  fold n in EK. rewrite EK in EK2. apply eok_inj in EK2.
  pose proof (f_equal snd EK2) as EA. pose proof (f_equal (fun t => snd (fst t)) EK2) as ES. cbn [fst snd] in EA, ES. subst asm2 sc2. clear EK2.
  exists adv. split; [exact EW|]. intros advice HA.
  pose (advice' := fun i => coeffs n (d_omega_inv (vk_domain v)) (d_barycentric_weight (vk_domain v)) (adv i)).
  assert (AE : forall i r, (r < n)%nat -> peval (advice' i) (fpow (d_omega (vk_domain v)) (Z.of_nat r)) = adv i r).
  { intros i r Hr2. unfold advice'. rewrite coeffs_eval.
    exact (interp_at n _ _ (Hw _ 11 k n Hn DF) (Hwi _ 11 k DF) _ (Hni _ 11 k n Hn DF) (adv i) r Hr2). }
  assert (S1 : satisfied bcs (asm_copies asm) (assign_with n asm (fun i r => peval (advice' i) (fpow (d_omega (vk_domain v)) (Z.of_nat r))) (public_inputs c inp) (fun i => nth i chs f0))).
  { eapply satisfied_ext; [..|exact SAT]; try reflexivity.
    + cbn [as_n assign_with]. lia.
    + intros i r Hr2. cbn [assign_with as_advice as_n] in *. symmetry. apply AE, Hr2.
    + intros x y I. cbn [as_n assign_with]. pose proof (keygen_copies_usable _ _ _ _ _ EK eq_refl x y I) as U. unfold usable_rows in U. lia. }
  apply (project_sat _ _ _ _ _ _ _ EK Ec) in S1.
  destruct (keygen_complete commit pr k (mat s) v Ev ltac:(lia)) as (CK & _ & _).
  apply (satisfied_agree (vk_cs v) (assigned n (d_omega (vk_domain v)) (fixed_of asm polys) advice' (public_inputs c inp) chs)).
  - exact (ck_cs _ CK).
  - exact (ck_advice _ CK).
  - cbn [assigned as_n]. lia.
  - constructor; try reflexivity. intros i r Hi Hr2. cbn [assigned as_n as_advice] in *. rewrite HA by assumption. apply AE, Hr2.
  - exact (key_on_table _ _ _ _ _ _ KP).
  - rewrite Ecs. exact S1.
Qed.
