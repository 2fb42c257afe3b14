(** What the protocol means for the project: honest runs convince the verifier,
    so do false statements, and public columns that are too long come round
    again. *)
From Coq Require Import ZArith List Arith Lia Bool.
From Verif Require Import Base ListFacts Moduli Field FieldFacts LimbSpec LimbField RootFacts PolyFacts BFSpec TraceSpec VMModel CompileSpec CircuitSpec CircuitModel Halo2Model
  CircuitFacts KeygenFacts WitnessFacts SelectorModel PermModel PermSpec SelectorSpec SelectorClaims DomainModel DomainSpec DomainFacts SerdeModel VkModel VkFacts SoundSpec
  VMInv VMTrace Completeness Attack IopModel IopPoly IopRows IopSpec IopLagrange IopAccept IopCoeff IopKey ProverModel ProverSpec IopFull IopProject.
Import List ListNotations.

(** ** Folding *)
Lemma folded_is n l r : folded n l r = wrapped n l r.
Proof. unfold folded, wrapped. induction (map _ _) as [|a x IH]; [reflexivity|]. cbn [fold_right fsum]. rewrite IH. reflexivity. Qed.
Section Fold.
Variables (v : vkey) (k : Z) (fixed : nat -> nat -> Fr) (copies : list (acell * acell)) (F S : nat -> list Fr).
Hypothesis HK : key_for v k fixed copies F S.
Variables (insts insts' : list (list Fr)).
Hypothesis HL : length insts = length insts'.
Hypothesis HF : forall i r, (r < Z.to_nat (2 ^ k))%nat ->
  folded (Z.to_nat (2 ^ k)) (nth i insts []) r = folded (Z.to_nat (2 ^ k)) (nth i insts' []) r.
Lemma folded_accepts chs theta beta gamma y x P :
  accepts v (2 ^ k) insts chs theta beta gamma y x P -> accepts v (2 ^ k) insts' chs theta beta gamma y x P.
Proof.
  intros (sc & e & rest & ops & HR & HV & HO). exists sc, e, rest, ops. split; [exact HR|]. split; [|exact HO].
  rewrite <- HV. unfold verify_openings in *. rewrite <- HL. destruct (negb _) eqn:EI; [reflexivity|].
  apply negb_false_iff, Nat.eqb_eq in EI.
  pose proof (kf_k _ _ _ _ _ _ HK) as Hk. destruct (kf_domain _ _ _ _ _ _ HK) as (j & Hd & _).
  assert (Hn : Z.of_nat (Z.to_nat (2 ^ k)) = (2 ^ k)%Z) by (apply Z2Nat.id, Z.pow_nonneg; lia).
  assert (N : fpow x (2 ^ k)%Z <> f1).
  { match type of HV with match ?r with _ => _ end = _ => destruct r as [l|] eqn:ER; [|discriminate HV] end.
    apply bind_inv in ER. destruct ER as (inst & EIn & ER).
    apply bind_inv in ER. destruct ER as ([[l_0 l_last] l_blind] & EL & ER).
    apply bind_inv in ER. destruct ER as (es & EE & ER).
    apply bind_inv in ER. destruct ER as (h & EH & ER).
    rewrite pow_vartime_is in EH by (apply Z.pow_nonneg; lia). apply (expected_inv _ _ _ _ EH). }
  assert (E : instance_evals v (2 ^ k) insts' x = instance_evals v (2 ^ k) insts x).
  { assert (Q : forall q, In q (instance_queries (vk_cs v)) -> (fst q < length insts)%nat).
    { intros q I. rewrite EI. apply (wf_instance _ (kf_cs _ _ _ _ _ _ HK)), I. }
    rewrite (instance_evals_are _ j k _ ltac:(lia) Hn Hd v eq_refl insts x N Q).
    rewrite (instance_evals_are _ j k _ ltac:(lia) Hn Hd v eq_refl insts' x N) by (intros q I; rewrite <- HL; apply Q, I).
    f_equal. apply map_ext. intros q. set (p := rotate_omega _ _ _).
    rewrite (interp_unique _ _ _ (Hw _ j k _ Hn Hd) (Hwi _ j k Hd) _ (Hni _ j k _ Hn Hd)
      (fun r => wrapped (Z.to_nat (2 ^ k)) (nth (fst q) insts []) r) _ (ipoly_poly _ _ _)) by
      (intros r Hr; rewrite (ipoly_at _ j k _ ltac:(lia) Hn Hd) by exact Hr; rewrite <- !folded_is; symmetry; apply HF, Hr).
    symmetry. apply (interp_unique _ _ _ (Hw _ j k _ Hn Hd) (Hwi _ j k Hd) _ (Hni _ j k _ Hn Hd) _ _ (ipoly_poly _ _ _)).
    intros r Hr. apply (ipoly_at _ j k _ ltac:(lia) Hn Hd). exact Hr. }
  rewrite E. reflexivity.
Qed.
End Fold.
Theorem folded_same v k fixed copies F S insts insts' chs theta beta gamma y x P : key_for v k fixed copies F S ->
  length insts = length insts' ->
  (forall i r, (r < Z.to_nat (2 ^ k))%nat -> folded (Z.to_nat (2 ^ k)) (nth i insts []) r = folded (Z.to_nat (2 ^ k)) (nth i insts' []) r) ->
  accepts v (2 ^ k) insts chs theta beta gamma y x P <-> accepts v (2 ^ k) insts' chs theta beta gamma y x P.
Proof.
  intros HK HL HF. split.
  - apply (folded_accepts v k fixed copies F S HK); assumption.
  - apply (folded_accepts v k fixed copies F S HK); [symmetry; exact HL|]. intros; symmetry; apply HF; assumption.
Qed.

Lemma seq_shift_n n : forall m a, map (fun i => (n + i)%nat) (seq a m) = seq (n + a) m.
Proof. induction m as [|m IH]; intros a; [reflexivity|]. cbn [seq map]. rewrite IH. f_equal. f_equal. lia. Qed.
Lemma folded_shift n l r : (0 < n)%nat -> folded n (repeat f0 n ++ l) r = folded n l r.
Proof.
  intros Hn. rewrite !folded_is. unfold wrapped. rewrite app_length, repeat_length, seq_app, map_app, fsum_app.
  rewrite fsum_zero.
  2:{ intros i I. apply in_seq in I. rewrite app_nth1 by (rewrite repeat_length; lia). rewrite nth_repeat. destruct (_ =? _)%nat; reflexivity. }
  rewrite Nat.add_0_l, <- (Nat.add_0_r n), <- (seq_shift_n n (length l) 0), Nat.add_0_r, map_map.
  transitivity (fsum (map (fun i => if (i mod n =? r)%nat then nth i l f0 else f0) (seq 0 (length l)))); [|reflexivity].
  match goal with |- (_ + ?a = ?b)%F => replace a with b; [fring|] end.
  f_equal. apply map_ext. intros i. replace (n + i)%nat with (i + 1 * n)%nat by lia. rewrite Nat.mod_add by lia.
  rewrite app_nth2 by (rewrite repeat_length; lia). rewrite repeat_length. replace (i + 1 * n - n)%nat with i by lia. reflexivity.
Qed.

(** ** Keys *)
Section Key.
Variables (commit : list Fr -> g1) (pr : profile) (k : Z) (m : matrix) (v : vkey).
Hypothesis Ev : keygen_vk commit pr k m = EOk v.
Hypothesis Hk : (0 <= k < 63)%Z.
Lemma key_facts : num_challenges (vk_cs v) = num_challenges bcs /\ num_instance (vk_cs v) = num_instance bcs /\
  usable_rows (Z.to_nat (2 ^ k)) (vk_cs v) = usable_rows (Z.to_nat (2 ^ k)) bcs.
Proof.
  destruct (project_key commit pr k m v Ev Hk) as (asm & c' & polys & asgs & sigma & EK & Ec & E & _). rewrite E.
  destruct (SelectorMain.project_compressed _ _ _ _ _ EK) as (c2 & polys2 & asgs2 & Ec2 & CP & _ & _).
  rewrite Ec in Ec2. apply ok_inj in Ec2. injection Ec2 as <- <- <-.
  destruct (cp_rest _ _ _ _ _ _ CP) as [R UR]. split; [|split; [|exact UR]].
  - exact (f_equal (fun t => snd (fst (fst (fst t)))) R).
  - exact (f_equal (fun t => snd (fst (fst (fst (fst t))))) R).
Qed.
Lemma key_small : (Z.of_nat (need_y v + lookup_width (vk_cs v)) < 2 ^ 60)%Z.
Proof.
  destruct (project_key commit pr k m v Ev Hk) as (asm & c' & polys & asgs & sigma & EK & Ec & E & _).
  apply (small_key _ _ _ _ _ _ _ EK Ec v E). rewrite <- E.
  apply keygen_vk_parts in Ev as (d & a & c2 & polys2 & asgs2 & p & sigma2 & _ & _ & _ & _ & _ & ->). reflexivity.
Qed.
Lemma key_challenges : num_challenges (vk_cs v) = num_challenges bcs.
Proof. apply key_facts. Qed.
Lemma key_usable : usable_rows (Z.to_nat (2 ^ k)) (vk_cs v) = usable_rows (Z.to_nat (2 ^ k)) bcs.
Proof. apply key_facts. Qed.
End Key.
Lemma two_instances c inp : length (public_inputs c inp) = num_instance bcs.
Proof. vm_compute. reflexivity. Qed.
Lemma witness_short n m insts ch adv : bf_witness n m insts ch = EOk adv -> forall l, In l insts -> (length l <= n)%nat.
Proof.
  intros H l I. rewrite bf_witness_eq in H.
  destruct (existsb _ insts) eqn:E; [discriminate H|].
  destruct (Nat.le_gt_cases (length l) (usable_rows n bcs)) as [L|L]; [unfold usable_rows in L; lia|].
  exfalso. assert (X : existsb (fun l => (usable_rows n bcs <? length l)%nat) insts = true).
  { apply existsb_exists. exists l. split; [exact I|apply Nat.ltb_lt, L]. }
  rewrite E in X. discriminate X.
Qed.

(** ** Honest runs *)
Theorem honest_run commit pr src p inp cfg c fuel s k :
  parses src p -> (1 <= program_words p <= 65535)%Z -> in_range 8 inp ->
  exec 8 p (initial inp) (Done cfg) -> unread cfg = [] ->
  compile pr src = Ok c -> VMModel.run pr fuel (start c (easygen inp)) = Finished s ->
  (9 <= k <= 24)%Z -> (lenZ (instruction_matrix (mat s)) + 6 < 2 ^ k)%Z ->
  exists v cols sigma,
    keygen_vk commit pr k (mat s) = EOk v /\
    vk_fixed v = map commit cols /\ vk_permutation v = map commit sigma /\
    (forall col, In col cols \/ In col sigma -> length col = Z.to_nat (2 ^ k)) /\
    (forall F S, interpolates (d_omega (vk_domain v)) cols F -> interpolates (d_omega (vk_domain v)) sigma S ->
      exists fixed copies, key_for v k fixed copies F S) /\
    forall F S chs,
      interpolates (d_omega (vk_domain v)) cols F -> interpolates (d_omega (vk_domain v)) sigma S ->
      (forall i, length (F i) <= Z.to_nat (2 ^ k) /\ length (S i) <= Z.to_nat (2 ^ k)) ->
      length chs = num_challenges (vk_cs v) ->
      exists adv advice,
        bf_witness (Z.to_nat (2 ^ k)) (mat s) (public_inputs c inp) (fun i => nth i chs f0) = EOk adv /\
        (forall i, length (advice i) <= Z.to_nat (2 ^ k)) /\
        (forall i r, r < Z.to_nat (2 ^ k) -> peval (advice i) (fpow (d_omega (vk_domain v)) (Z.of_nat r)) = adv i r) /\
        convincing v k (public_inputs c inp) chs F S advice.
Proof.
  intros Hp Hwd Hin He Hu Hc Hr Hk Hl. set (n := Z.to_nat (2 ^ k)) in *.
  assert (P9 : (2 ^ 9 <= 2 ^ k <= 2 ^ 24)%Z) by (split; apply Z.pow_le_mono_r; lia).
  change (2 ^ 9)%Z with 512%Z in P9. change (2 ^ 24)%Z with 16777216%Z in P9.
  assert (Hn : Z.of_nat n = (2 ^ k)%Z) by (unfold n; lia).
  assert (N1 : (262 < n)%nat) by (apply Nat2Z.inj_lt; lia).
  assert (N2 : (length (instruction_matrix (mat s)) + 6 < n)%nat) by (unfold lenZ in Hl; apply Nat2Z.inj_lt; lia).
  assert (N3 : (Z.of_nat n < 2 ^ 64)%Z) by (change (2 ^ 64)%Z with 18446744073709551616%Z; lia).
  pose proof (fun ch => C12_lemma pr src p inp cfg c fuel s n ch Hp Hwd Hin He Hu Hc Hr N1 N2 N3) as C12.
  destruct (C12 (fun _ => f0)) as (cc & sc & asm0 & _ & EK0 & _).
  destruct (keygen_vk_total commit pr k (mat s) cc sc asm0 ltac:(lia) EK0) as [v Ev].
  destruct (project_iff commit pr k (mat s) v Ev ltac:(lia)) as (asm & cols & sigma & EK & E1 & E2 & L & HKF & HI).
  exists v, cols, sigma. split; [exact Ev|]. split; [exact E1|]. split; [exact E2|]. split; [exact L|]. split; [exact HKF|].
  intros F S chs HF HS HB Hch. destruct (key_domain commit pr k _ v Ev ltac:(lia)) as [Hd _].
  destruct (C12 (fun i => nth i chs f0)) as (cc2 & sc2 & asm2 & adv & EK2 & EW & SAT).
  fold n in EK. rewrite EK in EK2. apply eok_inj in EK2.
  pose proof (f_equal snd EK2) as EA. pose proof (f_equal (fun t => snd (fst t)) EK2) as ES. cbn [fst snd] in EA, ES. subst asm2 sc2. clear EK2.
  pose (advice := fun i => coeffs n (d_omega_inv (vk_domain v)) (d_barycentric_weight (vk_domain v)) (adv i)).
  assert (AE : forall i r, (r < n)%nat -> peval (advice i) (fpow (d_omega (vk_domain v)) (Z.of_nat r)) = adv i r).
  { intros i r Hr2. unfold advice. rewrite coeffs_eval.
    exact (interp_at n _ _ (Hw _ 11 k n Hn Hd) (Hwi _ 11 k Hd) _ (Hni _ 11 k n Hn Hd) (adv i) r Hr2). }
  assert (LA : forall i, (length (advice i) <= n)%nat) by (intros i; unfold advice; rewrite coeffs_length; lia).
  exists adv, advice. split; [exact EW|]. split; [exact LA|]. split; [exact AE|].
  apply (HI F S (public_inputs c inp) chs advice HF HS).
  - intros i. destruct (HB i). auto.
  - etransitivity; [exact Hch|]. exact (key_challenges commit pr k (mat s) v Ev ltac:(lia)).
  - intros l I. rewrite <- Hn. apply Nat2Z.inj_le. exact (witness_short _ _ _ _ _ EW l I).
  - split; [|exact (two_instances c inp)].
    eapply satisfied_ext; [..|exact SAT]; try reflexivity.
    + cbn [as_n assign_with]. lia.
    + intros i r Hr2. cbn [assign_with as_advice as_n] in *. symmetry. apply AE, Hr2.
    + intros x y I. cbn [as_n assign_with]. pose proof (keygen_copies_usable _ _ _ _ _ EK eq_refl x y I) as U. unfold usable_rows in U. lia.
Qed.

(** polynomials through the columns of a key *)
Lemma interpolated commit pr k m v cols : keygen_vk commit pr k m = EOk v -> (0 <= k < 63)%Z ->
  (forall col, In col cols -> length col = Z.to_nat (2 ^ k)) ->
  exists F, interpolates (d_omega (vk_domain v)) cols F /\ forall i, length (F i) <= Z.to_nat (2 ^ k).
Proof.
  intros Ev Hk HL. destruct (key_domain commit pr k m v Ev Hk) as [Hd _]. set (n := Z.to_nat (2 ^ k)) in *.
  assert (P2 : (0 < 2 ^ k)%Z) by (apply Z.pow_pos_nonneg; lia).
  assert (Hn : Z.of_nat n = (2 ^ k)%Z) by (unfold n; lia).
  exists (fun i => coeffs n (d_omega_inv (vk_domain v)) (d_barycentric_weight (vk_domain v)) (fun r => nth r (nth i cols []) f0)). split.
  - intros i col r x E1 E2. rewrite coeffs_eval.
    assert (Hr : (r < n)%nat) by (rewrite <- (HL col (nth_error_In _ _ E1)); apply nth_error_Some; congruence).
    rewrite (nth_error_nth _ _ _ E1). etransitivity; [|exact (nth_error_nth _ _ f0 E2)].
    exact (interp_at n _ _ (Hw _ 11 k n Hn Hd) (Hwi _ 11 k Hd) _ (Hni _ 11 k n Hn Hd) (fun r => nth r col f0) r Hr).
  - intros i. rewrite coeffs_length. lia.
Qed.
(** ",+." on "a", 512 rows *)
Lemma small_generated : exists m v fixed copies F S insts chs advice,
  keygen_vk (fun _ => g1_identity) Wrapping 9 m = EOk v /\
  insts = public_inputs (map FrZ [44; 43; 46]%Z) [97%Z] /\
  key_for v 9 fixed copies F S /\ length chs = num_challenges (vk_cs v) /\
  (forall i, length (F i) <= 512 /\ length (S i) <= 512 /\ length (advice i) <= 512) /\
  (forall l, In l insts -> (Z.of_nat (length l) <= 2 ^ 9)%Z) /\
  (Z.of_nat (need_y v + lookup_width (vk_cs v)) < 2 ^ 60)%Z /\
  convincing v 9 insts chs F S advice.
Proof.
  assert (G : exists s, VMModel.run Wrapping 10 (start (map FrZ [44; 43; 46]%Z) (easygen [97%Z])) = Finished s /\
     (length (instruction_matrix (mat s)), length (output_matrix (mat s))) = (7, 1)%nat)
    by (apply fin_ex; vm_compute; reflexivity).
  destruct G as (s & Er & El). pose proof (f_equal fst El) as El1. cbn [fst] in El1.
  assert (Hp : parses [44; 43; 46]%Z [BFSpec.In; Inc; Out]) by apply P_in, P_inc, P_out, P_nil.
  assert (Hwd : (1 <= program_words [BFSpec.In; Inc; Out] <= 65535)%Z) by (split; discriminate).
  assert (Hin : in_range 8 [97%Z]) by (repeat constructor; discriminate).
  assert (He : exists cfg, exec 8 [BFSpec.In; Inc; Out] (initial [97%Z]) (Done cfg) /\ unread cfg = []).
  { eexists. split; [eapply E_in; [reflexivity|]; apply E_inc, E_out, E_nil|reflexivity]. }
  destruct He as (cfg & He & Hu).
  assert (Hc : compile Wrapping [44; 43; 46]%Z = Ok (map FrZ [44; 43; 46]%Z)) by reflexivity.
  destruct (honest_run (fun _ => g1_identity) Wrapping _ _ _ _ _ _ _ 9 Hp Hwd Hin He Hu Hc Er) as (v & cols & sigma & Ev & E1 & E2 & L & HKF & HI).
  { lia. }
  { unfold lenZ. rewrite El1. reflexivity. }
  destruct (interpolated _ _ _ _ _ cols Ev) as (F & HF & LF); [lia|intros; apply L; auto|].
  destruct (interpolated _ _ _ _ _ sigma Ev) as (S & HS & LS); [lia|intros; apply L; auto|].
  destruct (HKF F S HF HS) as (fixed & copies & HK).
  destruct (HI F S (repeat f0 (num_challenges (vk_cs v))) HF HS) as (adv & advice & EW & LA & _ & CV); [intros i; split; [apply LF|apply LS]|apply repeat_length|].
  exists (mat s), v, fixed, copies, F, S, (public_inputs (map FrZ [44; 43; 46]%Z) [97%Z]), (repeat f0 (num_challenges (vk_cs v))), advice.
  split; [exact Ev|]. split; [reflexivity|]. split; [exact HK|]. split; [apply repeat_length|].
  split; [intros i; split; [apply LF|split; [apply LS|apply LA]]|]. split; [|split; [apply (key_small _ _ _ _ _ Ev); lia|exact CV]].
  intros l [<-|[<-|[]]]; cbn [length map]; lia.
Qed.
Lemma small_proof : exists v fixed copies F S insts chs advice,
  insts = public_inputs (map FrZ [44; 43; 46]%Z) [97%Z] /\
  key_for v 9 fixed copies F S /\ length chs = num_challenges (vk_cs v) /\
  (forall i, length (F i) <= 512 /\ length (S i) <= 512 /\ length (advice i) <= 512) /\
  (forall l, In l insts -> (Z.of_nat (length l) <= 2 ^ 9)%Z) /\
  (Z.of_nat (need_y v + lookup_width (vk_cs v)) < 2 ^ 60)%Z /\
  convincing v 9 insts chs F S advice.
Proof.
  destruct small_generated as (m & v & fixed & copies & F & S & insts & chs & advice & _ & H).
  exists v, fixed, copies, F, S, insts, chs, advice. exact H.
Qed.
(** its prover's columns *)
Lemma small_prover : exists v fixed copies F S insts chs advice theta beta gamma product lproduct linput ltable,
  let a := assigned 512 (d_omega (vk_domain v)) fixed advice insts chs in
  insts = public_inputs (map FrZ [44; 43; 46]%Z) [97%Z] /\
  key_for v 9 fixed copies F S /\ length chs = num_challenges (vk_cs v) /\ length insts = num_instance (vk_cs v) /\
  (forall l, In l insts -> (Z.of_nat (length l) <= 2 ^ 9)%Z) /\
  satisfied (vk_cs v) copies a /\
  permuted v 512 a theta linput ltable /\ products v 512 a S linput ltable theta beta gamma product lproduct /\
  lucky v 512 a S theta beta gamma /\
  bounded v 512 (Committed advice F S product lproduct linput ltable (repeat [] (Z.to_nat (d_quotient_poly_degree (vk_domain v)))) [f1]).
Proof.
  destruct small_proof as (v & fixed & copies & F & S & insts & chs & advice & EI & HK & Hc & HL & Hl & Sm & CV).
  destruct (iop_sound v 9 fixed copies F S insts chs advice HK Hc Hl CV) as [SAT NI].
  assert (HbF : forall i, length (F i) <= Z.to_nat (2 ^ 9)) by (intros i; apply (HL i)).
  assert (HbS : forall i, length (S i) <= Z.to_nat (2 ^ 9)) by (intros i; apply (HL i)).
  assert (Hba : forall i, length (advice i) <= Z.to_nat (2 ^ 9)) by (intros i; apply (HL i)).
  pose proof (mostly_lucky v 9 fixed copies F S HK insts chs advice Hc NI SAT HbF HbS Hba Sm) as ML.
  apply many_one in ML as (theta & linput & ltable & HP & ML); [|apply Nat.le_add_l].
  apply many_one in ML as (beta & ML); [|apply Nat.le_add_l].
  apply many_one in ML as (gamma & product & lproduct & HPr & HLk & HB); [|apply Nat.le_add_l].
  exists v, fixed, copies, F, S, insts, chs, advice, theta, beta, gamma, product, lproduct, linput, ltable. cbv zeta.
  repeat (split; [assumption|]). exact HB.
Qed.

(** ** False statements *)
Lemma convincing_same v k fixed copies F S insts insts' chs advice : key_for v k fixed copies F S ->
  length insts = length insts' ->
  (forall i r, (r < Z.to_nat (2 ^ k))%nat -> folded (Z.to_nat (2 ^ k)) (nth i insts []) r = folded (Z.to_nat (2 ^ k)) (nth i insts' []) r) ->
  convincing v k insts chs F S advice -> convincing v k insts' chs F S advice.
Proof.
  intros HK HL HF. unfold convincing. cbv zeta.
  apply many_mono; [lia|]. intros theta (linput & ltable & H). exists linput, ltable. revert H.
  apply many_mono; [lia|]. intros beta. apply many_mono; [lia|]. intros gamma (product & lproduct & random & H).
  exists product, lproduct, random. revert H. apply many_mono; [lia|]. intros y (quotient & B & H). exists quotient. split; [exact B|].
  revert H. apply many_mono; [lia|]. intros x. apply (folded_same v k fixed copies F S insts insts'); assumption.
Qed.
Definition moved (n : nat) (insts : list (list Fr)) : list (list Fr) := map (app (repeat f0 n)) insts.
Lemma moved_folded n insts i r : (0 < n)%nat -> folded n (nth i insts []) r = folded n (nth i (moved n insts) []) r.
Proof.
  intros Hn. unfold moved. revert i. induction insts as [|l insts IH]; intros [|i]; cbn [nth map]; try reflexivity.
  - symmetry. apply folded_shift, Hn.
  - apply IH.
Qed.
Theorem accepted_provable commit pr k m insts cc A0 : (0 <= k <= 24)%Z -> accepted (Z.to_nat (2 ^ k)) m insts cc A0 ->
  exists v, keygen_vk commit pr k m = EOk v /\ provable commit v k insts A0 /\
    forall insts', length insts = length insts' ->
      (forall i r, (r < Z.to_nat (2 ^ k))%nat -> folded (Z.to_nat (2 ^ k)) (nth i insts []) r = folded (Z.to_nat (2 ^ k)) (nth i insts' []) r) ->
      provable commit v k insts' A0.
Proof.
  intros Hk HA. pose proof HA as (s & asm & EK & NI & HL & _).
  destruct (keygen_vk_total commit pr k m cc s asm Hk EK) as [v Ev]. exists v. split; [exact Ev|].
  destruct (accepted_iff commit pr k m v Ev ltac:(lia)) as (cols & sigma & E1 & E2 & L & HKF & HI).
  assert (CC : forall F S, interpolates (d_omega (vk_domain v)) cols F -> interpolates (d_omega (vk_domain v)) sigma S ->
      (forall i, length (F i) <= Z.to_nat (2 ^ k) /\ length (S i) <= Z.to_nat (2 ^ k)) -> can_convince v k insts F S A0).
  { intros F S HF HS HB. pose proof EK as EK'. apply keygen_asm in EK' as (-> & -> & _).
    apply HI; try assumption. intros l I. rewrite (key_usable commit pr k m v Ev) by lia. apply HL, I. }
  split.
  - exists cols, sigma. split; [exact E1|]. split; [exact E2|]. split; [exact L|]. exact CC.
  - intros insts' LI HFo. exists cols, sigma. split; [exact E1|]. split; [exact E2|]. split; [exact L|].
    intros F S HF HS HB. destruct (HKF F S HF HS) as (fixed & copies & HK). specialize (CC F S HF HS HB).
    intros chs Hc. destruct (CC chs Hc) as (advice & LA & AG & CV). exists advice. split; [exact LA|]. split; [exact AG|].
    apply (convincing_same v k fixed copies F S insts); assumption.
Qed.

Theorem wrong_output_provable : exists src p inp cfg c fuel s,
  parses src p /\ (1 <= program_words p <= 65535)%Z /\ in_range 8 inp /\ exec 8 p (initial inp) (Done cfg) /\
  compile Wrapping src = Ok c /\ VMModel.run Wrapping fuel (start c (easygen inp)) = Finished s /\
  written cfg = [98%Z] /\
  forall commit, exists v A0, keygen_vk commit Wrapping 9 (mat s) = EOk v /\
    provable commit v 9 (public_inputs c inp) A0 /\
    output_shown conf A0 (length (output_matrix (mat s))) = map FrZ [99%Z].
Proof.
  destruct wrong_output_accepted as (src & p & inp & cfg & c & fuel & s & cc & A0 & H1 & H2 & H3 & H4 & H5 & H6 & HA & H7 & H8).
  exists src, p, inp, cfg, c, fuel, s. repeat (split; [assumption|]). intros commit.
  destruct (accepted_provable commit Wrapping 9 (mat s) (public_inputs c inp) cc A0) as (v & Ev & P & _); [lia|exact HA|].
  exists v, A0. split; [exact Ev|]. split; [exact P|].
  destruct HA as (sc & asm & EK & _). apply keygen_asm in EK as (<- & _ & _). exact H8.
Qed.
Theorem diverging_provable : exists src p c s,
  parses src p /\ (forall o, ~ exec 8 p (initial []) o) /\ compile Wrapping src = Ok c /\
  (exists src' c' fuel, compile Wrapping src' = Ok c' /\ VMModel.run Wrapping fuel (start c' (easygen [])) = Finished s /\ length c' = length c) /\
  forall commit, exists v A0, keygen_vk commit Wrapping 9 (mat s) = EOk v /\ provable commit v 9 (public_inputs c []) A0.
Proof.
  destruct diverging_accepted as (src & p & c & s & cc & A0 & H1 & H2 & H3 & H4 & HA).
  exists src, p, c, s. repeat (split; [assumption|]). intros commit.
  destruct (accepted_provable commit Wrapping 9 (mat s) (public_inputs c []) cc A0) as (v & Ev & P & _); [lia|exact HA|].
  exists v, A0. split; assumption.
Qed.
(** a statement with 1024 and more words in place of the program *)
Theorem moved_provable : exists src p inp cfg c fuel s,
  parses src p /\ (1 <= program_words p <= 65535)%Z /\ in_range 8 inp /\ exec 8 p (initial inp) (Done cfg) /\
  compile Wrapping src = Ok c /\ VMModel.run Wrapping fuel (start c (easygen inp)) = Finished s /\
  forall commit, exists v A0, keygen_vk commit Wrapping 9 (mat s) = EOk v /\
    provable commit v 9 (public_inputs c inp) A0 /\
    provable commit v 9 (map (app (repeat f0 512)) (public_inputs c inp)) A0.
Proof.
  destruct wrong_output_accepted as (src & p & inp & cfg & c & fuel & s & cc & A0 & H1 & H2 & H3 & H4 & H5 & H6 & HA & H7 & H8).
  exists src, p, inp, cfg, c, fuel, s. repeat (split; [assumption|]). intros commit.
  destruct (accepted_provable commit Wrapping 9 (mat s) (public_inputs c inp) cc A0) as (v & Ev & P & PM); [lia|exact HA|].
  exists v, A0. split; [exact Ev|]. split; [exact P|]. apply PM.
  - rewrite map_length. reflexivity.
  - intros i r Hr. apply (moved_folded (Z.to_nat (2 ^ 9))). lia.
Qed.
