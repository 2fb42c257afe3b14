(** What the verifier reads of a proof and absorbs. *)
From Coq Require Import ZArith List Bool Arith Lia.
From Verif Require Import Base Moduli Field FieldFacts LimbModel LimbSpec Halo2Model SelectorModel SerdeModel SerdeSpec DomainModel VkModel PermModel IopModel
  ArithModel KzgModel ShplonkModel TranscriptModel TranscriptFacts EntryModel VerifierModel VerifierSpec.
Import ListNotations.
Local Open Scope nat_scope.

Lemma exactly_bind_post {A B} (Q : A -> Prop) (t : transcript A) (f : A -> transcript B) n m n' m' :
  exactly t n m -> (forall st b a st' rest, t st b = TOk a st' rest -> Q a) -> (forall a, Q a -> exactly (f a) n' m') ->
  exactly (tbind t f) (n + n') (m + m').
Proof.
  intros T HQ F.
  unfold tbind. split.
  - intros st b a st' rest Fb H. destruct (t st b) as [x st1 b1| |] eqn:E; try discriminate.
    destruct (ex_sizes _ _ _ T _ _ _ _ _ Fb E) as (s & c & -> & -> & L1 & L2). apply Forall_app in Fb as [_ Fb].
    destruct (ex_sizes _ _ _ (F x (HQ _ _ _ _ _ E)) _ _ _ _ _ Fb H) as (s' & c' & -> & -> & L3 & L4).
    exists (s ++ s'), (c ++ c'). rewrite !app_assoc, !app_length. auto.
  - intros st b1 b2 a1 a2 st' r1 r2 F1 F2 H1 H2.
    destruct (t st b1) as [x1 s1 q1| |] eqn:E1; try discriminate. destruct (t st b2) as [x2 s2 q2| |] eqn:E2; try discriminate.
    destruct (ex_sizes _ _ _ T _ _ _ _ _ F1 E1) as (u1 & c1 & -> & P1 & L1 & _).
    destruct (ex_sizes _ _ _ T _ _ _ _ _ F2 E2) as (u2 & c2 & -> & P2 & L2 & _).
    assert (G1 : Forall byte q1) by (rewrite P1 in F1; apply Forall_app in F1; tauto).
    assert (G2 : Forall byte q2) by (rewrite P2 in F2; apply Forall_app in F2; tauto).
    pose proof (HQ _ _ _ _ _ E1) as X1. pose proof (HQ _ _ _ _ _ E2) as X2.
    destruct (ex_sizes _ _ _ (F x1 X1) _ _ _ _ _ G1 H1) as (v1 & d1 & Q1 & _).
    destruct (ex_sizes _ _ _ (F x2 X2) _ _ _ _ _ G2 H2) as (v2 & d2 & Q2 & _).
    rewrite Q1, <- !app_assoc in Q2. apply app_inv_head in Q2. apply app_eq_len in Q2; [|congruence]. destruct Q2 as [-> ->].
    destruct (ex_binds _ _ _ T _ _ _ _ _ _ _ _ F1 F2 E1 E2) as (-> & c & -> & ->).
    destruct (ex_binds _ _ _ (F x2 X2) _ _ _ _ _ _ _ _ G1 G2 H1 H2) as (-> & d & -> & ->). split; [reflexivity|].
    exists (c ++ d). rewrite !app_assoc. auto.
Qed.

(** how many entries a turn of the loop over the phases fills *)
Lemma read_phase_length {A} (r : transcript A) ph : forall phs xs st b l st' rest,
  read_phase r ph phs xs st b = TOk l st' rest -> length l = length xs.
Proof.
  induction phs as [|p phs IH]; intros [|x xs] st b l st' rest; cbn [read_phase]; try (intros [= <- <- <-]; reflexivity).
  unfold tbind. destruct ((if Nat.eqb ph p then r else tret x) st b) as [y s1 b1| |]; try discriminate.
  destruct (read_phase r ph phs xs s1 b1) as [l' s2 b2| |] eqn:E; try discriminate. intros [= <- <- <-]. cbn [length]. f_equal. eapply IH, E.
Qed.
Lemma exactly_phase {A} (r : transcript A) n m ph : exactly r n m -> forall phs xs,
  exactly (read_phase r ph phs xs) (phase_count ph phs (length xs) * n) (phase_count ph phs (length xs) * m).
Proof.
  intros R. induction phs as [|p phs IH]; intros [|x xs]; cbn [read_phase]; try apply exactly_ret.
  change (firstn (length (x :: xs)) (p :: phs)) with (p :: firstn (length xs) phs).
  assert (C : phase_count ph (p :: phs) (length (x :: xs)) = (if Nat.eqb ph p then 1 else 0) + phase_count ph phs (length xs)).
  { unfold phase_count. cbn [length firstn count_occ]. destruct (Nat.eq_dec p ph) as [->|E]; [rewrite Nat.eqb_refl; reflexivity|].
    destruct (Nat.eqb_spec ph p); [congruence|reflexivity]. }
  rewrite C. destruct (Nat.eqb ph p).
  - eapply exactly_eq; [apply exactly_bind; [exact R|intros y; apply exactly_bind; [apply IH|intros l; apply exactly_ret]]|lia|lia].
  - eapply exactly_eq; [apply exactly_bind; [apply exactly_ret|intros y; apply exactly_bind; [apply IH|intros l; apply exactly_ret]]|lia|lia].
Qed.
Lemma local_phase {A} (r : transcript A) ph : local r -> forall phs xs, local (read_phase r ph phs xs).
Proof.
  intros R. induction phs as [|p phs IH]; intros [|x xs]; cbn [read_phase]; try apply local_ret.
  apply local_bind; [destruct (Nat.eqb ph p); [exact R|apply local_ret]|]. intros y. apply local_bind; [apply IH|]. intros l. apply local_ret.
Qed.
Lemma exactly_phases hash c : forall phs advice chs,
  exactly (read_phases hash c phs advice chs)
    (phases_count phs (advice_phases c) (length advice) * 65 + phases_count phs (challenge_phases c) (length chs))
    (phases_count phs (advice_phases c) (length advice) * 32).
Proof.
  induction phs as [|ph phs IH]; intros advice chs; cbn [read_phases]; [apply exactly_ret|].
  eapply exactly_eq.
  - eapply (exactly_bind_post (fun l => length l = length advice)); [apply exactly_phase, exactly_point|intros; eapply read_phase_length; eassumption|].
    intros advice' E1. eapply (exactly_bind_post (fun l => length l = length chs)); [apply exactly_phase, exactly_squeeze|intros; eapply read_phase_length; eassumption|].
    intros chs' E2. pose proof (IH advice' chs') as H. rewrite E1, E2 in H. exact H.
  - unfold phases_count, list_sum. cbn [map fold_right]. lia.
  - unfold phases_count, list_sum. cbn [map fold_right]. lia.
Qed.
Lemma local_phases hash c : forall phs advice chs, local (read_phases hash c phs advice chs).
Proof.
  induction phs as [|ph phs IH]; intros advice chs; cbn [read_phases]; [apply local_ret|].
  apply local_bind; [apply local_phase, local_point|]. intros a. apply local_bind; [apply local_phase, local_squeeze|]. intros b. apply IH.
Qed.
Lemma exactly_absorb l : exactly (absorb_scalars l) (33 * length l) 0.
Proof.
  induction l as [|s l IH]; cbn [absorb_scalars length]; [apply exactly_ret|].
  eapply exactly_eq; [apply exactly_bind; [apply exactly_common|intros _; exact IH]|lia|lia].
Qed.
Lemma local_absorb l : local (absorb_scalars l).
Proof. induction l as [|s l IH]; cbn [absorb_scalars]; [apply local_ret|]. apply local_bind; [apply local_common|auto]. Qed.

(** the points and challenges of a proof *)
Definition challenge_reads (v : vkey) : nat := phases_count (phases (vk_cs v)) (challenge_phases (vk_cs v)) (num_challenges (vk_cs v)).

Section Verifier.
Variable hash : list Z -> list Z.
Variable transcript_repr : vkey -> Fr.
Context {G : Type}.
Variables (zero : G) (add : G -> G -> G) (of_affine : g1 -> G) (is_zero : G -> bool).
Variable pairing_product : list (G * g2) -> bool.
Notation read_messages := (read_messages hash transcript_repr).
Notation read_claims := (read_claims hash transcript_repr of_affine).
Notation read_opening := (read_opening hash transcript_repr of_affine).
Notation verify_transcript := (verify_transcript hash transcript_repr zero add of_affine is_zero pairing_product).
Notation verify_proof := (verify_proof hash transcript_repr zero add of_affine is_zero pairing_product).

Ltac step := apply exactly_bind.
Lemma exactly_messages v insts : exactly (read_messages v insts)
  (33 * (1 + length (concat insts)) + 65 * points_count v + challenge_reads v + 5) (32 * points_count v).
Proof.
  unfold VerifierModel.read_messages. eapply exactly_eq.
  - step; [apply exactly_common|intros _]. step; [apply exactly_absorb|intros _]. step; [apply exactly_phases|intros [advice chs]].
    step; [apply exactly_squeeze|intros theta].
    step; [apply exactly_repeat; step; [apply exactly_point|intros a; step; [apply exactly_point|intros b; apply exactly_ret]]|intros lks].
    step; [apply exactly_squeeze|intros beta]. step; [apply exactly_squeeze|intros gamma].
    step; [destruct (chunk_len v =? 0); [apply exactly_lift|apply exactly_ret]|intros _].
    step; [apply exactly_repeat, exactly_point|intros products]. step; [apply exactly_repeat, exactly_point|intros lproducts].
    step; [apply exactly_point|intros random]. step; [apply exactly_squeeze|intros y].
    step; [apply exactly_repeat, exactly_point|intros h]. step; [apply exactly_squeeze|intros x]. apply exactly_ret.
  - rewrite !repeat_length. unfold points_count. fold (advice_reads v) (challenge_reads v). lia.
  - rewrite !repeat_length. unfold points_count. fold (advice_reads v) (challenge_reads v). lia.
Qed.
Lemma exactly_claims p v insts : exactly (read_claims p v insts)
  (33 * (1 + length (concat insts)) + 65 * points_count v + challenge_reads v + 5 + 33 * scalars_count v) (32 * (points_count v + scalars_count v)).
Proof.
  unfold VerifierModel.read_claims. eapply exactly_eq.
  - step; [apply exactly_messages|intros m]. step; [apply exactly_lift|intros _]. step; [apply exactly_repeat, exactly_scalar|intros scalars].
    instantiate (1 := 0). instantiate (1 := 0). destruct (read_evals v scalars) as [[e rest]|]; [|apply exactly_fail].
    destruct (verify_openings _ _ _ _ _ _ _ _ _ _) as [| |ops]; [apply exactly_fail|apply exactly_panic|].
    eapply exactly_eq; [step; [apply exactly_lift|intros _; apply exactly_ret]|reflexivity|reflexivity].
  - lia.
  - lia.
Qed.
Lemma exactly_opening p v insts : exactly (read_opening p v insts)
  (33 * (1 + length (concat insts)) + 65 * (points_count v + 1) + challenge_reads v + 8 + 33 * scalars_count v) (32 * (points_count v + scalars_count v + 1)).
Proof.
  unfold VerifierModel.read_opening. eapply exactly_eq.
  - step; [apply exactly_claims|intros mo]. step; [apply exactly_squeeze|intros y]. step; [apply exactly_squeeze|intros vv].
    step; [apply exactly_point|intros h1]. step; [apply exactly_squeeze|intros u]. apply exactly_ret.
  - lia.
  - lia.
Qed.
Lemma exactly_verify p v insts : exactly (verify_transcript p v insts)
  (33 * (1 + length (concat insts)) + 65 * (points_count v + 2) + challenge_reads v + 8 + 33 * scalars_count v) (32 * (points_count v + 2 + scalars_count v)).
Proof.
  unfold VerifierModel.verify_transcript. eapply exactly_eq.
  - step; [apply exactly_opening|intros [[m ops] [[[y vv] h1] u]]]. step; [apply exactly_point|intros h2]. apply exactly_lift.
  - lia.
  - lia.
Qed.
Ltac lstep := apply local_bind.
Lemma local_messages v insts : local (read_messages v insts).
Proof.
  unfold VerifierModel.read_messages. lstep; [apply local_common|intros _]. lstep; [apply local_absorb|intros _]. lstep; [apply local_phases|intros [advice chs]].
  lstep; [apply local_squeeze|intros theta].
  lstep; [apply local_repeat; lstep; [apply local_point|intros a; lstep; [apply local_point|intros b; apply local_ret]]|intros lks].
  lstep; [apply local_squeeze|intros beta]. lstep; [apply local_squeeze|intros gamma].
  lstep; [destruct (chunk_len v =? 0); [apply local_lift|apply local_ret]|intros _].
  lstep; [apply local_repeat, local_point|intros products]. lstep; [apply local_repeat, local_point|intros lproducts].
  lstep; [apply local_point|intros random]. lstep; [apply local_squeeze|intros y].
  lstep; [apply local_repeat, local_point|intros h]. lstep; [apply local_squeeze|intros x]. apply local_ret.
Qed.
Lemma local_claims p v insts : local (read_claims p v insts).
Proof.
  unfold VerifierModel.read_claims. lstep; [apply local_messages|intros m]. lstep; [apply local_lift|intros _]. lstep; [apply local_repeat, local_scalar|intros scalars].
  destruct (read_evals v scalars) as [[e rest]|]; [|apply local_fail].
  destruct (verify_openings _ _ _ _ _ _ _ _ _ _) as [| |ops]; [apply local_fail|apply local_panic|].
  lstep; [apply local_lift|intros _; apply local_ret].
Qed.
Lemma local_opening p v insts : local (read_opening p v insts).
Proof.
  unfold VerifierModel.read_opening. lstep; [apply local_claims|intros mo]. lstep; [apply local_squeeze|intros y]. lstep; [apply local_squeeze|intros vv].
  lstep; [apply local_point|intros h1]. lstep; [apply local_squeeze|intros u]. apply local_ret.
Qed.
Lemma local_verify p v insts : local (verify_transcript p v insts).
Proof.
  unfold VerifierModel.verify_transcript. lstep; [apply local_opening|intros [[m ops] [[[y vv] h1] u]]]. lstep; [apply local_point|intros h2]. apply local_lift.
Qed.

Lemma accepted_inv p v insts proof : verify_proof p v insts proof = Ok true ->
  exists st rest, verify_transcript p v insts [] proof = TOk true st rest.
Proof.
  unfold VerifierModel.verify_proof. destruct (negb _); [discriminate|]. destruct (verify_transcript p v insts [] proof) as [b st rest| |]; try discriminate.
  intros [= ->]. eauto.
Qed.
Theorem trailing_bytes p v insts proof extra : verify_proof p v insts proof = Ok true -> verify_proof p v insts (proof ++ extra) = Ok true.
Proof.
  unfold VerifierModel.verify_proof. destruct (negb _); [discriminate|]. destruct (verify_transcript p v insts [] proof) as [b st rest| |] eqn:E; try discriminate.
  intros [= ->]. destruct (local_verify _ _ _ _ _ _ _ _ E) as (c & -> & H). rewrite <- app_assoc, H. reflexivity.
Qed.
Theorem accepted_size p v insts proof : Forall byte proof -> verify_proof p v insts proof = Ok true ->
  proof_size v <= length proof /\ verify_proof p v insts (firstn (proof_size v) proof) = Ok true.
Proof.
  intros F. unfold VerifierModel.verify_proof. destruct (negb _); [discriminate|]. destruct (verify_transcript p v insts [] proof) as [b st rest| |] eqn:E; try discriminate.
  intros [= ->]. destruct (ex_sizes _ _ _ (exactly_verify p v insts) _ _ _ _ _ F E) as (s & c & -> & Ec & _ & L).
  destruct (local_verify _ _ _ _ _ _ _ _ E) as (c' & Ec' & H). rewrite Ec in Ec'. apply app_inv_tail in Ec'. subst c'. unfold proof_size. rewrite <- L.
  rewrite Ec, app_length. split; [lia|]. rewrite firstn_app, Nat.sub_diag, firstn_O, firstn_all. rewrite H. reflexivity.
Qed.
End Verifier.
