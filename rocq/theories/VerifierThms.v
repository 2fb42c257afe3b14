(** What the verifier does with the bytes of a proof. *)
From Coq Require Import ZArith List Bool Arith Lia.
From Verif Require Import Base Moduli Field FieldFacts AlgebraSpec LimbModel LimbSpec LimbField DomainFacts LimbBytes Halo2Model SelectorModel SelectorSpec SelectorClaims SerdeModel SerdeSpec SerdeFacts PointFacts DomainModel VkModel PermModel IopModel
  IopSpec IopPoly ArithModel ArithSpec KzgModel ShplonkModel ShplonkSpec ShplonkForge TranscriptModel TranscriptFacts EntryModel VerifierModel VerifierSpec VerifierFacts VerifierTotal.
Import ListNotations.
Local Open Scope nat_scope.

(** ** Conversations *)
Lemma write_point_inv p st b w : write_point p (st, b) = Some w -> w = (st ++ point_bytes p, b ++ g1_to_bytes p).
Proof. unfold write_point. destruct (is_on_curve p); [intros [= <-]; reflexivity|discriminate]. Qed.
Lemma write_point_ok p x y st b : g1_point p x y -> write_point p (st, b) = Some (st ++ point_bytes p, b ++ g1_to_bytes p).
Proof. intros H. unfold write_point. rewrite (point_on_curve p x y H). reflexivity. Qed.
Lemma write_scalar_is s st b : write_scalar s (st, b) = (st ++ scalar_bytes s, b ++ to_repr fr_params (fr_limbs s)).
Proof. reflexivity. Qed.
Lemma wsqueeze_inv hash st b c w : wsqueeze hash (st, b) = Ok (c, w) -> w = (st ++ [PREFIX_CHALLENGE], b) /\ forall b, squeeze hash st b = TOk c (st ++ [PREFIX_CHALLENGE]) b.
Proof.
  unfold wsqueeze, squeeze. cbn [fst snd]. destruct (challenge_scalar _) as [c'|]; [|discriminate]. cbn [bind]. intros [= -> <-]. auto.
Qed.
Lemma squeeze_inv hash st b c st' b' : squeeze hash st b = TOk c st' b' -> st' = st ++ [PREFIX_CHALLENGE] /\ b' = b /\ forall w, wsqueeze hash (st, w) = Ok (c, (st ++ [PREFIX_CHALLENGE], w)).
Proof.
  unfold wsqueeze, squeeze. cbn [fst snd]. destruct (challenge_scalar _) as [c'|]; [|discriminate]. cbn [bind]. intros [= -> <- <-]. auto.
Qed.
Definition proper (m : move) : Prop := match m with MPoint p => exists x y, g1_point p x y | _ => True end.
Lemma write_read hash : forall l st b st' b', Forall proper l -> writes hash l (st, b) (st', b') ->
  exists c, b' = b ++ c /\ forall rest, reads hash l st (c ++ rest) st' rest.
Proof.
  induction l as [|m l IH]; intros st b st' b' F; cbn [writes reads].
  - intros [= -> ->]. exists []. rewrite app_nil_r. auto.
  - inversion_clear F as [|? ? Fm Fl]. destruct m as [p|s|c].
    + intros (w1 & E & W). apply write_point_inv in E. subst w1.
      destruct (IH _ _ _ _ Fl W) as (c & -> & R). exists (g1_to_bytes p ++ c). rewrite app_assoc. split; [reflexivity|]. intros rest.
      destruct Fm as (x & y & H). exists (st ++ point_bytes p), (c ++ rest). split; [|apply R]. rewrite <- app_assoc. apply (read_point_ok p x y), H.
    + rewrite write_scalar_is. intros W. destruct (IH _ _ _ _ Fl W) as (c & -> & R). exists (to_repr fr_params (fr_limbs s) ++ c).
      rewrite app_assoc. split; [reflexivity|]. intros rest. exists (st ++ scalar_bytes s), (c ++ rest). split; [|apply R].
      rewrite <- app_assoc. apply read_scalar_ok.
    + intros (w1 & E & W). apply wsqueeze_inv in E as [-> Q]. destruct (IH _ _ _ _ Fl W) as (d & -> & R). exists d. split; [reflexivity|]. intros rest.
      exists (st ++ [PREFIX_CHALLENGE]), (d ++ rest). split; [apply Q|apply R].
Qed.
Lemma read_write hash : forall l st b st' rest, Forall byte b -> reads hash l st b st' rest ->
  Forall proper l /\ exists c, b = c ++ rest /\ forall w, writes hash l (st, w) (st', w ++ c).
Proof.
  induction l as [|m l IH]; intros st b st' rest F; cbn [writes reads].
  - intros [-> ->]. split; [constructor|]. exists []. split; [reflexivity|]. intros w. rewrite app_nil_r. reflexivity.
  - destruct m as [p|s|c]; intros (st1 & b1 & E & R).
    + destruct (read_point_inv _ _ _ _ _ F E) as (x & y & H & -> & ->). apply Forall_app in F as [_ F].
      destruct (IH _ _ _ _ F R) as (P & c & -> & W). split; [constructor; [exists x, y; exact H|exact P]|]. exists (g1_to_bytes p ++ c).
      split; [apply app_assoc|]. intros w. exists (st ++ point_bytes p, w ++ g1_to_bytes p). split.
      * apply (write_point_ok p x y), H.
      * rewrite app_assoc. apply W.
    + destruct (read_scalar_inv _ _ _ _ _ F E) as (-> & ->). apply Forall_app in F as [_ F].
      destruct (IH _ _ _ _ F R) as (P & c & -> & W). split; [constructor; [exact Logic.I|exact P]|]. exists (to_repr fr_params (fr_limbs s) ++ c).
      split; [apply app_assoc|]. intros w. rewrite write_scalar_is, app_assoc. apply W.
    + apply squeeze_inv in E as (-> & -> & Q). destruct (IH _ _ _ _ F R) as (P & d & -> & W). split; [constructor; [exact Logic.I|exact P]|].
      exists d. split; [reflexivity|]. intros w. exists (st ++ [PREFIX_CHALLENGE], w). split; [apply Q|apply W].
Qed.
Theorem conversation_spec hash l : (forall st proof rest, Forall (fun m => match m with MPoint p => exists x y, g1_point p x y | _ => True end) l ->
    writes hash l ([], []) (st, proof) -> reads hash l [] (proof ++ rest) st rest) /\
  (forall st bytes rest, Forall byte bytes -> reads hash l [] bytes st rest ->
    exists proof, bytes = proof ++ rest /\ writes hash l ([], []) (st, proof)).
Proof.
  split.
  - intros st proof rest F W. destruct (write_read hash l _ _ _ _ F W) as (c & -> & R). apply R.
  - intros st bytes rest F R. destruct (read_write hash l _ _ _ _ F R) as (_ & c & -> & W). exists c. split; [reflexivity|apply W].
Qed.

(** ** Challenges *)
Lemma squeeze_is hash st b : digest64 hash -> squeeze hash st b = TOk (challenge_of hash (st ++ [0%Z])) (st ++ [0%Z]) b.
Proof.
  intros D. unfold squeeze. change [PREFIX_CHALLENGE] with [0%Z]. destruct (D (st ++ [0%Z])) as [F L].
  rewrite (challenge_value _ F L). reflexivity.
Qed.
Definition yields {A} (t : transcript A) (Q : A -> Prop) : Prop := forall st b a st' rest, t st b = TOk a st' rest -> Q a.
Lemma yields_bind {A B} (t : transcript A) (f : A -> transcript B) (P : A -> Prop) Q : yields t P -> (forall a, P a -> yields (f a) Q) -> yields (tbind t f) Q.
Proof.
  intros T F st b a st' rest. unfold tbind. destruct (t st b) as [x s1 b1| |] eqn:E; try discriminate. intros H. eapply F; [eapply T, E|exact H].
Qed.
Lemma yields_any {A} (t : transcript A) : yields t (fun _ => True).
Proof. repeat intro. exact Logic.I. Qed.
Lemma yields_ret {A} (a : A) (Q : A -> Prop) : Q a -> yields (tret a) Q.
Proof. intros H st b x st' rest [= <- _ _]. exact H. Qed.
Lemma yields_repeat {A} (t : transcript A) n : yields (trepeat n t) (fun l => length l = n).
Proof.
  induction n as [|n IH]; cbn [trepeat]; [apply yields_ret; reflexivity|].
  eapply yields_bind; [apply yields_any|]. intros x _. eapply yields_bind; [exact IH|]. intros l L. apply yields_ret. cbn [length]. congruence.
Qed.
Lemma yields_phases hash c : forall phs advice chs, yields (read_phases hash c phs advice chs) (fun r => length (fst r) = length advice /\ length (snd r) = length chs).
Proof.
  induction phs as [|ph phs IH]; intros advice chs; cbn [read_phases]; [apply yields_ret; auto|].
  eapply yields_bind; [intros ? ? ? ? ?; apply read_phase_length|]. intros a La. cbn beta in La.
  eapply yields_bind; [intros ? ? ? ? ?; apply read_phase_length|]. intros ch Lc. cbn beta in Lc.
  rewrite <- La, <- Lc. apply IH.
Qed.
Record messages_for (v : vkey) (m : messages) : Prop := {
  mf_advice : length (ms_advice m) = num_advice (vk_cs v);
  mf_challenges : length (ms_challenges m) = num_challenges (vk_cs v);
  mf_lookups : length (ms_lookups m) = length (lookups (vk_cs v));
  mf_products : length (ms_products m) = sets_count v;
  mf_lproducts : length (ms_lproducts m) = length (lookups (vk_cs v)) }.
Lemma yields_messages hash tr v insts : yields (read_messages hash tr v insts) (messages_for v).
Proof.
  unfold read_messages. eapply yields_bind; [apply yields_any|intros _ _]. eapply yields_bind; [apply yields_any|intros _ _].
  eapply yields_bind; [apply yields_phases|intros [advice chs] [La Lc]]. cbn [fst snd] in La, Lc. rewrite repeat_length in La, Lc.
  eapply yields_bind; [apply yields_any|intros theta _]. eapply yields_bind; [apply yields_repeat|intros lks Ll].
  eapply yields_bind; [apply yields_any|intros beta _]. eapply yields_bind; [apply yields_any|intros gamma _]. eapply yields_bind; [apply yields_any|intros _ _].
  eapply yields_bind; [apply yields_repeat|intros ps Lp]. eapply yields_bind; [apply yields_repeat|intros lps Llp].
  eapply yields_bind; [apply yields_any|intros random _]. eapply yields_bind; [apply yields_any|intros y _]. eapply yields_bind; [apply yields_any|intros h _].
  eapply yields_bind; [apply yields_any|intros x _]. apply yields_ret. constructor; assumption.
Qed.

(** ** Panics *)
Definition calm {A} (t : transcript A) : Prop := forall st b, t st b <> TPanic.
Lemma calm_ret {A} (a : A) : calm (tret a).
Proof. intros st b. discriminate. Qed.
Lemma calm_bind {A B} (t : transcript A) (f : A -> transcript B) : calm t -> (forall a, calm (f a)) -> calm (tbind t f).
Proof.
  intros T F st b. unfold tbind. destruct (t st b) as [a s1 b1| |] eqn:E; [apply F|discriminate|]. exfalso. exact (T _ _ E).
Qed.
Lemma calm_repeat {A} (t : transcript A) n : calm t -> calm (trepeat n t).
Proof.
  intros T. induction n as [|n IH]; cbn [trepeat]; [apply calm_ret|]. apply calm_bind; [exact T|]. intros x.
  apply calm_bind; [exact IH|]. intros l. apply calm_ret.
Qed.
Lemma calm_bytes n : calm (read_bytes n).
Proof. intros st b. unfold read_bytes, read_exact. destruct (Nat.ltb _ _); discriminate. Qed.
Lemma calm_common s : calm (common_scalar s).
Proof. intros st b. discriminate. Qed.
Lemma calm_point : calm read_point.
Proof.
  unfold read_point. apply calm_bind; [apply calm_bytes|]. intros b. destruct (g1_from_bytes b) as [p|]; [|intros ? ?; discriminate].
  apply calm_bind; [|intros; apply calm_ret]. intros st b'. unfold common_point. destruct (is_on_curve p); discriminate.
Qed.
Lemma calm_scalar : calm read_scalar.
Proof.
  unfold read_scalar. apply calm_bind; [apply calm_bytes|]. intros b. destruct (from_repr fr_params b); [|intros ? ?; discriminate].
  cbv zeta. apply calm_bind; [apply calm_common|]. intros. apply calm_ret.
Qed.
Lemma calm_squeeze hash : digest64 hash -> calm (squeeze hash).
Proof. intros D st b. rewrite squeeze_is by exact D. discriminate. Qed.
Lemma calm_phase {A} (r : transcript A) ph : calm r -> forall phs xs, calm (read_phase r ph phs xs).
Proof.
  intros R. induction phs as [|p phs IH]; intros [|x xs]; cbn [read_phase]; try apply calm_ret.
  apply calm_bind; [destruct (Nat.eqb ph p); [exact R|apply calm_ret]|]. intros y. apply calm_bind; [apply IH|]. intros l. apply calm_ret.
Qed.
Lemma calm_phases hash c : digest64 hash -> forall phs advice chs, calm (read_phases hash c phs advice chs).
Proof.
  intros D. induction phs as [|ph phs IH]; intros advice chs; cbn [read_phases]; [apply calm_ret|].
  apply calm_bind; [apply calm_phase, calm_point|]. intros a. apply calm_bind; [apply calm_phase, calm_squeeze, D|]. intros ch. apply IH.
Qed.
Lemma calm_absorb l : calm (absorb_scalars l).
Proof. induction l as [|s l IH]; cbn [absorb_scalars]; [apply calm_ret|]. apply calm_bind; [apply calm_common|auto]. Qed.
Lemma calm_messages hash tr v insts : digest64 hash -> complete_key v -> calm (read_messages hash tr v insts).
Proof.
  intros D K. unfold read_messages. apply calm_bind; [apply calm_common|intros _]. apply calm_bind; [apply calm_absorb|intros _].
  apply calm_bind; [apply calm_phases, D|intros [advice chs]]. apply calm_bind; [apply calm_squeeze, D|intros theta].
  apply calm_bind; [apply calm_repeat, calm_bind; [apply calm_point|intros a; apply calm_bind; [apply calm_point|intros b; apply calm_ret]]|intros lks].
  apply calm_bind; [apply calm_squeeze, D|intros beta]. apply calm_bind; [apply calm_squeeze, D|intros gamma].
  assert (CL : (chunk_len v =? 0)%nat = false). { apply Nat.eqb_neq. unfold chunk_len. pose proof (ck_degree _ K). lia. }
  rewrite CL. apply calm_bind; [apply calm_ret|intros _].
  apply calm_bind; [apply calm_repeat, calm_point|intros ps]. apply calm_bind; [apply calm_repeat, calm_point|intros lps].
  apply calm_bind; [apply calm_point|intros random]. apply calm_bind; [apply calm_squeeze, D|intros y].
  apply calm_bind; [apply calm_repeat, calm_point|intros h]. apply calm_bind; [apply calm_squeeze, D|intros x]. apply calm_ret.
Qed.

Section Verifier.
Variable hash : list Z -> list Z.
Variable transcript_repr : vkey -> Fr.
Context {G : Type}.
Variables (zero : G) (add sub : G -> G -> G) (scale : Fr -> G -> G) (of_affine : g1 -> G) (is_zero : G -> bool).
Variable pairing_product : list (G * g2) -> bool.
Notation read_messages := (read_messages hash transcript_repr).
Notation read_claims := (read_claims hash transcript_repr of_affine).
Notation read_opening := (read_opening hash transcript_repr of_affine).
Notation verify_transcript := (verify_transcript hash transcript_repr zero add of_affine is_zero pairing_product).
Notation verify_proof := (verify_proof hash transcript_repr zero add of_affine is_zero pairing_product).
Notation commitment := (commitment of_affine).

Lemma handle_eqb_eq : is_equality handle_eqb.
Proof.
  intros a b. destruct a, b; cbn [handle_eqb]; rewrite ?Nat.eqb_eq; split; intros H; try discriminate; try congruence; try reflexivity.
Qed.
Lemma commitment_ok v m xn h : complete_key v -> messages_for v m -> refers v h -> exists c, commitment v m xn h = Ok c.
Proof.
  intros K M R. destruct h; cbn [refers VerifierModel.commitment] in *; try (eexists; reflexivity);
    match goal with |- context [at_ ?l ?i] => destruct (at_ok l i) as (p & ->); [|cbn [bind]; eexists; reflexivity] end.
  - rewrite (mf_advice _ _ M). exact R.
  - rewrite (ck_fixed _ K). exact R.
  - exact R.
  - rewrite (mf_products _ _ M). exact R.
  - rewrite (mf_lproducts _ _ M). exact R.
  - rewrite (mf_lookups _ _ M). exact R.
  - rewrite (mf_lookups _ _ M). exact R.
Qed.
Lemma bind_panic {A B} (t : transcript A) (f : A -> transcript B) st b : calm t -> tbind t f st b = TPanic ->
  exists a st' rest, t st b = TOk a st' rest /\ f a st' rest = TPanic.
Proof.
  intros C. unfold tbind. destruct (t st b) as [a st' rest| |] eqn:E; [eauto|discriminate|]. intros _. exfalso. exact (C _ _ E).
Qed.
Lemma bind_done {A B} (t : transcript A) (f : A -> transcript B) st b r st' rest : tbind t f st b = TOk r st' rest ->
  exists a s1 b1, t st b = TOk a s1 b1 /\ f a s1 b1 = TOk r st' rest.
Proof. unfold tbind. destruct (t st b) as [a s1 b1| |]; [eauto|discriminate|discriminate]. Qed.
Lemma claims_panic p v insts st b : digest64 hash -> complete_key v -> length insts = num_instance (vk_cs v) ->
  read_claims p v insts st b = TPanic ->
  exists m st' rest, read_messages v insts st b = TOk m st' rest /\ pow_vartime (ms_x m) (kz_n p) = f1.
Proof.
  intros D K HI H. unfold VerifierModel.read_claims in H. apply bind_panic in H; [|apply calm_messages; assumption].
  destruct H as (m & st1 & b1 & E1 & H). exists m, st1, b1. split; [exact E1|]. apply yields_messages in E1.
  destruct (instance_evals_ok v (kz_n p) insts (ms_x m)) as (il & Ei & _). { intros q I. rewrite HI. apply (wf_instance _ (ck_cs _ K)), I. }
  rewrite Ei in H. unfold tlift in H at 1. unfold tbind in H at 1. apply bind_panic in H; [|apply calm_repeat, calm_scalar].
  destruct H as (scalars & st2 & b2 & E2 & H). apply yields_repeat in E2. cbn beta in E2.
  destruct (read_evals_ok v scalars E2) as (e & Ee & He). rewrite Ee in H.
  destruct (feqb (pow_vartime (ms_x m) (kz_n p)) f1) eqn:Ex; [apply feqb_eq, Ex|]. apply feqb_neq in Ex. exfalso.
  destruct (openings_total v (kz_n p) insts (ms_challenges m) (ms_theta m) (ms_beta m) (ms_gamma m) (ms_y m) (ms_x m) e K HI (mf_challenges _ _ E1) He Ex) as (ops & Eo & R).
  rewrite Eo in H. edestruct (rmap_ok (fun o : opening => commitment v m (pow_vartime (ms_x m) (kz_n p)) (fst (fst o))) ops) as (cs & Ec).
  { intros o I. apply commitment_ok; [exact K|exact E1|apply R, I]. }
  rewrite Ec in H. discriminate H.
Qed.
Lemma opening_panic p v insts st b : digest64 hash -> complete_key v -> length insts = num_instance (vk_cs v) ->
  read_opening p v insts st b = TPanic -> read_claims p v insts st b = TPanic.
Proof.
  intros D K HI H. unfold VerifierModel.read_opening in H. unfold tbind in H at 1. destruct (read_claims p v insts st b) as [mo st1 b1| |]; [|discriminate|reflexivity].
  exfalso. revert H. match goal with |- ?t st1 b1 = TPanic -> False => assert (C : calm t) end; [|apply C].
  apply calm_bind; [apply calm_squeeze, D|intros y]. apply calm_bind; [apply calm_squeeze, D|intros vv]. apply calm_bind; [apply calm_point|intros h1].
  apply calm_bind; [apply calm_squeeze, D|intros u]. apply calm_ret.
Qed.
Hypothesis M : is_module zero add sub scale.
Lemma check_shape p v m ops y vv h1 u : kz_g p <> [] -> ~ In u (map (fun q : opening => snd (fst q)) ops) ->
  exists W, forall h2, shplonk_verify handle_eqb (resolve of_affine v m (pow_vartime (ms_x m) (kz_n p))) zero add (pairing_check is_zero pairing_product)
    (srs_of of_affine p) ops y vv h1 u h2 =
    Ok (pairing_check is_zero pairing_product h2 (kz_sg2 p) (add W (scale u h2)) (kz_g2 p)).
Proof.
  intros Hg Hu. apply (verify_shape zero add sub scale M handle_eqb handle_eqb_eq _ _ (srs_of of_affine p) ops y vv h1 u); [|exact Hu].
  cbn [srs_of sr_g]. destruct (kz_g p); [congruence|discriminate].
Qed.
Lemma claims_ops p v insts st b m ops st' rest : read_claims p v insts st b = TOk (m, ops) st' rest ->
  forall o, In o ops -> exists t, snd (fst o) = rotate_omega (vk_domain v) (ms_x m) t.
Proof.
  intros H. unfold VerifierModel.read_claims in H. apply bind_done in H as (m1 & s1 & b1 & _ & H). apply bind_done in H as (il & s2 & b2 & _ & H).
  apply bind_done in H as (sc & s3 & b3 & _ & H). destruct (read_evals v sc) as [[e x]|]; [|discriminate].
  match type of H with (match ?o with _ => _ end) _ _ = _ => destruct o as [| |l] eqn:O end; [discriminate|discriminate|].
  apply bind_done in H as (cs & s4 & b4 & _ & H). unfold tret in H.
  assert (E : m1 = m /\ l = ops) by (split; [exact (f_equal (fun r => match r with TOk (a, _) _ _ => a | _ => m end) H)|exact (f_equal (fun r => match r with TOk (_, a) _ _ => a | _ => ops end) H)]).
  destruct E as [<- <-]. exact (openings_rotated _ _ _ _ _ _ _ _ _ _ _ O).
Qed.
Theorem panics_only p v insts b : digest64 hash -> complete_key v -> kz_g p <> [] -> verify_proof p v insts b = Panic ->
  unlucky hash transcript_repr of_affine p v insts b.
Proof.
  intros D K Hg. unfold VerifierModel.verify_proof. destruct (length insts =? num_instance (vk_cs v)) eqn:HI; [|discriminate]. apply Nat.eqb_eq in HI. cbn [negb].
  destruct (verify_transcript p v insts [] b) as [r st rest| |] eqn:E; try discriminate. intros _.
  unfold VerifierModel.verify_transcript in E. unfold tbind in E at 1. destruct (read_opening p v insts [] b) as [[[m ops] [[[y vv] h1] u]] st1 b1| |] eqn:Eo; [|discriminate|].
  - apply bind_panic in E; [|apply calm_point]. destruct E as (h2 & st2 & b2 & E2 & E).
    right. exists m, ops, y, vv, h1, u, st1, b1. split; [exact Eo|].
    destruct (in_dec fe_dec u (map (fun q : opening => snd (fst q)) ops)) as [I|I].
    + apply in_map_iff in I as (o & <- & I). unfold VerifierModel.read_opening in Eo. apply bind_done in Eo as ([m1 ops1] & s3 & b3 & Ec & Eo).
      apply bind_done in Eo as (y1 & s4 & b4 & _ & Eo). apply bind_done in Eo as (v1 & s5 & b5 & _ & Eo). apply bind_done in Eo as (p1 & s6 & b6 & _ & Eo).
      apply bind_done in Eo as (u1 & s7 & b7 & _ & Eo). unfold tret in Eo. injection Eo as -> -> _ _ _ _ _ _. exact (claims_ops _ _ _ _ _ _ _ _ _ Ec o I).
    + exfalso. destruct (check_shape p v m ops y vv (of_affine h1) u Hg I) as (W & S). rewrite S in E. discriminate E.
  - left. apply opening_panic in Eo; try assumption. apply claims_panic in Eo; assumption.
Qed.

(** ** Parameters without a second group *)
Lemma g2_neg_identity : g2_is_identity (g2_neg g2_identity) = true.
Proof. vm_compute. reflexivity. Qed.
Lemma check_identity l r : pairing_product [] = true -> pairing_check is_zero pairing_product l g2_identity r g2_identity = true.
Proof.
  intros E. unfold pairing_check. cbn [filter fst snd]. rewrite g2_neg_identity. change (g2_is_identity g2_identity) with true.
  rewrite !andb_false_r. exact E.
Qed.
Theorem identity_parameters p v insts b : pairing_product [] = true -> kz_g2 p = g2_identity -> kz_sg2 p = g2_identity ->
  forall r st rest, verify_transcript p v insts [] b = TOk r st rest -> r = true.
Proof.
  intros HP E1 E2 r st rest. unfold VerifierModel.verify_transcript. unfold tbind at 1.
  destruct (read_opening p v insts [] b) as [[[m ops] [[[y vv] h1] u]] st1 b1| |]; try discriminate. unfold tbind at 1.
  destruct (read_point st1 b1) as [h2 st2 b2| |]; try discriminate. unfold shplonk_verify. cbn [srs_of sr_g sr_s_g2 sr_g2].
  destruct (map of_affine (kz_g p)) as [|g0 gs]; [discriminate|].
  destruct (shplonk_sides _ _ _ _ _ _ _ _ _) as [sides|]; [|discriminate]. cbn [bind]. unfold dual_check. destruct (msm_eval _ _ _) as [l|]; [|discriminate]. cbn [bind].
  destruct (msm_eval _ _ _) as [r'|]; [|discriminate]. cbn [bind]. rewrite E1, E2, check_identity by exact HP. cbn. intros [= <- _ _]. reflexivity.
Qed.

(** ** Known secrets *)
Theorem forged_last s p v insts b m ops y vv h1 u st : kz_g p <> [] -> length insts = num_instance (vk_cs v) ->
  (forall l r, pairing_check is_zero pairing_product l (kz_sg2 p) r (kz_g2 p) = true <-> scale s l = r) ->
  read_opening p v insts [] b = TOk (m, ops, (y, vv, h1, u)) st [] -> u <> s -> (forall t, u <> rotate_omega (vk_domain v) (ms_x m) t) ->
  exists h2, forall q qx qy, g1_point q qx qy -> of_affine q = h2 -> verify_proof p v insts (b ++ g1_to_bytes q) = Ok true.
Proof.
  intros Hg HI Hp E Hu Ht.
  destruct (local_opening hash transcript_repr of_affine p v insts _ _ _ _ _ E) as (c & Ec & Hc). rewrite app_nil_r in Ec. subst c.
  assert (Hin : ~ In u (map (fun q : opening => snd (fst q)) ops)).
  { intros I. apply in_map_iff in I as (o & Eu & I). unfold VerifierModel.read_opening in E. apply bind_done in E as ([m1 ops1] & s3 & b3 & El & E).
    apply bind_done in E as (y1 & s4 & b4 & _ & E). apply bind_done in E as (v1 & s5 & b5 & _ & E). apply bind_done in E as (p1 & s6 & b6 & _ & E).
    apply bind_done in E as (u1 & s7 & b7 & _ & E). unfold tret in E. injection E as -> -> _ _ _ -> _ _. destruct (claims_ops _ _ _ _ _ _ _ _ _ El o I) as (t & Et).
    apply (Ht t). rewrite <- Eu. exact Et. }
  destruct (check_shape p v m ops y vv (of_affine h1) u Hg Hin) as (W & S).
  exists (scale (finv (s - u)%F) W). intros q qx qy Pq Eq. unfold VerifierModel.verify_proof. rewrite HI, Nat.eqb_refl. cbn [negb].
  unfold VerifierModel.verify_transcript, tbind at 1. rewrite Hc.
  unfold tbind at 1. rewrite <- (app_nil_r (g1_to_bytes q)), (read_point_ok q qx qy st [] Pq). rewrite S.
  unfold tlift. f_equal. apply Hp. rewrite Eq.
  assert (Z : (s - u)%F <> f0) by (apply fsub_nz; congruence). pose proof (fmul_finv _ Z) as Q. revert Q. generalize (finv (s - u)%F). intros i Q.
  rewrite <- !(mod_mul_scale _ _ _ _ M).
  transitivity (scale (f1 + u * i)%F W); [f_equal; rewrite <- Q; fring|].
  rewrite (mod_add_scale _ _ _ _ M), (mod_one_scale _ _ _ _ M). reflexivity.
Qed.
End Verifier.
