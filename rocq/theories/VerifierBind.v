(** What the transcript binds, and the proof that consists of zeros. *)
From Coq Require Import ZArith List Bool Arith Lia.
From Verif Require Import Base Moduli Field FieldFacts LimbModel LimbSpec LimbField LimbBytes Halo2Model SelectorModel SerdeModel SerdeSpec SerdeFacts PointFacts DomainModel VkModel PermModel IopModel
  IopSpec ArithModel ArithSpec KzgModel ShplonkModel ShplonkSpec TranscriptModel TranscriptFacts EntryModel EntrySpec VerifierModel VerifierSpec VerifierFacts VerifierTotal VerifierThms.
Import ListNotations.
Local Open Scope nat_scope.

(** ** States grow *)
Definition grows {A} (t : transcript A) : Prop := forall st b a st' rest, t st b = TOk a st' rest -> exists s, st' = st ++ s.
Lemma grows_ret {A} (a : A) : grows (tret a).
Proof. intros st b x st' rest [= _ <- _]. exists []. symmetry. apply app_nil_r. Qed.
Lemma grows_lift {A} (r : res A) : grows (tlift r).
Proof. destruct r as [a|]; [exact (grows_ret a)|discriminate]. Qed.
Lemma grows_bind {A B} (t : transcript A) (f : A -> transcript B) : grows t -> (forall a, grows (f a)) -> grows (tbind t f).
Proof.
  intros T F st b a st' rest. unfold tbind. destruct (t st b) as [x s1 b1| |] eqn:E; try discriminate. intros H.
  destruct (T _ _ _ _ _ E) as (s & ->). destruct (F _ _ _ _ _ _ H) as (s' & ->). exists (s ++ s'). symmetry. apply app_assoc.
Qed.
Lemma grows_repeat {A} (t : transcript A) n : grows t -> grows (trepeat n t).
Proof.
  intros T. induction n as [|n IH]; cbn [trepeat]; [apply grows_ret|]. apply grows_bind; [exact T|]. intros x.
  apply grows_bind; [exact IH|]. intros l. apply grows_ret.
Qed.
Lemma grows_point : grows read_point.
Proof.
  unfold read_point. apply grows_bind.
  - intros st b a st' rest H. apply read_bytes_inv in H as (-> & _ & _). exists []. symmetry. apply app_nil_r.
  - intros b. destruct (g1_from_bytes b) as [p|]; [|discriminate]. apply grows_bind; [|intros; apply grows_ret].
    intros st b' u st' rest. unfold common_point. destruct (is_on_curve p); [|discriminate]. intros [= _ <- _]. eauto.
Qed.
Lemma grows_scalar : grows read_scalar.
Proof.
  unfold read_scalar. apply grows_bind.
  - intros st b a st' rest H. apply read_bytes_inv in H as (-> & _ & _). exists []. symmetry. apply app_nil_r.
  - intros b. destruct (from_repr fr_params b) as [p|]; [|discriminate]. cbv zeta. apply grows_bind; [|intros; apply grows_ret].
    intros st b' u st' rest [= _ <- _]. eauto.
Qed.
Lemma grows_squeeze hash : grows (squeeze hash).
Proof. intros st b a st' rest H. apply squeeze_inv in H as (-> & _). eauto. Qed.

(** ** What is absorbed first *)
(** nothing absorbed, or something that does not start like a scalar *)
Definition tagged {A} (t : transcript A) : Prop := forall st b a st' rest, t st b = TOk a st' rest ->
  exists s, st' = st ++ s /\ hd 0%Z s <> PREFIX_SCALAR.
Lemma tagged_ret {A} (a : A) : tagged (tret a).
Proof. intros st b x st' rest [= _ <- _]. exists []. split; [symmetry; apply app_nil_r|discriminate]. Qed.
Lemma tagged_bind {A B} (t : transcript A) (f : A -> transcript B) : tagged t -> (forall a, tagged (f a)) -> tagged (tbind t f).
Proof.
  intros T F st b a st' rest. unfold tbind. destruct (t st b) as [x s1 b1| |] eqn:E; try discriminate. intros H.
  destruct (T _ _ _ _ _ E) as (s & -> & N). destruct (F _ _ _ _ _ _ H) as (s' & -> & N'). exists (s ++ s'). split; [symmetry; apply app_assoc|].
  destruct s; assumption.
Qed.
Lemma tagged_point : tagged read_point.
Proof.
  intros st b a st' rest. unfold read_point. unfold tbind at 1. destruct (read_bytes 32 st b) as [c st1 b1| |] eqn:E; try discriminate.
  apply read_bytes_inv in E as (-> & _ & _). destruct (g1_from_bytes c) as [p|]; [|discriminate]. unfold tbind, common_point. destruct (is_on_curve p); [|discriminate].
  intros [= _ <- _]. exists (point_bytes p). split; [reflexivity|]. unfold point_bytes. cbn [app hd]. discriminate.
Qed.
Lemma tagged_squeeze hash : tagged (squeeze hash).
Proof. intros st b a st' rest H. apply squeeze_inv in H as (-> & _). exists [PREFIX_CHALLENGE]. split; [reflexivity|discriminate]. Qed.
Lemma tagged_phase {A} (r : transcript A) ph : tagged r -> forall phs xs, tagged (read_phase r ph phs xs).
Proof.
  intros R. induction phs as [|p phs IH]; intros [|x xs]; cbn [read_phase]; try apply tagged_ret.
  apply tagged_bind; [destruct (Nat.eqb ph p); [exact R|apply tagged_ret]|]. intros y. apply tagged_bind; [apply IH|]. intros l. apply tagged_ret.
Qed.
Lemma tagged_phases hash c : forall phs advice chs, tagged (read_phases hash c phs advice chs).
Proof.
  induction phs as [|ph phs IH]; intros advice chs; cbn [read_phases]; [apply tagged_ret|].
  apply tagged_bind; [apply tagged_phase, tagged_point|]. intros a. apply tagged_bind; [apply tagged_phase, tagged_squeeze|]. intros ch. apply IH.
Qed.
Definition scalars_bytes (l : list Fr) : list Z := flat_map scalar_bytes l.
Lemma absorb_is l : forall st b, absorb_scalars l st b = TOk tt (st ++ scalars_bytes l) b.
Proof.
  induction l as [|s l IH]; intros st b; cbn [absorb_scalars scalars_bytes flat_map]; [rewrite app_nil_r; reflexivity|].
  unfold tbind, common_scalar. rewrite IH, <- app_assoc. reflexivity.
Qed.
Lemma messages_state hash tr v insts b m st rest : read_messages hash tr v insts [] b = TOk m st rest ->
  exists t, st = (scalar_bytes (tr v) ++ scalars_bytes (concat insts)) ++ t /\ t <> [] /\ hd 0%Z t <> PREFIX_SCALAR.
Proof.
  unfold read_messages, tbind at 1. unfold common_scalar. change ([] ++ scalar_bytes (tr v)) with (scalar_bytes (tr v)).
  unfold tbind at 1. rewrite absorb_is. generalize (scalar_bytes (tr v) ++ scalars_bytes (concat insts)). intros s0.
  unfold tbind at 1. destruct (read_phases _ _ _ _ _ s0 b) as [[advice chs] s1 b1| |] eqn:E1; [|discriminate|discriminate].
  destruct (tagged_phases _ _ _ _ _ _ _ _ _ _ E1) as (t1 & -> & N1).
  unfold tbind at 1. destruct (squeeze hash (s0 ++ t1) b1) as [theta s2 b2| |] eqn:E2; [|discriminate|discriminate]. apply squeeze_inv in E2 as (-> & -> & _).
  match goal with |- ?t _ _ = _ -> _ => assert (GR : grows t) end.
  { apply grows_bind; [apply grows_repeat, grows_bind; [apply grows_point|intros ?; apply grows_bind; [apply grows_point|intros ?; apply grows_ret]]|intros lks].
    apply grows_bind; [apply grows_squeeze|intros beta]. apply grows_bind; [apply grows_squeeze|intros gamma].
    apply grows_bind; [destruct (chunk_len v =? 0); [apply grows_lift|apply grows_ret]|intros _].
    apply grows_bind; [apply grows_repeat, grows_point|intros ps]. apply grows_bind; [apply grows_repeat, grows_point|intros lps].
    apply grows_bind; [apply grows_point|intros random]. apply grows_bind; [apply grows_squeeze|intros y].
    apply grows_bind; [apply grows_repeat, grows_point|intros h]. apply grows_bind; [apply grows_squeeze|intros x]. apply grows_ret. }
  intros H. apply GR in H as (t2 & ->). exists ((t1 ++ [PREFIX_CHALLENGE]) ++ t2). rewrite <- !app_assoc.
  split; [reflexivity|]. split; [intros E; apply app_eq_nil in E; destruct E; discriminate|]. destruct t1; [discriminate|exact N1].
Qed.
Lemma scalars_inj l1 : forall l2 t1 t2, t1 <> [] -> t2 <> [] -> hd 0%Z t1 <> PREFIX_SCALAR -> hd 0%Z t2 <> PREFIX_SCALAR ->
  scalars_bytes l1 ++ t1 = scalars_bytes l2 ++ t2 -> l1 = l2 /\ t1 = t2.
Proof.
  assert (HD : forall s l t, hd 0%Z (scalars_bytes (s :: l) ++ t) = PREFIX_SCALAR).
  { intros s l t. cbn [scalars_bytes flat_map]. unfold scalar_bytes at 1. reflexivity. }
  induction l1 as [|s1 l1 IH]; intros [|s2 l2] t1 t2 N1 N2 H1 H2 E.
  - auto.
  - exfalso. apply (f_equal (hd 0%Z)) in E. rewrite HD in E. apply H1. exact E.
  - exfalso. apply (f_equal (hd 0%Z)) in E. rewrite HD in E. apply H2. symmetry. exact E.
  - cbn [scalars_bytes flat_map] in E. fold (scalars_bytes l1) (scalars_bytes l2) in E. rewrite <- !app_assoc in E.
    apply app_eq_len in E; [|rewrite !scalar_bytes_length; reflexivity]. destruct E as [E1 E2]. apply scalar_bytes_inj in E1.
    destruct (IH _ _ _ N1 N2 H1 H2 E2) as [-> ->]. rewrite E1. auto.
Qed.
Theorem messages_statement hash tr v1 v2 i1 i2 b1 b2 m1 m2 st r1 r2 t1 t2 :
  read_messages hash tr v1 i1 [] b1 = TOk m1 (firstn t1 st) r1 -> read_messages hash tr v2 i2 [] b2 = TOk m2 (firstn t2 st) r2 ->
  tr v1 = tr v2 /\ concat i1 = concat i2.
Proof.
  intros H1 H2. apply messages_state in H1 as (s1 & E1 & N1 & D1). apply messages_state in H2 as (s2 & E2 & N2 & D2).
  assert (P1 : exists q, st = scalar_bytes (tr v1) ++ scalars_bytes (concat i1) ++ s1 ++ q).
  { exists (skipn t1 st). rewrite <- (firstn_skipn t1 st) at 1. rewrite E1. rewrite <- !app_assoc. reflexivity. }
  assert (P2 : exists q, st = scalar_bytes (tr v2) ++ scalars_bytes (concat i2) ++ s2 ++ q).
  { exists (skipn t2 st). rewrite <- (firstn_skipn t2 st) at 1. rewrite E2, <- !app_assoc. reflexivity. }
  destruct P1 as (q1 & P1). destruct P2 as (q2 & P2). rewrite P1 in P2.
  apply app_eq_len in P2; [|rewrite !scalar_bytes_length; reflexivity]. destruct P2 as [E E3]. apply scalar_bytes_inj in E. split; [exact E|].
  apply scalars_inj in E3; [tauto| | | |].
  - destruct s1; [congruence|discriminate].
  - destruct s2; [congruence|discriminate].
  - destruct s1; [congruence|exact D1].
  - destruct s2; [congruence|exact D2].
Qed.

(** ** Challenges and what they depend on *)
Definition ends {A} (t : transcript A) (Q : A -> list Z -> Prop) : Prop := forall st b a st' rest, t st b = TOk a st' rest -> Q a st'.
Lemma ends_bind {A B} (t : transcript A) (f : A -> transcript B) Q : (forall a, ends (f a) Q) -> ends (tbind t f) Q.
Proof. intros F st b a st' rest. unfold tbind. destruct (t st b) as [x s1 b1| |]; [|discriminate|discriminate]. apply F. Qed.
Lemma ends_squeeze {A} hash (g : Fr -> A) (Q : A -> list Z -> Prop) : digest64 hash -> (forall st, Q (g (challenge_of hash st)) st) ->
  ends (tbind (squeeze hash) (fun x => tret (g x))) Q.
Proof. intros D H st b a st' rest. unfold tbind. rewrite squeeze_is by exact D. intros [= <- <- _]. apply H. Qed.
Lemma messages_x hash tr v insts : digest64 hash -> ends (read_messages hash tr v insts) (fun m st => ms_x m = challenge_of hash st).
Proof.
  intros D. unfold read_messages. apply ends_bind; intros _. apply ends_bind; intros _. apply ends_bind; intros [advice chs]. apply ends_bind; intros theta.
  apply ends_bind; intros lks. apply ends_bind; intros beta. apply ends_bind; intros gamma. apply ends_bind; intros _. apply ends_bind; intros ps.
  apply ends_bind; intros lps. apply ends_bind; intros random. apply ends_bind; intros y. apply ends_bind; intros h.
  apply ends_squeeze; [exact D|]. reflexivity.
Qed.
Lemma bind_first {A B} (t : transcript A) (f : A -> transcript B) st b r st' rest : tbind t f st b = TOk r st' rest ->
  exists a st1 b1, t st b = TOk a st1 b1 /\ f a st1 b1 = TOk r st' rest.
Proof. unfold tbind. destruct (t st b) as [a st1 b1| |]; [eauto|discriminate|discriminate]. Qed.

Lemma FrZ_small_inj a b : (0 <= a < r_modulus)%Z -> (0 <= b < r_modulus)%Z -> FrZ a = FrZ b -> a = b.
Proof.
  intros Ha Hb E. apply (f_equal fval) in E. unfold FrZ in E. rewrite !fval_of_Z in E. change (Z.pos r_pos) with r_modulus in E.
  rewrite !Z.mod_small in E by assumption. exact E.
Qed.
Lemma map_FrZ_inj a : forall b, Forall (fun x => (0 <= x < r_modulus)%Z) a -> Forall (fun x => (0 <= x < r_modulus)%Z) b -> map FrZ a = map FrZ b -> a = b.
Proof.
  induction a as [|x a IH]; intros [|y b] Fa Fb E; try discriminate; [reflexivity|]. inversion_clear Fa. inversion_clear Fb. cbn [map] in E. pose proof (f_equal (hd f0) E) as E1. pose proof (f_equal (@tl Fr) E) as E2. cbn [hd tl] in E1, E2.
  f_equal; [apply FrZ_small_inj; assumption|apply IH; assumption].
Qed.
Lemma columns_inj a b a' b' : in_field a -> in_field b -> in_field a' -> in_field b' -> concat [column a; column b] = concat [column a'; column b'] -> a = a' /\ b = b'.
Proof.
  intros [Fa La] [Fb Lb] [Fa' La'] [Fb' Lb'] E. cbn [concat] in E. rewrite !app_nil_r in E. unfold column in E. cbn [app] in E.
  pose proof (f_equal (hd f0) E) as E1. pose proof (f_equal (@tl Fr) E) as E2. cbn [hd tl] in E1, E2.
  apply FrZ_small_inj in E1; [|unfold lenZ in *; lia|unfold lenZ in *; lia]. apply Nat2Z.inj in E1.
  apply app_eq_len in E2; [|rewrite !map_length; exact E1]. destruct E2 as [E2 E3].
  pose proof (f_equal (@tl Fr) E3) as E4. cbn [tl] in E4. split; apply map_FrZ_inj; assumption.
Qed.

Section Binds.
Variable hash : list Z -> list Z.
Variable transcript_repr : vkey -> Fr.
Context {G : Type}.
Variables (zero : G) (add : G -> G -> G) (of_affine : g1 -> G) (is_zero : G -> bool).
Variable pairing_product : list (G * g2) -> bool.
Notation read_messages := (read_messages hash transcript_repr).
Notation read_claims := (read_claims hash transcript_repr of_affine).
Notation read_opening := (read_opening hash transcript_repr of_affine).
Notation verify_transcript := (verify_transcript hash transcript_repr zero add of_affine is_zero pairing_product).
Notation verify_proof := (verify_proof hash transcript_repr zero add of_affine is_zero pairing_product).

Lemma opening_u p v insts : digest64 hash -> ends (read_opening p v insts) (fun r st => snd (snd r) = challenge_of hash st).
Proof.
  intros D. unfold VerifierModel.read_opening. apply ends_bind; intros mo. apply ends_bind; intros y. apply ends_bind; intros vv. apply ends_bind; intros h1.
  apply ends_squeeze; [exact D|]. reflexivity.
Qed.
Lemma prefix_firstn {A} (s t : list A) : firstn (length s) (s ++ t) = s.
Proof. rewrite firstn_app, Nat.sub_diag, firstn_O, firstn_all. apply app_nil_r. Qed.
Lemma claims_messages p v insts b r st rest : read_claims p v insts [] b = TOk r st rest ->
  exists m st0 rest0 t, read_messages v insts [] b = TOk m st0 rest0 /\ st = st0 ++ t.
Proof.
  intros H. unfold VerifierModel.read_claims in H. apply bind_first in H as (m & st0 & b0 & E & H). exists m, st0, b0.
  match type of H with ?t st0 b0 = _ => assert (GR : grows t) end.
  { apply grows_bind; [apply grows_lift|intros _]. apply grows_bind; [apply grows_repeat, grows_scalar|intros scalars].
    destruct (read_evals v scalars) as [[e ?]|]; [|discriminate]. destruct (verify_openings _ _ _ _ _ _ _ _ _ _); [discriminate|discriminate|].
    apply grows_bind; [apply grows_lift|intros ?; apply grows_ret]. }
  apply GR in H as (t & ->). eauto.
Qed.
Lemma opening_messages p v insts b r st rest : read_opening p v insts [] b = TOk r st rest ->
  exists m st0 rest0 t, read_messages v insts [] b = TOk m st0 rest0 /\ st = st0 ++ t.
Proof.
  intros H. unfold VerifierModel.read_opening in H. apply bind_first in H as (mo & st0 & b0 & E & H). apply claims_messages in E as (m & st1 & b1 & t & E & ->).
  exists m, st1, b1. match type of H with ?t _ b0 = _ => assert (GR : grows t) end.
  { apply grows_bind; [apply grows_squeeze|intros ?]. apply grows_bind; [apply grows_squeeze|intros ?]. apply grows_bind; [apply grows_point|intros ?].
    apply grows_bind; [apply grows_squeeze|intros ?; apply grows_ret]. }
  apply GR in H as (t' & ->). exists (t ++ t'). split; [exact E|]. symmetry. apply app_assoc.
Qed.
Lemma verify_messages p v insts b r st rest : verify_transcript p v insts [] b = TOk r st rest ->
  exists m st0 rest0 t, read_messages v insts [] b = TOk m st0 rest0 /\ st = st0 ++ t.
Proof.
  intros H. unfold VerifierModel.verify_transcript in H. apply bind_first in H as (mo & st0 & b0 & E & H). apply opening_messages in E as (m & st1 & b1 & t & E & ->).
  exists m, st1, b1. destruct mo as [[mm ops] [[[y vv] h1] u]]. match type of H with ?t _ b0 = _ => assert (GR : grows t) end.
  { apply grows_bind; [apply grows_point|intros ?; apply grows_lift]. }
  apply GR in H as (t' & ->). exists (t ++ t'). split; [exact E|]. symmetry. apply app_assoc.
Qed.

Lemma same_statement v1 v2 ws1 ws2 i1 i2 b1 b2 m1 m2 s1 s2 t1 t2 r1 r2 : in_field ws1 -> in_field ws2 -> in_field i1 -> in_field i2 ->
  (transcript_repr v1 = transcript_repr v2 -> v1 = v2) ->
  read_messages v1 (statement ws1 i1) [] b1 = TOk m1 s1 r1 -> read_messages v2 (statement ws2 i2) [] b2 = TOk m2 s2 r2 -> s1 ++ t1 = s2 ++ t2 ->
  v1 = v2 /\ ws1 = ws2 /\ i1 = i2.
Proof.
  intros W1 W2 I1 I2 Hv H1 H2 E.
  assert (Q1 : s1 = firstn (length s1) (s1 ++ t1)) by (symmetry; apply prefix_firstn).
  assert (Q2 : s2 = firstn (length s2) (s1 ++ t1)) by (rewrite E; symmetry; apply prefix_firstn).
  rewrite Q1 in H1. rewrite Q2 in H2. destruct (messages_statement _ _ _ _ _ _ _ _ _ _ _ _ _ _ _ H1 H2) as [Ev Ec].
  apply columns_inj in Ec; try assumption. auto.
Qed.
Theorem binds_x v1 v2 ws1 ws2 i1 i2 b1 b2 m1 m2 st r1 r2 : in_field ws1 -> in_field ws2 -> in_field i1 -> in_field i2 ->
  (transcript_repr v1 = transcript_repr v2 -> v1 = v2) -> Forall byte b1 -> Forall byte b2 ->
  read_messages v1 (statement ws1 i1) [] b1 = TOk m1 st r1 -> read_messages v2 (statement ws2 i2) [] b2 = TOk m2 st r2 ->
  v1 = v2 /\ ws1 = ws2 /\ i1 = i2 /\ m1 = m2 /\ exists c, b1 = c ++ r1 /\ b2 = c ++ r2.
Proof.
  intros W1 W2 I1 I2 Hv F1 F2 H1 H2. destruct (same_statement _ _ _ _ _ _ _ _ _ _ _ _ [] [] _ _ W1 W2 I1 I2 Hv H1 H2 eq_refl) as (<- & <- & <-).
  repeat (split; [reflexivity|]). apply (ex_binds _ _ _ (exactly_messages hash transcript_repr v1 (statement ws1 i1)) _ _ _ _ _ _ _ _ F1 F2 H1 H2).
Qed.
Theorem binds_u p v1 v2 ws1 ws2 i1 i2 b1 b2 m1 m2 st r1 r2 : in_field ws1 -> in_field ws2 -> in_field i1 -> in_field i2 ->
  (transcript_repr v1 = transcript_repr v2 -> v1 = v2) -> Forall byte b1 -> Forall byte b2 ->
  read_opening p v1 (statement ws1 i1) [] b1 = TOk m1 st r1 -> read_opening p v2 (statement ws2 i2) [] b2 = TOk m2 st r2 ->
  v1 = v2 /\ ws1 = ws2 /\ i1 = i2 /\ m1 = m2 /\ exists c, b1 = c ++ r1 /\ b2 = c ++ r2.
Proof.
  intros W1 W2 I1 I2 Hv F1 F2 H1 H2. destruct (opening_messages _ _ _ _ _ _ _ H1) as (? & s1 & ? & t1 & E1 & S1). destruct (opening_messages _ _ _ _ _ _ _ H2) as (? & s2 & ? & t2 & E2 & S2).
  destruct (same_statement _ _ _ _ _ _ _ _ _ _ _ _ t1 t2 _ _ W1 W2 I1 I2 Hv E1 E2) as (<- & <- & <-); [congruence|].
  repeat (split; [reflexivity|]). apply (ex_binds _ _ _ (exactly_opening hash transcript_repr of_affine p v1 (statement ws1 i1)) _ _ _ _ _ _ _ _ F1 F2 H1 H2).
Qed.
Theorem binds_all p v1 v2 ws1 ws2 i1 i2 b1 b2 m1 m2 st r1 r2 : in_field ws1 -> in_field ws2 -> in_field i1 -> in_field i2 ->
  (transcript_repr v1 = transcript_repr v2 -> v1 = v2) -> Forall byte b1 -> Forall byte b2 ->
  verify_transcript p v1 (statement ws1 i1) [] b1 = TOk m1 st r1 -> verify_transcript p v2 (statement ws2 i2) [] b2 = TOk m2 st r2 ->
  v1 = v2 /\ ws1 = ws2 /\ i1 = i2 /\ m1 = m2 /\ exists c, b1 = c ++ r1 /\ b2 = c ++ r2.
Proof.
  intros W1 W2 I1 I2 Hv F1 F2 H1 H2. destruct (verify_messages _ _ _ _ _ _ _ H1) as (? & s1 & ? & t1 & E1 & S1). destruct (verify_messages _ _ _ _ _ _ _ H2) as (? & s2 & ? & t2 & E2 & S2).
  destruct (same_statement _ _ _ _ _ _ _ _ _ _ _ _ t1 t2 _ _ W1 W2 I1 I2 Hv E1 E2) as (<- & <- & <-); [congruence|].
  repeat (split; [reflexivity|]). apply (ex_binds _ _ _ (exactly_verify hash transcript_repr zero add of_affine is_zero pairing_product p v1 (statement ws1 i1)) _ _ _ _ _ _ _ _ F1 F2 H1 H2).
Qed.

(** ** The proof of zeros *)
Definition zeros {A} (t : transcript A) (m : nat) : Prop := forall st b, t st (repeat 0%Z m ++ b) = TPanic \/ exists a st', t st (repeat 0%Z m ++ b) = TOk a st' b.
Lemma zeros_ret {A} (a : A) : zeros (tret a) 0.
Proof. intros st b. right. exists a, st. reflexivity. Qed.
Lemma zeros_lift {A} (r : res A) : zeros (tlift r) 0.
Proof. intros st b. destruct r as [a|]; [right; exists a, st; reflexivity|left; reflexivity]. Qed.
Lemma zeros_bind {A B} (P : A -> Prop) (t : transcript A) (f : A -> transcript B) m m' : zeros t m -> yields t P -> (forall a, P a -> zeros (f a) m') -> zeros (tbind t f) (m + m').
Proof.
  intros T Y F st b. unfold tbind. rewrite repeat_app, <- app_assoc. destruct (T st (repeat 0%Z m' ++ b)) as [->|(a & st' & E)]; [left; reflexivity|].
  rewrite E. apply Y in E. destruct (F a E st' b) as [->|H]; [left; reflexivity|right; exact H].
Qed.
Lemma zeros_eq {A} (t : transcript A) m m' : zeros t m -> m = m' -> zeros t m'.
Proof. intros H <-. exact H. Qed.
Lemma zeros_repeat {A} (t : transcript A) n m : zeros t m -> zeros (trepeat n t) (n * m).
Proof.
  intros T. induction n as [|n IH]; cbn [trepeat]; [apply zeros_ret|]. eapply zeros_eq; [eapply zeros_bind; [exact T|apply yields_any|]|].
  - intros x _. eapply zeros_bind; [exact IH|apply yields_any|]. intros l _. apply zeros_ret.
  - lia.
Qed.
Lemma identity_point : g1_point g1_identity f0 f0.
Proof.
  assert (E : represents lzero (@f0 q_pos)) by (apply (rep_iff q_pos), (lzero_rep fq_params q_pos good_fq)).
  split; [exact E|]. split; [exact E|]. left. auto.
Qed.
Lemma zeros_point : zeros read_point 32.
Proof.
  intros st b. right. exists g1_identity, (st ++ point_bytes g1_identity).
  assert (E : repeat 0%Z 32 = g1_to_bytes g1_identity) by (vm_compute; reflexivity). rewrite E. apply (read_point_ok _ _ _ _ _ identity_point).
Qed.
Lemma zeros_scalar : zeros read_scalar 32.
Proof.
  intros st b. right. exists f0, (st ++ scalar_bytes f0).
  assert (E : repeat 0%Z 32 = to_repr fr_params (fr_limbs f0)) by (vm_compute; reflexivity). rewrite E. apply read_scalar_ok.
Qed.
Lemma zeros_squeeze : zeros (squeeze hash) 0.
Proof.
  intros st b. unfold squeeze. destruct (challenge_scalar _); [right; eauto|left; reflexivity].
Qed.
Lemma zeros_common s : zeros (common_scalar s) 0.
Proof. intros st b. right. eexists. eexists. reflexivity. Qed.
Lemma zeros_absorb l : zeros (absorb_scalars l) 0.
Proof. intros st b. right. rewrite absorb_is. eauto. Qed.
Lemma zeros_phase {A} (r : transcript A) m ph : zeros r m -> forall phs xs,
  zeros (read_phase r ph phs xs) (phase_count ph phs (length xs) * m).
Proof.
  intros R. induction phs as [|p phs IH]; intros [|x xs]; cbn [read_phase]; try apply zeros_ret.
  assert (C : phase_count ph (p :: phs) (length (x :: xs)) = (if Nat.eqb ph p then 1 else 0) + phase_count ph phs (length xs)).
  { unfold phase_count. cbn [length firstn count_occ]. destruct (Nat.eq_dec p ph) as [->|E]; [rewrite Nat.eqb_refl; reflexivity|].
    destruct (Nat.eqb_spec ph p); [congruence|reflexivity]. }
  rewrite C. destruct (Nat.eqb ph p); (eapply zeros_eq; [eapply zeros_bind; [first [exact R|apply zeros_ret]|apply yields_any|
    intros y _; eapply zeros_bind; [apply IH|apply yields_any|intros l _; apply zeros_ret]]|lia]).
Qed.
Lemma zeros_phases c : forall phs advice chs,
  zeros (read_phases hash c phs advice chs) (phases_count phs (advice_phases c) (length advice) * 32).
Proof.
  induction phs as [|ph phs IH]; intros advice chs; cbn [read_phases]; [apply zeros_ret|].
  eapply zeros_eq.
  - eapply (zeros_bind (fun l => length l = length advice)); [apply zeros_phase, zeros_point|intros ? ? ? ? ?; apply read_phase_length|].
    intros advice' E1. eapply (zeros_bind (fun l => length l = length chs)); [apply zeros_phase, zeros_squeeze|intros ? ? ? ? ?; apply read_phase_length|].
    intros chs' E2. pose proof (IH advice' chs') as H. rewrite E1 in H. exact H.
  - unfold phases_count, list_sum. cbn [map fold_right]. lia.
Qed.
Ltac zstep := eapply zeros_bind; [|apply yields_any|].
Lemma zeros_messages v insts : zeros (read_messages v insts) (32 * points_count v).
Proof.
  unfold VerifierModel.read_messages. eapply zeros_eq.
  - zstep; [apply zeros_common|intros _ _]. zstep; [apply zeros_absorb|intros _ _]. zstep; [apply zeros_phases|intros [advice chs] _].
    zstep; [apply zeros_squeeze|intros theta _].
    zstep; [apply zeros_repeat; zstep; [apply zeros_point|intros a _; zstep; [apply zeros_point|intros b _; apply zeros_ret]]|intros lks _].
    zstep; [apply zeros_squeeze|intros beta _]. zstep; [apply zeros_squeeze|intros gamma _].
    zstep; [instantiate (1 := 0); destruct (chunk_len v =? 0); [apply zeros_lift|apply zeros_ret]|intros _ _].
    zstep; [apply zeros_repeat, zeros_point|intros products _]. zstep; [apply zeros_repeat, zeros_point|intros lproducts _].
    zstep; [apply zeros_point|intros random _]. zstep; [apply zeros_squeeze|intros y _].
    zstep; [apply zeros_repeat, zeros_point|intros h _]. zstep; [apply zeros_squeeze|intros x _]. apply zeros_ret.
  - rewrite !repeat_length. unfold points_count. fold (advice_reads v). lia.
Qed.
Lemma zeros_claims p v insts : length insts = num_instance (vk_cs v) -> zeros (read_claims p v insts) (32 * (points_count v + scalars_count v)).
Proof.
  intros HI. unfold VerifierModel.read_claims. eapply zeros_eq.
  - zstep; [apply zeros_messages|intros m _]. zstep; [apply zeros_lift|intros _ _]. eapply zeros_bind; [apply zeros_repeat, zeros_scalar|apply yields_repeat|].
    intros scalars L. cbn beta in L. instantiate (1 := 0). destruct (read_evals_ok v scalars L) as (e & -> & _).
    unfold verify_openings. rewrite HI, Nat.eqb_refl. cbn [negb].
    match goal with |- zeros (match (match ?r with Ok l => VOpen l | Panic => VPanic end) with _ => _ end) _ => destruct r as [ops|] end.
    + apply (zeros_eq _ (0 + 0)); [|reflexivity]. zstep; [apply zeros_lift|intros _ _; apply zeros_ret].
    + intros st b. left. reflexivity.
  - lia.
Qed.
Lemma zeros_opening p v insts : length insts = num_instance (vk_cs v) -> zeros (read_opening p v insts) (32 * (points_count v + scalars_count v + 1)).
Proof.
  intros HI. unfold VerifierModel.read_opening. eapply zeros_eq.
  - zstep; [apply zeros_claims, HI|intros mo _]; zstep; [apply zeros_squeeze|intros y _]; zstep; [apply zeros_squeeze|intros vv _];
      zstep; [apply zeros_point|intros h1 _]; zstep; [apply zeros_squeeze|intros u _]; apply zeros_ret.
  - lia.
Qed.
Lemma zeros_verify p v insts : length insts = num_instance (vk_cs v) -> zeros (verify_transcript p v insts) (proof_size v).
Proof.
  intros HI. unfold VerifierModel.verify_transcript, VerifierModel.read_opening. eapply zeros_eq.
  - zstep; [zstep; [apply zeros_claims, HI|intros mo _]; zstep; [apply zeros_squeeze|intros y _]; zstep; [apply zeros_squeeze|intros vv _];
      zstep; [apply zeros_point|intros h1 _]; zstep; [apply zeros_squeeze|intros u _]; apply zeros_ret|intros [[m ops] [[[y vv] h1] u]] _].
    zstep; [apply zeros_point|intros h2 _]. apply zeros_lift.
  - unfold proof_size. lia.
Qed.
Theorem zeros_accepted p v insts : length insts = num_instance (vk_cs v) -> pairing_product [] = true -> kz_g2 p = g2_identity -> kz_sg2 p = g2_identity ->
  verify_proof p v insts (zero_proof v) = Panic \/ verify_proof p v insts (zero_proof v) = Ok true.
Proof.
  intros HI HP E1 E2. set (proof := zero_proof v). unfold VerifierModel.verify_proof. rewrite HI, Nat.eqb_refl. cbn [negb].
  destruct (zeros_verify p v insts HI [] []) as [H|(r & st & H)]; rewrite app_nil_r in H; fold (zero_proof v) in H; fold proof in H; rewrite H; [left; reflexivity|].
  right. rewrite (identity_parameters _ _ _ _ _ _ _ p v insts proof HP E1 E2 _ _ _ H). reflexivity.
Qed.
End Binds.
