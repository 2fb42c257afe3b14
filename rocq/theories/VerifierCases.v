(** A hash for which the proof of zeros is decided, and what the secret behind the
    parameters is worth. *)
From Coq Require Import ZArith List Arith Bool Lia.
From Verif Require Import Base Moduli Field FieldFacts LimbModel LimbSpec LimbField LimbConst FieldClaims SerdeModel SerdeSpec Halo2Model
  SelectorModel SelectorSpec VkModel EntryModel EntrySpec DomainModel DomainFacts
  IopModel IopSpec ArithModel ArithSpec TransformFacts KzgModel ShplonkModel TranscriptModel TranscriptFacts VerifierModel VerifierFacts VerifierSpec VerifierTotal VerifierThms VerifierBind VerifierProject.
Import ListNotations.

Definition late_hash (n : nat) (l : list Z) : list Z := (if length l <=? n then 0%Z else 1%Z) :: repeat 0%Z 63.
(** how much is absorbed before the challenge x *)
Definition absorbed (v : vkey) (insts : list (list Fr)) : nat := 33 * (1 + length (concat insts)) + 65 * points_count v + challenge_reads v + 5.
Lemma late_digest n : digest64 (late_hash n).
Proof.
  intros l. split; [|reflexivity]. unfold late_hash. constructor; [destruct (_ <=? _); unfold byte; lia|].
  apply Forall_forall. intros z I. apply repeat_spec in I. subst z. unfold byte. lia.
Qed.
Lemma late_early n st : length st <= n -> challenge_of (late_hash n) st = f0.
Proof. intros H. unfold challenge_of, late_hash. rewrite (proj2 (Nat.leb_le _ _) H). apply fe_eq. vm_compute. reflexivity. Qed.
Lemma late_late n st : n < length st -> challenge_of (late_hash n) st = f1.
Proof. intros H. unfold challenge_of, late_hash. rewrite (proj2 (Nat.leb_gt _ _) H). apply fe_eq. vm_compute. reflexivity. Qed.
Lemma rotate_zero d t : rotate_omega d f0 t = f0.
Proof. unfold rotate_omega. destruct (0 <=? t)%Z; generalize (pow_vartime (d_omega d) t) (pow_vartime (d_omega_inv d) (Z.abs t)); intros a b; fring. Qed.
Lemma zero_power n : (0 < n)%Z -> pow_vartime f0 n <> f1.
Proof.
  intros H. rewrite pow_vartime_is by lia. rewrite (fpow_zero r_pos) by exact H. intros E. symmetry in E. exact (Fr_1_neq_0 E).
Qed.

Lemma opening_msgs hash tr {G} (of_affine : g1 -> G) p v insts st b m ops x st' rest : read_opening hash tr of_affine p v insts st b = TOk (m, ops, x) st' rest ->
  exists st1 rest1, read_messages hash tr v insts st b = TOk m st1 rest1.
Proof.
  intros H. unfold read_opening in H. apply bind_done in H as ([m2 ops2] & s2 & b2 & R & H).
  apply bind_done in H as (? & ? & ? & _ & H). apply bind_done in H as (? & ? & ? & _ & H). apply bind_done in H as (? & ? & ? & _ & H).
  apply bind_done in H as (? & ? & ? & _ & H). unfold tret in H. injection H as -> _ _ _ _.
  unfold read_claims in R. apply bind_done in R as (m3 & s3 & b3 & H1 & R). exists s3, b3. rewrite H1. f_equal.
  apply bind_done in R as (? & ? & ? & _ & R). apply bind_done in R as (? & ? & ? & _ & R).
  destruct (read_evals _ _) as [[e ?]|]; [|discriminate]. destruct (verify_openings _ _ _ _ _ _ _ _ _ _) as [| |lo]; [discriminate|discriminate|].
  apply bind_done in R as (? & ? & ? & _ & R). unfold tret in R. injection R as -> _ _ _. reflexivity.
Qed.

Section Cases.
Variable transcript_repr : vkey -> Fr.
Context {G : Type}.
Variables (zero : G) (add sub : G -> G -> G) (scale : Fr -> G -> G) (of_affine : g1 -> G) (is_zero : G -> bool).
Variable pairing_product : list (G * g2) -> bool.

Lemma late_lucky p v insts b : Forall byte b -> (0 < kz_n p)%Z -> ~ unlucky (late_hash (absorbed v insts)) transcript_repr of_affine p v insts b.
Proof.
  intros F Hn. pose proof (late_digest (absorbed v insts)) as D.
  assert (X : forall m st rest, read_messages (late_hash (absorbed v insts)) transcript_repr v insts [] b = TOk m st rest -> ms_x m = f0).
  { intros m st rest H. rewrite (messages_x _ _ _ _ D _ _ _ _ _ H). apply late_early.
    destruct (ex_sizes _ _ _ (exactly_messages _ _ v insts) _ _ _ _ _ F H) as (s & c & -> & _ & L & _). cbn [app]. rewrite L. apply le_n. }
  intros [(m & st & rest & H & E)|(m & ops & y & vv & h1 & u & st & rest & H & t & E)].
  - rewrite (X _ _ _ H) in E. exact (zero_power _ Hn E).
  - pose proof (opening_u _ _ _ _ _ _ D _ _ _ _ _ H) as U. cbn [snd] in U.
    destruct (ex_sizes _ _ _ (exactly_opening _ _ _ p v insts) _ _ _ _ _ F H) as (s & c & Es & _ & L & _). cbn [app] in Es. subst st.
    rewrite late_late in U by (rewrite L; unfold absorbed; lia).
    destruct (opening_msgs _ _ _ _ _ _ _ _ _ _ _ _ _ H) as (s1 & b1 & H1).
    rewrite (X _ _ _ H1), rotate_zero, U in E. exact (Fr_1_neq_0 E).
Qed.
Hypothesis M : is_module zero add sub scale.
Theorem late_accepted p v insts : complete_key v -> length insts = num_instance (vk_cs v) -> pairing_product [] = true ->
  kz_g2 p = g2_identity -> kz_sg2 p = g2_identity -> kz_g p <> [] -> (0 < kz_n p)%Z ->
  verify_proof (late_hash (absorbed v insts)) transcript_repr zero add of_affine is_zero pairing_product p v insts (zero_proof v) = Ok true.
Proof.
  intros K HI HP E1 E2 Hg Hn.
  destruct (zeros_accepted (late_hash (absorbed v insts)) transcript_repr zero add of_affine is_zero pairing_product p v insts HI HP E1 E2) as [H|H]; [|exact H].
  exfalso. apply (panics_only _ transcript_repr zero add sub scale of_affine is_zero pairing_product M p v insts _ (late_digest _) K Hg) in H.
  revert H. apply late_lucky; [|exact Hn]. apply Forall_forall. intros z I. apply repeat_spec in I. subst z. unfold byte. lia.
Qed.
End Cases.

(** ** A group with a pairing whose secret is known: the scalars themselves *)
Definition weigh (s : Fr) (q : g2) : Fr := if leqb (c0 (g2_x q)) lzero then (- f1)%F else s.
Definition weighed (s : Fr) (ps : list (Fr * g2)) : bool := feqb (fold_right (fun pq a => (fst pq * weigh s (snd pq) + a)%F) f0 ps) f0.
Definition scalar_params : kzg :=
  Kzg 1 2 (repeat g1_identity 2) (repeat g1_identity 2) (G2 (Fq2 lzero (pr_r fq_params)) (Fq2 lzero lzero)) (G2 (Fq2 (pr_r fq_params) lzero) (Fq2 lzero lzero)).
Lemma scalar_pairing s l r : pairing_check (fun a : Fr => feqb a f0) (weighed s) l (kz_sg2 scalar_params) r (kz_g2 scalar_params) = true <-> (s * l)%F = r.
Proof.
  unfold pairing_check. cbn [filter fst snd].
  change (g2_is_identity (kz_sg2 scalar_params)) with false. change (g2_is_identity (g2_neg (kz_g2 scalar_params))) with false. rewrite !andb_true_r.
  assert (W1 : weigh s (kz_sg2 scalar_params) = s) by reflexivity. assert (W2 : weigh s (g2_neg (kz_g2 scalar_params)) = (- f1)%F) by reflexivity.
  assert (X : weighed s (filter (fun pq : Fr * g2 => negb (feqb (fst pq) f0)) [(l, kz_sg2 scalar_params); (r, g2_neg (kz_g2 scalar_params))]) = feqb (s * l - r)%F f0).
  { cbn [filter fst]. unfold weighed. destruct (feqb l f0) eqn:El; destruct (feqb r f0) eqn:Er; cbn [negb fold_right fst snd]; rewrite ?W1, ?W2; f_equal;
      try (apply feqb_eq in El; subst l); try (apply feqb_eq in Er; subst r); fring. }
  cbn [filter fst] in X. destruct (negb (feqb l f0)), (negb (feqb r f0)); rewrite X, feqb_eq; split; intros H.
  all: try (rewrite H; fring).
  all: transitivity ((s * l - r) + r)%F; [fring|rewrite H; fring].
Qed.
Lemma scalar_module : is_module (f0 : Fr) fadd fsub fmul.
Proof. constructor; intros; fring. Qed.

Definition zero_prefix (v : vkey) : list Z := repeat 0%Z (32 * (points_count v + scalars_count v + 1)).
Section Late.
Variable transcript_repr : vkey -> Fr.
Context {G : Type}.
Variables (zero : G) (add sub : G -> G -> G) (scale : Fr -> G -> G) (of_affine : g1 -> G).
Hypothesis M : is_module zero add sub scale.
Lemma late_opening p v insts : complete_key v -> length insts = num_instance (vk_cs v) -> (0 < kz_n p)%Z ->
  exists m ops y vv h1 st, read_opening (late_hash (absorbed v insts)) transcript_repr of_affine p v insts [] (zero_prefix v) = TOk (m, ops, (y, vv, h1, f1)) st [] /\ ms_x m = f0.
Proof.
  intros K HI Hn. pose proof (late_digest (absorbed v insts)) as D.
  assert (F : Forall byte (zero_prefix v)) by (apply Forall_forall; intros z I; apply repeat_spec in I; subst z; unfold byte; lia).
  assert (X : forall m st rest, read_messages (late_hash (absorbed v insts)) transcript_repr v insts [] (zero_prefix v) = TOk m st rest -> ms_x m = f0).
  { intros m st rest H. rewrite (messages_x _ _ _ _ D _ _ _ _ _ H). apply late_early.
    destruct (ex_sizes _ _ _ (exactly_messages _ _ v insts) _ _ _ _ _ F H) as (s & c & -> & _ & L & _). cbn [app]. rewrite L. apply le_n. }
  destruct (zeros_opening (late_hash (absorbed v insts)) transcript_repr of_affine p v insts HI [] []) as [H|(r & st & H)]; rewrite app_nil_r in H; fold (zero_prefix v) in H.
  - exfalso. apply opening_panic in H; try assumption. apply claims_panic in H as (m & st & rest & E & N); try assumption.
    rewrite (X _ _ _ E) in N. exact (zero_power _ Hn N).
  - destruct r as [[m ops] [[[y vv] h1] u]]. exists m, ops, y, vv, h1, st.
    pose proof (opening_u _ _ _ _ _ _ D _ _ _ _ _ H) as U. cbn [snd] in U.
    destruct (ex_sizes _ _ _ (exactly_opening _ _ _ p v insts) _ _ _ _ _ F H) as (s & c & Es & _ & L & _). cbn [app] in Es.
    rewrite late_late in U by (subst st; rewrite L; unfold absorbed; lia). subst u. split; [exact H|].
    destruct (opening_msgs _ _ _ _ _ _ _ _ _ _ _ _ _ H) as (s1 & b1 & H1). exact (X _ _ _ H1).
Qed.
End Late.
