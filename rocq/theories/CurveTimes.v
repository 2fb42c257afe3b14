(** Multiples, sums and batches of points. *)
From Coq Require Import List Bool Field_theory Field ZArith Lia.
From Verif Require Import Base LimbSpec CurveModel CurveSpec CurveLaw CurveFacts.
Import ListNotations.

Section Times.
Context {F : Type}.
Variables (K : base F) (b : F).
Hypothesis HK : is_base K b.
Local Notation oc := (on_curve K b).
Local Notation "P +! Q" := (pplus K P Q) (at level 50, left associativity).

Lemma times_on n P : oc P -> oc (ptimes K n P).
Proof. intros H. induction n as [|n IH]; [exact Logic.I|]. cbn [ptimes]. apply (pplus_on_curve K b HK); assumption. Qed.
Lemma times_add m n P : oc P -> ptimes K (m + n) P = ptimes K m P +! ptimes K n P.
Proof.
  intros H. induction m as [|m IH]; [cbn [Nat.add ptimes]; rewrite pplus_zero_l; reflexivity|]. cbn [Nat.add ptimes]. rewrite IH.
  symmetry. apply (pplus_assoc K b HK); auto using times_on.
Qed.
Lemma swap P Q R S : oc P -> oc Q -> oc R -> oc S -> (P +! Q) +! (R +! S) = (P +! R) +! (Q +! S).
Proof.
  intros HP HQ HR HS. assert (X := pplus_on_curve K b HK). rewrite !(pplus_assoc K b HK) by auto. f_equal.
  rewrite <- !(pplus_assoc K b HK) by auto. f_equal. apply (pplus_comm K b HK); assumption.
Qed.
Lemma times_plus n P Q : oc P -> oc Q -> ptimes K n (P +! Q) = ptimes K n P +! ptimes K n Q.
Proof.
  intros HP HQ. induction n as [|n IH]; [reflexivity|]. cbn [ptimes]. rewrite IH. apply swap; auto using times_on.
Qed.
Lemma times_infinity n : ptimes K n Infinity = Infinity.
Proof. induction n as [|n IH]; [reflexivity|]. cbn [ptimes]. rewrite IH. reflexivity. Qed.
Lemma times_mul m n P : oc P -> ptimes K (m * n) P = ptimes K m (ptimes K n P).
Proof.
  intros H. induction m as [|m IH]; [reflexivity|]. cbn [Nat.mul]. rewrite times_add by exact H. rewrite IH. reflexivity.
Qed.
Lemma times_one P : ptimes K 1 P = P.
Proof. cbn [ptimes]. apply pplus_zero_r. Qed.
Lemma neg_plus P Q : oc P -> oc Q -> pneg K (P +! Q) = pneg K P +! pneg K Q.
Proof.
  intros HP HQ. assert (N := pneg_on_curve K b HK). assert (X := pplus_on_curve K b HK).
  transitivity (pneg K (P +! Q) +! ((P +! Q) +! (pneg K P +! pneg K Q))).
  - rewrite swap by auto. rewrite !(pplus_pneg K b HK). symmetry. apply pplus_zero_r.
  - apply (minus_plus K b HK); auto.
Qed.
Lemma times_neg n P : oc P -> ptimes K n (pneg K P) = pneg K (ptimes K n P).
Proof. intros H. induction n as [|n IH]; [reflexivity|]. cbn [ptimes]. rewrite IH. symmetry. apply neg_plus; [exact H|apply times_on; exact H]. Qed.

(** double-and-add *)
Definition bits_value (l : list bool) : nat := fold_left (fun (a : nat) (c : bool) => if c then 1 + (a + a) else a + a) l 0.
Lemma bits_app l m : bits_value (l ++ m) = fold_left (fun (a : nat) (c : bool) => if c then 1 + (a + a) else a + a) m (bits_value l).
Proof. apply fold_left_app. Qed.
Lemma mul_steps (step : jac F -> bool -> jac F) P l :
  oc P -> (forall acc c, oc (jac_point K acc) -> jac_point K (step acc c) = if c then (jac_point K acc +! jac_point K acc) +! P else jac_point K acc +! jac_point K acc) ->
  jac_point K (fold_left step l (jac_identity K)) = ptimes K (bits_value l) P.
Proof.
  intros HP S. induction l as [|c l IH] using rev_ind; [apply (identity_point K b HK)|]. rewrite fold_left_app, bits_app. cbn [fold_left].
  rewrite S by (rewrite IH; apply times_on; exact HP). rewrite IH. set (n := bits_value l). rewrite <- times_add by exact HP.
  destruct c; [|reflexivity]. cbn [Nat.add ptimes]. apply (pplus_comm K b HK); auto using times_on.
Qed.
Lemma mul_bits p repr : oc (jac_point K p) -> jac_point K (jac_mul K p repr) = ptimes K (bits_value (scalar_bits repr)) (jac_point K p).
Proof.
  intros H. unfold jac_mul. apply mul_steps; [exact H|]. intros acc c HA. pose proof (double_point K b HK acc HA) as D.
  destruct c; [|exact D]. rewrite (add_point K b HK); [rewrite D; reflexivity| |exact H]. rewrite D. apply (pplus_on_curve K b HK); exact HA.
Qed.
Lemma aff_mul_bits p repr : oc (aff_point K p) -> jac_point K (aff_mul K p repr) = ptimes K (bits_value (scalar_bits repr)) (aff_point K p).
Proof.
  intros H. unfold aff_mul. apply mul_steps; [exact H|]. intros acc c HA. pose proof (double_point K b HK acc HA) as D.
  destruct c; [|exact D]. rewrite (add_mixed_point K b HK); [rewrite D; reflexivity| |exact H]. rewrite D. apply (pplus_on_curve K b HK); exact HA.
Qed.

(** sums *)
Lemma sum_from l : forall acc, oc (jac_point K acc) -> (forall p, In p l -> oc (jac_point K p)) ->
  jac_point K (fold_left (jac_add K) l acc) = jac_point K acc +! psum K (map (jac_point K) l).
Proof.
  induction l as [|p l IH]; intros acc HA HL; [cbn [fold_left map psum]; rewrite pplus_zero_r; reflexivity|].
  assert (Hp : oc (jac_point K p)) by (apply HL; left; reflexivity). assert (HL' : forall q, In q l -> oc (jac_point K q)) by (intros q Hq; apply HL; right; exact Hq).
  cbn [fold_left map psum]. rewrite IH; [|rewrite (add_point K b HK) by assumption; apply (pplus_on_curve K b HK); assumption|exact HL'].
  rewrite (add_point K b HK) by assumption. apply (pplus_assoc K b HK); [assumption..|].
  clear - HK HL'. induction l as [|q l IH]; [exact Logic.I|]. cbn [map psum]. apply (pplus_on_curve K b HK); [apply HL'; left; reflexivity|apply IH; intros r Hr; apply HL'; right; exact Hr].
Qed.
Theorem sum_point l : (forall p, In p l -> oc (jac_point K p)) -> jac_point K (jac_sum K l) = psum K (map (jac_point K) l).
Proof. intros H. unfold jac_sum. rewrite sum_from; [rewrite (identity_point K b HK), pplus_zero_l; reflexivity|rewrite (identity_point K b HK); exact Logic.I|exact H]. Qed.

(** batches *)
Let Kf' := Kfield K b HK.
Add Field Kf : Kf'.
Local Notation sq := (base_square K b HK).
Lemma forth_snoc l p : forall acc qs a, normal_forth K acc l = (qs, a) ->
  normal_forth K acc (l ++ [p]) = (qs ++ [a], if jac_is_identity K p then a else bmul K a (jz p)).
Proof.
  induction l as [|q l IH]; intros acc qs a; cbn [normal_forth app]; intros E.
  - injection E as <- <-. reflexivity.
  - destruct (normal_forth K (if jac_is_identity K q then acc else bmul K acc (jz q)) l) as [qs' a'] eqn:El. injection E as <- <-.
    rewrite (IH _ _ _ El). reflexivity.
Qed.
Lemma forth_nonzero l : forall acc, acc <> bzero K -> snd (normal_forth K acc l) <> bzero K.
Proof.
  induction l as [|p l IH]; intros acc N; cbn [normal_forth]; [exact N|].
  specialize (IH (if jac_is_identity K p then acc else bmul K acc (jz p))). destruct (normal_forth K _ l) as [qs a]. cbn [snd] in *. apply IH.
  destruct (jac_is_identity K p) eqn:E; [exact N|]. apply (nonzero_mul K b HK); [exact N|]. apply (beq_false K b HK). exact E.
Qed.
Lemma inv_unique x y z : bmul K x z = bone K -> bmul K y z = bone K -> x = y.
Proof.
  intros X Y. transitivity (bmul K x (bmul K y z)); [rewrite Y; ring|]. transitivity (bmul K (bmul K x z) y); [ring|rewrite X; ring].
Qed.
Lemma back_is l : forall acc qs a i, acc <> bzero K -> normal_forth K acc l = (qs, a) -> bmul K i a = bone K ->
  normal_back K i (rev l) (rev qs) = rev (map (jac_to_affine K) l).
Proof.
  induction l as [|p l IH] using rev_ind; intros acc qs a i N E Hi; [injection E as <- <-; reflexivity|].
  destruct (normal_forth K acc l) as [qs' a'] eqn:El. pose proof (forth_snoc l p _ _ _ El) as E'. rewrite E' in E. injection E as <- <-.
  rewrite map_app, !rev_app_distr. cbn [rev app map normal_back]. assert (Na : a' <> bzero K) by (pose proof (forth_nonzero l acc N) as X; rewrite El in X; exact X).
  unfold jac_to_affine. destruct (inv_cases K b HK (jz p)) as [[Z Ez]|[Nz (y & Ez & Hy & Yn)]]; rewrite Ez.
  - rewrite (jac_id_true K b HK p Z) in *. unfold bis_zero. rewrite (proj2 (beq_true K b HK (bzero K) (bzero K)) eq_refl). f_equal. apply (IH acc qs' a' i N El Hi).
  - rewrite (jac_id_false K b HK p Nz) in *. unfold bis_zero. rewrite (proj2 (beq_false K b HK y (bzero K)) Yn).
    assert (T : bmul K a' i = y) by (apply (inv_unique _ _ (jz p)); [rewrite <- Hi; ring|exact Hy]). rewrite T, !sq. f_equal.
    apply (IH acc qs' a' (bmul K i (jz p)) N El). rewrite <- Hi. ring.
Qed.
Theorem batch_normalize_is l : batch_normalize K l (length l) = Ok (map (jac_to_affine K) l).
Proof.
  unfold batch_normalize. rewrite Nat.eqb_refl. pose proof (forth_nonzero l (bone K) (one_neq K b HK)) as N. destruct (normal_forth K (bone K) l) as [qs a] eqn:E. cbn [snd] in N.
  destruct (inv_cases K b HK a) as [[Z _]|[_ (i & Ei & Hi & _)]]; [contradiction|]. rewrite Ei. f_equal. rewrite (back_is l _ _ _ _ (one_neq K b HK) E Hi). apply rev_involutive.
Qed.
Lemma batch_normalize_panic l n : length l <> n -> batch_normalize K l n = Panic.
Proof. intros N. unfold batch_normalize. apply Nat.eqb_neq in N. rewrite N. reflexivity. Qed.
End Times.

(** the bits of bytes *)
Local Open Scope Z_scope.
Definition bitsZ (a : Z) (l : list bool) : Z := fold_left (fun a (c : bool) => if c then 1 + (a + a) else a + a) l a.
Lemma bits_Z l : forall n, Z.of_nat (fold_left (fun (a : nat) (c : bool) => if c then (1 + (a + a))%nat else (a + a)%nat) l n) = bitsZ (Z.of_nat n) l.
Proof. induction l as [|c l IH]; intros n; [reflexivity|]. cbn [fold_left]. rewrite IH. unfold bitsZ. cbn [fold_left]. f_equal. destruct c; lia. Qed.
Lemma bitsZ_shift l : forall a, bitsZ a l = 2 ^ lenZ l * a + bitsZ 0 l.
Proof.
  induction l as [|c l IH]; intros a; [unfold bitsZ, lenZ; cbn [fold_left length]; change (2 ^ Z.of_nat 0) with 1; lia|].
  change (bitsZ a (c :: l)) with (bitsZ (if c then 1 + (a + a) else a + a) l). change (bitsZ 0 (c :: l)) with (bitsZ (if c then 1 + (0 + 0) else 0 + 0) l).
  rewrite (IH (if c then 1 + (a + a) else _)), (IH (if c then 1 + (0 + 0) else _)).
  replace (lenZ (c :: l)) with (Z.succ (lenZ l)) by (unfold lenZ; cbn [length]; lia). rewrite Z.pow_succ_r by (unfold lenZ; lia). destruct c; lia.
Qed.
Lemma byte_bits_value a x : byte x -> bitsZ a (byte_bits x) = 256 * a + x.
Proof.
  intros H. unfold byte in H. assert (E : x = bitsZ 0 (byte_bits x)).
  { assert (forallb (fun n => Z.of_nat n =? bitsZ 0 (byte_bits (Z.of_nat n))) (seq 0 256) = true) as X by (vm_compute; reflexivity).
    rewrite forallb_forall in X. specialize (X (Z.to_nat x)). rewrite Z2Nat.id in X by lia. apply Z.eqb_eq. apply X. apply in_seq. lia. }
  rewrite bitsZ_shift, <- E. reflexivity.
Qed.
Lemma scalar_bits_value repr : Forall byte repr -> Z.of_nat (bits_value (scalar_bits repr)) = le_int repr.
Proof.
  intros H. unfold bits_value, scalar_bits. rewrite bits_Z. change (Z.of_nat 0) with 0.
  induction H as [|x l Hx Hl IH]; [reflexivity|]. cbn [rev]. rewrite flat_map_app. unfold bitsZ in *. rewrite fold_left_app, IH. cbn [flat_map]. rewrite app_nil_r.
  change (fold_left _ (byte_bits x) ?a) with (bitsZ a (byte_bits x)). rewrite byte_bits_value by exact Hx. cbn [le_int]. lia.
Qed.
