(** Properties C28, C37 and C45 to C49: serialised parameters, expressions,
    points and keys, and the evaluation domain a key is read with. *)
From Coq Require Import ZArith List.
From Verif Require Import Base Moduli Field FieldFacts LimbModel LimbSpec LimbFacts LimbField VMModel Halo2Model CircuitModel CircuitFacts KeygenFacts
  SelectorModel SerdeModel SerdeSpec SerdeFacts PointFacts ParamsFacts DomainModel DomainSpec DomainFacts VkModel VkSpec VkFacts VkReject.
Import ListNotations.

(** C28: reading back the shrunk parameters gives the same parameters, with the
    bytes behind them left over, and every truncation is an error. *)
Theorem C28_params : forall pr p, valid_params p -> (1 <= kz_k p < 31)%Z ->
  exists p', shrink p SHRINK_K = Ok p' /\
    kz_k p' = kz_k p /\ kz_n p' = (2 ^ kz_k p)%Z /\ kz_g p' = firstn 2 (kz_g p) /\ kz_gl p' = firstn 2 (kz_gl p) /\
    kz_g2 p' = kz_g2 p /\ kz_sg2 p' = kz_sg2 p /\
    (forall rest, read_verifier_params pr (write_kzg p' ++ rest) = IOk p' rest) /\
    (forall t, truncation t (write_kzg p') -> read_verifier_params pr t = IErr).
Proof. exact params_round. Qed.
Print Assumptions C28_params.
(** four copies of the generator (1, 2) *)
Definition serde_g : g1 := G1 (from_raw fq_params (L4 1 0 0 0)) (from_raw fq_params (L4 2 0 0 0)).
Definition serde_g2 : g2 := G2 (Fq2 (g1_x serde_g) (g1_y serde_g)) (Fq2 (g1_y serde_g) (g1_x serde_g)).
Definition c28_params : kzg := Kzg 2 4 (repeat serde_g 4) (repeat serde_g 4) serde_g2 serde_g2.
Example C28_case : valid_params c28_params /\ (1 <= kz_k c28_params < 31)%Z.
Proof.
  assert (X : canonical q_pos (g1_x serde_g)) by (split; [apply words4_b|]; vm_compute; reflexivity).
  assert (Y : canonical q_pos (g1_y serde_g)) by (split; [apply words4_b|]; vm_compute; reflexivity).
  split; [|split; vm_compute; congruence].
  constructor; try reflexivity; try (split; split; assumption). intros a [I|I]; apply repeat_spec in I; subst a; split; assumption.
Qed.
(** the limit is real: at k = 31 the reader computes another size *)
Example C28_limit : read_verifier_params Wrapping (write_kzg (Kzg 31 (2 ^ 31) (repeat serde_g 2) (repeat serde_g 2) serde_g2 serde_g2)) =
  IOk (Kzg 31 (2 ^ 64 - 2 ^ 31) (repeat serde_g 2) (repeat serde_g 2) serde_g2 serde_g2) [].
Proof. vm_compute. reflexivity. Qed.

(** C37: a written expression is read back, in every format, and exactly its
    bytes are consumed. *)
Theorem C37_expression : forall f e, fits e -> forall stack, depth e <= stack -> forall rest,
  read_expr stack f (write_expr f e ++ rest) = IOk e rest.
Proof. exact read_write_expr. Qed.
Print Assumptions C37_expression.
(** C37: the same for selector assignments in the two raw formats. *)
Theorem C37_assignment : forall a, fits_assign a -> forall stack f, depth (sa_expr a) <= stack -> f <> Processed -> forall rest,
  read_selassign stack (write_selassign f a ++ rest) = IOk a rest.
Proof. exact read_write_selassign. Qed.
Print Assumptions C37_assignment.
(** C37 fails for assignments written in the compressed format: the reader
    always reads raw constants. *)
Theorem C37_assignment_refuted : exists a, fits_assign a /\
  forall stack, 1 <= stack -> read_selassign stack (write_selassign Processed a) <> IOk a [].
Proof.
  exists (SelAssign 0 0 (EConst f1)). split; [split; [|split]; try (vm_compute; reflexivity); exact I|].
  intros [|n] H; [inversion H|]. clear H. intros H.
  assert (X : read_selassign (S n) (write_selassign Processed (SelAssign 0 0 (EConst f1))) = read_selassign 1 (write_selassign Processed (SelAssign 0 0 (EConst f1)))).
  { unfold read_selassign. vm_compute. reflexivity. }
  rewrite X in H. clear X.
  assert (Y : match read_selassign 1 (write_selassign Processed (SelAssign 0 0 (EConst f1))) with
              | IOk (SelAssign _ _ (EConst c)) _ => Z.eqb (fval c) 1 | _ => false end = false) by (vm_compute; reflexivity).
  rewrite H in Y. discriminate.
Qed.
Print Assumptions C37_assignment_refuted.
Definition c37_expr : expr :=
  EScaled (ESum (EProd (EAdvice (Query 3 7 (-1)) 1) (ENeg (EFixed (Query 0 (Z.to_nat 70000) 0))))
    (ESum (ESelector (Sel 2 true)) (EChallenge (Chal 1 0)))) (FrZ (-5)).
Example C37_case : fits c37_expr /\ depth c37_expr = 5 /\ length (write_expr Processed c37_expr) = 76.
Proof.
  split; [|split; vm_compute; reflexivity]. cbn [fits c37_expr]. unfold fits_query, fits32, fits_i32, fits8.
  cbn [q_index q_col q_rot sel_index ch_index ch_phase]. rewrite Z2Nat.id by (vm_compute; congruence).
  repeat split; vm_compute; congruence.
Qed.

(** C45: the compressed encoding of a curve point decodes to that point. *)
Theorem C45_round : forall g (x y : Fq), g1_point g x y -> g1_from_bytes (g1_to_bytes g) = Some g.
Proof. exact g1_round. Qed.
Print Assumptions C45_round.
(** C45: whatever decodes is a curve point, and its encoding is the string it was
    decoded from: no point has two encodings. *)
Theorem C45_canonical : forall b g, Forall byte b -> length b = 32 -> g1_from_bytes b = Some g ->
  exists x y, g1_point g x y /\ g1_to_bytes g = b.
Proof. exact g1_decode_sound. Qed.
Print Assumptions C45_canonical.
Example C45_case : g1_point serde_g (of_Z q_pos 1) (of_Z q_pos 2) /\ g1_to_bytes serde_g = 1%Z :: repeat 0%Z 31 /\
  g1_from_bytes (1%Z :: repeat 0%Z 30 ++ [128%Z]) <> None /\ g1_from_bytes (4%Z :: repeat 0%Z 31) = None.
Proof.
  split.
  - split; [|split; [|right; apply fe_eq; vm_compute; reflexivity]]; apply (rep_iff q_pos).
    all: apply (rep_iff q_pos); split; [apply words4_b|]; vm_compute; reflexivity.
  - split; [vm_compute; reflexivity|]. split; [vm_compute; congruence|vm_compute; reflexivity].
Qed.
Example C45_case_decode : Forall byte (1%Z :: repeat 0%Z 31) /\ length (1%Z :: repeat 0%Z 31) = 32 /\
  g1_from_bytes (1%Z :: repeat 0%Z 31) = Some serde_g.
Proof.
  split; [|split; [reflexivity|vm_compute; reflexivity]].
  constructor; [split; vm_compute; congruence|]. apply Forall_forall. intros z I. apply repeat_spec in I. subst z. split; vm_compute; congruence.
Qed.

(** C46 fails: the checked raw format accepts a pair that is not a curve point. *)
Theorem C46_refuted : exists b g, read_g1 RawBytes b = IOk g [] /\ is_on_curve g = false /\ ~ exists x y, g1_point g x y.
Proof.
  pose (g := G1 (from_raw fq_params (L4 1 0 0 0)) (from_raw fq_params (L4 1 0 0 0))).
  assert (R1 : represents (g1_x g) (of_Z q_pos 1)) by (split; [apply words4_b|]; vm_compute; reflexivity).
  assert (E : is_on_curve g = false) by (vm_compute; reflexivity).
  exists (g1_write_raw g), g. split; [vm_compute; reflexivity|]. split; [exact E|].
  intros (x & y & X & Y & C). apply (rep_iff q_pos) in X. apply (rep_iff q_pos) in Y.
  pose proof (is_on_curve_ok g x y X Y) as K. apply K in C. congruence.
Qed.
Print Assumptions C46_refuted.
(** C46, what holds: the coordinates are canonical field elements. *)
Theorem C46_canonical_partial : forall b g rest, Forall byte b -> read_g1 RawBytes b = IOk g rest -> g1_coords g.
Proof. exact read_raw_canonical. Qed.
Print Assumptions C46_canonical_partial.

(** C47: every generated key is read back from its bytes, constraint system and
    domain included, in the two raw formats. *)
Theorem C47_generated : forall commit pr k m v, (forall l, g1_coords (commit l)) -> (0 <= k < 2 ^ 32)%Z ->
  keygen_vk commit pr k m = EOk v -> forall stack f rest, 18 <= stack -> f <> Processed ->
  read_vk pr stack f (write_vk f v ++ rest) = IOk v rest.
Proof.
  intros commit pr k m v HC Hk H stack f rest Hs Hf. destruct (keygen_valid commit pr k m v HC Hk H stack Hs) as [V _].
  apply (read_write_vk pr stack v V f Hf).
Qed.
Print Assumptions C47_generated.
(** C47: the same for every valid key. *)
Theorem C47_valid : forall pr stack v, valid_key pr stack bcs v -> forall f, f <> Processed -> forall rest,
  read_vk pr stack f (write_vk f v ++ rest) = IOk v rest.
Proof. exact read_write_vk. Qed.
Print Assumptions C47_valid.
(** C47: key generation succeeds whenever the tables fit and k is at most 24. *)
Theorem C47_total : forall commit pr k m cc sc asm, (0 <= k <= 24)%Z -> bf_keygen (circuit_rows k) m = EOk (cc, sc, asm) ->
  exists v, keygen_vk commit pr k m = EOk v.
Proof. exact keygen_vk_total. Qed.
Print Assumptions C47_total.
Definition c47_matrix : matrix :=
  mkMatrix [reg0; reg0] [] [] [f1] [f1; f0] [f1].
Example C47_case : exists v, keygen_vk (fun _ => serde_g) Wrapping 9 c47_matrix = EOk v /\ (forall l : list Fr, g1_coords serde_g) /\
  valid_key Wrapping 18 bcs v.
Proof.
  assert (HC : g1_coords serde_g) by (split; split; [apply words4_b| |apply words4_b|]; vm_compute; reflexivity).
  assert (K : exists k, bf_keygen (circuit_rows 9) c47_matrix = EOk k).
  { apply keygen_iff. change (circuit_rows 9) with 512. split; [unfold KeygenFacts.fits; cbn [c47_matrix sizes_of zp zm zi zo zu zg length processor_matrix
      memory_matrix instruction_matrix output_matrix input_matrix program]; Lia.lia|vm_compute; reflexivity]. }
  destruct K as [[[cc sc] asm] K].
  destruct (C47_total (fun _ => serde_g) Wrapping 9 c47_matrix cc sc asm) as [v V]; [split; vm_compute; congruence|exact K|].
  exists v. split; [exact V|]. split; [intros; exact HC|].
  apply (keygen_valid (fun _ => serde_g) Wrapping 9 c47_matrix v); [intros; exact HC|split; vm_compute; congruence|exact V|apply le_n].
Qed.

(** C48 fails: a key whose first four bytes say 25 or more crashes the reader,
    whatever follows. *)
Theorem C48_refuted : exists b, forall pr stack f rest, read_vk pr stack f (b ++ rest) = IPanic.
Proof. exists [0; 0; 0; 25]%Z. exact too_large_key. Qed.
Print Assumptions C48_refuted.
(** C48, what holds: no truncation of a valid key is accepted; cut before the
    assignments it is an error, cut inside them it is a crash. *)
Theorem C48_truncated_partial : forall pr stack v, valid_key pr stack bcs v -> forall t, truncation t (write_vk RawBytes v) ->
  read_vk pr stack RawBytes t =
  if Nat.ltb (length t) (12 + 64 * (length (vk_fixed v) + length (vk_permutation v))) then IErr else IPanic.
Proof. intros pr stack v V t T. rewrite <- key_head_length. exact (truncated_key pr stack v V t T). Qed.
Print Assumptions C48_truncated_partial.
Example C48_case : exists v, valid_key Wrapping 18 bcs v /\ truncation [0%Z] (write_vk RawBytes v).
Proof.
  destruct C47_case as (v & K & HC & V). exists v. split; [exact V|].
  destruct (keygen_valid (fun _ => serde_g) Wrapping 9 c47_matrix v) with (stack := 18) as [_ D];
    [intros; exact (HC [])|split; vm_compute; congruence|exact K|apply le_n|].
  unfold write_vk. rewrite D. eexists. split; [|reflexivity]. discriminate.
Qed.

(** C49: the evaluation domain of a key: for every degree and size that fit the
    two-adicity of the field it is built, and is what its fields say. *)
Theorem C49_domain : forall pr j k, (1 <= j < 2 ^ 32)%Z -> (0 <= k)%Z -> (k + Z.log2_up (j - 1) <= 28)%Z ->
  exists d, domain_new pr j k = Ok d /\ domain_for j k d.
Proof. exact domain_correct. Qed.
Print Assumptions C49_domain.
(** C49: for this project's degree 11, sizes 25 to 62 are refused; but the release
    build accepts 63. *)
Theorem C49_refused : forall pr k, (24 < k < 63)%Z -> domain_new pr 11 k = Panic.
Proof. exact domain_refused. Qed.
Print Assumptions C49_refused.
Theorem C49_refuted : exists d, domain_new Wrapping 11 63 = Ok d /\ ~ domain_for 11 63 d.
Proof. exact domain_63. Qed.
Print Assumptions C49_refuted.
Example C49_case : cs_degree bcs = 11 /\ (1 <= 11 < 2 ^ 32)%Z /\ (24 + Z.log2_up (11 - 1) <= 28)%Z.
Proof. split; [vm_compute; reflexivity|]. repeat split; vm_compute; congruence. Qed.
