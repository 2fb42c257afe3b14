(** Verifier parameters survive serialisation. *)
From Coq Require Import ZArith List Lia Bool.
From Verif Require Import Base Moduli Field FieldFacts LimbModel LimbSpec LimbFacts LimbBytes Halo2Model SelectorModel
  SerdeModel SerdeSpec SerdeFacts PointFacts.
Import ListNotations.
Local Open Scope Z_scope.

Lemma shl_small pr k : 0 <= k < 31 -> shl_i32_as_u64 pr k = Ok (2 ^ k).
Proof.
  intros H. unfold shl_i32_as_u64. cbv zeta. destruct (Z.ltb_spec k 32); [|lia].
  assert (B : 2 ^ k < 2 ^ 31) by (apply Z.pow_lt_mono_r; lia).
  destruct (Z.ltb_spec (2 ^ k) (2 ^ 31)); [|lia]. f_equal. apply Z.mod_small.
  split; [apply Z.pow_nonneg; lia|]. apply Z.lt_trans with (2 ^ 31); [exact B|lia].
Qed.
Local Opaque g1_read_raw g2_read_raw g1_write_raw g2_write_raw shl_i32_as_u64.

Lemma read_params pr p : 0 <= kz_k p < 31 -> kz_n p = 2 ^ kz_k p ->
  length (kz_g p) = 2%nat -> length (kz_gl p) = 2%nat ->
  (forall a, In a (kz_g p) \/ In a (kz_gl p) -> g1_coords a) -> g2_coords (kz_g2 p) -> g2_coords (kz_sg2 p) ->
  reads (read_verifier_params pr) (write_kzg p) p /\ rejects (read_verifier_params pr) (write_kzg p).
Proof.
  intros K N Lg Ll HG H2 HS. destruct p as [k n g gl a b]; cbn [kz_k kz_n kz_g kz_gl kz_g2 kz_sg2] in *. subst n.
  assert (V : le_value (le_bytes 4 k) = k).
  { rewrite le_value_bytes. apply Z.mod_small. change (256 ^ Z.of_nat 4) with (2 ^ 32). lia. }
  assert (R1 : reads (irepeat 2 g1_read_raw) (flat_map g1_write_raw g) g).
  { rewrite <- Lg. apply reads_repeat. intros x I. apply reads_g1_raw, HG. auto. }
  assert (R2 : reads (irepeat 2 g1_read_raw) (flat_map g1_write_raw gl) gl).
  { rewrite <- Ll. apply reads_repeat. intros x I. apply reads_g1_raw, HG. auto. }
  unfold read_verifier_params, write_kzg; cbn [kz_k kz_n kz_g kz_gl kz_g2 kz_sg2].
  split.
  - eapply reads_bind; [apply reads_exact_n, le_bytes_length|]. cbv zeta. rewrite V, shl_small by exact K.
    cbn [ilift]. match goal with |- reads _ ?w _ => change w with ([] ++ w) end.
    eapply reads_bind; [apply reads_ret|]. change (Z.to_nat (2 ^ SHRINK_K)) with 2%nat.
    eapply reads_bind; [exact R1|]. eapply reads_bind; [exact R2|].
    eapply reads_bind; [apply reads_g2, H2|].
    apply (reads_map g2_read_raw (Kzg k (2 ^ k) g gl a)), reads_g2, HS.
  - eapply rejects_bind; [apply reads_exact_n, le_bytes_length|apply rejects_exact, le_bytes_length|].
    cbv zeta. rewrite V, shl_small by exact K.
    cbn [ilift]. match goal with |- rejects _ ?w => change w with ([] ++ w) end.
    eapply rejects_bind; [apply reads_ret|intros t T; destruct (trunc_nil _ T)|].
    change (Z.to_nat (2 ^ SHRINK_K)) with 2%nat.
    eapply rejects_bind; [exact R1| |].
    { rewrite <- Lg. apply rejects_repeat. intros x I. split; [apply reads_g1_raw|apply rejects_g1_raw]; auto. }
    eapply rejects_bind; [exact R2| |].
    { rewrite <- Ll. apply rejects_repeat. intros x I. split; [apply reads_g1_raw|apply rejects_g1_raw]; auto. }
    eapply rejects_bind; [apply reads_g2, H2|apply rejects_g2, H2|].
    apply rejects_map, rejects_g2, HS.
Qed.

Lemma firstn_in {A} (x : A) n l : In x (firstn n l) -> In x l.
Proof. intros I. rewrite <- (firstn_skipn n l). apply in_or_app. auto. Qed.

Lemma params_round pr p : valid_params p -> 1 <= kz_k p < 31 ->
  exists p', shrink p SHRINK_K = Ok p' /\
    kz_k p' = kz_k p /\ kz_n p' = 2 ^ kz_k p /\ kz_g p' = firstn 2 (kz_g p) /\ kz_gl p' = firstn 2 (kz_gl p) /\
    kz_g2 p' = kz_g2 p /\ kz_sg2 p' = kz_sg2 p /\
    (forall rest, read_verifier_params pr (write_kzg p' ++ rest) = IOk p' rest) /\
    (forall t, truncation t (write_kzg p') -> read_verifier_params pr t = IErr).
Proof.
  intros [Hn Hg Hl HC H2 HS] K. unfold shrink, SHRINK_K. destruct (Z.leb_spec 1 (kz_k p)); [|lia].
  cbv zeta. change (Z.to_nat (2 ^ 1)) with 2%nat. eexists. split; [reflexivity|].
  cbn [kz_k kz_n kz_g kz_gl kz_g2 kz_sg2]. do 6 (split; [first [reflexivity|exact Hn]|]).
  assert (P : (2 <= Z.to_nat (2 ^ kz_k p))%nat).
  { assert (2 ^ 1 <= 2 ^ kz_k p) by (apply Z.pow_le_mono_r; lia). lia. }
  apply (read_params pr (Kzg (kz_k p) (kz_n p) (firstn 2 (kz_g p)) (firstn 2 (kz_gl p)) (kz_g2 p) (kz_sg2 p)));
    cbn [kz_k kz_n kz_g kz_gl kz_g2 kz_sg2]; try assumption; try lia.
  - rewrite firstn_length. lia.
  - rewrite firstn_length. lia.
  - intros a [I|I]; apply HC; [left|right]; eapply firstn_in; exact I.
Qed.
