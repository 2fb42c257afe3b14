(** Facts about the serialisation model. *)
From Coq Require Import ZArith Znumtheory List Lia Bool.
From Verif Require Import Base Moduli Field FieldFacts LimbModel LimbSpec LimbFacts LimbField LimbBytes
  Halo2Model SelectorModel SerdeModel SerdeSpec.
Import ListNotations.
Local Open Scope Z_scope.

(** reading [w] gives [v] and leaves what follows *)
Definition reads {A} (r : reader A) (w : list Z) (v : A) : Prop := forall rest, r (w ++ rest) = IOk v rest.
(** and every proper prefix is an error *)
Definition rejects {A} (r : reader A) (w : list Z) : Prop := forall t, truncation t w -> r t = IErr.

Lemma trunc_nil {A} (t : list A) : ~ truncation t [].
Proof. intros (u & N & E). symmetry in E. apply app_eq_nil in E. tauto. Qed.
Lemma trunc_app {A} (t a b : list A) : truncation t (a ++ b) ->
  truncation t a \/ exists u, t = a ++ u /\ truncation u b.
Proof.
  intros (u & N & E). revert t E. induction a as [|x a IH]; intros t E.
  - right. exists t. split; [reflexivity|]. exists u. split; assumption.
  - destruct t as [|y t].
    + left. exists (x :: a). split; [discriminate|reflexivity].
    + cbn in E. injection E as <- E. destruct (IH t E) as [(v & Nv & Ev)|(v & -> & T)].
      * left. exists v. split; [assumption|]. cbn. f_equal. exact Ev.
      * right. exists v. split; [reflexivity|exact T].
Qed.

Lemma reads_ret {A} (v : A) : reads (iret v) [] v.
Proof. intros rest. reflexivity. Qed.
Lemma reads_bind {A B} (r : reader A) (f : A -> reader B) w w' v v' :
  reads r w v -> reads (f v) w' v' -> reads (ibind r f) (w ++ w') v'.
Proof. intros H K rest. unfold ibind. rewrite <- app_assoc, H. apply K. Qed.
Lemma reads_map {A B} (r : reader A) (g : A -> B) w v : reads r w v -> reads (ibind r (fun x => iret (g x))) w (g v).
Proof. intros H rest. unfold ibind. rewrite H. reflexivity. Qed.
Lemma reads_unwrap {A} (r : reader A) w v : reads r w v -> reads (iunwrap r) w v.
Proof. intros H rest. unfold iunwrap. rewrite H. reflexivity. Qed.
Lemma reads_exact l : reads (read_exact (length l)) l l.
Proof.
  intros rest. unfold read_exact. rewrite app_length.
  destruct (Nat.ltb_spec (length l + length rest) (length l)); [lia|].
  now rewrite firstn_app, skipn_app, Nat.sub_diag, firstn_all, skipn_all, firstn_O, app_nil_r.
Qed.
Lemma reads_exact_n n l : length l = n -> reads (read_exact n) l l.
Proof. intros <-. apply reads_exact. Qed.

Lemma rejects_bind {A B} (r : reader A) (f : A -> reader B) w w' v :
  reads r w v -> rejects r w -> rejects (f v) w' -> rejects (ibind r f) (w ++ w').
Proof.
  intros H R K t T. unfold ibind. destruct (trunc_app _ _ _ T) as [T'|(u & -> & T')].
  - now rewrite (R t T').
  - rewrite H. apply K. exact T'.
Qed.
Lemma rejects_map {A B} (r : reader A) (g : A -> reader B) w : rejects r w -> rejects (ibind r g) w.
Proof. intros H t T. unfold ibind. now rewrite (H t T). Qed.
Lemma rejects_exact n l : length l = n -> rejects (read_exact n) l.
Proof.
  intros <- t (u & N & E). unfold read_exact. subst l. rewrite app_length.
  destruct (Nat.ltb_spec (length t) (length t + length u)); [reflexivity|].
  destruct u; [contradiction|cbn in *; lia].
Qed.

(** integers *)
Lemma le_value_bytes n x : le_value (le_bytes n x) = x mod 256 ^ Z.of_nat n.
Proof.
  revert x. induction n as [|n IH]; intros x; cbn [le_bytes le_value].
  - rewrite Z.mod_1_r. reflexivity.
  - rewrite IH. change 255 with (Z.ones 8). rewrite Z.land_ones, Z.shiftr_div_pow2 by lia.
    change (2 ^ 8) with 256.
    replace (256 ^ Z.of_nat (S n)) with (256 * 256 ^ Z.of_nat n)
      by (rewrite Nat2Z.inj_succ, Z.pow_succ_r by lia; reflexivity).
    rewrite Z.rem_mul_r by lia. reflexivity.
Qed.
Lemma be_value_bytes n x : be_value (be_bytes n x) = x mod 256 ^ Z.of_nat n.
Proof. unfold be_value, be_bytes. rewrite rev_involutive. apply le_value_bytes. Qed.
Lemma be_bytes_length n x : length (be_bytes n x) = n.
Proof. unfold be_bytes. rewrite rev_length. apply le_bytes_length. Qed.

Lemma reads_u32 n : fits32 n -> reads read_u32 (u32_be n) n.
Proof.
  intros H. unfold fits32 in H.
  assert (E : Z.to_nat (be_value (u32_be n)) = n).
  { unfold u32_be. rewrite be_value_bytes. change (256 ^ Z.of_nat 4) with (2 ^ 32).
    rewrite Z.mod_small by lia. apply Nat2Z.id. }
  unfold read_u32. rewrite <- E at 2. apply (reads_map (read_exact 4) (fun b => Z.to_nat (be_value b))).
  apply reads_exact_n, be_bytes_length.
Qed.
Lemma reads_i32 z : fits_i32 z -> reads read_i32 (i32_be z) z.
Proof.
  intros H. unfold fits_i32 in H.
  set (g := fun b => let v := be_value b in if v <? 2 ^ 31 then v else v - 2 ^ 32).
  assert (E : g (i32_be z) = z).
  { unfold g, i32_be. rewrite be_value_bytes. change (256 ^ Z.of_nat 4) with (2 ^ 32). cbv zeta.
    destruct (Z_lt_ge_dec z 0).
    - replace (z mod 2 ^ 32) with (z + 2 ^ 32).
      + destruct (Z.ltb_spec (z + 2 ^ 32) (2 ^ 31)); lia.
      + apply Z.mod_unique with (-1); lia.
    - rewrite Z.mod_small by lia. destruct (Z.ltb_spec z (2 ^ 31)); lia. }
  rewrite <- E at 2. apply (reads_map (read_exact 4) g). apply reads_exact_n, be_bytes_length.
Qed.
Lemma reads_u8 z : byte z -> reads read_u8 [z] z.
Proof.
  intros H. unfold byte in H. assert (E : be_value [z] = z) by (unfold be_value; cbn; lia).
  rewrite <- E at 2. apply (reads_map (read_exact 1) be_value). apply reads_exact_n. reflexivity.
Qed.
Lemma be1 n : fits8 n -> be_bytes 1 (Z.of_nat n) = [Z.of_nat n].
Proof.
  intros H. unfold fits8 in H. unfold be_bytes. cbn [le_bytes rev app].
  change 255 with (Z.ones 8). rewrite Z.land_ones by lia. change (2 ^ 8) with 256.
  rewrite Z.mod_small by lia. reflexivity.
Qed.
Lemma reads_phase n : fits8 n -> reads read_u8 (be_bytes 1 (Z.of_nat n)) (Z.of_nat n).
Proof. intros H. rewrite (be1 n H). apply reads_u8. unfold fits8 in H. unfold byte. lia. Qed.
Lemma rejects_u32 n : rejects read_u32 (u32_be n).
Proof. apply rejects_map, rejects_exact, be_bytes_length. Qed.

(** field elements *)
Lemma reads_limb x : word x -> reads read_limb (le_bytes 8 x) x.
Proof.
  intros H. assert (E : le_value (le_bytes 8 x) = x).
  { rewrite le_value_bytes, <- W_256. unfold word in H. apply Z.mod_small. lia. }
  rewrite <- E at 2. apply (reads_map (read_exact 8) le_value). apply reads_exact_n, le_bytes_length.
Qed.
Lemma rejects_limb x : rejects read_limb (le_bytes 8 x).
Proof. apply rejects_map, rejects_exact, le_bytes_length. Qed.

Section G.
Variables (P : params) (p : positive).
Hypothesis G : good P p.

Lemma below x : canonical p x -> is_less_than x (modulus P) = true.
Proof.
  intros (A & L). rewrite is_less_than_spec by (try assumption; apply (g_words _ _ G)).
  rewrite (g_val _ _ G). apply Z.ltb_lt. exact L.
Qed.
Lemma reads_raw x : canonical p x -> reads (read_raw P) (write_raw x) x.
Proof.
  intros H. pose proof (below x H) as B. destruct H as ((A0 & A1 & A2 & A3) & _).
  unfold read_raw, write_raw. destruct x as [a b c d]; cbn [l0 l1 l2 l3] in *.
  do 3 (eapply reads_bind; [apply reads_limb; assumption|]).
  rewrite <- (app_nil_r (le_bytes 8 d)). eapply reads_bind; [apply reads_limb; assumption|].
  cbv zeta. rewrite B. apply reads_ret.
Qed.
Lemma reads_raw_unchecked x : words4 x -> reads read_raw_unchecked (write_raw x) x.
Proof.
  intros (A0 & A1 & A2 & A3).
  unfold read_raw_unchecked, write_raw. destruct x as [a b c d]; cbn [l0 l1 l2 l3] in *.
  do 3 (eapply reads_bind; [apply reads_unwrap, reads_limb; assumption|]).
  rewrite <- (app_nil_r (le_bytes 8 d)). eapply reads_bind; [apply reads_unwrap, reads_limb; assumption|].
  apply reads_ret.
Qed.
Lemma rejects_raw x : canonical p x -> rejects (read_raw P) (write_raw x).
Proof.
  intros ((A0 & A1 & A2 & A3) & _).
  unfold read_raw, write_raw.
  do 3 (eapply rejects_bind; [apply reads_limb; assumption|apply rejects_limb|]).
  apply rejects_map, rejects_limb.
Qed.
Lemma reads_processed x : canonical p x -> reads (read_field P Processed) (write_field P Processed x) x.
Proof.
  intros H. cbn [read_field write_field]. destruct (canonical_rep P p G x H) as (a & R).
  destruct (to_repr_ok P p G x a R) as (L & _ & _).
  intros rest. unfold ibind. rewrite (reads_exact_n 32 _ L rest), (to_from P p G x a R). reflexivity.
Qed.
Lemma reads_field f x : canonical p x -> reads (read_field P f) (write_field P f x) x.
Proof.
  intros H. destruct f; cbn [read_field write_field];
    [apply reads_processed|apply reads_raw|apply reads_raw_unchecked]; try exact H. apply H.
Qed.
End G.

Lemma lo_words x : 0 <= x < 2 ^ 256 ->
  let l := L4 (lo64 x) (lo64 (Z.shiftr x 64)) (lo64 (Z.shiftr x 128)) (lo64 (Z.shiftr x 192)) in
  words4 l /\ v4 l = x.
Proof.
  intros H l. unfold l, words4, v4, word; cbn [l0 l1 l2 l3]. rewrite !lo64_mod.
  rewrite !Z.shiftr_div_pow2 by lia. rewrite W_pow in *.
  pose proof (fun y => Z.mod_pos_bound y (2 ^ 64) ltac:(lia)) as M. split; [repeat split; apply M|].
  replace (2 ^ 128) with (2 ^ 64 * 2 ^ 64) by reflexivity. rewrite <- Z.div_div by lia.
  replace (2 ^ 192) with (2 ^ 64 * (2 ^ 64 * 2 ^ 64)) by reflexivity. rewrite <- !Z.div_div by lia.
  set (D := 2 ^ 64) in *. assert (HD : D * (D * (D * D)) = 2 ^ 256) by reflexivity.
  assert (S3 : x / D / D / D mod D = x / D / D / D).
  { apply Z.mod_small. split; [repeat apply Z.div_pos; lia|]. rewrite !Z.div_div by lia.
    apply Z.div_lt_upper_bound; lia. }
  rewrite S3. pose proof (Z.div_mod x D ltac:(lia)). pose proof (Z.div_mod (x / D) D ltac:(lia)).
  pose proof (Z.div_mod (x / D / D) D ltac:(lia)). lia.
Qed.
Lemma fr_limbs_rep a : rep r_pos (fr_limbs a) a.
Proof.
  unfold fr_limbs. pose proof (fval_range a) as R.
  assert (H : 0 <= fval a < 2 ^ 256). { split; [lia|]. assert (Zpos r_pos < 2 ^ 256) by reflexivity. lia. }
  destruct (lo_words _ H) as (A & V). cbv zeta in A, V.
  pose proof (from_raw_rep fr_params r_pos good_fr _ A) as K. rewrite V, of_Z_fval in K. exact K.
Qed.
Lemma fr_value_rep x a : rep r_pos x a -> fr_value x = a.
Proof.
  intros H. unfold fr_value. destruct (to_repr_ok fr_params r_pos good_fr x a H) as (_ & _ & V).
  rewrite le_value_int, V. apply of_Z_fval.
Qed.
Lemma rep_canonical x (a : Fr) : rep r_pos x a -> canonical r_pos x.
Proof. intros H. split; [apply H|]. pose proof (rep_val r_pos x a H). lia. Qed.
Lemma reads_fr f a : reads (read_fr f) (write_fr f a) a.
Proof.
  pose proof (fr_limbs_rep a) as R. rewrite <- (fr_value_rep _ _ R) at 2. unfold read_fr.
  apply (reads_map (read_field fr_params f) fr_value). unfold write_fr.
  apply (reads_field fr_params r_pos good_fr). eapply rep_canonical, R.
Qed.

Lemma write_fr_raw f c : f <> Processed -> write_fr RawBytes c = write_fr f c.
Proof. intros N. destruct f; [congruence|reflexivity|reflexivity]. Qed.

(** expressions *)
Lemma reads_query q : fits_query q -> reads read_query (write_query q) q.
Proof.
  intros (A & B & C). unfold read_query, write_query. destruct q as [i c r]; cbn [q_index q_col q_rot] in *.
  eapply reads_bind; [apply reads_u32, A|]. eapply reads_bind; [apply reads_u32, B|].
  rewrite <- (app_nil_r (i32_be r)). eapply reads_bind; [apply reads_i32, C|]. apply reads_ret.
Qed.
Local Opaque read_query read_u32 read_u8 read_fr write_fr write_query u32_be be_bytes.
Ltac tag := eapply reads_bind; [apply reads_u8; unfold byte; lia|]; cbv beta iota.
Theorem read_write_expr f e : fits e -> forall stack, (depth e <= stack)%nat ->
  reads (read_expr stack f) (write_expr f e) e.
Proof.
  induction e; intros Hf stack D; (destruct stack as [|n]; [cbn [depth] in D; lia|]);
    cbn [read_expr write_expr fits depth] in *; tag.
  - apply (reads_map (iunwrap (read_fr f)) EConst), reads_unwrap, reads_fr.
  - eapply reads_bind; [apply reads_u32, Hf|].
    replace (ESelector s) with (ESelector (Sel (sel_index s) (negb ((if sel_simple s then 1 else 0) =? 0))))
      by (destruct s as [i []]; reflexivity).
    apply (reads_map read_u8 (fun a => ESelector (Sel (sel_index s) (negb (a =? 0))))).
    apply reads_u8. unfold byte. destruct (sel_simple s); lia.
  - apply (reads_map read_query EFixed), reads_query, Hf.
  - destruct Hf as [Hq Hp]. eapply reads_bind; [apply reads_query, Hq|].
    rewrite <- (Nat2Z.id phase) at 2.
    apply (reads_map read_u8 (fun p => EAdvice q (Z.to_nat p))), reads_phase, Hp.
  - apply (reads_map read_query EInstance), reads_query, Hf.
  - destruct Hf as [Hi Hp]. eapply reads_bind; [apply reads_u32, Hi|].
    replace (EChallenge c) with (EChallenge (Chal (ch_index c) (Z.to_nat (Z.of_nat (ch_phase c)))))
      by (rewrite Nat2Z.id; destruct c; reflexivity).
    apply (reads_map read_u8 (fun p => EChallenge (Chal (ch_index c) (Z.to_nat p)))), reads_phase, Hp.
  - apply (reads_map (read_expr n f) ENeg), IHe; [exact Hf|lia].
  - destruct Hf as [Ha Hb]. eapply reads_bind; [apply IHe1; [exact Ha|lia]|].
    apply (reads_map (read_expr n f) (ESum e1)), IHe2; [exact Hb|lia].
  - destruct Hf as [Ha Hb]. eapply reads_bind; [apply IHe1; [exact Ha|lia]|].
    apply (reads_map (read_expr n f) (EProd e1)), IHe2; [exact Hb|lia].
  - eapply reads_bind; [apply IHe; [exact Hf|lia]|].
    apply (reads_map (read_fr f) (EScaled e)), reads_fr.
Qed.

Theorem read_write_selassign a : fits_assign a -> forall stack f, (depth (sa_expr a) <= stack)%nat -> f <> Processed ->
  reads (read_selassign stack) (write_selassign f a) a.
Proof.
  intros (A & B & C) stack f D N. unfold read_selassign, write_selassign.
  eapply reads_bind; [apply reads_u32, A|]. eapply reads_bind; [apply reads_u32, B|].
  destruct a as [s c e]; cbn [sa_selector sa_combination sa_expr] in *.
  apply (reads_map (iunwrap (read_expr stack RawBytes)) (SelAssign s c)), reads_unwrap.
  replace (write_expr f e) with (write_expr RawBytes e).
  - apply read_write_expr; assumption.
  - pose proof (fun c => write_fr_raw f c N) as W.
    clear - W. induction e; cbn [write_expr]; congruence.
Qed.

