(** Facts about the on-chain program. *)
From Coq Require Import ZArith List Lia Bool Arith.
From Verif Require Import Base ListFacts Field FieldFacts LimbModel LimbBytes VMModel CompileFacts Halo2Model CircuitModel
  SerdeModel SerdeSpec SerdeFacts PointFacts ParamsFacts SelectorModel LimbSpec DomainModel VkModel VkSpec VkFacts VkReject CircuitFacts EntryModel EntrySpec.
Import ListNotations.

(** ** filling the arrays *)
Lemma skipn_skipn' {A} n : forall m (l : list A), skipn n (skipn m l) = skipn (m + n) l.
Proof. induction m as [|m IH]; intros l; [reflexivity|]. destruct l; cbn [skipn Nat.add]; [apply skipn_nil|apply IH]. Qed.
Lemma upd_spec {A} (l : list A) i x : i < length l -> upd l i x = firstn i l ++ x :: skipn (S i) l.
Proof.
  revert i. induction l as [|a l IH]; intros [|i] H; cbn [upd length firstn skipn app] in *; try lia; [reflexivity|].
  rewrite IH by lia. reflexivity.
Qed.
Lemma fill_ok {A} (f : nat -> A) : forall n idx l, idx + n + 1 <= length l ->
  array_fill f n idx l = Ok (firstn (idx + 1) l ++ map f (seq idx n) ++ skipn (idx + 1 + n) l).
Proof.
  induction n as [|n IH]; intros idx l H; cbn [array_fill seq map].
  - rewrite Nat.add_0_r, app_nil_l, firstn_skipn. reflexivity.
  - unfold array_set. destruct (Nat.ltb_spec (idx + 1) (length l)) as [L|L]; [|lia]. cbn [bind].
    rewrite IH by (rewrite upd_length; lia). f_equal. rewrite upd_spec by lia.
    set (a := firstn (idx + 1) l). assert (La : length a = idx + 1) by (unfold a; rewrite firstn_length; lia).
    replace (S idx + 1) with (length a + 1) by lia.
    rewrite firstn_app_2. cbn [firstn].
    replace (length a + 1 + n) with (length a + (1 + n)) by lia.
    rewrite skipn_app. rewrite (skipn_all2 a) by lia. replace (length a + (1 + n) - length a) with (S n) by lia.
    cbn [skipn app]. rewrite <- app_assoc. cbn [app]. do 3 f_equal.
    change (skipn n (skipn (S (idx + 1)) l) = skipn (idx + 1 + S n) l).
    rewrite skipn_skipn'. f_equal. lia.
Qed.
Lemma fill_panic {A} (f : nat -> A) : forall n idx l, 0 < n -> length l <= idx + n -> array_fill f n idx l = Panic.
Proof.
  induction n as [|n IH]; intros idx l P H; [lia|]. cbn [array_fill]. unfold array_set.
  destruct (Nat.ltb_spec (idx + 1) (length l)) as [L|L]; [|reflexivity]. cbn [bind].
  apply IH; [|rewrite upd_length]; lia.
Qed.
Lemma fill_column f n : n < 1024 ->
  (let! a := array_set (repeat (@f0 r_pos) 1024) 0 (FrZ (Z.of_nat n)) in
   let! a := array_fill f n 0 a in
   if length a <? n + 1 then Panic else Ok (firstn (n + 1) a)) = Ok (FrZ (Z.of_nat n) :: map f (seq 0 n)).
Proof.
  intros H. unfold array_set. rewrite repeat_length. change (0 <? 1024) with true. cbv iota. cbn [bind].
  set (l := upd (repeat f0 1024) 0 (FrZ (Z.of_nat n))).
  assert (L : length l = 1024) by (unfold l; rewrite upd_length, repeat_length; reflexivity).
  rewrite fill_ok by lia. cbn [bind]. rewrite !app_length, map_length, seq_length, firstn_length, skipn_length, L.
  destruct (Nat.ltb_spec (Nat.min (0 + 1) 1024 + (n + (1024 - (0 + 1 + n)))) (n + 1)) as [X|X]; [lia|]. f_equal.
  change (0 + 1) with 1.
  assert (E : firstn 1 l = [FrZ (Z.of_nat n)]) by reflexivity. rewrite E. cbn [app].
  replace (n + 1) with (S n) by lia. cbn [firstn]. f_equal.
  rewrite firstn_app, map_length, seq_length, Nat.sub_diag. cbn [firstn]. rewrite app_nil_r.
  rewrite firstn_all2 by (rewrite map_length, seq_length; lia). reflexivity.
Qed.
Lemma fill_long f n : 1024 <= n ->
  (let! a := array_set (repeat (@f0 r_pos) 1024) 0 (FrZ (Z.of_nat n)) in
   let! a := array_fill f n 0 a in
   if length a <? n + 1 then Panic else Ok (firstn (n + 1) a)) = Panic.
Proof.
  intros H. unfold array_set. rewrite repeat_length. change (0 <? 1024) with true. cbv iota. cbn [bind].
  rewrite fill_panic; [reflexivity|lia|]. rewrite upd_length, repeat_length. lia.
Qed.

Lemma nth_map_seq {A} (d : A) l : map (fun i => nth i l d) (seq 0 (length l)) = l.
Proof.
  induction l as [|a l IH]; [reflexivity|]. cbn [length seq map nth]. f_equal.
  rewrite <- seq_shift, map_map. exact IH.
Qed.
Lemma words_length b ws : words_of b ws -> length b = 2 * length ws.
Proof. induction 1; cbn [length]; lia. Qed.
Lemma words_exists b : forall n, length b = 2 * n -> exists ws, words_of b ws.
Proof.
  intros n. revert b. induction n as [|n IH]; intros b L.
  - destruct b; [|cbn in L; lia]. exists []. constructor.
  - destruct b as [|lo [|hi b]]; cbn [length] in L; try lia. destruct (IH b) as [ws W]; [lia|].
    eexists. constructor. exact W.
Qed.
Lemma words_fun b ws : words_of b ws -> forall ws', words_of b ws' -> ws = ws'.
Proof. induction 1 as [|lo hi b ws W IH]; intros ws' H; inversion H; subst; [reflexivity|]. f_equal. auto. Qed.
Lemma words_nth b ws : words_of b ws -> map (fun i => (nth (2 * i) b 0 + 256 * nth (2 * i + 1) b 0)%Z) (seq 0 (length ws)) = ws.
Proof.
  induction 1 as [|lo hi b ws W IH]; [reflexivity|]. cbn [length seq map]. f_equal.
  rewrite <- seq_shift, map_map. rewrite <- IH at 2. apply map_ext. intros i.
  replace (2 * S i + 1) with (S (S (2 * i + 1))) by lia. replace (2 * S i) with (S (S (2 * i))) by lia. reflexivity.
Qed.
Lemma even_mod b ws : words_of b ws -> length b mod 2 = 0 /\ length b / 2 = length ws.
Proof.
  intros W. rewrite (words_length _ _ W), Nat.mul_comm. split; [apply Nat.mod_mul|apply Nat.div_mul]; lia.
Qed.
Lemma decode_code_ok b ws : words_of b ws -> length ws < 1024 -> decode_code b = Ok (column ws).
Proof.
  intros W L. destruct (even_mod _ _ W) as [M D]. unfold decode_code. rewrite M. cbn [Nat.eqb negb].
  rewrite D. cbv zeta. rewrite fill_column by exact L. unfold column. do 2 f_equal.
  rewrite <- (words_nth b ws W) at 2. rewrite map_map. reflexivity.
Qed.
Lemma decode_code_long b ws : words_of b ws -> 1024 <= length ws -> decode_code b = Panic.
Proof.
  intros W L. destruct (even_mod _ _ W) as [M D]. unfold decode_code. rewrite M. cbn [Nat.eqb negb].
  rewrite D. cbv zeta. apply fill_long, L.
Qed.
Lemma decode_code_odd b : length b mod 2 <> 0 -> decode_code b = Panic.
Proof. intros H. unfold decode_code. apply Nat.eqb_neq in H. rewrite H. reflexivity. Qed.
Lemma decode_code_spec b : match decode_code b with
  | Ok c => exists ws, words_of b ws /\ length ws < 1024 /\ c = column ws
  | Panic => length b mod 2 <> 0 \/ 2048 <= length b
  end.
Proof.
  destruct (Nat.eq_dec (length b mod 2) 0) as [E|E]; [|rewrite decode_code_odd by exact E; tauto].
  destruct (words_exists b (length b / 2)) as [ws W]; [apply Nat.div_exact; lia|].
  destruct (Nat.lt_ge_cases (length ws) 1024) as [L|L].
  - rewrite (decode_code_ok b ws W L). eauto.
  - rewrite (decode_code_long b ws W L). right. rewrite (words_length _ _ W). lia.
Qed.
Lemma decode_input_spec b : decode_input b = if length b <? 1024 then Ok (column b) else Panic.
Proof.
  unfold decode_input. cbv zeta. destruct (Nat.ltb_spec (length b) 1024) as [L|L].
  - rewrite fill_column by exact L. unfold column. do 2 f_equal. rewrite <- (map_map (fun i => nth i b 0%Z) FrZ), nth_map_seq. reflexivity.
  - apply fill_long, L.
Qed.

(** ** the bytes in the transaction *)
Lemma u16_range pr x v : overflow pr 16 x = Ok v -> (0 <= v < 65536)%Z.
Proof.
  unfold overflow. destruct ((0 <=? x)%Z && (x <? 2 ^ 16)%Z) eqn:E.
  - apply andb_true_iff in E as [E1 E2]. apply Z.leb_le in E1. apply Z.ltb_lt in E2.
    intros H. apply ok_inj in H. subst. change (2 ^ 16)%Z with 65536%Z in E2. lia.
  - destruct pr; [discriminate|]. intros H. apply ok_inj in H. subst. apply Z.mod_pos_bound. reflexivity.
Qed.

Lemma op_range i : is_op i = true -> (0 <= i < 65536)%Z.
Proof.
  unfold is_op. rewrite existsb_exists. intros (x & I & E). apply Z.eqb_eq in E. subst x.
  repeat (destruct I as [<-|I]; [vm_compute; split; congruence|]). destruct I.
Qed.
Lemma upd_forall {A} (P : A -> Prop) x : P x -> forall l i, Forall P l -> Forall P (upd l i x).
Proof.
  intros H. induction l as [|a l IH]; intros [|i] F; cbn [upd]; try exact F; apply Forall_cons_iff in F as [F1 F2]; constructor; auto.
Qed.
Lemma store_forall {A} (P : A -> Prop) l i x l' : store l i x = Ok l' -> P x -> Forall P l -> Forall P l'.
Proof.
  unfold store. destruct (_ && _); [|discriminate]. intros H. apply ok_inj in H. subst. intros. apply upd_forall; assumption.
Qed.
Lemma loop_range pr : forall src s s', compile_loop pr s src = Ok s' ->
  Forall (fun w => (0 <= w < 65536)%Z) (c_instrs s) -> Forall (fun w => (0 <= w < 65536)%Z) (c_instrs s').
Proof.
  induction src as [|i src IH]; intros s s' E F; cbn [compile_loop] in E; [apply ok_inj in E; subst; exact F|].
  destruct (compile_step pr s i) as [s1|] eqn:S; [|discriminate]. cbn [bind] in E. apply (IH _ _ E). clear IH E.
  unfold compile_step in S. destruct (is_op i) eqn:O; cbn [negb] in S; [|apply ok_inj in S; subst; exact F].
  apply op_range in O. cbv zeta in S.
  assert (F1 : Forall (fun w => (0 <= w < 65536)%Z) (c_instrs s ++ [i])).
  { apply Forall_app. split; [exact F|]. repeat constructor; lia. }
  destruct (i =? LB)%Z; [|destruct (i =? RB)%Z].
  - destruct (overflow _ _ _); [|discriminate]. cbn [bind] in S. apply ok_inj in S. subst. cbn [c_instrs].
    apply Forall_app. split; [exact F1|]. repeat constructor; lia.
  - destruct (c_jstack s) as [|j js]; [discriminate|]. destruct (overflow _ _ _) as [t|] eqn:T; [|discriminate].
    cbn [bind] in S. apply u16_range in T. destruct (store _ _ _) as [l|] eqn:R; [|discriminate]. cbn [bind] in S.
    apply ok_inj in S. subst. cbn [c_instrs]. eapply store_forall; [exact R| |].
    + apply Z.mod_pos_bound. reflexivity.
    + apply Forall_app. split; [exact F1|]. repeat constructor; lia.
  - apply ok_inj in S. subst. exact F1.
Qed.
Lemma compile_range pr src ws : compile_to_u16 pr src = Ok ws -> Forall (fun w => (0 <= w < 65536)%Z) ws.
Proof.
  unfold compile_to_u16. destruct (compile_loop _ _ _) as [s|] eqn:E; [|discriminate]. cbn [bind]. intros H.
  apply ok_inj in H. subst. eapply loop_range; [exact E|]. constructor.
Qed.
Lemma code_words ws : Forall (fun w => (0 <= w < 65536)%Z) ws -> words_of (code_bytes ws) ws.
Proof.
  induction 1 as [|w ws H F IH]; [constructor|]. unfold code_bytes. cbn [flat_map le_bytes app].
  change 255%Z with (Z.ones 8). rewrite !Z.land_ones, Z.shiftr_div_pow2 by lia. change (2 ^ 8)%Z with 256%Z.
  replace w with (w mod 256 + 256 * (w / 256 mod 256))%Z at 3; [constructor; exact IH|].
  rewrite (Z.mod_small (w / 256) 256).
  - pose proof (Z.div_mod w 256). lia.
  - split; [apply Z.div_pos; lia|apply Z.div_lt_upper_bound; lia].
Qed.

Theorem published pr src ws input : compile_to_u16 pr src = Ok ws -> length ws < 1024 -> length input < 1024 ->
  exists code, compile pr src = Ok code /\
    decode_code (code_bytes ws) = Ok (nth 0 (public_inputs code input) []) /\
    decode_input input = Ok (nth 1 (public_inputs code input) []).
Proof.
  intros C L Li. exists (map FrZ ws). split; [unfold compile; rewrite C; reflexivity|]. unfold public_inputs. cbn [nth].
  split.
  - rewrite (decode_code_ok (code_bytes ws) ws); [|apply code_words, (compile_range pr src), C|exact L].
    unfold column, lenZ. rewrite map_length. reflexivity.
  - rewrite decode_input_spec. apply Nat.ltb_lt in Li. rewrite Li. reflexivity.
Qed.

(** ** exit codes *)
Lemma load_ok buffer w : match load_witness buffer w with
  | Some b => loads buffer w b
  | None => ~ exists b, loads buffer w b
  end.
Proof.
  unfold load_witness, loads. destruct w as [b|]; [|intros (b & E & _); discriminate].
  destruct (Z.leb_spec (lenZ b) buffer) as [L|L]; [split; [reflexivity|exact L]|].
  intros (b' & E & L'). injection E as <-. unfold lenZ in L. lia.
Qed.
Lemma loads_fun buffer w b b' : loads buffer w b -> loads buffer w b' -> b = b'.
Proof. intros [E _] [E' _]. rewrite E in E'. injection E' as <-. reflexivity. Qed.
Lemma loads_load buffer w b : loads buffer w b -> load_witness buffer w = Some b.
Proof. intros [-> L]. unfold load_witness, lenZ. apply Z.leb_le in L. rewrite L. reflexivity. Qed.

Section Entry.
Context {Params Key : Type}.
Variable read_params : list Z -> ior Params.
Variable read_key : list Z -> ior Key.
Variable verify : Params -> Key -> list (list Fr) -> list Z -> res bool.
Notation entry := (program_entry read_params read_key verify).
Notation rch := (reaches read_params read_key).
Notation fls := (fails read_params read_key).

(** a decoder that gives up *)
Definition decode_crash (witness : nat -> option (list Z)) : Prop :=
  (exists b, loads 2048 (witness 3) b /\ (length b mod 2 <> 0 \/ length b = 2048)) \/
  loads 1024 (witness 4) (match witness 4 with Some b => b | None => [] end) /\
    length (match witness 4 with Some b => b | None => [] end) = 1024.

Inductive outcome (witness : nat -> option (list Z)) : exit -> Prop :=
| out_fail : fls witness -> outcome witness (Exit (-1))
| out_crash_decode : decode_crash witness -> outcome witness Crash
| out_crash_parse : (exists b, loads 1024 (witness 0) b /\ read_params b = IPanic) \/
    (exists b, loads 4096 (witness 1) b /\ read_key b = IPanic) -> outcome witness Crash
| out_crash_verify ps vk ins proof : rch witness ps vk ins proof -> verify ps vk ins proof = Panic -> outcome witness Crash
| out_reject ps vk ins proof : rch witness ps vk ins proof -> verify ps vk ins proof = Ok false -> outcome witness (Exit (-2))
| out_accept ps vk ins proof : rch witness ps vk ins proof -> verify ps vk ins proof = Ok true -> outcome witness (Exit 0).

Lemma entry_outcome witness : outcome witness (entry witness).
Proof.
  unfold program_entry.
  pose proof (load_ok 1024 (witness 0)) as L0. destruct (load_witness 1024 (witness 0)) as [params|]; [|apply out_fail; unfold fails; tauto].
  pose proof (load_ok 4096 (witness 1)) as L1. destruct (load_witness 4096 (witness 1)) as [key|]; [|apply out_fail; unfold fails; tauto].
  pose proof (load_ok 8192 (witness 2)) as L2. destruct (load_witness 8192 (witness 2)) as [proof|]; [|apply out_fail; unfold fails; tauto].
  pose proof (load_ok 2048 (witness 3)) as L3. destruct (load_witness 2048 (witness 3)) as [code|]; [|apply out_fail; unfold fails; tauto].
  pose proof (decode_code_spec code) as D. destruct (decode_code code) as [cc|].
  2: { apply out_crash_decode. left. exists code. split; [exact L3|]. destruct L3 as [_ L3]. destruct D; [tauto|right; lia]. }
  destruct D as (ws & W & Lw & ->).
  pose proof (load_ok 1024 (witness 4)) as L4. destruct (load_witness 1024 (witness 4)) as [input|]; [|apply out_fail; unfold fails; tauto].
  rewrite decode_input_spec. destruct (Nat.ltb_spec (length input) 1024) as [Li|Li].
  2: { apply out_crash_decode. right. destruct L4 as [E4 L4]. rewrite E4. split; [split; [reflexivity|exact L4]|lia]. }
  destruct (read_params params) as [ps r| |] eqn:E0.
  2: { apply out_fail. unfold fails. do 5 right. left. exists params. split; [exact L0|]. rewrite E0. discriminate. }
  2: { apply out_crash_parse. left. eauto. }
  destruct (read_key key) as [vk r'| |] eqn:E1.
  2: { apply out_fail. unfold fails. do 6 right. exists key. split; [exact L1|]. rewrite E1. discriminate. }
  2: { apply out_crash_parse. right. eauto. }
  assert (R : rch witness ps vk [column ws; column input] proof).
  { exists params, key, code, input, ws, r, r'. tauto. }
  destruct (verify ps vk [column ws; column input] proof) as [[]|] eqn:V.
  - eapply out_accept; eassumption.
  - eapply out_reject; eassumption.
  - eapply out_crash_verify; eassumption.
Qed.
Lemma reaches_fun witness ps vk ins proof ps' vk' ins' proof' : rch witness ps vk ins proof -> rch witness ps' vk' ins' proof' ->
  ps = ps' /\ vk = vk' /\ ins = ins' /\ proof = proof'.
Proof.
  intros (p & k & c & i & w & r & q & P & K & X & C & I & W & _ & _ & E & EP & EK)
         (p' & k' & c' & i' & w' & r' & q' & P' & K' & X' & C' & I' & W' & _ & _ & E' & EP' & EK').
  pose proof (loads_fun _ _ _ _ P P'); subst p'. pose proof (loads_fun _ _ _ _ K K'); subst k'.
  pose proof (loads_fun _ _ _ _ X X'); subst proof'. pose proof (loads_fun _ _ _ _ C C'); subst c'.
  pose proof (loads_fun _ _ _ _ I I'); subst i'. pose proof (words_fun _ _ W _ W'); subst w'.
  rewrite EP in EP'. injection EP' as <- <-. rewrite EK in EK'. injection EK' as <- <-. subst. tauto.
Qed.
Lemma reaches_entry witness ps vk ins proof : rch witness ps vk ins proof -> entry witness =
  match verify ps vk ins proof with Panic => Crash | Ok false => Exit (-2) | Ok true => Exit 0 end.
Proof.
  intros (p & k & c & i & w & r & q & P & K & X & C & I & W & Lw & Li & E & EP & EK). subst ins.
  unfold program_entry. rewrite (loads_load _ _ _ P), (loads_load _ _ _ K), (loads_load _ _ _ X), (loads_load _ _ _ C).
  rewrite (decode_code_ok c w W Lw), (loads_load _ _ _ I), decode_input_spec. apply Nat.ltb_lt in Li. rewrite Li, EP, EK. reflexivity.
Qed.
Lemma fails_not_reach witness ps vk ins proof : fls witness -> ~ rch witness ps vk ins proof.
Proof.
  intros F (p & k & c & i & w & r & q & P & K & X & C & I & W & Lw & Li & E & EP & EK). unfold fails in F.
  destruct F as [F|[F|[F|[F|[F|[(b & L & F)|(b & L & F)]]]]]]; try (apply F; eauto; fail).
  - rewrite (loads_fun _ _ _ _ L P) in F. apply (F _ _ EP).
  - rewrite (loads_fun _ _ _ _ L K) in F. apply (F _ _ EK).
Qed.

Theorem exit_zero witness : entry witness = Exit 0 <->
  exists ps vk ins proof, rch witness ps vk ins proof /\ verify ps vk ins proof = Ok true.
Proof.
  split.
  - intros E. pose proof (entry_outcome witness) as O. rewrite E in O. inversion O; subst. eauto 8.
  - intros (ps & vk & ins & proof & R & V). rewrite (reaches_entry _ _ _ _ _ R), V. reflexivity.
Qed.
Theorem exit_reject witness : entry witness = Exit (-2) <->
  exists ps vk ins proof, rch witness ps vk ins proof /\ verify ps vk ins proof = Ok false.
Proof.
  split.
  - intros E. pose proof (entry_outcome witness) as O. rewrite E in O. inversion O; subst. eauto 8.
  - intros (ps & vk & ins & proof & R & V). rewrite (reaches_entry _ _ _ _ _ R), V. reflexivity.
Qed.
Theorem exit_fail witness : entry witness = Exit (-1) -> fls witness.
Proof. intros E. pose proof (entry_outcome witness) as O. rewrite E in O. inversion O; subst. assumption. Qed.
Theorem fail_exit witness : fls witness -> entry witness = Exit (-1) \/ entry witness = Crash.
Proof.
  intros F. pose proof (entry_outcome witness) as O. destruct O; try tauto;
    exfalso; eapply fails_not_reach; eassumption.
Qed.
Theorem exit_codes witness : entry witness = Crash \/ entry witness = Exit 0 \/ entry witness = Exit (-1) \/ entry witness = Exit (-2).
Proof. pose proof (entry_outcome witness) as O. destruct O; tauto. Qed.
(** without crashes in the decoders and parsers a failure gives -1 *)
Theorem fail_exit_exact witness : fls witness -> ~ decode_crash witness ->
  (forall b, loads 1024 (witness 0) b -> read_params b <> IPanic) -> (forall b, loads 4096 (witness 1) b -> read_key b <> IPanic) ->
  entry witness = Exit (-1).
Proof.
  intros F D P K. pose proof (entry_outcome witness) as O. destruct O; try tauto;
    try (exfalso; eapply fails_not_reach; eassumption).
  exfalso. destruct H as [(b & L & E)|(b & L & E)]; [apply (P b L E)|apply (K b L E)].
Qed.
End Entry.

(** ** the prover's transaction *)
Lemma g2_raw_length g : length (g2_write_raw g) = 128.
Proof.
  unfold g2_write_raw, fq2_write_raw, write_raw. rewrite !app_length, !le_bytes_length. reflexivity.
Qed.
Local Opaque g1_write_raw g2_write_raw.
Lemma kzg_length p : length (write_kzg p) = 260 + 64 * (length (kz_g p) + length (kz_gl p)).
Proof.
  unfold write_kzg. rewrite !app_length, le_bytes_length, !flat_raw_length, !g2_raw_length. lia.
Qed.
Theorem transaction pr stack verify p p' vk proof src ws code input :
  valid_params p -> (1 <= kz_k p < 31)%Z -> shrink p SHRINK_K = Ok p' ->
  valid_key pr stack bcs vk -> (lenZ (write_vk RawBytes vk) <= 4096)%Z -> (lenZ proof <= 8192)%Z ->
  compile_to_u16 pr src = Ok ws -> compile pr src = Ok code -> length ws < 1024 -> length input < 1024 ->
  bf_verifier pr stack verify (tx_witness (write_kzg p') (write_vk RawBytes vk) proof (code_bytes ws) input) =
  match verify p' vk (public_inputs code input) proof with
  | Panic => Crash | Ok false => Exit (-2) | Ok true => Exit 0
  end.
Proof.
  intros VP K S VK LK LP C C' L Li. unfold bf_verifier. apply reaches_entry.
  destruct (params_round pr p VP K) as (p1 & S1 & _ & _ & G & GL & _ & _ & R & _).
  rewrite S1 in S. apply ok_inj in S. subst p1.
  assert (code = map FrZ ws) as ->.
  { unfold compile in C'. rewrite C in C'. apply ok_inj in C'. symmetry. exact C'. }
  assert (W : words_of (code_bytes ws) ws) by (apply code_words, (compile_range pr src), C).
  exists (write_kzg p'), (write_vk RawBytes vk), (code_bytes ws), input, ws, [], [].
  unfold tx_witness, loads. cbn [nth_error]. repeat apply conj; try reflexivity; try assumption.
  - rewrite kzg_length, G, GL, !firstn_length. lia.
  - rewrite (words_length _ _ W). lia.
  - lia.
  - unfold public_inputs, column, lenZ. rewrite map_length. reflexivity.
  - rewrite <- (app_nil_r (write_kzg p')). apply R.
  - rewrite <- (app_nil_r (write_vk RawBytes vk)). apply read_write_vk; [exact VK|discriminate].
Qed.

(** ** a key nobody generated: no fixed commitments, every selector replaced by 1 *)
Definition odd_assignments : list selassign := map (fun i => SelAssign i 0 (EConst f1)) (seq 0 15).
Lemma odd_recreate : exists c, recreate bcs odd_assignments = Ok c.
Proof.
  destruct (recreate bcs odd_assignments) as [c|] eqn:E; [eauto|].
  assert (X : match recreate bcs odd_assignments with Ok _ => true | Panic => false end = true) by (vm_compute; reflexivity).
  rewrite E in X. discriminate.
Qed.
Lemma lzero_canonical : canonical q_pos lzero.
Proof. split; [repeat split; vm_compute; congruence|vm_compute; reflexivity]. Qed.
Lemma odd_key pr stack k : (0 <= k <= 24)%Z -> 1 <= stack ->
  exists v, valid_key pr stack bcs v /\ d_k (vk_domain v) = k /\ vk_assignments v = odd_assignments /\ vk_fixed v = [] /\
    (lenZ (write_vk RawBytes v) <= 4096)%Z.
Proof.
  intros K ST. destruct (create_ok pr k K) as (d & C & _). destruct odd_recreate as [c R].
  assert (P : perm_columns bcs = perm_columns bcs) by reflexivity.
  exists (from_parts d [] (repeat g1_identity (length (perm_columns bcs))) c odd_assignments).
  rewrite create_bcs in C. unfold from_parts.
  destruct (domain_new pr (Z.of_nat (cs_degree bcs)) k) as [d'|] eqn:E; [|discriminate]. cbn [bind] in C.
  apply ok_inj in C. injection C as <-.
  pose proof (domain_new_k _ _ _ _ E) as DK. cbn [vk_domain vk_fixed vk_assignments].
  split; [|split; [exact DK|split; [reflexivity|split; [reflexivity|]]]].
  - constructor; cbn [vk_domain vk_fixed vk_permutation vk_cs vk_degree vk_assignments].
    + rewrite DK. lia.
    + rewrite DK. exact E.
    + split; [reflexivity|constructor].
    + split; [apply repeat_length|]. apply Forall_forall. intros g I. apply repeat_spec in I. subst g.
      split; apply lzero_canonical.
    + unfold odd_assignments. split; [reflexivity|]. split; apply Forall_forall; intros a I; apply in_map_iff in I as (i & <- & I);
        apply in_seq in I.
      * split; [|split]; cbn [sa_selector sa_combination sa_expr SerdeSpec.fits]; unfold fits32; [lia|lia|exact Logic.I].
      * cbn [sa_expr depth]. exact ST.
    + split; [exact R|reflexivity].
  - unfold lenZ, write_vk. cbn [vk_domain vk_fixed vk_permutation vk_assignments]. unfold u32_be.
    rewrite !app_length, !be_bytes_length. cbn [flat_map]. rewrite flat_raw_length, repeat_length.
    change (length (perm_columns bcs)) with 16. change (length (@nil Z)) with 0.
    assert (X : length (flat_map (write_selassign RawBytes) odd_assignments) = 615) by (vm_compute; reflexivity).
    rewrite X. vm_compute. congruence.
Qed.

Theorem any_key pr stack (verify : kzg -> vkey -> list (list Fr) -> list Z -> res bool) p (proof : list Z) src ws (input : list Z) :
  1 <= stack -> valid_params p -> (1 <= kz_k p < 31)%Z -> (lenZ proof <= 8192)%Z ->
  compile_to_u16 pr src = Ok ws -> length ws < 1024 -> length input < 1024 ->
  (forall p v ins x, verify p v ins x = Ok true) ->
  exists w w' v v', bf_verifier pr stack verify w = Exit 0 /\ bf_verifier pr stack verify w' = Exit 0 /\
    w 1 = Some (write_vk RawBytes v) /\ w' 1 = Some (write_vk RawBytes v') /\ valid_key pr stack bcs v /\ valid_key pr stack bcs v' /\
    d_k (vk_domain v) = 9%Z /\ d_k (vk_domain v') = 10%Z /\
    w 0 = w' 0 /\ w 2 = w' 2 /\ w 3 = w' 3 /\ w 4 = w' 4.
Proof.
  intros ST VP K LP C L Li A.
  destruct (odd_key pr stack 9 ltac:(lia) ST) as (v & V & Kv & _ & _ & Lv).
  destruct (odd_key pr stack 10 ltac:(lia) ST) as (v' & V' & Kv' & _ & _ & Lv').
  destruct (params_round pr p VP K) as (p' & S & _).
  exists (tx_witness (write_kzg p') (write_vk RawBytes v) proof (code_bytes ws) input),
         (tx_witness (write_kzg p') (write_vk RawBytes v') proof (code_bytes ws) input), v, v'.
  assert (CC : compile pr src = Ok (map FrZ ws)) by (unfold compile; rewrite C; reflexivity).
  rewrite (transaction pr stack verify p p' v proof src ws _ input VP K S V Lv LP C CC L Li).
  rewrite (transaction pr stack verify p p' v' proof src ws _ input VP K S V' Lv' LP C CC L Li).
  rewrite !A. repeat apply conj; first [assumption|reflexivity].
Qed.

Lemma decode_code_panic b : decode_code b = Panic <-> length b mod 2 <> 0 \/ (2048 <= lenZ b)%Z.
Proof.
  unfold lenZ. pose proof (decode_code_spec b) as D. destruct (decode_code b) as [c|].
  - destruct D as (ws & W & L & _). destruct (even_mod _ _ W) as [M _]. pose proof (words_length _ _ W).
    split; [discriminate|]. intros [E|E]; [contradiction|lia].
  - split; [|reflexivity]. intros _. destruct D; [tauto|right; lia].
Qed.
Lemma decode_input_panic b : decode_input b = Panic <-> (1024 <= lenZ b)%Z.
Proof.
  unfold lenZ. rewrite decode_input_spec. destruct (Nat.ltb_spec (length b) 1024); split; try discriminate; try reflexivity; lia.
Qed.
(** a program of 1024 words, a length that is odd, an input of 1024 bytes *)
Lemma crash_case (code input : list Z) :
  (lenZ code = 2048 \/ (lenZ code <= 2048 /\ (length code mod 2 <> 0)%nat) \/ (lenZ code < 2048 /\ lenZ input = 1024))%Z ->
  forall Params Key rp rk verify params key proof, (lenZ params <= 1024 -> lenZ key <= 4096 -> lenZ proof <= 8192 ->
  @program_entry Params Key rp rk verify (tx_witness params key proof code input) = Crash)%Z.
Proof.
  intros H Params Key rp rk verify params key proof L1 L2 L3. unfold program_entry, tx_witness. cbn [nth_error].
  rewrite loads_load with (b := params), loads_load with (b := key), loads_load with (b := proof), loads_load with (b := code);
    try (split; [reflexivity|unfold lenZ in *; lia]).
  pose proof (decode_code_panic code) as D. destruct (decode_code code) as [c|]; [|reflexivity].
  destruct H as [H|[[H N]|[H N]]].
  - assert (X : Ok c = Panic) by (apply D; right; lia). discriminate.
  - assert (X : Ok c = Panic) by (apply D; left; exact N). discriminate.
  - rewrite loads_load with (b := input) by (split; [reflexivity|unfold lenZ in *; lia]).
    pose proof (decode_input_panic input) as D'. destruct (decode_input input) as [i|]; [|reflexivity].
    assert (X : Ok i = Panic) by (apply D'; lia). discriminate.
Qed.
