(** Bracket balance and the compiler: proofs for C04-C07. *)
From Coq Require Import ZArith List Lia Bool.
From Verif Require Import Base Field ListFacts BFSpec BFFacts CompileSpec VMModel VMCompile VMSim.
Import ListNotations.
Local Open Scope Z_scope.

(** ** Balance *)

Lemma depth_cons c l : depth (c :: l) = step_depth c + depth l.
Proof. reflexivity. Qed.
Lemma depth_app l m : depth (l ++ m) = depth l + depth m.
Proof. induction l as [|c l IH]; [reflexivity|]. cbn [app]. rewrite !depth_cons, IH. lia. Qed.

Lemma is_instr_op c : is_instr c = is_op c.
Proof.
  destruct (is_op c) eqn:E.
  - apply is_op_spec in E. apply existsb_exists. exists c. split; [exact E|apply Z.eqb_refl].
  - destruct (is_instr c) eqn:E'; [|reflexivity].
    apply existsb_exists in E'. destruct E' as [x [Hx Ex]]. apply Z.eqb_eq in Ex. subst x.
    apply is_op_spec in Hx. congruence.
Qed.

Lemma ops_app l m : ops (l ++ m) = ops l ++ ops m.
Proof. apply filter_app. Qed.

Lemma ops_ops l : ops (ops l) = ops l.
Proof.
  unfold ops. induction l as [|c l IH]; [reflexivity|]. cbn [filter].
  destruct (is_instr c) eqn:E; [|exact IH]. cbn [filter]. rewrite E, IH. reflexivity.
Qed.

(** Recursive form of balance, with [d] brackets already open. *)
Fixpoint bal (d : Z) (l : list Z) : Prop :=
  match l with
  | [] => d = 0
  | c :: t => 0 <= d + step_depth c /\ bal (d + step_depth c) t
  end.

Lemma bal_iff l : forall d, 0 <= d ->
  (bal d l <-> (d + depth l = 0 /\ forall n, 0 <= d + depth (firstn n l))).
Proof.
  induction l as [|c l IH]; intros d Hd.
  - cbn. split; [intros ->|lia]. split; [lia|]. intros n. destruct n; cbn; lia.
  - cbn [bal]. rewrite depth_cons. split.
    + intros [H1 H2]. apply IH in H2; [|exact H1]. destruct H2 as [H2 H3]. split; [lia|].
      intros [|n]; [cbn; lia|]. cbn [firstn]. rewrite depth_cons. specialize (H3 n). lia.
    + intros [H1 H2]. assert (H3 : 0 <= d + step_depth c).
      { specialize (H2 1%nat). cbn [firstn] in H2. rewrite depth_cons in H2. cbn [depth fold_right] in H2. lia. }
      split; [exact H3|]. apply IH; [exact H3|]. split; [lia|].
      intros n. specialize (H2 (S n)). cbn [firstn] in H2. rewrite depth_cons in H2. lia.
Qed.

Lemma balanced_bal l : balanced l <-> bal 0 l.
Proof. unfold balanced. rewrite (bal_iff l 0) by lia. reflexivity. Qed.

Lemma step_depth_simple c : c <> chr_open -> c <> chr_close -> step_depth c = 0.
Proof.
  intros H1 H2. unfold step_depth.
  rewrite (proj2 (Z.eqb_neq _ _) H1), (proj2 (Z.eqb_neq _ _) H2). reflexivity.
Qed.

Lemma not_instr_step c : ~ List.In c instr_chars -> step_depth c = 0.
Proof.
  intros H. apply step_depth_simple; intros ->; apply H; unfold instr_chars; cbn; tauto.
Qed.

Lemma parses_bal src p : parses src p -> forall d rest, 0 <= d ->
  bal d rest -> bal d (src ++ rest).
Proof.
  induction 1 as [|c s p Hc Hp IH|s p Hp IH|s p Hp IH|s p Hp IH|s p Hp IH|s p Hp IH|s p Hp IH
                  |b body s p Hb IHb Hp IHp]; intros d rest Hd Hr; cbn [app bal].
  - exact Hr.
  - rewrite (not_instr_step _ Hc), Z.add_0_r. split; [exact Hd|]. apply IH; assumption.
  - change (step_depth chr_right) with 0. rewrite Z.add_0_r. split; [exact Hd|]. apply IH; assumption.
  - change (step_depth chr_left) with 0. rewrite Z.add_0_r. split; [exact Hd|]. apply IH; assumption.
  - change (step_depth chr_inc) with 0. rewrite Z.add_0_r. split; [exact Hd|]. apply IH; assumption.
  - change (step_depth chr_dec) with 0. rewrite Z.add_0_r. split; [exact Hd|]. apply IH; assumption.
  - change (step_depth chr_out) with 0. rewrite Z.add_0_r. split; [exact Hd|]. apply IH; assumption.
  - change (step_depth chr_in) with 0. rewrite Z.add_0_r. split; [exact Hd|]. apply IH; assumption.
  - change (step_depth chr_open) with 1. split; [lia|].
    rewrite <- app_assoc. apply IHb; [lia|]. cbn [app bal].
    change (step_depth chr_close) with (-1).
    replace (d + 1 + -1) with d by lia. split; [exact Hd|]. apply IHp; assumption.
Qed.

(** [d] balanced pieces separated by closing brackets, and one more. *)
Fixpoint pieces (d : nat) (l : list Z) : Prop :=
  match d with
  | O => exists p, parses l p
  | S k => exists s0 p0 s', l = s0 ++ chr_close :: s' /\ parses s0 p0 /\ pieces k s'
  end.

Lemma pieces_cons d c l : (forall s p, parses s p -> exists p', parses (c :: s) p') ->
  pieces d l -> pieces d (c :: l).
Proof.
  intros Hc. destruct d; cbn.
  - intros [p Hp]. apply (Hc _ _ Hp).
  - intros [s0 [p0 [s' [-> [Hp Hs]]]]]. destruct (Hc _ _ Hp) as [p1 Hp1].
    exists (c :: s0), p1, s'. split; [reflexivity|]. split; assumption.
Qed.

Lemma bal_pieces l : forall d, bal (Z.of_nat d) l -> pieces d l.
Proof.
  induction l as [|c l IH]; intros d Hb; cbn [bal] in Hb.
  - assert (d = 0%nat) as -> by lia. exists []. constructor.
  - destruct Hb as [H0 Hb].
    destruct (Z.eq_dec c chr_open) as [->|N1].
    { change (step_depth chr_open) with 1 in Hb.
      replace (Z.of_nat d + 1) with (Z.of_nat (S d)) in Hb by lia.
      destruct (IH _ Hb) as [s0 [p0 [s' [-> [Hp Hs]]]]].
      destruct d; cbn in Hs |- *.
      - destruct Hs as [p Hp']. exists (Loop p0 :: p). apply P_loop; assumption.
      - destruct Hs as [s1 [p1 [s'' [-> [Hp1 Hs'']]]]].
        exists (chr_open :: s0 ++ chr_close :: s1), (Loop p0 :: p1), s''. split.
        + cbn [app]. rewrite <- app_assoc. reflexivity.
        + split; [apply P_loop; assumption|assumption]. }
    destruct (Z.eq_dec c chr_close) as [->|N2].
    { change (step_depth chr_close) with (-1) in *. destruct d as [|d]; [lia|].
      replace (Z.of_nat (S d) + -1) with (Z.of_nat d) in Hb by lia.
      exists [], [], l. split; [reflexivity|]. split; [constructor|]. apply IH, Hb. }
    rewrite (step_depth_simple _ N1 N2), Z.add_0_r in Hb.
    apply pieces_cons; [|apply IH, Hb]. intros s p Hp.
    destruct (is_instr c) eqn:E.
    + apply existsb_exists in E. destruct E as [x [Hx E]]. apply Z.eqb_eq in E. subst x.
      cbn in Hx. destruct Hx as [<-|[<-|[<-|[<-|[<-|[<-|[<-|[<-|[]]]]]]]]];
        try contradiction; eexists; constructor; exact Hp.
    + exists p. apply P_comment; [|exact Hp]. intros Hin.
      assert (is_instr c = true); [|congruence].
      apply existsb_exists. exists c. split; [exact Hin|apply Z.eqb_refl].
Qed.

Lemma balanced_parses src : balanced src <-> exists p, parses src p.
Proof.
  rewrite balanced_bal. split.
  - intros H. exact (bal_pieces src 0 H).
  - intros [p Hp]. rewrite <- (app_nil_r src). apply (parses_bal _ _ Hp); [lia|reflexivity].
Qed.

Lemma layout_cons c l : layout (c :: l) = width c + layout l.
Proof. reflexivity. Qed.
Lemma layout_app l m : layout (l ++ m) = layout l + layout m.
Proof. induction l as [|c l IH]; [reflexivity|]. cbn [app]. rewrite !layout_cons, IH. lia. Qed.
Lemma width_range c : 1 <= width c <= 2.
Proof. unfold width. destruct ((c =? chr_open) || (c =? chr_close)); lia. Qed.
Lemma layout_nonneg l : 0 <= layout l.
Proof.
  induction l as [|c l IH]; [cbn; lia|]. rewrite layout_cons. pose proof (width_range c). lia.
Qed.

Lemma word_count_parses src p : parses src p -> word_count src = program_words p.
Proof.
  unfold word_count.
  induction 1 as [|c s p Hc Hp IH|s p Hp IH|s p Hp IH|s p Hp IH|s p Hp IH|s p Hp IH|s p Hp IH
                  |b body s p Hb IHb Hp IHp].
  - reflexivity.
  - cbn [ops filter]. destruct (is_instr c) eqn:E; [|exact IH].
    exfalso. apply Hc. rewrite is_instr_op in E. apply is_op_spec, E.
  - rewrite program_words_cons, <- IH. reflexivity.
  - rewrite program_words_cons, <- IH. reflexivity.
  - rewrite program_words_cons, <- IH. reflexivity.
  - rewrite program_words_cons, <- IH. reflexivity.
  - rewrite program_words_cons, <- IH. reflexivity.
  - rewrite program_words_cons, <- IH. reflexivity.
  - rewrite program_words_cons, words_loop, <- IHp, <- IHb.
    change (chr_open :: b ++ chr_close :: s) with ([chr_open] ++ b ++ [chr_close] ++ s).
    rewrite !ops_app, !layout_app.
    change (layout (ops [chr_open])) with 2. change (layout (ops [chr_close])) with 2. lia.
Qed.

(** ** Comments (C05) *)

Lemma compile_loop_ops pr src : forall s, compile_loop pr s src = compile_loop pr s (ops src).
Proof.
  induction src as [|c src IH]; intros s; [reflexivity|].
  cbn [ops filter]. rewrite is_instr_op. destruct (is_op c) eqn:E.
  - cbn [compile_loop]. destruct (compile_step pr s c); [apply IH|reflexivity].
  - cbn [compile_loop]. unfold compile_step. rewrite E. cbn [negb bind]. apply IH.
Qed.

Lemma compile_ops pr src : compile pr src = compile pr (ops src).
Proof. unfold compile, compile_to_u16. rewrite compile_loop_ops. reflexivity. Qed.

(** ** Invariant of the compiler loop *)

Record cinv (done : list Z) (s : cstate) : Prop := {
  ci_len : lenZ (c_instrs s) = word_count done;
  ci_depth : Z.of_nat (length (c_jstack s)) = depth (ops done);
  ci_ops : forall i c, nth_error (ops done) i = Some c ->
      word (c_instrs s) (addr (ops done) i) = Some c;
  ci_stack : Forall (fun j => exists i, nth_error (ops done) i = Some chr_open /\
      j = addr (ops done) i + 1) (c_jstack s)
}.

Lemma addr_app_lt l m i : (i <= length l)%nat -> addr (l ++ m) i = addr l i.
Proof.
  intros H. unfold addr. rewrite firstn_app. replace (i - length l)%nat with 0%nat by lia.
  cbn [firstn]. rewrite app_nil_r. reflexivity.
Qed.
Lemma addr_length l : addr l (length l) = layout l.
Proof. unfold addr. rewrite firstn_all. reflexivity. Qed.

Lemma firstn_S_nth {A} (l : list A) i x : nth_error l i = Some x -> firstn (S i) l = firstn i l ++ [x].
Proof.
  revert i; induction l as [|h t IH]; intros [|i] H; cbn in *; try discriminate.
  - congruence.
  - f_equal. apply IH, H.
Qed.

Lemma addr_S l i c : nth_error l i = Some c -> addr l (S i) = addr l i + width c.
Proof.
  intros H. unfold addr. rewrite (firstn_S_nth _ _ _ H), layout_app, layout_cons.
  change (layout []) with 0. lia.
Qed.

Lemma addr_mono l i j : (i <= j)%nat -> addr l i <= addr l j.
Proof.
  intros H. unfold addr. rewrite <- (firstn_skipn i (firstn j l)).
  rewrite firstn_firstn, Nat.min_l, layout_app by exact H.
  pose proof (layout_nonneg (skipn i (firstn j l))). lia.
Qed.

Lemma addr_nonneg l i : 0 <= addr l i.
Proof. apply layout_nonneg. Qed.

Lemma addr_lt_layout l i c : nth_error l i = Some c -> addr l i + width c <= layout l.
Proof.
  intros H. rewrite <- (addr_S _ _ _ H), <- addr_length. apply addr_mono.
  assert (i < length l)%nat by (apply nth_error_Some; congruence). lia.
Qed.

(** An address of an instruction is not the jump word of a bracket. *)
Lemma addr_not_jump l i k c : nth_error l i = Some chr_open -> nth_error l k = Some c ->
  addr l k <> addr l i + 1.
Proof.
  intros Hi Hk E.
  assert (Wi : width chr_open = 2) by reflexivity. pose proof (addr_S _ _ _ Hi) as Si.
  destruct (Nat.lt_trichotomy i k) as [L|[->|L]].
  - pose proof (addr_mono l (S i) k ltac:(lia)). lia.
  - lia.
  - pose proof (addr_mono l k i ltac:(lia)). lia.
Qed.

Lemma word_app_l ws m a c : word ws a = Some c -> word (ws ++ m) a = Some c.
Proof.
  unfold word. destruct (a <? 0); [discriminate|]. intros H.
  rewrite nth_error_app1; [exact H|]. apply nth_error_Some. congruence.
Qed.
Lemma word_app_r ws m k : 0 <= k -> word (ws ++ m) (lenZ ws + k) = word m k.
Proof.
  intros Hk. pose proof (lenZ_nonneg ws). unfold word.
  destruct (Z.ltb_spec (lenZ ws + k) 0); [lia|]. destruct (Z.ltb_spec k 0); [lia|].
  rewrite nth_error_app2 by (unfold lenZ; lia). f_equal. unfold lenZ. lia.
Qed.
Lemma word_upd_neq ws j x a : 0 <= j -> a <> j -> word (upd ws (Z.to_nat j) x) a = word ws a.
Proof.
  intros Hj H. unfold word. destruct (Z.ltb_spec a 0); [reflexivity|].
  apply nth_error_upd_neq. lia.
Qed.

Lemma ops_snoc done c : ops (done ++ [c]) = if is_op c then ops done ++ [c] else ops done.
Proof.
  rewrite ops_app. unfold ops at 2. cbn [filter]. rewrite is_instr_op.
  destruct (is_op c); [reflexivity|apply app_nil_r].
Qed.

Lemma nth_error_snoc {A} (l : list A) x i y :
  nth_error (l ++ [x]) i = Some y ->
  nth_error l i = Some y /\ (i < length l)%nat \/ i = length l /\ y = x.
Proof.
  intros H. destruct (Nat.lt_ge_cases i (length l)) as [L|L].
  - left. rewrite nth_error_app1 in H by exact L. auto.
  - right. rewrite nth_error_app2 in H by exact L.
    destruct (i - length l)%nat as [|k] eqn:E; cbn in H; [|destruct k; discriminate].
    split; [lia|congruence].
Qed.

(** Extending the invariant by one instruction whose words are appended. *)
Lemma ops_extend l ws c tl :
  lenZ ws = layout l ->
  (forall i d, nth_error l i = Some d -> word ws (addr l i) = Some d) ->
  forall i d, nth_error (l ++ [c]) i = Some d -> word (ws ++ c :: tl) (addr (l ++ [c]) i) = Some d.
Proof.
  intros Hl Ho i d H. apply nth_error_snoc in H. destruct H as [[H L]|[-> ->]].
  - rewrite addr_app_lt by lia. apply word_app_l, Ho, H.
  - rewrite addr_app_lt, addr_length, <- Hl by lia.
    rewrite <- (Z.add_0_r (lenZ ws)). rewrite word_app_r by lia. reflexivity.
Qed.

Lemma stack_extend l c st :
  Forall (fun j => exists i, nth_error l i = Some chr_open /\ j = addr l i + 1) st ->
  Forall (fun j => exists i, nth_error (l ++ [c]) i = Some chr_open /\ j = addr (l ++ [c]) i + 1) st.
Proof.
  apply Forall_impl. intros j [i [H ->]]. exists i.
  assert (L : (i < length l)%nat) by (apply nth_error_Some; congruence).
  rewrite nth_error_app1, addr_app_lt by lia. auto.
Qed.

Lemma stack_in_range l (ws : list Z) st :
  lenZ ws = layout l ->
  Forall (fun j => exists i, nth_error l i = Some chr_open /\ j = addr l i + 1) st ->
  Forall (fun j => 1 <= j < lenZ ws) st.
Proof.
  intros Hl. apply Forall_impl. intros j [i [H ->]].
  pose proof (addr_lt_layout _ _ _ H) as HL. change (width chr_open) with 2 in HL.
  pose proof (addr_nonneg l i). lia.
Qed.

Lemma width_simple c : c <> chr_open -> c <> chr_close -> width c = 1.
Proof.
  intros H1 H2. unfold width.
  rewrite (proj2 (Z.eqb_neq _ _) H1), (proj2 (Z.eqb_neq _ _) H2). reflexivity.
Qed.

Lemma compile_step_inv pr done s c :
  cinv done s -> word_count (done ++ [c]) <= 65535 ->
  (c = chr_close /\ c_jstack s = [] /\ compile_step pr s c = Panic) \/
  (exists s', compile_step pr s c = Ok s' /\ cinv (done ++ [c]) s').
Proof.
  intros I Hc. pose proof (ci_len _ _ I) as Hl.
  unfold word_count in *. rewrite ops_snoc in Hc.
  destruct (is_op c) eqn:E.
  2: { right. exists s. unfold compile_step. rewrite E. split; [reflexivity|].
       destruct I. constructor; unfold word_count; rewrite ops_snoc, E; assumption. }
  rewrite layout_app, layout_cons in Hc. change (layout []) with 0 in Hc.
  destruct (Z.eq_dec c chr_open) as [->|N1].
  { right. change (width chr_open) with 2 in Hc.
    eexists. split; [change chr_open with LB; apply compile_step_lb; lia|].
    constructor; unfold word_count; rewrite ?ops_snoc, ?E; cbn [c_instrs c_jstack].
    - rewrite lenZ_app, Hl, layout_app. reflexivity.
    - rewrite depth_app. cbn [length]. rewrite Nat2Z.inj_succ, (ci_depth _ _ I).
      change (depth [chr_open]) with 1. lia.
    - change LB with chr_open. apply ops_extend; [exact Hl|apply I].
    - constructor; [|apply stack_extend, I].
      exists (length (ops done)). rewrite nth_error_app2, Nat.sub_diag by lia.
      split; [reflexivity|]. rewrite addr_app_lt, addr_length by lia. lia. }
  destruct (Z.eq_dec c chr_close) as [->|N2].
  { change (width chr_close) with 2 in Hc.
    destruct (c_jstack s) as [|j st] eqn:Ej.
    - left. split; [reflexivity|]. split; [reflexivity|].
      unfold compile_step. change (is_op chr_close) with true.
      change (chr_close =? LB) with false. change (chr_close =? RB) with true.
      cbn [negb]. rewrite Ej. reflexivity.
    - right. pose proof (ci_stack _ _ I) as Hst. rewrite Ej in Hst.
      pose proof (stack_in_range _ _ _ Hl Hst) as Hr. inversion Hr as [|? ? Hj Hr']; subst.
      inversion Hst as [|? ? Hj' Hst']; subst. destruct Hj' as [i0 [Hi0 Ej0]].
      unfold compile_step. change (is_op chr_close) with true.
      change (chr_close =? LB) with false. change (chr_close =? RB) with true.
      cbn [negb]. rewrite Ej.
      rewrite overflow_ok by (change (2 ^ 16) with 65536; lia). cbn [bind].
      rewrite <- app_assoc. cbn [app].
      rewrite store_ok by (rewrite lenZ_app; change (lenZ [chr_close; j + 1]) with 2; lia).
      cbn [bind]. eexists. split; [reflexivity|].
      constructor; unfold word_count; rewrite ?ops_snoc, ?E; cbn [c_instrs c_jstack].
      + rewrite lenZ_upd, lenZ_app, Hl, layout_app. reflexivity.
      + rewrite depth_app. pose proof (ci_depth _ _ I) as Hd. rewrite Ej in Hd. cbn [length] in Hd.
        change (depth [chr_close]) with (-1). lia.
      + intros i d Hi. rewrite word_upd_neq by (lia || (
          pose proof Hi as Hi2;
          assert (K : nth_error (ops done ++ [chr_close]) i0 = Some chr_open)
            by (rewrite nth_error_app1; [exact Hi0|apply nth_error_Some; congruence]);
          pose proof (addr_not_jump _ _ _ _ K Hi) as K2;
          rewrite (addr_app_lt (ops done) _ i0) in K2 by
            (assert (i0 < length (ops done))%nat by (apply nth_error_Some; congruence); lia);
          lia)).
        revert Hi. apply (ops_extend (ops done) (c_instrs s) chr_close); [exact Hl|apply I].
      + apply stack_extend, Hst'. }
  right. eexists. split; [apply compile_step_simple; assumption|].
  rewrite (width_simple _ N1 N2) in Hc.
  constructor; unfold word_count; rewrite ?ops_snoc, ?E; cbn [c_instrs c_jstack].
  - rewrite lenZ_app, Hl, layout_app, layout_cons, (width_simple _ N1 N2). reflexivity.
  - rewrite depth_app, depth_cons, (step_depth_simple _ N1 N2).
    change (depth []) with 0. rewrite (ci_depth _ _ I). lia.
  - apply ops_extend; [exact Hl|apply I].
  - apply stack_extend, I.
Qed.

Lemma cinv_0 : cinv [] {| c_instrs := []; c_jstack := [] |}.
Proof.
  constructor; cbn; try reflexivity; [|constructor]. intros [|i] c H; discriminate.
Qed.

Lemma word_count_app l m : word_count (l ++ m) = word_count l + word_count m.
Proof. unfold word_count. rewrite ops_app. apply layout_app. Qed.
Lemma word_count_nonneg l : 0 <= word_count l.
Proof. apply layout_nonneg. Qed.

(** A run of the loop either panics at an unmatched closing bracket or ends with
    the invariant. *)
Lemma compile_loop_inv pr src : forall done s,
  cinv done s -> word_count (done ++ src) <= 65535 ->
  (exists s', compile_loop pr s src = Ok s' /\ cinv (done ++ src) s' /\
      forall n, 0 <= depth (ops (done ++ firstn n src))) \/
  (compile_loop pr s src = Panic /\ exists n, depth (ops (done ++ firstn n src)) < 0).
Proof.
  induction src as [|c src IH]; intros done s I Hc.
  - left. exists s. rewrite app_nil_r. split; [reflexivity|]. split; [exact I|].
    intros n. rewrite firstn_nil, app_nil_r, <- (ci_depth _ _ I). lia.
  - replace (done ++ c :: src) with ((done ++ [c]) ++ src) in * by (rewrite <- app_assoc; reflexivity).
    assert (Hc1 : word_count (done ++ [c]) <= 65535).
    { rewrite word_count_app in Hc. pose proof (word_count_nonneg src). lia. }
    cbn [compile_loop].
    destruct (compile_step_inv pr done s c I Hc1) as [[-> [Ej Es]]|[s' [Es I']]]; rewrite Es; cbn [bind].
    + right. split; [reflexivity|]. exists 1%nat. cbn [firstn].
      rewrite ops_snoc. change (is_op chr_close) with true. cbv iota.
      rewrite depth_app, <- (ci_depth _ _ I), Ej. cbn. lia.
    + destruct (IH (done ++ [c]) s' I' Hc) as [[s2 [E2 [I2 Hn]]]|[E2 [n Hn]]].
      * left. exists s2. split; [exact E2|]. split; [exact I2|].
        intros [|n]; cbn [firstn].
        -- rewrite app_nil_r, <- (ci_depth _ _ I). lia.
        -- specialize (Hn n). rewrite <- app_assoc in Hn. exact Hn.
      * right. split; [exact E2|]. exists (S n). cbn [firstn].
        rewrite <- app_assoc in Hn. exact Hn.
Qed.

Lemma depth_ops l : depth (ops l) = depth l.
Proof.
  induction l as [|c l IH]; [reflexivity|]. cbn [ops filter]. rewrite depth_cons.
  rewrite is_instr_op. destruct (is_op c) eqn:E.
  - rewrite depth_cons. unfold ops in IH. rewrite IH. reflexivity.
  - unfold ops in IH. rewrite IH. rewrite not_instr_step; [reflexivity|].
    intros H. apply is_op_spec in H. congruence.
Qed.

Lemma compile_panics_iff pr src : word_count src <= 65535 ->
  (compile_to_u16 pr src = Panic <-> exists n, depth (firstn n src) < 0).
Proof.
  intros Hc. unfold compile_to_u16.
  destruct (compile_loop_inv pr src [] _ cinv_0 Hc) as [[s' [E [_ H]]]|[E H]]; rewrite E; cbn [bind].
  - split; [discriminate|]. intros [n Hn]. specialize (H n). cbn [app] in H.
    rewrite depth_ops in H. lia.
  - split; [|reflexivity]. intros _. destruct H as [n Hn]. exists n.
    cbn [app] in Hn. rewrite depth_ops in Hn. exact Hn.
Qed.

(** ** Jump words (C04) *)

(** Words below the current length that are not pending on the stack never
    change. *)
Lemma compile_loop_stable pr src : forall done s s' a,
  cinv done s -> word_count (done ++ src) <= 65535 ->
  compile_loop pr s src = Ok s' -> 0 <= a < lenZ (c_instrs s) -> ~ List.In a (c_jstack s) ->
  word (c_instrs s') a = word (c_instrs s) a.
Proof.
  induction src as [|c src IH]; intros done s s' a I Hc E Ha Hn; cbn [compile_loop] in E.
  - injection E as <-. reflexivity.
  - replace (done ++ c :: src) with ((done ++ [c]) ++ src) in * by (rewrite <- app_assoc; reflexivity).
    assert (Hc1 : word_count (done ++ [c]) <= 65535).
    { rewrite word_count_app in Hc. pose proof (word_count_nonneg src). lia. }
    destruct (compile_step_inv pr done s c I Hc1) as [[-> [Ej Es]]|[s1 [Es I1]]];
      rewrite Es in E; cbn [bind] in E; [discriminate|].
    assert (K : lenZ (c_instrs s) <= lenZ (c_instrs s1) /\ ~ List.In a (c_jstack s1) /\
                word (c_instrs s1) a = word (c_instrs s) a).
    { assert (W0 : exists v, word (c_instrs s) a = Some v).
      { unfold word. destruct (Z.ltb_spec a 0); [lia|].
        destruct (nth_error (c_instrs s) (Z.to_nat a)) eqn:En; [eauto|].
        apply nth_error_None in En. unfold lenZ in Ha. lia. }
      destruct W0 as [v Wv]. rewrite Wv. unfold compile_step in Es. destruct (is_op c); cbn [negb] in Es.
      2: { injection Es as <-. split; [lia|]. split; assumption. }
      destruct (c =? LB).
      - apply bind_ok_inv in Es. destruct Es as [j [Eo Es]]. injection Es as <-. cbn [c_instrs c_jstack].
        rewrite !lenZ_snoc. split; [lia|]. split.
        + intros [<-|H]; [|exact (Hn H)].
          assert (Hlen : lenZ (c_instrs s) + 2 <= 65535).
          { pose proof (ci_len _ _ I1) as L. cbn [c_instrs] in L. rewrite !lenZ_snoc in L. lia. }
          rewrite !lenZ_snoc in Eo. unfold as_u16 in Eo. rewrite Z.mod_small in Eo by lia.
          rewrite overflow_ok in Eo by (change (2 ^ 16) with 65536; lia).
          injection Eo as Eo. lia.
        + apply word_app_l, word_app_l, Wv.
      - destruct (c =? RB).
        + destruct (c_jstack s) as [|j st] eqn:Ej; [discriminate|].
          apply bind_ok_inv in Es. destruct Es as [t [Eo Es]].
          apply bind_ok_inv in Es. destruct Es as [ws [Est Es]]. injection Es as <-.
          cbn [c_instrs c_jstack]. apply store_ok_inv in Est. destruct Est as [Hj ->].
          rewrite lenZ_upd, !lenZ_snoc. split; [lia|]. split.
          * intros H. apply Hn. right. exact H.
          * rewrite word_upd_neq by (lia || (intros ->; apply Hn; left; reflexivity)).
            apply word_app_l, word_app_l, Wv.
        + injection Es as <-. cbn [c_instrs c_jstack]. rewrite lenZ_snoc. split; [lia|].
          split; [exact Hn|]. apply word_app_l, Wv. }
    destruct K as [K1 [K2 K3]]. rewrite <- K3.
    eapply IH; [exact I1|exact Hc|exact E|lia|exact K2].
Qed.

Lemma skipn_add {A} (b a : nat) (l : list A) : skipn a (skipn b l) = skipn (b + a) l.
Proof. revert l; induction b as [|b IH]; intros [|h t]; cbn; try reflexivity; [apply skipn_nil|apply IH]. Qed.

Lemma firstn_skipn_split {A} (l : list A) i j x y :
  (i < j)%nat -> nth_error l i = Some x -> nth_error l j = Some y ->
  l = firstn i l ++ [x] ++ firstn (j - S i) (skipn (S i) l) ++ [y] ++ skipn (S j) l.
Proof.
  intros L Hi Hj.
  assert (E1 : l = firstn i l ++ [x] ++ skipn (S i) l).
  { rewrite app_assoc, <- (firstn_S_nth _ _ _ Hi). symmetry. apply firstn_skipn. }
  set (m := skipn (S i) l) in *.
  assert (Hm : nth_error m (j - S i) = Some y).
  { rewrite E1 in Hj. rewrite app_assoc, nth_error_app2 in Hj.
    - rewrite app_length, firstn_length in Hj. cbn [length] in Hj.
      assert (i < length l)%nat by (apply nth_error_Some; congruence).
      rewrite Nat.min_l in Hj by lia. replace (j - S i)%nat with (j - (i + 1))%nat by lia. exact Hj.
    - rewrite app_length, firstn_length. cbn [length]. lia. }
  assert (E2 : m = firstn (j - S i) m ++ [y] ++ skipn (S (j - S i)) m).
  { rewrite app_assoc, <- (firstn_S_nth _ _ _ Hm). symmetry. apply firstn_skipn. }
  assert (E3 : skipn (S (j - S i)) m = skipn (S j) l).
  { subst m. rewrite skipn_add. f_equal. lia. }
  rewrite E3 in E2. rewrite <- E2. exact E1.
Qed.

Lemma ops_sub_ops l x y : ops (x ++ l ++ y) = x ++ l ++ y -> ops x = x /\ ops l = l /\ ops y = y.
Proof.
  assert (Hlen : forall m, (length (ops m) <= length m)%nat).
  { induction m as [|c m IH]; [cbn; lia|]. cbn [ops filter]. destruct (is_instr c); cbn [length]; unfold ops in IH; lia. }
  assert (Heq : forall m n, ops (m ++ n) = m ++ n -> ops m = m /\ ops n = n).
  { intros m n H. rewrite ops_app in H.
    assert (L : length (ops m) = length m).
    { apply (f_equal (@length Z)) in H. rewrite !app_length in H.
      pose proof (Hlen m). pose proof (Hlen n). lia. }
    revert H L. generalize (ops m) as a. generalize (ops n) as b. clear.
    intros b a. revert m. induction a as [|h a IH]; intros [|g m] H L; cbn in *; try lia; auto.
    injection H as -> H. destruct (IH m H ltac:(lia)) as [-> ->]. auto. }
  intros H. apply Heq in H. destruct H as [H1 H]. apply Heq in H. tauto.
Qed.

Lemma compile_jumps pr src ws : word_count src <= 65535 ->
  compile_to_u16 pr src = Ok ws -> compiled_right src ws.
Proof.
  intros Hc E. unfold compile_to_u16 in E. rewrite compile_loop_ops in E.
  set (l := ops src) in *.
  assert (Hl : ops l = l) by apply ops_ops.
  assert (Hcl : word_count l <= 65535) by (unfold word_count; rewrite Hl; exact Hc).
  apply bind_ok_inv in E. destruct E as [s [E Ew]]. injection Ew as <-.
  destruct (compile_loop_inv pr l [] _ cinv_0 Hcl) as [[s' [E' [I _]]]|[E' _]]; [|congruence].
  rewrite E in E'. injection E' as <-. cbn [app] in I.
  split; [|split].
  - pose proof (ci_len _ _ I) as H. unfold word_count in *. fold l. rewrite Hl in H. exact H.
  - pose proof (ci_ops _ _ I) as H. rewrite Hl in H. exact H.
  - fold l. intros i j [Lij [Hi [Hj Hb]]].
    pose proof (firstn_skipn_split l i j _ _ Lij Hi Hj) as El.
    set (pre := firstn i l) in *. set (b := firstn (j - S i) (skipn (S i) l)) in *.
    set (post := skipn (S j) l) in *.
    apply balanced_parses in Hb. destruct Hb as [p Hp].
    assert (Hop : ops pre = pre /\ ops b = b).
    { pose proof Hl as Hl2. rewrite El in Hl2.
      assert (A1 : ops (pre ++ ([chr_open] ++ b ++ [chr_close]) ++ post) =
                   pre ++ ([chr_open] ++ b ++ [chr_close]) ++ post).
      { rewrite <- !app_assoc. exact Hl2. }
      apply ops_sub_ops in A1. destruct A1 as [A1 [A2 A3]]. split; [exact A1|].
      apply ops_sub_ops in A2. tauto. }
    destruct Hop as [Hpre Hopb].
    pose proof (word_count_parses _ _ Hp) as Wp.
    assert (Wtot : word_count l = word_count pre + 4 + word_count b + word_count post).
    { rewrite El at 1. rewrite !word_count_app.
      change (word_count [chr_open]) with 2. change (word_count [chr_close]) with 2. lia. }
    pose proof (word_count_nonneg pre). pose proof (word_count_nonneg b). pose proof (word_count_nonneg post).
    rewrite El in E. rewrite compile_loop_app in E. apply bind_ok_inv in E. destruct E as [s1 [E1 E]].
    destruct (compile_loop_inv pr pre [] _ cinv_0 ltac:(cbn [app]; lia)) as [[s1' [E1' [I1 _]]]|[E1' _]]; [|congruence].
    rewrite E1 in E1'. injection E1' as <-. cbn [app] in I1.
    pose proof (ci_len _ _ I1) as L1.
    assert (Lb : lenZ (emit (lenZ (c_instrs s1) + 2) p) = word_count b).
    { rewrite Wp. apply emit_length. }
    (* the bracketed part *)
    set (blk := [LB; lenZ (c_instrs s1) + 4 + word_count b] ++
                emit (lenZ (c_instrs s1) + 2) p ++ [RB; lenZ (c_instrs s1) + 2]).
    assert (E2 : compile_loop pr s1 ([chr_open] ++ b ++ [chr_close]) =
                 Ok {| c_instrs := c_instrs s1 ++ blk; c_jstack := c_jstack s1 |}).
    { cbn [app compile_loop]. change chr_open with LB. rewrite compile_step_lb by lia. cbn [bind].
      rewrite compile_loop_app.
      rewrite (compile_loop_emit pr b p Hp) by (rewrite lenZ_app; change (lenZ [LB; 0]) with 2; lia).
      cbn [bind compile_loop]. change chr_close with RB. rewrite <- app_assoc.
      rewrite lenZ_app. change (lenZ [LB; 0]) with 2.
      rewrite compile_step_rb by (rewrite Lb; lia). cbn [bind]. rewrite Lb. reflexivity. }
    assert (E3 : compile_loop pr {| c_instrs := c_instrs s1 ++ blk; c_jstack := c_jstack s1 |} post = Ok s).
    { replace ([chr_open] ++ b ++ [chr_close] ++ post) with (([chr_open] ++ b ++ [chr_close]) ++ post) in E
        by (rewrite <- !app_assoc; reflexivity).
      rewrite compile_loop_app, E2 in E. exact E. }
    set (s2 := {| c_instrs := c_instrs s1 ++ blk; c_jstack := c_jstack s1 |}) in *.
    assert (I2 : cinv (pre ++ ([chr_open] ++ b ++ [chr_close])) s2).
    { destruct (compile_loop_inv pr ([chr_open] ++ b ++ [chr_close]) pre s1 I1) as [[s2' [E2' [I2 _]]]|[E2' _]].
      - rewrite !word_count_app. change (word_count [chr_open]) with 2.
        change (word_count [chr_close]) with 2. lia.
      - rewrite E2 in E2'. injection E2' as <-. exact I2.
      - congruence. }
    assert (Hcw : word_count ((pre ++ ([chr_open] ++ b ++ [chr_close])) ++ post) <= 65535).
    { rewrite !word_count_app. change (word_count [chr_open]) with 2.
      change (word_count [chr_close]) with 2. lia. }
    assert (Lblk : lenZ blk = 4 + word_count b).
    { subst blk. rewrite !lenZ_app, Lb. change (lenZ [RB; lenZ (c_instrs s1) + 2]) with 2.
      change (lenZ [LB; lenZ (c_instrs s1) + 4 + word_count b]) with 2. lia. }
    assert (St : forall k, 0 <= k < 4 + word_count b ->
               word (c_instrs s) (lenZ (c_instrs s1) + k) = word blk k).
    { intros k Hk. pose proof (lenZ_nonneg (c_instrs s1)).
      rewrite (compile_loop_stable pr post _ s2 s (lenZ (c_instrs s1) + k) I2 Hcw E3).
      - subst s2. cbn [c_instrs]. apply word_app_r. lia.
      - subst s2. cbn [c_instrs]. rewrite lenZ_app, Lblk. lia.
      - subst s2. cbn [c_jstack]. intros Hin.
        pose proof (stack_in_range _ _ _ L1 (ci_stack _ _ I1)) as Hr.
        rewrite Forall_forall in Hr. specialize (Hr _ Hin). lia. }
    assert (Ai : addr l i = word_count pre).
    { unfold addr, word_count. fold pre. rewrite Hpre. reflexivity. }
    assert (Aj : addr l j = word_count pre + 2 + word_count b).
    { unfold addr.
      assert (Ef : firstn j l = pre ++ [chr_open] ++ b).
      { rewrite El at 1.
        assert (Lp : length pre = i) by (subst pre; rewrite firstn_length;
          assert (i < length l)%nat by (apply nth_error_Some; congruence); lia).
        assert (Lb2 : length b = (j - S i)%nat).
        { subst b. rewrite firstn_length, skipn_length.
          assert (j < length l)%nat by (apply nth_error_Some; congruence). lia. }
        replace (pre ++ [chr_open] ++ b ++ [chr_close] ++ post)
          with ((pre ++ [chr_open] ++ b) ++ [chr_close] ++ post) by (rewrite <- !app_assoc; reflexivity).
        replace j with (length (pre ++ [chr_open] ++ b) + 0)%nat
          by (rewrite !app_length; cbn [length]; lia).
        rewrite firstn_app_2. cbn [firstn]. apply app_nil_r. }
      rewrite Ef, !layout_app. unfold word_count. rewrite Hpre, Hopb.
      change (layout [chr_open]) with 2. lia. }
    rewrite Ai, Aj, <- L1. split.
    + rewrite St by lia. subst blk. change (word ([LB; lenZ (c_instrs s1) + 4 + word_count b] ++
        emit (lenZ (c_instrs s1) + 2) p ++ [RB; lenZ (c_instrs s1) + 2]) 1) with
        (Some (lenZ (c_instrs s1) + 4 + word_count b)). f_equal. lia.
    + replace (lenZ (c_instrs s1) + 2 + word_count b + 1) with
        (lenZ (c_instrs s1) + (2 + (word_count b + 1))) by lia.
      rewrite St by lia. subst blk.
      change 2 with (lenZ [LB; lenZ (c_instrs s1) + 4 + word_count b]) at 3.
      rewrite word_app_r by lia. rewrite <- Lb. rewrite word_app_r by lia. reflexivity.
Qed.

(** ** Every bracket of a balanced source has a partner *)

Lemma matching_shift x m y i j :
  matching m i j -> matching (x ++ m ++ y) (length x + i) (length x + j).
Proof.
  intros [L [Hi [Hj Hb]]].
  assert (Li : (i < length m)%nat) by (apply nth_error_Some; congruence).
  assert (Lj : (j < length m)%nat) by (apply nth_error_Some; congruence).
  split; [lia|]. split; [|split].
  - rewrite nth_error_app2, nth_error_app1 by lia.
    replace (length x + i - length x)%nat with i by lia. exact Hi.
  - rewrite nth_error_app2, nth_error_app1 by lia.
    replace (length x + j - length x)%nat with j by lia. exact Hj.
  - replace (S (length x + i)) with (length x + S i)%nat by lia.
    rewrite <- skipn_add. rewrite skipn_app, skipn_all, Nat.sub_diag, skipn_O, app_nil_l.
    rewrite skipn_app. rewrite firstn_app.
    replace (length x + j - (length x + S i) - length (skipn (S i) m))%nat with 0%nat
      by (rewrite skipn_length; lia).
    cbn [firstn]. rewrite app_nil_r.
    replace (length x + j - (length x + S i))%nat with (j - S i)%nat by lia. exact Hb.
Qed.

Lemma matching_pair b y : balanced b -> matching (chr_open :: b ++ chr_close :: y) 0 (S (length b)).
Proof.
  intros Hb. split; [lia|]. split; [reflexivity|]. split.
  - cbn [nth_error]. rewrite nth_error_app2, Nat.sub_diag by lia. reflexivity.
  - cbn [skipn]. replace (S (length b) - 1)%nat with (length b + 0)%nat by lia.
    rewrite firstn_app_2. cbn [firstn]. rewrite app_nil_r. exact Hb.
Qed.

Lemma partner_cons h s k c :
  (c = chr_open -> exists j, matching s k j) /\ (c = chr_close -> exists i, matching s i k) ->
  (c = chr_open -> exists j, matching (h :: s) (S k) j) /\
  (c = chr_close -> exists i, matching (h :: s) i (S k)).
Proof.
  intros [I1 I2]. split; intros E.
  - destruct (I1 E) as [j Hj]. exists (S j).
    pose proof (matching_shift [h] s [] _ _ Hj) as M. rewrite app_nil_r in M. exact M.
  - destruct (I2 E) as [j Hj]. exists (S j).
    pose proof (matching_shift [h] s [] _ _ Hj) as M. rewrite app_nil_r in M. exact M.
Qed.

Lemma parses_partner src p : parses src p ->
  forall k c, nth_error src k = Some c ->
  (c = chr_open -> exists j, matching src k j) /\ (c = chr_close -> exists i, matching src i k).
Proof.
  induction 1 as [|c s p Hc Hp IH|s p Hp IH|s p Hp IH|s p Hp IH|s p Hp IH|s p Hp IH|s p Hp IH
                  |b body s p Hb IHb Hp IHp]; intros k d Hk.
  - destruct k; discriminate.
  - destruct k as [|k]; cbn [nth_error] in Hk.
    + injection Hk as <-. split; intros E; exfalso; apply Hc; rewrite E; unfold instr_chars; cbn; tauto.
    + apply (partner_cons c s k d (IH _ _ Hk)).
  - destruct k as [|k]; cbn [nth_error] in Hk;
      [injection Hk as <-; split; discriminate|apply (partner_cons _ s k d (IH _ _ Hk))].
  - destruct k as [|k]; cbn [nth_error] in Hk;
      [injection Hk as <-; split; discriminate|apply (partner_cons _ s k d (IH _ _ Hk))].
  - destruct k as [|k]; cbn [nth_error] in Hk;
      [injection Hk as <-; split; discriminate|apply (partner_cons _ s k d (IH _ _ Hk))].
  - destruct k as [|k]; cbn [nth_error] in Hk;
      [injection Hk as <-; split; discriminate|apply (partner_cons _ s k d (IH _ _ Hk))].
  - destruct k as [|k]; cbn [nth_error] in Hk;
      [injection Hk as <-; split; discriminate|apply (partner_cons _ s k d (IH _ _ Hk))].
  - destruct k as [|k]; cbn [nth_error] in Hk;
      [injection Hk as <-; split; discriminate|apply (partner_cons _ s k d (IH _ _ Hk))].
  -
  assert (Bb : balanced b) by (apply balanced_parses; eauto).
  destruct (Nat.lt_trichotomy k (S (length b))) as [L|[->|L]].
  * destruct k as [|k].
    ** cbn in Hk. injection Hk as <-. split; [|discriminate]. intros _.
      exists (S (length b)). apply matching_pair, Bb.
    ** cbn [nth_error] in Hk. rewrite nth_error_app1 in Hk by lia.
      destruct (IHb _ _ Hk) as [I1 I2]. split; intros E.
      *** destruct (I1 E) as [j Hj]. exists (S j).
        exact (matching_shift [chr_open] b (chr_close :: s) _ _ Hj).
      *** destruct (I2 E) as [j Hj]. exists (S j).
        exact (matching_shift [chr_open] b (chr_close :: s) _ _ Hj).
  * cbn [nth_error] in Hk. rewrite nth_error_app2, Nat.sub_diag in Hk by lia. cbn in Hk.
    injection Hk as <-. split; [discriminate|]. intros _. exists 0%nat. apply matching_pair, Bb.
  * assert (Es : chr_open :: b ++ chr_close :: s = (chr_open :: b ++ [chr_close]) ++ s ++ []).
    { cbn [app]. rewrite <- app_assoc, app_nil_r. reflexivity. }
    assert (Ll : length (chr_open :: b ++ [chr_close]) = S (S (length b))).
    { cbn [length]. rewrite app_length. cbn [length]. lia. }
    rewrite Es in Hk. rewrite app_nil_r, nth_error_app2 in Hk by lia.
    destruct (IHp _ _ Hk) as [I1 I2]. rewrite Es. split; intros E.
    ** destruct (I1 E) as [j Hj].
      pose proof (matching_shift (chr_open :: b ++ [chr_close]) s [] _ _ Hj) as M.
      replace (length (chr_open :: b ++ [chr_close]) + (k - length (chr_open :: b ++ [chr_close])))%nat
        with k in M by lia. eauto.
    ** destruct (I2 E) as [j Hj].
      pose proof (matching_shift (chr_open :: b ++ [chr_close]) s [] _ _ Hj) as M.
      replace (length (chr_open :: b ++ [chr_close]) + (k - length (chr_open :: b ++ [chr_close])))%nat
        with k in M by lia. eauto.
Qed.

Lemma balanced_ops src : balanced src -> balanced (ops src).
Proof.
  rewrite !balanced_bal. generalize 0 as d.
  induction src as [|c src IH]; intros d; [cbn; auto|].
  cbn [ops filter]. rewrite is_instr_op. destruct (is_op c) eqn:E; cbn [bal]; intros [H1 H2].
  - split; [exact H1|]. apply IH, H2.
  - assert (S0 : step_depth c = 0).
    { apply not_instr_step. intros H. apply is_op_spec in H. congruence. }
    rewrite S0, Z.add_0_r in H2. apply IH, H2.
Qed.

Lemma balanced_partner src k c : balanced src -> nth_error (ops src) k = Some c ->
  (c = chr_open -> exists j, matching (ops src) k j) /\
  (c = chr_close -> exists i, matching (ops src) i k).
Proof.
  intros H. apply balanced_ops, balanced_parses in H. destruct H as [p Hp].
  apply (parses_partner _ _ Hp).
Qed.

Lemma compile_balanced pr src : balanced src -> word_count src <= 65535 ->
  exists ws, compile_to_u16 pr src = Ok ws /\ compile pr src = Ok (map FrZ ws) /\
    compiled_right src ws /\
    forall k c, nth_error (ops src) k = Some c ->
      (c = chr_open -> exists j, matching (ops src) k j) /\
      (c = chr_close -> exists i, matching (ops src) i k).
Proof.
  intros Hb Hc. pose proof Hb as Hb'. apply balanced_parses in Hb'. destruct Hb' as [p Hp].
  pose proof (word_count_parses _ _ Hp) as Hwc.
  pose proof (compile_emit pr src p Hp ltac:(lia)) as E. exists (emit 0 p).
  split; [exact E|]. split; [unfold compile; rewrite E; reflexivity|].
  split; [exact (compile_jumps pr src _ Hc E)|].
  intros k c. apply balanced_partner, Hb.
Qed.

(** ** Rejection (C06) *)

Lemma compile_panic_u16 pr src : compile pr src = Panic <-> compile_to_u16 pr src = Panic.
Proof. unfold compile. destruct (compile_to_u16 pr src); cbn; split; congruence. Qed.

Lemma compile_rejects_excess_close pr src : word_count src <= 65535 ->
  (compile pr src = Panic <-> exists n, depth (firstn n src) < 0).
Proof. intros H. rewrite compile_panic_u16. apply compile_panics_iff, H. Qed.

(** "[" is not balanced but compiles, with jump word 0. *)
Lemma compile_unbalanced_accepted :
  ~ balanced [chr_open] /\ word_count [chr_open] <= 65535 /\
  forall pr, compile pr [chr_open] = Ok (map FrZ [91; 0]).
Proof.
  split; [intros [H _]; discriminate H|]. split; [discriminate|].
  intros []; reflexivity.
Qed.

(** ** Large programs (C07) *)

Definition big_src : list Z := repeat chr_inc (Z.to_nat 65535) ++ [chr_open; chr_close].

Lemma parses_repeat n rest p : parses rest p ->
  parses (repeat chr_inc n ++ rest) (repeat Inc n ++ p).
Proof. intros H. induction n as [|n IH]; cbn; [exact H|]. apply P_inc. exact IH. Qed.

Lemma program_words_repeat n : program_words (repeat Inc n) = Z.of_nat n.
Proof.
  induction n as [|n IH]; [reflexivity|]. cbn [repeat]. rewrite program_words_cons, IH.
  change (words Inc) with 1. lia.
Qed.

Lemma emit_repeat n : forall base, emit base (repeat Inc n) = repeat chr_inc n.
Proof. induction n as [|n IH]; intros base; [reflexivity|]. cbn. f_equal. apply IH. Qed.

Lemma big_balanced : balanced big_src.
Proof.
  apply balanced_parses. exists (repeat Inc (Z.to_nat 65535) ++ [Loop []]).
  apply parses_repeat. apply (P_loop [] [] [] []); constructor.
Qed.

Lemma ops_repeat n : ops (repeat chr_inc n) = repeat chr_inc n.
Proof. induction n as [|n IH]; [reflexivity|]. cbn [repeat ops filter]. change (is_instr chr_inc) with true. cbv iota. unfold ops in IH. rewrite IH. reflexivity. Qed.

Lemma big_compile pr : exists ws, compile_to_u16 pr big_src = Ok ws /\ word ws 0 = Some 3.
Proof.
  unfold compile_to_u16, big_src. set (n := Z.to_nat 65535).
  assert (Hn : Z.of_nat n = 65535) by (subst n; rewrite Z2Nat.id; lia).
  rewrite compile_loop_app.
  assert (Hp : parses (repeat chr_inc n) (repeat Inc n)).
  { pose proof (parses_repeat n [] [] P_nil) as H. rewrite !app_nil_r in H. exact H. }
  rewrite (compile_loop_emit pr _ _ Hp) by (rewrite lenZ_nil, program_words_repeat; lia).
  cbn [bind app]. rewrite emit_repeat.
  assert (L : lenZ (repeat chr_inc n) = 65535) by (unfold lenZ; rewrite repeat_length; lia).
  assert (Hr : exists m, repeat chr_inc n = chr_inc :: repeat chr_inc m).
  { destruct n as [|m]; [discriminate Hn|]. exists m. reflexivity. }
  destruct Hr as [m Em].
  cbn [compile_loop]. unfold compile_step at 1.
  change (is_op chr_open) with true. change (chr_open =? LB) with true. cbn [negb c_instrs c_jstack].
  rewrite !lenZ_snoc, L. change (as_u16 (65535 + 1 + 1) - 1) with 0.
  rewrite overflow_ok by (split; [lia|reflexivity]). cbn [bind].
  unfold compile_step at 1. change (is_op chr_close) with true.
  change (chr_close =? LB) with false. change (chr_close =? RB) with true. cbn [negb c_instrs c_jstack].
  rewrite overflow_ok by (split; [lia|reflexivity]). cbn [bind].
  rewrite store_ok by (rewrite !lenZ_snoc, L; lia). cbn [bind c_instrs].
  eexists. split; [reflexivity|].
  rewrite !lenZ_snoc, L. rewrite Em. reflexivity.
Qed.

Lemma big_not_right ws : word ws 0 = Some 3 -> ~ compiled_right big_src ws.
Proof.
  intros H0 [_ [H _]].
  assert (E : nth_error (ops big_src) 0 = Some chr_inc).
  { unfold big_src. rewrite ops_app. rewrite ops_repeat.
    destruct (Z.to_nat 65535) as [|m] eqn:E; [discriminate E|reflexivity]. }
  specialize (H 0%nat chr_inc E). unfold addr in H. cbn [firstn layout fold_right] in H.
  rewrite H0 in H. discriminate H.
Qed.

Lemma large_program_refutation :
  exists src, balanced src /\ forall pr, exists ws,
    compile_to_u16 pr src = Ok ws /\ ~ compiled_right src ws.
Proof.
  exists big_src. split; [exact big_balanced|]. intros pr.
  destruct (big_compile pr) as [ws [E H]]. exists ws. split; [exact E|]. apply big_not_right, H.
Qed.

Lemma compile_ops_all pr src :
  compile pr src = compile pr (ops src) /\ Forall (fun c => List.In c instr_chars) (ops src).
Proof.
  split; [apply compile_ops|]. apply Forall_forall. intros c Hc.
  apply filter_In in Hc. destruct Hc as [_ H]. rewrite is_instr_op in H. apply is_op_spec, H.
Qed.

Lemma unbalanced_accepted :
  exists src, word_count src <= 65535 /\ ~ balanced src /\
    forall pr, compile pr src = Ok (map FrZ [91; 0]).
Proof.
  exists [chr_open]. destruct compile_unbalanced_accepted as [H1 [H2 H3]]. auto.
Qed.
