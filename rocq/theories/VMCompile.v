(** The compiler model produces the word layout [emit] for balanced sources. *)
From Coq Require Import ZArith List Lia Bool.
From Verif Require Import Base Field ListFacts BFSpec BFFacts VMModel.
Import ListNotations.
Local Open Scope Z_scope.

Lemma is_op_spec c : is_op c = true <-> List.In c instr_chars.
Proof.
  unfold is_op, filter_ops, instr_chars. rewrite existsb_exists. split.
  - intros [x [Hin E]]. apply Z.eqb_eq in E. subst x.
    unfold SHL, SHR, ADD, SUB, GETCHAR, PUTCHAR, LB, RB in Hin.
    unfold chr_right, chr_left, chr_inc, chr_dec, chr_out, chr_in, chr_open, chr_close.
    cbn in *. intuition.
  - intros Hin. exists c. split; [|apply Z.eqb_refl].
    unfold SHL, SHR, ADD, SUB, GETCHAR, PUTCHAR, LB, RB.
    unfold chr_right, chr_left, chr_inc, chr_dec, chr_out, chr_in, chr_open, chr_close in Hin.
    cbn in *. intuition.
Qed.

Lemma is_op_false c : ~ List.In c instr_chars -> is_op c = false.
Proof.
  intros H. destruct (is_op c) eqn:E; [|reflexivity]. exfalso. apply H, is_op_spec, E.
Qed.

(** A simple instruction pushes its own byte. *)
Lemma compile_step_simple pr s c :
  is_op c = true -> c <> LB -> c <> RB ->
  compile_step pr s c = Ok {| c_instrs := c_instrs s ++ [c]; c_jstack := c_jstack s |}.
Proof.
  intros Ho H1 H2. unfold compile_step. rewrite Ho. cbn [negb].
  apply Z.eqb_neq in H1, H2. rewrite H1, H2. reflexivity.
Qed.

Lemma compile_step_lb pr s :
  lenZ (c_instrs s) + 2 < 65536 ->
  compile_step pr s LB =
  Ok {| c_instrs := c_instrs s ++ [LB; 0]; c_jstack := (lenZ (c_instrs s) + 1) :: c_jstack s |}.
Proof.
  intros H. pose proof (lenZ_nonneg (c_instrs s)).
  unfold compile_step. change (is_op LB) with true. cbn [negb].
  rewrite Z.eqb_refl. rewrite <- app_assoc. cbn [app].
  assert (E : as_u16 (lenZ (c_instrs s ++ [LB; 0])) - 1 = lenZ (c_instrs s) + 1).
  { unfold as_u16. rewrite lenZ_app. change (lenZ [LB; 0]) with 2.
    rewrite Z.mod_small by lia. lia. }
  rewrite E, overflow_ok by (change (2 ^ 16) with 65536; lia). reflexivity.
Qed.

Lemma compile_step_rb pr l X js :
  lenZ l + 2 + lenZ X + 2 < 65536 ->
  compile_step pr {| c_instrs := l ++ [LB; 0] ++ X; c_jstack := (lenZ l + 1) :: js |} RB =
  Ok {| c_instrs := l ++ [LB; lenZ l + 4 + lenZ X] ++ X ++ [RB; lenZ l + 2]; c_jstack := js |}.
Proof.
  intros H. pose proof (lenZ_nonneg l). pose proof (lenZ_nonneg X).
  unfold compile_step. change (is_op RB) with true. change (RB =? LB) with false.
  rewrite Z.eqb_refl. cbn [negb c_jstack c_instrs].
  replace (lenZ l + 1 + 1) with (lenZ l + 2) by lia.
  rewrite overflow_ok by (change (2 ^ 16) with 65536; lia). cbn [bind].
  set (ws := (((l ++ [LB; 0] ++ X) ++ [RB]) ++ [lenZ l + 2])).
  assert (Ew : ws = l ++ LB :: 0 :: X ++ [RB; lenZ l + 2]).
  { subst ws. rewrite <- !app_assoc. cbn [app]. reflexivity. }
  assert (Lw : lenZ ws = lenZ l + 4 + lenZ X).
  { rewrite Ew, lenZ_app, !lenZ_cons, lenZ_app, !lenZ_cons, lenZ_nil. lia. }
  rewrite store_ok by lia. cbn [bind].
  unfold as_u16. rewrite Lw, Z.mod_small by lia. f_equal. f_equal.
  rewrite Ew. replace (Z.to_nat (lenZ l + 1)) with (length l + 1)%nat by (unfold lenZ; lia).
  rewrite upd_app. cbn [upd app]. reflexivity.
Qed.

Lemma compile_loop_app pr l1 : forall s l2,
  compile_loop pr s (l1 ++ l2) = (let! s' := compile_loop pr s l1 in compile_loop pr s' l2).
Proof.
  induction l1 as [|i l1 IH]; intros s l2; cbn [compile_loop app]; [reflexivity|].
  destruct (compile_step pr s i) as [s'|]; cbn [bind]; [apply IH|reflexivity].
Qed.

Lemma compile_loop_emit pr src p : parses src p -> forall l js,
  lenZ l + program_words p <= 65535 ->
  compile_loop pr {| c_instrs := l; c_jstack := js |} src =
  Ok {| c_instrs := l ++ emit (lenZ l) p; c_jstack := js |}.
Proof.
  induction 1 as [|c s p Hc Hp IH|s p Hp IH|s p Hp IH|s p Hp IH|s p Hp IH|s p Hp IH|s p Hp IH
                  |b body s p Hb IHb Hp IHp]; intros l js Hlen.
  - cbn [compile_loop emit]. rewrite app_nil_r. reflexivity.
  - cbn [compile_loop]. unfold compile_step. rewrite (is_op_false _ Hc). cbn [negb bind].
    apply IH, Hlen.
  - cbn [compile_loop]. rewrite compile_step_simple by (reflexivity || discriminate).
    cbn [bind c_instrs c_jstack]. rewrite program_words_cons in Hlen.
    change (words Right) with 1 in Hlen.
    rewrite IH by (rewrite lenZ_app; change (lenZ [chr_right]) with 1; lia).
    cbn [emit emit_i app]. rewrite <- app_assoc. cbn [app].
    rewrite lenZ_app. change (lenZ [chr_right]) with 1. reflexivity.
  - cbn [compile_loop]. rewrite compile_step_simple by (reflexivity || discriminate).
    cbn [bind c_instrs c_jstack]. rewrite program_words_cons in Hlen.
    change (words Left) with 1 in Hlen.
    rewrite IH by (rewrite lenZ_app; change (lenZ [chr_left]) with 1; lia).
    cbn [emit emit_i app]. rewrite <- app_assoc. cbn [app].
    rewrite lenZ_app. change (lenZ [chr_left]) with 1. reflexivity.
  - cbn [compile_loop]. rewrite compile_step_simple by (reflexivity || discriminate).
    cbn [bind c_instrs c_jstack]. rewrite program_words_cons in Hlen.
    change (words Inc) with 1 in Hlen.
    rewrite IH by (rewrite lenZ_app; change (lenZ [chr_inc]) with 1; lia).
    cbn [emit emit_i app]. rewrite <- app_assoc. cbn [app].
    rewrite lenZ_app. change (lenZ [chr_inc]) with 1. reflexivity.
  - cbn [compile_loop]. rewrite compile_step_simple by (reflexivity || discriminate).
    cbn [bind c_instrs c_jstack]. rewrite program_words_cons in Hlen.
    change (words Dec) with 1 in Hlen.
    rewrite IH by (rewrite lenZ_app; change (lenZ [chr_dec]) with 1; lia).
    cbn [emit emit_i app]. rewrite <- app_assoc. cbn [app].
    rewrite lenZ_app. change (lenZ [chr_dec]) with 1. reflexivity.
  - cbn [compile_loop]. rewrite compile_step_simple by (reflexivity || discriminate).
    cbn [bind c_instrs c_jstack]. rewrite program_words_cons in Hlen.
    change (words Out) with 1 in Hlen.
    rewrite IH by (rewrite lenZ_app; change (lenZ [chr_out]) with 1; lia).
    cbn [emit emit_i app]. rewrite <- app_assoc. cbn [app].
    rewrite lenZ_app. change (lenZ [chr_out]) with 1. reflexivity.
  - cbn [compile_loop]. rewrite compile_step_simple by (reflexivity || discriminate).
    cbn [bind c_instrs c_jstack]. rewrite program_words_cons in Hlen.
    change (words In) with 1 in Hlen.
    rewrite IH by (rewrite lenZ_app; change (lenZ [chr_in]) with 1; lia).
    cbn [emit emit_i app]. rewrite <- app_assoc. cbn [app].
    rewrite lenZ_app. change (lenZ [chr_in]) with 1. reflexivity.
  - rewrite program_words_cons, words_loop in Hlen.
    pose proof (program_words_nonneg body). pose proof (program_words_nonneg p).
    cbn [compile_loop]. change chr_open with LB.
    rewrite compile_step_lb by (cbn [c_instrs]; lia).
    cbn [bind c_instrs c_jstack].
    rewrite compile_loop_app.
    rewrite IHb by (rewrite lenZ_app; change (lenZ [LB; 0]) with 2; lia).
    cbn [bind compile_loop]. change chr_close with RB.
    rewrite <- app_assoc.
    assert (Le : forall z, lenZ (emit z body) = program_words body) by (intros; apply emit_length).
    rewrite compile_step_rb by (rewrite Le; lia).
    cbn [bind]. rewrite Le.
    rewrite IHp by (rewrite !lenZ_app, Le; change (lenZ [RB; lenZ l + 2]) with 2;
                    change (lenZ [LB; lenZ l + 4 + program_words body]) with 2; lia).
    cbn [emit]. rewrite emit_loop, words_loop.
    rewrite lenZ_app. change (lenZ [LB; 0]) with 2.
    repeat rewrite <- app_assoc. cbn [app].
    f_equal. f_equal. f_equal. f_equal. f_equal. f_equal. f_equal. f_equal. f_equal.
    rewrite !lenZ_app, !lenZ_cons, lenZ_app, Le, !lenZ_cons, lenZ_nil. lia.
Qed.

Lemma compile_emit pr src p :
  parses src p -> program_words p <= 65535 -> compile_to_u16 pr src = Ok (emit 0 p).
Proof.
  intros Hp Hl. unfold compile_to_u16.
  rewrite (compile_loop_emit pr src p Hp) by (rewrite lenZ_nil; lia). reflexivity.
Qed.
