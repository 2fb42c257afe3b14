(** Meaning of the configured constraint system: each gate polynomial as an
    equation over the cells it reads. *)
From Coq Require Import ZArith List Bool Arith Lia.
From Verif Require Import Base Field FieldFacts VMModel Halo2Model CircuitModel.
Import ListNotations.
Local Open Scope F_scope.

(** The result of configuring the circuit. *)
Definition conf : main_config :=
  Eval cbv -[FrZ f0 f1] in
  match bf_configure with Ok (c, _) => c | Panic => mkMain
    (mkP (ACol 0 0) (ACol 0 0) (ACol 0 0) (ACol 0 0) (ACol 0 0) (ACol 0 0) (ACol 0 0) (ACol 0 0)
       (ACol 0 0) (ACol 0 0) (ACol 0 0) 0 (Sel 0 true) (Sel 0 true) (Sel 0 true) (Sel 0 true)
       (Sel 0 true) (Sel 0 true))
    (mkMem (ACol 0 0) (ACol 0 0) (ACol 0 0) (ACol 0 0) (Sel 0 true) (Sel 0 true))
    (mkInst (ACol 0 0) (ACol 0 0) (ACol 0 0) (ACol 0 0) (ACol 0 0) (Sel 0 true) (Sel 0 true)
       (Sel 0 true) (Sel 0 true))
    (mkOut (ACol 0 0) (ACol 0 0) (Sel 0 true)) (mkInp (ACol 0 0) (ACol 0 0) (ACol 0 0) (Sel 0 true))
    (mkProg (ACol 0 0) (ACol 0 0) (ACol 0 0) (Sel 0 true)) 0 0 (mkBfCh f0 f0 []) end.
Definition bcs : cs :=
  Eval cbv -[FrZ f0 f1] in
  match bf_configure with Ok (_, s) => s | Panic => cs_default end.

Lemma configure_ok : bf_configure = Ok (conf, bcs).
Proof. cbv -[FrZ f0 f1]. reflexivity. Qed.

Lemma bcs_usable n : usable_rows n bcs = (n - 6)%nat.
Proof. reflexivity. Qed.
Lemma bcs_min : minimum_rows bcs = 8.
Proof. reflexivity. Qed.

Lemma rotate_0 n row : (row < n)%nat -> rotate n row 0 = row.
Proof. intros H. unfold rotate. rewrite Z.add_0_r, Z.mod_small by lia. apply Nat2Z.id. Qed.
Lemma rotate_1 n row : (S row < n)%nat -> rotate n row 1 = S row.
Proof. intros H. unfold rotate. rewrite Z.mod_small by lia. lia. Qed.
Lemma rotate_m1 n row : (S row < n)%nat -> rotate n (S row) (-1) = row.
Proof. intros H. unfold rotate. rewrite Z.mod_small by lia. lia. Qed.

Lemma rotate_m1_0 n : (1 < n)%nat -> rotate n 0 (-1) = (n - 1)%nat.
Proof.
  intros H. unfold rotate. replace (Z.of_nat 0 + -1)%Z with (-1)%Z by reflexivity.
  rewrite (Z.mod_eq (-1)) by lia. replace (-1 / Z.of_nat n)%Z with (-1)%Z; [lia|].
  apply Z.div_unique_pos with (Z.of_nat n - 1)%Z; lia.
Qed.

(** Deselector and selector as field functions. *)
Definition desel (ci : Fr) (op : Z) : Fr :=
  fold_left (fun e v => if Z.eqb v op then e else e * (ci - FrZ v)) OPCODES f1.

(** All the circuit's gate equations at one row: [A c] is advice column [c] at
    this row, [B c] at the next row, [Z c] at the previous row; [on s] says
    selector [s] is enabled here; [ch] are the challenges. *)
Record row_eqs (on : nat -> bool) (A B P : nat -> Fr) (ch : nat -> Fr) : Prop := mkEqs {
  e_B0 : on 3 = true -> A 0%nat = f0;
  e_B1 : on 3 = true -> A 2 = f0;
  e_B3 : on 3 = true -> A 4 = f0;
  e_B4 : on 3 = true -> A 5 = f0;
  e_P0 : on 2 = true -> B 0%nat - A 0%nat - f1 = f0;
  e_C0 : on 1%nat = true -> A 5 * (A 5 * A 6 - f1) = f0;
  e_C1 : on 1%nat = true -> A 6 * (A 5 * A 6 - f1) = f0;
  e_P1 : on 2 = true ->
    (desel (A 1%nat) ADD + desel (A 1%nat) SUB + desel (A 1%nat) SHR + desel (A 1%nat) SHL
     + desel (A 1%nat) GETCHAR + desel (A 1%nat) PUTCHAR) * (B 2 - A 2 - f1)
    + desel (A 1%nat) LB * (A 5 * (B 2 - A 2 - FrZ 2) + (A 5 * A 6 - f1) * (B 2 - A 3))
    + desel (A 1%nat) RB * ((A 5 * A 6 - f1) * (B 2 - A 2 - FrZ 2) + A 5 * (B 2 - A 3)) = f0;
  e_P2 : on 2 = true ->
    (desel (A 1%nat) ADD + desel (A 1%nat) SUB + desel (A 1%nat) LB + desel (A 1%nat) RB
     + desel (A 1%nat) GETCHAR + desel (A 1%nat) PUTCHAR) * (B 4 - A 4)
    + desel (A 1%nat) SHL * (B 4 - A 4 + f1) + desel (A 1%nat) SHR * (B 4 - A 4 - f1) = f0;
  e_P3 : on 2 = true ->
    (desel (A 1%nat) LB + desel (A 1%nat) RB + desel (A 1%nat) PUTCHAR) * (B 5 - A 5)
    + desel (A 1%nat) ADD * (B 5 - A 5 - f1) * (B 5 - A 5 + FrZ 255)
    + desel (A 1%nat) SUB * (B 5 - A 5 + f1) * (B 5 - A 5 - FrZ 255) = f0;
  e_M0 : on 6 = true -> (B 12 - A 12 - f1) * (B 12 - A 12) = f0;
  e_M1 : on 6 = true -> (B 12 - A 12 - f1) * (A 13 - B 13) * (B 11 - A 11 - f1) = f0;
  e_M2 : on 6 = true -> (B 12 - A 12) * B 13 = f0;
  e_I0 : on 11 = true -> (B 15 - A 15) * (B 15 - A 15 - f1) = f0;
  e_I1 : on 11 = true -> (B 15 - A 15 - f1) * (B 16 - A 16) = f0;
  e_I2 : on 11 = true -> (B 15 - A 15 - f1) * (B 17 - A 17) = f0;
  e_mem : on 7 = true ->
    B 14 - A 14 * (ch 0%nat - ch 1%nat * A 11 - ch 2 * A 12 - ch 3 * A 13) = f0;
  e_pmem : on 4 = true ->
    B 7 - A 7 * (ch 0%nat - ch 1%nat * A 0%nat - ch 2 * A 4 - ch 3 * A 5) = f0;
  e_pinst : on 4 = true ->
    B 8 - A 8 * (ch 4 - ch 5 * A 2 - ch 6 * A 1%nat - ch 7 * A 3) = f0;
  e_pout : on 5 = true ->
    desel (A 1%nat) PUTCHAR * (B 9 - (A 9 * ch 9 + A 5)) + (A 1%nat - FrZ PUTCHAR) * (B 9 - A 9) = f0;
  e_pin : on 5 = true ->
    desel (A 1%nat) GETCHAR * (B 10 - (A 10 * ch 10 + B 5)) + (A 1%nat - FrZ GETCHAR) * (B 10 - A 10) = f0;
  e_irs : on 9 = true ->
    (B 15 - A 15) * (B 19 - (A 19 * ch 8 + A 16)) + (B 15 - A 15 - f1) * (B 19 - A 19) = f0;
  e_iprp : on 8 = true ->
    (B 15 - A 15 - f1) * (B 18 - A 18 * (ch 4 - ch 5 * A 15 - ch 6 * A 16 - ch 7 * A 17))
    + (A 15 - B 15) * (A 18 - B 18) = f0;
  e_iadhoc : on 10 = true ->
    A 18 - P 18 * (ch 4 - ch 5 * P 15 - ch 6 * P 16 - ch 7 * P 17) = f0;
  e_out : on 12 = true -> B 21 - (A 21 * ch 9 + A 20) = f0;
  e_in : on 13 = true -> B 24 - (A 24 * ch 10 + A 22) = f0;
  e_code : on 14 = true -> B 27 - (A 27 * ch 8 + A 25) = f0
}.

(** The equations at a row of an assignment. *)
Definition eqs_at (a : assignment) (row : nat) : Prop :=
  row_eqs (fun s => as_sel a s row) (fun c => as_advice a c row)
    (fun c => as_advice a c (rotate (as_n a) row 1)) (fun c => as_advice a c (rotate (as_n a) row (-1)))
    (as_challenge a).


Ltac unfold_desel :=
  cbv [desel OPCODES fold_left Z.eqb Pos.eqb SHL SHR ADD SUB GETCHAR PUTCHAR LB RB].
Ltac unfold_desel_in H :=
  cbv [desel OPCODES fold_left Z.eqb Pos.eqb SHL SHR ADD SUB GETCHAR PUTCHAR LB RB] in H.

Lemma gates_hold_iff a : gates_hold bcs a <-> forall row, (row < as_n a)%nat -> eqs_at a row.
Proof.
  split.
  - intros H row Hr.
    assert (HH : forall g, In g (gates bcs) -> forall p, In p g -> eval a row p = f0)
      by (intros g Hg p Hp; exact (H g p row Hg Hp Hr)).
    clear H. rewrite <- Forall_forall in HH. unfold bcs in HH. cbn [gates] in HH.
    repeat match goal with H : Forall _ (_ :: _) |- _ =>
      apply Forall_cons_iff in H; let H1 := fresh "G" in destruct H as [H1 H];
      specialize (H1 _ (or_introl eq_refl));
      unfold eval in H1; cbn [evaluate sel_index sel_simple q_col q_rot ch_index] in H1;
      rewrite ?rotate_0 in H1 by assumption
    end.
    constructor; cbv beta; intros Hs; unfold_desel.
    all: match type of Hs with as_sel _ ?s _ = true =>
           repeat match goal with G : context [as_sel _ ?s' _] |- _ =>
             tryif constr_eq G Hs then fail else
             tryif constr_eq s s' then rewrite Hs in G else clear G end end.
    all: match goal with
         | G : ?l = f0 |- ?r = f0 => solve [transitivity l; [fring|exact G]] end.
  - intros H g p row Hg Hp Hr. specialize (H row Hr). destruct H. cbv beta in *.
    unfold bcs in Hg. cbn [gates In] in Hg.
    repeat match type of Hg with False => destruct Hg | _ \/ _ => destruct Hg as [<-|Hg] end;
    destruct Hp as [<-|[]];
    unfold eval; cbn [evaluate sel_index sel_simple q_col q_rot ch_index];
    rewrite ?rotate_0 by assumption;
    match goal with |- context [as_sel a ?s row] => destruct (as_sel a s row) eqn:Es; [|fring] end.
    all: repeat match goal with
         | G : as_sel _ _ _ = true -> _ |- _ => clear G
         | G : true = true -> _ |- _ => specialize (G eq_refl); unfold_desel_in G; revert G
         end; intros.
    all: match goal with
         | G : ?l = f0 |- ?r = f0 => solve [transitivity l; [fring|exact G]] end.
Qed.
