(** Local soundness of the processor table. *)
From Coq Require Import ZArith List Bool Arith Lia.
From Verif Require Import Base Field FieldFacts BFSpec VMModel VMSim Halo2Model CircuitModel
  CircuitFacts LayoutFacts KeygenFacts CircuitSpec TraceSpec.
Import List ListNotations.
Local Open Scope F_scope.

(** The deselector of an opcode vanishes exactly at the other opcodes. *)
Lemma desel_table :
  forallb (fun o => forallb (fun p => eqb (feqb (desel (FrZ o) p) f0) (negb (Z.eqb o p))) OPCODES)
    OPCODES = true.
Proof. vm_compute. reflexivity. Qed.
Lemma desel_other o p : In o OPCODES -> In p OPCODES -> o <> p -> desel (FrZ o) p = f0.
Proof.
  intros Ho Hp N. pose proof desel_table as T. rewrite forallb_forall in T. specialize (T o Ho).
  rewrite forallb_forall in T. specialize (T p Hp). apply eqb_prop in T.
  apply Z.eqb_neq in N. rewrite N in T. apply feqb_eq in T. exact T.
Qed.
Lemma desel_self o : In o OPCODES -> desel (FrZ o) o <> f0.
Proof.
  intros Ho. pose proof desel_table as T. rewrite forallb_forall in T. specialize (T o Ho).
  rewrite forallb_forall in T. specialize (T o Ho). apply eqb_prop in T.
  rewrite Z.eqb_refl in T. apply feqb_neq in T. exact T.
Qed.

Lemma Fr_sub_eq (a b : Fr) : a - b = f0 -> a = b.
Proof. intros H. transitivity (a - b + b); [fring|]. rewrite H. fring. Qed.
Lemma mul_cancel0 (a b : Fr) : a * b = f0 -> a <> f0 -> b = f0.
Proof. intros H N. apply Fr_mul_eq_0 in H. destruct H; [contradiction|assumption]. Qed.

Lemma in_op o : existsb (Z.eqb o) OPCODES = true -> In o OPCODES.
Proof. intros H. apply existsb_exists in H. destruct H as (x & Hx & E). apply Z.eqb_eq in E. now subst. Qed.

(** Keeps only the deselector of the current opcode in [H]. *)
Ltac keep op H :=
  repeat match type of H with
  | context [desel (FrZ op) ?p] =>
      tryif constr_eq op p then fail else
      rewrite (desel_other op p) in H
        by first [apply in_op; reflexivity | discriminate]
  end.

Ltac single op H X :=
  keep op H;
  let G := fresh in
  assert (G : desel (FrZ op) op * X = f0) by (rewrite <- H; fring);
  apply mul_cancel0 in G; [|apply desel_self; apply in_op; reflexivity]; clear H; rename G into H.

Lemma FrZ_small_inj x y : (0 <= x < 2 ^ 64)%Z -> (0 <= y < 2 ^ 64)%Z -> FrZ x = FrZ y -> x = y.
Proof. apply FrZ_inj. Qed.

(** '+' and '-' on bytes. *)
Lemma inc_byte (k k' : Z) : (0 <= k < 256)%Z -> (0 <= k' < 256)%Z ->
  (FrZ k' - FrZ k - f1) * (FrZ k' - FrZ k + FrZ 255) = f0 -> k' = ((k + 1) mod 256)%Z.
Proof.
  intros Hk Hk' H. apply Fr_mul_eq_0 in H. destruct H as [H|H].
  - assert (E : FrZ k' = FrZ (k + 1)).
    { rewrite <- FrZ_add, <- f1_FrZ. apply Fr_sub_eq. rewrite <- H. fring. }
    apply FrZ_inj in E; [|lia|lia]. subst k'. rewrite Z.mod_small by lia. reflexivity.
  - assert (E : FrZ (k' + 255) = FrZ k).
    { rewrite <- FrZ_add. apply Fr_sub_eq. rewrite <- H. fring. }
    apply FrZ_inj in E; [|lia|lia]. assert (k = 255 /\ k' = 0)%Z as [-> ->] by lia. reflexivity.
Qed.
Lemma dec_byte (k k' : Z) : (0 <= k < 256)%Z -> (0 <= k' < 256)%Z ->
  (FrZ k' - FrZ k + f1) * (FrZ k' - FrZ k - FrZ 255) = f0 -> k' = ((k - 1) mod 256)%Z.
Proof.
  intros Hk Hk' H. apply Fr_mul_eq_0 in H. destruct H as [H|H].
  - assert (E : FrZ (k' + 1) = FrZ k).
    { rewrite <- FrZ_add, <- f1_FrZ. apply Fr_sub_eq. rewrite <- H. fring. }
    apply FrZ_inj in E; [|lia|lia]. subst k. rewrite Z.mod_small by lia. lia.
  - assert (E : FrZ k' = FrZ (k + 255)).
    { rewrite <- FrZ_add. apply Fr_sub_eq. rewrite <- H. fring. }
    apply FrZ_inj in E; [|lia|lia]. assert (k = 0 /\ k' = 255)%Z as [-> ->] by lia. reflexivity.
Qed.

Lemma inverse_eqs (v vi : Fr) :
  v * (v * vi - f1) = f0 -> vi * (v * vi - f1) = f0 -> inverse_of v vi.
Proof.
  intros H1 H2. split.
  - intros ->. apply Fr_mul_eq_0 in H2. destruct H2 as [H2|H2]; [exact H2|].
    exfalso. apply Fr_1_neq_0. apply Fr_sub_eq in H2. rewrite <- H2. fring.
  - intros N. apply Fr_sub_eq. exact (mul_cancel0 _ _ H1 N).
Qed.

Section Local.
Context (n : nat) (z : sizes) (inst : nat -> nat -> Fr) (ch : nat -> Fr) (A : nat -> nat -> Fr).
Hypothesis HS : sat n z inst ch A.

Lemma sat_byte r : (r < zp z)%nat -> exists k, (0 <= k < 256)%Z /\ A 5 r = FrZ k /\ fval (A 5 r) = k.
Proof.
  intros Hr. destruct (sat_range _ _ _ _ _ HS r Hr) as (k & Hk & E). exists k.
  split; [exact Hk|]. split; [exact E|]. rewrite E. apply fval_FrZ. lia.
Qed.
Lemma sat_inverse r : (r < zp z)%nat -> inverse_of (A 5 r) (A 6 r).
Proof.
  intros Hr. pose proof (sat_rows _ _ _ _ _ HS r) as E.
  apply inverse_eqs; [apply (e_C0 _ _ _ _ _ E)|apply (e_C1 _ _ _ _ _ E)];
    cbn [sel_spec]; apply Nat.ltb_lt; exact Hr.
Qed.

Lemma sat_step r : (S r < zp z)%nat -> step_ok (view conf A r) (view conf A (S r)).
Proof.
  intros Hr. pose proof (sat_rows _ _ _ _ _ HS r) as E.
  assert (On : sel_spec z 2 r = true) by (cbn [sel_spec]; apply Nat.ltb_lt; exact Hr).
  pose proof (e_P0 _ _ _ _ _ E On) as P0. pose proof (e_P1 _ _ _ _ _ E On) as P1.
  pose proof (e_P2 _ _ _ _ _ E On) as P2. pose proof (e_P3 _ _ _ _ _ E On) as P3.
  cbv beta in *.
  destruct (sat_byte r) as (k & Hk & Ek & Fk); [lia|].
  destruct (sat_byte (S r)) as (k' & Hk' & Ek' & Fk'); [lia|].
  pose proof (sat_inverse r ltac:(lia)) as [Inv0 Inv1].
  unfold step_ok, view. cbn [v_clk v_ip v_ci v_ni v_mp v_mv v_mvi].
  cbn [p_config conf p_clk p_ip p_ci p_ni p_mp p_mv p_mvi ac_index].
  change chr_inc with ADD. change chr_dec with SUB. change chr_right with SHR. change chr_left with SHL.
  change chr_out with PUTCHAR. change chr_in with GETCHAR. change chr_open with LB. change chr_close with RB.
  clear E.
  split; [apply Fr_sub_eq; rewrite <- P0; fring|].
  split; [|split; [|split; [|split; [|split; [|split; [|split]]]]]]; intros Eop; rewrite Eop in P1, P2, P3.
  - single ADD P1 (A 2 (S r) - A 2 r - f1). single ADD P2 (A 4 (S r) - A 4 r).
    single ADD P3 ((A 5 (S r) - A 5 r - f1) * (A 5 (S r) - A 5 r + FrZ 255)).
    split; [apply Fr_sub_eq; rewrite <- P1; fring|]. split; [apply Fr_sub_eq; exact P2|].
    rewrite Fk, Fk'. apply inc_byte; try assumption. rewrite <- Ek, <- Ek'. exact P3.
  - single SUB P1 (A 2 (S r) - A 2 r - f1). single SUB P2 (A 4 (S r) - A 4 r).
    single SUB P3 ((A 5 (S r) - A 5 r + f1) * (A 5 (S r) - A 5 r - FrZ 255)).
    split; [apply Fr_sub_eq; rewrite <- P1; fring|]. split; [apply Fr_sub_eq; exact P2|].
    rewrite Fk, Fk'. apply dec_byte; try assumption. rewrite <- Ek, <- Ek'. exact P3.
  - single SHR P1 (A 2 (S r) - A 2 r - f1). single SHR P2 (A 4 (S r) - A 4 r - f1).
    split; apply Fr_sub_eq; [rewrite <- P1|rewrite <- P2]; fring.
  - single SHL P1 (A 2 (S r) - A 2 r - f1). single SHL P2 (A 4 (S r) - A 4 r + f1).
    split; apply Fr_sub_eq; [rewrite <- P1|rewrite <- P2]; fring.
  - single PUTCHAR P1 (A 2 (S r) - A 2 r - f1). single PUTCHAR P2 (A 4 (S r) - A 4 r).
    single PUTCHAR P3 (A 5 (S r) - A 5 r).
    split; [apply Fr_sub_eq; rewrite <- P1; fring|]. split; apply Fr_sub_eq; assumption.
  - single GETCHAR P1 (A 2 (S r) - A 2 r - f1). single GETCHAR P2 (A 4 (S r) - A 4 r).
    split; [apply Fr_sub_eq; rewrite <- P1; fring|]. split; [apply Fr_sub_eq; assumption|].
    unfold byte. rewrite Fk'. exact Hk'.
  - single LB P1 (A 5 r * (A 2 (S r) - A 2 r - FrZ 2) + (A 5 r * A 6 r - f1) * (A 2 (S r) - A 3 r)).
    single LB P2 (A 4 (S r) - A 4 r). single LB P3 (A 5 (S r) - A 5 r).
    split; [apply Fr_sub_eq; assumption|]. split; [apply Fr_sub_eq; assumption|]. split; intros Z.
    + rewrite Z in P1. apply Fr_sub_eq.
      transitivity (f0 - (f0 * (A 2 (S r) - A 2 r - FrZ 2) + (f0 * A 6 r - f1) * (A 2 (S r) - A 3 r)));
        [fring|]. rewrite P1. fring.
    + rewrite (Inv1 Z) in P1. apply Fr_sub_eq. apply (mul_cancel0 (A 5 r)); [|exact Z].
      rewrite <- P1. fring.
  - single RB P1 ((A 5 r * A 6 r - f1) * (A 2 (S r) - A 2 r - FrZ 2) + A 5 r * (A 2 (S r) - A 3 r)).
    single RB P2 (A 4 (S r) - A 4 r). single RB P3 (A 5 (S r) - A 5 r).
    split; [apply Fr_sub_eq; assumption|]. split; [apply Fr_sub_eq; assumption|]. split; intros Z.
    + rewrite (Inv1 Z) in P1. apply Fr_sub_eq. apply (mul_cancel0 (A 5 r)); [|exact Z].
      rewrite <- P1. fring.
    + rewrite Z in P1. apply Fr_sub_eq.
      transitivity (f0 - ((f0 * A 6 r - f1) * (A 2 (S r) - A 2 r - FrZ 2) + f0 * (A 2 (S r) - A 3 r)));
        [fring|]. rewrite P1. fring.
Qed.

Lemma sat_first : A 0%nat 0%nat = f0 /\ A 2 0%nat = f0 /\ A 4 0%nat = f0 /\ A 5 0%nat = f0.
Proof.
  pose proof (sat_rows _ _ _ _ _ HS 0%nat) as E.
  split; [exact (e_B0 _ _ _ _ _ E eq_refl)|]. split; [exact (e_B1 _ _ _ _ _ E eq_refl)|].
  split; [exact (e_B3 _ _ _ _ _ E eq_refl)|exact (e_B4 _ _ _ _ _ E eq_refl)].
Qed.
End Local.

Lemma C16_lemma n m c s asm A insts ch r :
  bf_keygen n m = EOk (c, s, asm) ->
  satisfied s (asm_copies asm) (assign_with n asm A insts ch) ->
  (S r < length (processor_matrix m))%nat ->
  step_ok (view c A r) (view c A (S r)).
Proof.
  intros K H Hr. pose proof (keygen_spec _ _ _ _ _ K) as (-> & _).
  apply (satisfied_iff _ _ _ _ _ _ _ _ K) in H. exact (sat_step _ _ _ _ _ H r Hr).
Qed.
Lemma C17_lemma n m c s asm A insts ch :
  bf_keygen n m = EOk (c, s, asm) ->
  satisfied s (asm_copies asm) (assign_with n asm A insts ch) ->
  (forall r, (r < length (processor_matrix m))%nat ->
     byte (v_mv (view c A r)) /\ inverse_of (v_mv (view c A r)) (v_mvi (view c A r))) /\
  v_clk (view c A 0%nat) = f0 /\ v_ip (view c A 0%nat) = f0 /\ v_mp (view c A 0%nat) = f0 /\
  v_mv (view c A 0%nat) = f0.
Proof.
  intros K H. pose proof (keygen_spec _ _ _ _ _ K) as (-> & _).
  apply (satisfied_iff _ _ _ _ _ _ _ _ K) in H. split.
  - intros r Hr. split; [|exact (sat_inverse _ _ _ _ _ H r Hr)].
    destruct (sat_byte _ _ _ _ _ H r Hr) as (k & Hk & _ & E).
    unfold byte, view. cbn [v_mv p_config conf p_mv ac_index]. rewrite E. exact Hk.
  - exact (sat_first _ _ _ _ _ H).
Qed.
