(** The claims about the permutation of key generation: a whole key generation,
    and the values of the permutation polynomials. *)
From Coq Require Import ZArith List Arith Lia Bool.
From Verif Require Import Base ListFacts Field FieldFacts Halo2Model PermModel PermSpec CycleFacts PermFacts.
From Verif Require Import LimbSpec LimbField LimbConst RootFacts.
Import ListNotations.

(** ** Key generation *)
Lemma keygen_copies c n : forall ops a a', keygen_ops c n ops a = EOk a' ->
  (forall x y, In (x, y) (asm_copies a) ->
     on_table n (perm_columns c) x /\ on_table n (perm_columns c) y) ->
  forall x y, In (x, y) (asm_copies a') ->
     on_table n (perm_columns c) x /\ on_table n (perm_columns c) y.
Proof.
  induction ops as [|o ops IH]; intros a a' H HA; [injection H as <-; exact HA|].
  cbn [keygen_ops] in H. destruct (keygen_op c n o a) as [a1| |] eqn:E; try discriminate.
  apply (IH a1 a' H). clear IH H.
  destruct o; cbn [keygen_op] in E;
    repeat match type of E with (if ?b then _ else _) = _ => destruct b eqn:?; try discriminate end;
    repeat match type of E with match ?b with _ => _ end = _ => destruct b eqn:?; try discriminate end;
    injection E as <-; try exact HA.
  simpl. intros x y [[= <- <-]|I]; [|apply HA, I].
  apply andb_true_iff in Heqb as [B1 B2]. apply andb_true_iff in Heqb0 as [B3 B4].
  apply Nat.ltb_lt in B1, B2. apply existsb_exists in B3 as (c1 & I1 & E1).
  apply existsb_exists in B4 as (c2 & I2 & E2). apply column_eqb_iff in E1, E2. subst c1 c2.
  unfold usable_rows in *. split; (split; simpl; [assumption|lia]).
Qed.
Lemma keygen_expresses c n ops a fuel : keygen c n ops = EOk a -> NoDup (perm_columns c) ->
  length (perm_columns c) * n <= fuel ->
  exists p, perm_copies fuel (perm_new n (perm_columns c)) (rev (asm_copies a)) = COk p /\
    expresses n (perm_columns c) (rev (asm_copies a)) p.
Proof.
  intros H ND F. apply copies_express; auto. intros x y I. apply in_rev in I.
  unfold keygen in H. destruct (n <? minimum_rows c); [discriminate|].
  apply (keygen_copies c n ops asm_new a H); [intros ? ? []|exact I].
Qed.

(** ** Polynomial values *)
Local Open Scope Z_scope.
Lemma powers_length {T} (mul : T -> T -> T) base : forall n cur, length (powers mul base cur n) = n.
Proof. induction n; intros; simpl; auto. Qed.
Lemma powers_nth base : forall n cur i, (i < n)%nat ->
  nth_error (powers (@fmul r_pos) base cur n) i = Some (cur * fpow base (Z.of_nat i))%F.
Proof.
  induction n; intros cur i H; [lia|]. destruct i as [|i]; simpl powers.
  - simpl. f_equal. rewrite fpow_0. fring.
  - simpl nth_error. rewrite IHn by lia. f_equal. rewrite Nat2Z.inj_succ, <- Z.add_1_r.
    rewrite fpow_add by lia. rewrite fpow_1. fring.
Qed.
Lemma deltaomega_get d w m n i j : (i < m)%nat -> (j < n)%nat ->
  get2 (deltaomega d w m n) (i, j) = Some (fpow d (Z.of_nat i) * fpow w (Z.of_nat j))%F.
Proof.
  intros Hi Hj. unfold get2, deltaomega. cbn [fst snd].
  rewrite nth_error_map', powers_nth by exact Hi. cbn [option_map].
  rewrite nth_error_map', powers_nth by exact Hj. cbn [option_map]. f_equal. fring.
Qed.

Lemma copies_valid n cols fuel E p : NoDup cols -> (length cols * n <= fuel)%nat ->
  perm_copies fuel (perm_new n cols) E = COk p -> forall x y, In (x, y) E -> on_table n cols x /\ on_table n cols y.
Proof.
  intros ND F H. destruct (copies_verdict n cols fuel ND F E) as [(p' & _ & G)|(e & G & _)]; [exact G|].
  congruence.
Qed.
Lemma polys_hold k cols fuel E p : 0 <= k <= 28 -> NoDup cols -> Z.of_nat (length cols) <= tt ->
  let n := Z.to_nat (2 ^ k) in
  (length cols * n <= fuel)%nat -> perm_copies fuel (perm_new n cols) E = COk p ->
  let value i j := get2 (perm_polys delta_c (omega_c k) n p) (i, j) in
  (forall i j c, nth_error cols i = Some c -> (j < n)%nat -> exists i' j' c',
     nth_error cols i' = Some c' /\ (j' < n)%nat /\ image p (c, j) = Some (c', j') /\
     value i j = Some (Some (fpow delta_c (Z.of_nat i') * fpow (omega_c k) (Z.of_nat j'))%F)) /\
  (forall i j i' j' v, value i j = Some (Some v) -> value i' j' = Some (Some v) -> i = i' /\ j = j').
Proof.
  intros Hk ND Ht n F H value.
  pose proof (copies_valid _ _ _ _ _ ND F H) as V.
  destruct (copies_inv n cols fuel ND F E [] (perm_new n cols) (new_inv n cols fuel F) eq_refl V)
    as (p0 & E0 & I & C).
  assert (p0 = p) by congruence. subst p0.
  destruct (inv_expresses n cols ND E p V C I) as (sigma & IM & (S1 & S2 & _) & _).
  pose proof (i_map _ _ _ _ I) as SH. pose proof (i_perm _ _ _ _ I) as [P1 P2].
  assert (VA : forall i j, inside (length cols) n (i, j) ->
    value i j = Some (Some (fpow delta_c (Z.of_nat (fst (fn (pm_mapping p) (i, j)))) *
                            fpow (omega_c k) (Z.of_nat (snd (fn (pm_mapping p) (i, j)))))%F)).
  { intros i j Ij. unfold value, perm_polys. rewrite C.
    pose proof (get2_fn _ _ _ _ SH Ij) as G. destruct (P1 _ Ij) as [L1 L2].
    destruct (fn (pm_mapping p) (i, j)) as [i' j'] eqn:Ef. cbn [fst snd] in *.
    unfold get2 in G |- *. cbn [fst snd] in *. rewrite nth_error_map'.
    destruct (nth_error (pm_mapping p) i) as [row|]; [|discriminate]. cbn [option_map].
    rewrite nth_error_map', G. cbn [option_map]. f_equal.
    apply (deltaomega_get delta_c (omega_c k) (length cols) n i' j' L1 L2). }
  assert (VI : forall i j v, value i j = Some (Some v) -> inside (length cols) n (i, j)).
  { intros i j v G. unfold value, perm_polys, get2 in G. cbn [fst snd] in G. rewrite nth_error_map' in G.
    destruct (nth_error (pm_mapping p) i) as [row|] eqn:Er; [|discriminate]. cbn [option_map] in G.
    rewrite nth_error_map' in G. destruct (nth_error row j) eqn:Ej; [|discriminate].
    destruct SH as [SH1 SH2]. split; cbn [fst snd].
    - rewrite <- SH1. apply nth_error_Some. congruence.
    - rewrite <- (SH2 _ _ Er). apply nth_error_Some. congruence. }
  split.
  - intros i j c Ei Hj.
    assert (Ij : inside (length cols) n (i, j)).
    { split; [apply nth_error_Some; cbn [fst]; congruence|exact Hj]. }
    pose proof (P1 _ Ij) as [L1 L2]. pose proof (VA i j Ij) as VV.
    pose proof (get2_fn _ _ _ _ SH Ij) as G.
    destruct (fn (pm_mapping p) (i, j)) as [i' j'] eqn:Ef. cbn [fst snd] in *.
    destruct (nth_error cols i') as [c'|] eqn:Ec; [|apply nth_error_None in Ec; lia].
    exists i', j', c'. split; [exact Ec|]. split; [exact L2|]. split; [|exact VV].
    unfold image. rewrite C. cbn [fst snd]. rewrite (position_nodup cols i c ND Ei), G, Ec. reflexivity.
  - intros i j i' j' v G1 G2. pose proof (VI _ _ _ G1) as I1. pose proof (VI _ _ _ G2) as I2.
    rewrite (VA _ _ I1) in G1. rewrite (VA _ _ I2) in G2. rewrite <- G2 in G1. clear G2.
    destruct (P1 _ I1) as [A1 A2], (P1 _ I2) as [B1 B2].
    apply (f_equal (fun o => match o with Some (Some v) => v | _ => f0 end)) in G1.
    unfold n in *. apply cell_tag_inj in G1; [|lia..]. rename G1 into G.
    destruct G as [Q1 Q2]. apply Nat2Z.inj in Q1, Q2.
    assert (E2 : fn (pm_mapping p) (i, j) = fn (pm_mapping p) (i', j')).
    { rewrite (surjective_pairing (fn _ (i, j))), (surjective_pairing (fn _ (i', j'))). congruence. }
    apply P2 in E2; auto. injection E2; auto.
Qed.

(** ** The project's circuit *)
From Verif Require Import VMModel CircuitModel CircuitFacts KeygenFacts.
Lemma bcs_perm_nodup : NoDup (perm_columns bcs).
Proof.
  assert (D : forall x y : column, {x = y} + {x <> y}).
  { intros x y. destruct (column_eqb x y) eqn:E; [left; apply column_eqb_iff; exact E|right].
    intros ->. rewrite (proj2 (column_eqb_iff y y) eq_refl) in E. discriminate. }
  assert (G : forall l : list column,
    (fix go l := match l with [] => true | c :: l => negb (existsb (column_eqb c) l) && go l end) l = true -> NoDup l).
  { induction l as [|c l IH]; intros H; [constructor|]. apply andb_true_iff in H as [H1 H2].
    constructor; [|apply IH, H2]. intros I. apply negb_true_iff in H1.
    assert (X : existsb (column_eqb c) l = true).
    { apply existsb_exists. exists c. split; [exact I|]. apply column_eqb_iff. reflexivity. }
    congruence. }
  apply G. vm_compute. reflexivity.
Qed.
Lemma project_permutation n m cc sc asm : bf_keygen n m = EOk (cc, sc, asm) ->
  exists p, perm_copies (length (perm_columns sc) * n) (perm_new n (perm_columns sc))
              (rev (asm_copies asm)) = COk p /\
    expresses n (perm_columns sc) (rev (asm_copies asm)) p /\
    forall a, copies_hold (asm_copies asm) a <->
      forall x y, on_table n (perm_columns sc) x -> image p x = Some y -> cell_value a x = cell_value a y.
Proof.
  intros H. apply keygen_asm in H as (-> & -> & H).
  pose proof (keygen_copies bcs n _ _ _ H ltac:(intros ? ? [])) as V.
  destruct (copies_express n (perm_columns bcs) (length (perm_columns bcs) * n) bcs_perm_nodup (le_n _)
    (rev (asm_copies asm))) as (p & Ep & X); [intros x y I; apply V, in_rev, I|].
  exists p. split; [exact Ep|]. split; [exact X|]. intros a.
  destruct X as (sigma & IM & _ & _ & INV).
  specialize (INV _ (cell_value a)). unfold copies_hold. split.
  - intros HC x y T Ey. rewrite (IM x T) in Ey. injection Ey as <-. symmetry.
    apply INV; [|exact T]. intros u v I. apply HC, in_rev, I.
  - intros HS. destruct INV as [INV _]. intros x y I.
    apply INV; [|rewrite <- in_rev; exact I]. intros u T. symmetry. apply HS; [exact T|]. apply IM, T.
Qed.
