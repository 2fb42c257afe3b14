(** Soundness: a prover who answers enough challenges of every round knows a
    satisfying assignment. *)
From Coq Require Import ZArith List Arith Lia Bool Permutation.
From Verif Require Import Base ListFacts Moduli Field FieldFacts LimbSpec LimbField LimbConst RootFacts PolyFacts Halo2Model SelectorModel
  PermModel PermSpec CycleFacts PermFacts PermClaims SelectorSpec SelectorClaims DomainModel DomainSpec DomainFacts VkModel
  IopModel IopPoly IopRows IopSpec IopLagrange IopTotal IopAccept.
Import ListNotations.
Local Open Scope F_scope.

(** ** Cells have different tags *)
Lemma DELTA_is : DELTA = delta_c.
Proof. apply fe_eq. vm_compute. reflexivity. Qed.
Lemma tag_inj (w : Fr) k i j i' j' : (0 <= k <= 28)%Z -> order_is w (2 ^ k) -> (0 <= i < tt)%Z -> (0 <= i' < tt)%Z ->
  (0 <= j < 2 ^ k)%Z -> (0 <= j' < 2 ^ k)%Z ->
  fpow delta_c i * fpow w j = fpow delta_c i' * fpow w j' -> i = i' /\ j = j'.
Proof.
  intros Hk Hw Hi Hi' Hj Hj' E. pose proof tt_pos.
  assert (P2 : (0 < 2 ^ k)%Z) by (apply Z.pow_pos_nonneg; lia).
  assert (W1 : forall z, (0 <= z)%Z -> fpow (fpow w z) (2 ^ k) = f1).
  { intros z Hz. rewrite fpow_swap by lia. rewrite (proj2 (proj2 Hw (2 ^ k)%Z ltac:(lia)) (Z.divide_refl _)). apply fpow_one; lia. }
  assert (I : i = i').
  { apply (f_equal (fun x => fpow x (2 ^ k))) in E. rewrite !fpow_fmul, !W1 in E by lia.
    assert (E2 : fpow (fpow delta_c i) (2 ^ k) = fpow (fpow delta_c i') (2 ^ k)).
    { transitivity (fpow (fpow delta_c i) (2 ^ k) * f1); [symmetry; apply one_r|]. rewrite E. apply one_r. }
    rewrite delta_is, !fpow_mul in E2 by nia. apply seven_eq in E2; [|nia..]. rewrite rm1_split in E2.
    assert (D : (tt | 2 ^ 28 * (i' - i))%Z).
    { destruct E2 as (q & E2). exists (q * 2 ^ (28 - k))%Z.
      assert (S2 : (2 ^ 28 = 2 ^ (28 - k) * 2 ^ k)%Z) by (rewrite <- Z.pow_add_r by lia; f_equal; lia).
      assert (F : (2 ^ k * (i' - i) = q * tt)%Z) by (change (2 ^ 28)%Z with 268435456%Z in *; nia).
      rewrite S2. replace (2 ^ (28 - k) * 2 ^ k * (i' - i))%Z with (2 ^ (28 - k) * (2 ^ k * (i' - i)))%Z by ring. rewrite F. ring. }
    apply Z.gauss in D; [|rewrite Z.gcd_comm; exact tt_odd].
    destruct D as (q & D). assert (q = 0%Z) by nia. lia. }
  split; [exact I|]. subst i'.
  assert (Nz : fpow delta_c i <> f0).
  { apply fpow_nz; [exact r_prime|lia|]. rewrite delta_is. apply fpow_nz; [exact r_prime|lia|]. intros X. apply (f_equal fval) in X. vm_compute in X. discriminate. }
  apply fmul_cancel in E; [|exact Nz].
  assert (Hw' : order_is w (Z.of_nat (Z.to_nat (2 ^ k)))) by (rewrite Z2Nat.id by lia; exact Hw).
  pose proof (pt_inj (Z.to_nat (2 ^ k)) w Hw' (Z.to_nat j) (Z.to_nat j') ltac:(lia) ltac:(lia)) as PI.
  unfold pt in PI. rewrite !Z2Nat.id in PI by lia. specialize (PI E). lia.
Qed.
(** the entries of the permutation polynomials are the tags of the images *)
Lemma polys_tags delta w n cols fuel E p : NoDup cols -> (length cols * n <= fuel)%nat ->
  perm_copies fuel (perm_new n cols) E = COk p ->
  expresses n cols E p /\
  forall i r col, nth_error cols i = Some col -> (r < n)%nat -> exists i' r' col',
    nth_error cols i' = Some col' /\ (r' < n)%nat /\ image p (col, r) = Some (col', r') /\
    get2 (perm_polys delta w n p) (i, r) = Some (Some (fpow delta (Z.of_nat i') * fpow w (Z.of_nat r'))).
Proof.
  intros ND F H. pose proof (copies_valid _ _ _ _ _ ND F H) as V.
  destruct (copies_inv n cols fuel ND F E [] (perm_new n cols) (new_inv n cols fuel F) eq_refl V)
    as (p0 & E0 & I & C).
  assert (p0 = p) by congruence. subst p0. split; [exact (inv_expresses n cols ND E p V C I)|].
  pose proof (i_map _ _ _ _ I) as SH. pose proof (i_perm _ _ _ _ I) as [P1 P2].
  intros i r col Ei Hr.
  assert (Ij : inside (length cols) n (i, r)).
  { split; [apply nth_error_Some; cbn [fst]; congruence|exact Hr]. }
  pose proof (P1 _ Ij) as [L1 L2]. pose proof (get2_fn _ _ _ _ SH Ij) as G.
  destruct (fn (pm_mapping p) (i, r)) as [i' r'] eqn:Ef. cbn [fst snd] in *.
  destruct (nth_error cols i') as [col'|] eqn:Ec; [|apply nth_error_None in Ec; lia].
  exists i', r', col'. split; [exact Ec|]. split; [exact L2|]. split.
  - unfold image. rewrite C. cbn [fst snd]. rewrite (position_nodup cols i col ND Ei), G, Ec. reflexivity.
  - unfold perm_polys. rewrite C. unfold get2 in G |- *. cbn [fst snd] in *. rewrite nth_error_map'.
    destruct (nth_error (pm_mapping p) i) as [row|]; [|discriminate]. cbn [option_map].
    rewrite nth_error_map', G. cbn [option_map]. f_equal.
    apply (deltaomega_get delta w (length cols) n i' r' L1 L2).
Qed.
Lemma linked_rows {C} (E : list ((C * nat) * (C * nat))) u : (forall x y, In (x, y) E -> (snd x < u)%nat /\ (snd y < u)%nat) ->
  forall x y, linked E x y -> x = y \/ (snd x < u)%nat /\ (snd y < u)%nat.
Proof.
  intros H x y L. induction L as [x y I|x|x y _ [->|[A B]]|x y z _ [->|[A B]] _ [->|[A' B']]]; auto.
Qed.
Lemma copies_from_images n cols E p u (v : acell -> Fr) : expresses n cols E p ->
  (forall x y, In (x, y) E -> (snd x < u)%nat /\ (snd y < u)%nat) ->
  (forall x y, on_table n cols x -> (snd x < u)%nat -> image p x = Some y -> v x = v y) ->
  forall x y, In (x, y) E -> v x = v y.
Proof.
  intros (sigma & IM & (S1 & _) & CY & INV) HE H. apply (proj1 (INV _ v)). intros x Tx.
  destruct (linked_rows E u HE x (sigma x)) as [X|[X _]].
  - apply CY; [exact Tx|apply S1, Tx|]. exists 1%nat. reflexivity.
  - rewrite <- X. reflexivity.
  - symmetry. apply H; [exact Tx|exact X|apply IM, Tx].
Qed.

(** ** Products over all cells *)
Lemma fprod_flat {A B} (F : B -> Fr) (g : A -> list B) l :
  fprod (map F (flat_map g l)) = fprod (map (fun a => fprod (map F (g a))) l).
Proof.
  induction l as [|a l IH]; [reflexivity|]. cbn [flat_map map fprod]. rewrite map_app, fprod_app, IH. reflexivity.
Qed.
Definition grid (u : nat) (JJ : list (list nat)) : list (nat * nat) :=
  flat_map (fun J => flat_map (fun r => map (fun i => (i, r)) J) (seq 0 u)) JJ.
Lemma grid_in u JJ i r : In (i, r) (grid u JJ) <-> (r < u)%nat /\ In i (concat JJ).
Proof.
  unfold grid. rewrite in_flat_map, in_concat. split.
  - intros (J & IJ & X). apply in_flat_map in X. destruct X as (r' & Ir & X). apply in_map_iff in X. destruct X as (i' & [= -> ->] & Ii).
    apply in_seq in Ir. split; [lia|]. eauto.
  - intros (Hr & J & IJ & Ii). exists J. split; [exact IJ|]. apply in_flat_map. exists r. split; [apply in_seq; lia|].
    apply in_map_iff. eauto.
Qed.
Lemma grid_length u JJ : length (grid u JJ) = (length (concat JJ) * u)%nat.
Proof.
  unfold grid. induction JJ as [|J JJ IH]; [reflexivity|]. cbn [flat_map concat]. rewrite !app_length, IH.
  enough (G : forall l : list nat, length (flat_map (fun r => map (fun i : nat => (i, r)) J) l) = (length J * length l)%nat) by (rewrite G, seq_length; lia).
  induction l as [|r l IHl]; cbn [flat_map length]; [lia|]. rewrite app_length, map_length, IHl. lia.
Qed.
Lemma telescope (z : nat -> nat -> Fr) (num den : nat -> nat -> Fr) u : forall JJ a,
  (forall i, (S i < length JJ)%nat -> z (a + S i)%nat 0%nat = z (a + i)%nat u) ->
  (forall i r J, nth_error JJ i = Some J -> (r < u)%nat ->
     z (a + i)%nat (S r) * fprod (map (fun q => den q r) J) = z (a + i)%nat r * fprod (map (fun q => num q r) J)) ->
  (0 < length JJ)%nat ->
  z (a + (length JJ - 1))%nat u * fprod (map (fun c => den (fst c) (snd c)) (grid u JJ)) =
  z a 0%nat * fprod (map (fun c => num (fst c) (snd c)) (grid u JJ)).
Proof.
  induction JJ as [|J JJ IH]; intros a HL HP Hpos; [cbn in Hpos; lia|].
  assert (R : forall F : nat -> nat -> Fr, fprod (map (fun c => F (fst c) (snd c)) (grid u (J :: JJ))) =
    fprod (map (fun r => fprod (map (fun q => F q r) J)) (seq 0 u)) * fprod (map (fun c => F (fst c) (snd c)) (grid u JJ))).
  { intros F. unfold grid. cbn [flat_map]. rewrite map_app, fprod_app. f_equal. rewrite fprod_flat. f_equal. apply map_ext. intros r.
    rewrite map_map. reflexivity. }
  rewrite !R.
  assert (H0 := running (z a) (fun r => fprod (map (fun q => num q r) J)) (fun r => fprod (map (fun q => den q r) J)) u).
  assert (E0 : z a u * fprod (map (fun r => fprod (map (fun q => den q r) J)) (seq 0 u)) =
    z a 0%nat * fprod (map (fun r => fprod (map (fun q => num q r) J)) (seq 0 u))).
  { apply H0. intros r Hr. specialize (HP 0%nat r J eq_refl Hr). rewrite Nat.add_0_r in HP. exact HP. }
  set (D0 := fprod (map (fun r => fprod (map (fun q => den q r) J)) (seq 0 u))) in *.
  set (N0 := fprod (map (fun r => fprod (map (fun q => num q r) J)) (seq 0 u))) in *.
  destruct JJ as [|J2 JJ].
  - cbn [length Nat.sub grid flat_map map fprod]. rewrite Nat.add_0_r.
    replace (z a u * (D0 * f1)) with (z a u * D0) by fring. rewrite E0. fring.
  - assert (E1 := IH (S a)).
    assert (E1' : z (S a + (length (J2 :: JJ) - 1))%nat u * fprod (map (fun c => den (fst c) (snd c)) (grid u (J2 :: JJ))) =
      z (S a) 0%nat * fprod (map (fun c => num (fst c) (snd c)) (grid u (J2 :: JJ)))).
    { apply E1.
      - intros i Hi. replace (S a + S i)%nat with (a + S (S i))%nat by lia. replace (S a + i)%nat with (a + S i)%nat by lia. apply HL. cbn [length] in *. lia.
      - intros i r J' E Hr. replace (S a + i)%nat with (a + S i)%nat by lia. apply HP; assumption.
      - cbn [length]. lia. }
    pose proof (HL 0%nat ltac:(cbn [length]; lia)) as L0. rewrite Nat.add_0_r, Nat.add_1_r in L0. rewrite L0 in E1'.
    replace (a + (length (J :: J2 :: JJ) - 1))%nat with (S a + (length (J2 :: JJ) - 1))%nat by (cbn [length]; lia).
    set (D1 := fprod (map _ (grid u (J2 :: JJ)))) in *. set (N1 := fprod (map (fun c => num _ _) (grid u (J2 :: JJ)))) in *.
    set (zl := z (S a + _)%nat u) in *.
    replace (zl * (D0 * D1)) with ((zl * D1) * D0) by fring. rewrite E1'.
    replace (z a u * N1 * D0) with ((z a u * D0) * N1) by fring. rewrite E0. fring.
Qed.
