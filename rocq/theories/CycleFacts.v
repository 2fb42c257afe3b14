(** Cycles of a permutation of a finite set, and the effect of exchanging two
    images. *)
From Coq Require Import List Arith Lia Bool.
From Verif Require Import Halo2Model PermModel PermSpec.
Import ListNotations.

Section Cycles.
Context {A : Type} (dec : forall x y : A, {x = y} + {x <> y}).

(** A list enumerating a set. *)
Definition finite_by (D : A -> Prop) (l : list A) : Prop := forall x, D x <-> In x l.

Definition perm_on (D : A -> Prop) (f : A -> A) : Prop :=
  (forall x, D x -> D (f x)) /\ (forall x y, D x -> D y -> f x = f y -> x = y).

Lemma iter_in D f : perm_on D f -> forall k x, D x -> D (Nat.iter k f x).
Proof. intros [H _]. induction k; simpl; auto. Qed.
Lemma iter_add (f : A -> A) j k x : Nat.iter (j + k) f x = Nat.iter j f (Nat.iter k f x).
Proof. induction j; simpl; congruence. Qed.
Lemma iter_S_r (f : A -> A) k x : Nat.iter (S k) f x = Nat.iter k f (f x).
Proof. replace (S k) with (k + 1) by lia. rewrite iter_add. reflexivity. Qed.
Lemma iter_mod (f : A -> A) k x : 0 < k -> Nat.iter k f x = x ->
  forall t, Nat.iter t f x = Nat.iter (t mod k) f x.
Proof.
  intros Hk E t. pose proof (Nat.div_mod t k ltac:(lia)) as D. revert D.
  generalize (t mod k) (t / k). intros m q. revert t.
  induction q; intros t ->; [rewrite Nat.mul_0_r; reflexivity|].
  replace (k * S q + m) with ((k * q + m) + k) by lia. rewrite iter_add, E. auto.
Qed.
Lemma iter_inj D f : perm_on D f -> forall k x y, D x -> D y ->
  Nat.iter k f x = Nat.iter k f y -> x = y.
Proof.
  intros H. induction k; simpl; intros x y Dx Dy E; [exact E|].
  apply IHk; auto. pose proof H as [H1 H2]. apply H2; auto; apply (iter_in D f H); auto.
Qed.

(** Every cell comes back to itself within as many steps as there are cells. *)
Lemma nodup_seq_map (g : nat -> A) : forall n a,
  (forall i j, a <= i < j -> j < a + n -> g i <> g j) -> NoDup (map g (seq a n)).
Proof.
  induction n; intros a H; simpl; [constructor|]. constructor.
  - rewrite in_map_iff. intros (j & E & Hj). apply in_seq in Hj. apply (H a j); try lia; auto.
  - apply IHn. intros. apply H; lia.
Qed.
Lemma repeats (g : nat -> A) : forall n,
  (exists i j, i < j < n /\ g i = g j) \/ NoDup (map g (seq 0 n)).
Proof.
  induction n; [right; constructor|].
  destruct IHn as [(i & j & H & E)|N]; [left; exists i, j; split; [lia|exact E]|].
  destruct (in_dec dec (g n) (map g (seq 0 n))) as [I|I].
  - left. apply in_map_iff in I as (i & E & Hi). apply in_seq in Hi. exists i, n. split; [lia|exact E].
  - right. rewrite seq_S, map_app. simpl.
    apply NoDup_rev in N. rewrite <- (rev_involutive (map g (seq 0 n) ++ [g n])).
    apply NoDup_rev. rewrite rev_app_distr. simpl. constructor; [rewrite <- in_rev; exact I|exact N].
Qed.
Lemma returns D f l : finite_by D l -> perm_on D f -> forall x, D x ->
  exists k, 1 <= k <= length l /\ Nat.iter k f x = x.
Proof.
  intros F P x Dx.
  destruct (repeats (fun k => Nat.iter k f x) (S (length l))) as [(i & j & H & E)|N].
  - exists (j - i). split; [lia|]. symmetry. apply (iter_inj D f P i); auto.
    + apply (iter_in D f P); auto.
    + rewrite E, <- iter_add. f_equal. lia.
  - exfalso. apply NoDup_incl_length with (l' := l) in N.
    + rewrite map_length, seq_length in N. lia.
    + intros y Hy. apply in_map_iff in Hy as (k & <- & _). apply F. apply (iter_in D f P); auto.
Qed.
(** The first return. *)
Lemma first_return D f l : finite_by D l -> perm_on D f -> forall x, D x ->
  exists k, 1 <= k <= length l /\ Nat.iter k f x = x /\
    forall j, 1 <= j < k -> Nat.iter j f x <> x.
Proof.
  intros F P x Dx. destruct (returns D f l F P x Dx) as (k & Hk & E).
  revert E. induction k as [k IH] using lt_wf_ind. intros E.
  assert (Dj : (exists j, 1 <= j < k /\ Nat.iter j f x = x) \/
               (forall j, 1 <= j < k -> Nat.iter j f x <> x)).
  { clear - dec. induction k; [right; intros; lia|].
    destruct IHk as [(j & H & E)|N]; [left; exists j; split; [lia|exact E]|].
    destruct (le_lt_dec 1 k) as [L|L].
    - destruct (dec (Nat.iter k f x) x) as [E|E]; [left; exists k; split; [lia|exact E]|].
      right. intros j Hj. destruct (Nat.eq_dec j k) as [->|]; [exact E|apply N; lia].
    - right. intros j Hj. lia. }
  destruct Dj as [(j & Hj & Ej)|N].
  - apply (IH j); auto; lia.
  - exists k. auto.
Qed.

Lemma cycle_refl (f : A -> A) x : on_cycle f x x.
Proof. exists 0. reflexivity. Qed.
Lemma cycle_step (f : A -> A) x : on_cycle f x (f x).
Proof. exists 1. reflexivity. Qed.
Lemma cycle_trans (f : A -> A) x y z : on_cycle f x y -> on_cycle f y z -> on_cycle f x z.
Proof. intros [i <-] [j <-]. exists (j + i). apply iter_add. Qed.
Lemma cycle_in D f : perm_on D f -> forall x y, D x -> on_cycle f x y -> D y.
Proof. intros P x y Dx [k <-]. apply (iter_in D f P); auto. Qed.
Lemma cycle_sym D f l : finite_by D l -> perm_on D f -> forall x y, D x ->
  on_cycle f x y -> on_cycle f y x.
Proof.
  intros F P x y Dx [k <-]. induction k; simpl; [apply cycle_refl|].
  pose proof (iter_in D f P k x Dx) as Dk.
  destruct (returns D f l F P _ Dk) as (m & Hm & E).
  apply cycle_trans with (Nat.iter k f x); [|exact IHk].
  exists (m - 1). rewrite <- iter_S_r. replace (S (m - 1)) with m by lia. exact E.
Qed.
Lemma perm_onto D f l : finite_by D l -> perm_on D f -> forall y, D y -> exists x, D x /\ f x = y.
Proof.
  intros F P y Dy. destruct (returns D f l F P y Dy) as (k & Hk & E).
  exists (Nat.iter (k - 1) f y). split; [apply (iter_in D f P); auto|].
  change (f (Nat.iter (k - 1) f y)) with (Nat.iter (S (k - 1)) f y).
  replace (S (k - 1)) with k by lia. exact E.
Qed.

(** [g] is [f] with the images of [a] and [b] exchanged. *)
Definition exchanged (f g : A -> A) (a b : A) : Prop :=
  g a = f b /\ g b = f a /\ forall x, x <> a -> x <> b -> g x = f x.
Lemma exchanged_sym f g a b : exchanged f g a b -> exchanged f g b a.
Proof. intros (H1 & H2 & H3). repeat split; auto. Qed.
Lemma exchanged_perm (D : A -> Prop) f g a b : D a -> D b -> perm_on D f -> exchanged f g a b -> perm_on D g.
Proof.
  intros Da Db [P1 P2] (Ga & Gb & G). split.
  - intros x Dx. destruct (dec x a) as [->|]; [rewrite Ga; auto|].
    destruct (dec x b) as [->|]; [rewrite Gb; auto|]. rewrite G; auto.
  - intros x y Dx Dy.
    destruct (dec x a) as [->|Nxa]; destruct (dec y a) as [->|Nya]; auto.
    + rewrite Ga. destruct (dec y b) as [->|Nyb].
      * rewrite Gb. intros E. symmetry. apply P2; auto.
      * rewrite G by auto. intros E. apply P2 in E; auto. congruence.
    + rewrite Ga. destruct (dec x b) as [->|Nxb].
      * rewrite Gb. intros E. symmetry. apply P2; auto.
      * rewrite G by auto. intros E. apply P2 in E; auto. congruence.
    + destruct (dec x b) as [->|Nxb]; destruct (dec y b) as [->|Nyb]; auto.
      * rewrite Gb, G by auto. intros E. apply P2 in E; auto. congruence.
      * rewrite Gb, G by auto. intros E. apply P2 in E; auto. congruence.
      * rewrite !G by auto. apply P2; auto.
Qed.

Lemma exchanged_link D f g l a b : finite_by D l -> perm_on D f -> D a -> D b ->
  ~ on_cycle f b a -> exchanged f g a b -> on_cycle g a b.
Proof.
  intros F P Da Db N (Ga & Gb & G).
  destruct (first_return D f l F P b Db) as (k & Hk & E & M).
  exists k. replace k with (S (k - 1)) by lia. rewrite iter_S_r, Ga.
  assert (H : forall j, j <= k - 1 -> Nat.iter j g (f b) = Nat.iter (S j) f b).
  { induction j; intros Hj; [reflexivity|].
    change (Nat.iter (S j) g (f b)) with (g (Nat.iter j g (f b))). rewrite IHj by lia.
    rewrite G; [reflexivity| |].
    - intros E'. apply N. exists (S j). exact E'.
    - apply M. lia. }
  rewrite H by lia. replace (S (k - 1)) with k by lia. exact E.
Qed.

(** Exchanging the images of two cells of different cycles merges the cycles. *)
Lemma merge D f g l a b : finite_by D l -> perm_on D f -> D a -> D b ->
  ~ on_cycle f a b -> exchanged f g a b ->
  forall x y, D x ->
  (on_cycle g x y <->
   on_cycle f x y \/ ((on_cycle f a x \/ on_cycle f b x) /\ (on_cycle f a y \/ on_cycle f b y))).
Proof.
  intros F P Da Db N X.
  assert (N' : ~ on_cycle f b a) by (intros C; apply N; eapply cycle_sym; eauto).
  pose proof (exchanged_perm _ _ _ _ _ Da Db P X) as Q.
  pose proof (exchanged_link D f g l a b F P Da Db N' X) as Lab.
  pose proof (cycle_sym D g l F Q a b Da Lab) as Lba.
  pose proof X as (Ga & Gb & G).
  assert (S1 : forall x, D x -> on_cycle g x (f x)).
  { intros x Dx. destruct (dec x a) as [->|Na].
    - rewrite <- Gb. eapply cycle_trans; [exact Lab|apply cycle_step].
    - destruct (dec x b) as [->|Nb].
      + rewrite <- Ga. eapply cycle_trans; [exact Lba|apply cycle_step].
      + rewrite <- G by auto. apply cycle_step. }
  assert (S2 : forall x y, D x -> on_cycle f x y -> on_cycle g x y).
  { intros x y Dx [k <-]. induction k; simpl; [apply cycle_refl|].
    eapply cycle_trans; [exact IHk|]. apply S1. apply (iter_in D f P); auto. }
  intros x y Dx. split.
  - intros [k <-]. induction k; simpl; [left; apply cycle_refl|].
    set (z := Nat.iter k g x) in *.
    assert (Dz : D z) by (apply (iter_in D g Q); auto).
    assert (T : forall w, on_cycle f w z -> on_cycle f w (f z)).
    { intros w H. eapply cycle_trans; [exact H|apply cycle_step]. }
    destruct (dec z a) as [Ea|Na].
    + rewrite Ea, Ga. right. split.
      * destruct IHk as [H|[H _]]; [|exact H]. left. rewrite <- Ea. eapply cycle_sym; eauto.
      * right. apply cycle_step.
    + destruct (dec z b) as [Eb|Nb].
      * rewrite Eb, Gb. right. split.
        -- destruct IHk as [H|[H _]]; [|exact H]. right. rewrite <- Eb. eapply cycle_sym; eauto.
        -- left. apply cycle_step.
      * rewrite G by auto. destruct IHk as [H|[H [H'|H']]]; auto.
  - assert (R : forall w, D w -> on_cycle f a w \/ on_cycle f b w -> on_cycle g a w).
    { intros w Dw [H|H]; [apply S2; auto|]. eapply cycle_trans; [exact Lab|]. apply S2; auto. }
    intros [H|[H1 H2]]; [apply S2; auto|].
    apply cycle_trans with a.
    + apply (cycle_sym D g l F Q); auto.
    + apply R; auto. destruct H2 as [H2|H2]; [apply (cycle_in D f P a)|apply (cycle_in D f P b)]; auto.
Qed.
End Cycles.
