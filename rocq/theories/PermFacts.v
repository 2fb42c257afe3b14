(** The table built by a sequence of copies expresses the declared equalities. *)
From Coq Require Import List Arith Lia Bool.
From Verif Require Import Base ListFacts Halo2Model PermModel PermSpec CycleFacts.
Import ListNotations.

Definition cell_dec : forall x y : nat * nat, {x = y} + {x <> y}.
Proof. decide equality; apply Nat.eq_dec. Defined.
Lemma pair_eqb_eq x y : pair_eqb x y = true <-> x = y.
Proof.
  destruct x, y. unfold pair_eqb. simpl. rewrite andb_true_iff, !Nat.eqb_eq. split; [intros []|intros [=]]; subst; auto.
Qed.
Lemma pair_eqb_neq x y : pair_eqb x y = false <-> x <> y.
Proof. rewrite <- pair_eqb_eq. destruct (pair_eqb x y); split; congruence. Qed.

(** Rectangular tables. *)
Section Tables.
Variables m n : nat.
Definition inside (x : nat * nat) : Prop := fst x < m /\ snd x < n.
Definition inside_list : list (nat * nat) :=
  flat_map (fun i => map (fun j => (i, j)) (seq 0 n)) (seq 0 m).
Lemma inside_finite : finite_by inside inside_list.
Proof.
  intros [i j]. unfold inside, inside_list. simpl. rewrite in_flat_map. split.
  - intros [H1 H2]. exists i. split; [apply in_seq; lia|]. apply in_map_iff. exists j.
    split; [reflexivity|apply in_seq; lia].
  - intros (i' & H & H'). apply in_map_iff in H' as (j' & [= <- <-] & H'').
    apply in_seq in H, H''. lia.
Qed.
Lemma inside_length : length inside_list = m * n.
Proof.
  unfold inside_list. generalize 0 at 2. induction m as [|k IH]; intros a; [reflexivity|].
  simpl. rewrite app_length, map_length, seq_length, IH. reflexivity.
Qed.

Definition shaped {A} (t : list (list A)) : Prop :=
  length t = m /\ forall i row, nth_error t i = Some row -> length row = n.
Lemma get2_in {A} (t : list (list A)) x : shaped t -> inside x -> exists v, get2 t x = Some v.
Proof.
  intros [L R] [H1 H2]. unfold get2. destruct (nth_error t (fst x)) as [row|] eqn:E.
  - specialize (R _ _ E). destruct (nth_error row (snd x)) eqn:E'; [eauto|].
    apply nth_error_None in E'. lia.
  - apply nth_error_None in E. lia.
Qed.
Lemma set2_in {A} (t : list (list A)) x v : shaped t -> inside x ->
  exists t', set2 t x v = Some t' /\ shaped t' /\ get2 t' x = Some v /\
    forall y, y <> x -> get2 t' y = get2 t y.
Proof.
  intros [L R] [H1 H2]. unfold set2. destruct (nth_error t (fst x)) as [row|] eqn:E;
    [|apply nth_error_None in E; lia].
  pose proof (R _ _ E) as Lr. destruct (Nat.ltb_spec (snd x) (length row)); [|lia].
  eexists. split; [reflexivity|]. split; [|split].
  - split; [rewrite upd_length; exact L|]. intros i row' E'.
    destruct (Nat.eq_dec i (fst x)) as [->|Ni].
    + rewrite nth_error_upd_eq in E' by lia. injection E' as <-. rewrite upd_length. exact Lr.
    + rewrite nth_error_upd_neq in E' by auto. eauto.
  - unfold get2. rewrite nth_error_upd_eq by lia. apply nth_error_upd_eq. lia.
  - intros y N. unfold get2. destruct (Nat.eq_dec (fst y) (fst x)) as [Ey|Ny].
    + rewrite Ey, E, nth_error_upd_eq by lia. apply nth_error_upd_neq.
      intros E''. apply N. destruct x, y; simpl in *; congruence.
    + rewrite nth_error_upd_neq by auto. reflexivity.
Qed.

(** A table of cells as a function. *)
Definition fn (t : list (list (nat * nat))) (x : nat * nat) : nat * nat :=
  match get2 t x with Some v => v | None => x end.
Lemma get2_fn t x : shaped t -> inside x -> get2 t x = Some (fn t x).
Proof. intros S I. unfold fn. destruct (get2_in t x S I) as [v ->]. reflexivity. Qed.
Lemma set2_fn t x v : shaped t -> inside x ->
  exists t', set2 t x v = Some t' /\ shaped t' /\ fn t' x = v /\ forall y, y <> x -> fn t' y = fn t y.
Proof.
  intros S I. destruct (set2_in t x v S I) as (t' & E & S' & G & O). exists t'.
  split; [exact E|]. split; [exact S'|]. unfold fn. rewrite G. split; [reflexivity|].
  intros y N. rewrite O by auto. reflexivity.
Qed.

(** The walk labels exactly the cycle. *)
Lemma relabel_spec mapping label c k : shaped mapping -> perm_on inside (fn mapping) -> inside c ->
  1 <= k -> Nat.iter k (fn mapping) c = c ->
  (forall j, 1 <= j < k -> Nat.iter j (fn mapping) c <> c) ->
  forall d j fuel aux, k = j + S d -> S d <= fuel -> shaped aux ->
  exists aux', relabel fuel mapping label c (Nat.iter j (fn mapping) c) aux = WDone aux' /\
    shaped aux' /\
    forall x, (exists t, j <= t < k /\ x = Nat.iter t (fn mapping) c) /\ fn aux' x = label \/
              ~ (exists t, j <= t < k /\ x = Nat.iter t (fn mapping) c) /\ fn aux' x = fn aux x.
Proof.
  intros Sm P Ic Hk Ek M. induction d; intros j fuel aux Hj Hf Sa;
    (destruct fuel as [|fuel]; [lia|]); simpl;
    pose proof (iter_in inside (fn mapping) P j c Ic) as Ij;
    destruct (set2_fn aux _ label Sa Ij) as (aux1 & -> & Sa1 & G1 & O1);
    rewrite (get2_fn mapping _ Sm Ij);
    change (fn mapping (Nat.iter j (fn mapping) c)) with (Nat.iter (S j) (fn mapping) c).
  - replace (S j) with k by lia. rewrite Ek.
    replace (pair_eqb c c) with true by (symmetry; apply pair_eqb_eq; reflexivity).
    exists aux1. split; [reflexivity|]. split; [exact Sa1|]. intros x.
    destruct (cell_dec x (Nat.iter j (fn mapping) c)) as [->|N].
    + left. split; [exists j; split; [lia|reflexivity]|exact G1].
    + right. split; [|apply O1; exact N]. intros (t & Ht & E). apply N. rewrite E. f_equal. lia.
  - replace (pair_eqb (Nat.iter (S j) (fn mapping) c) c) with false
      by (symmetry; apply pair_eqb_neq; apply M; lia).
    destruct (IHd (S j) fuel aux1) as (aux' & E & Sa' & H); [lia|lia|exact Sa1|].
    exists aux'. split; [exact E|]. split; [exact Sa'|]. intros x.
    destruct (H x) as [[(t & Ht & Et) Hl]|[N Ho]].
    + left. split; [exists t; split; [lia|exact Et]|exact Hl].
    + destruct (cell_dec x (Nat.iter j (fn mapping) c)) as [->|Nx].
      * left. split; [exists j; split; [lia|reflexivity]|]. rewrite Ho. exact G1.
      * right. split; [|rewrite Ho; apply O1; exact Nx].
        intros (t & Ht & Et). destruct (Nat.eq_dec t j) as [->|]; [contradiction|].
        apply N. exists t. split; [lia|exact Et].
Qed.

Record inv (E : list ((nat * nat) * (nat * nat))) (p : perm) : Prop := {
  i_map : shaped (pm_mapping p);
  i_aux : shaped (pm_aux p);
  i_sizes : shaped (pm_sizes p);
  i_perm : perm_on inside (fn (pm_mapping p));
  i_auxin : forall x, inside x -> inside (fn (pm_aux p) x);
  i_auxcyc : forall x, inside x -> on_cycle (fn (pm_mapping p)) x (fn (pm_aux p) x);
  i_label : forall x y, inside x -> inside y ->
    (on_cycle (fn (pm_mapping p)) x y <-> fn (pm_aux p) x = fn (pm_aux p) y);
  i_linked : forall x y, inside x -> inside y ->
    (on_cycle (fn (pm_mapping p)) x y <-> linked E x y)
}.
End Tables.

(** One more declared pair. *)
Lemma linked_mono {A} (E E' : list (A * A)) : (forall e, In e E -> In e E') ->
  forall x y, linked E x y -> linked E' x y.
Proof.
  intros H x y L. induction L.
  - apply linked_declared; auto.
  - apply linked_refl.
  - apply linked_sym; auto.
  - eapply linked_trans; eauto.
Qed.
Lemma linked_cons {A} (E : list (A * A)) a b x y :
  linked ((a, b) :: E) x y <->
  linked E x y \/ ((linked E a x \/ linked E b x) /\ (linked E a y \/ linked E b y)).
Proof.
  split.
  - intros L. induction L as [x y I|x|x y L IH|x y z L1 IH1 L2 IH2].
    + destruct I as [[= <- <-]|I].
      * right. split; [left|right]; apply linked_refl.
      * left. apply linked_declared, I.
    + left. apply linked_refl.
    + destruct IH as [H|[H1 H2]]; [left; apply linked_sym, H|right; auto].
    + destruct IH1 as [H1|[H1 H1']]; destruct IH2 as [H2|[H2 H2']].
      * left. eapply linked_trans; eauto.
      * right. split; [|exact H2'].
        destruct H2 as [H2|H2]; [left|right]; (eapply linked_trans; [exact H2|apply linked_sym, H1]).
      * right. split; [exact H1|].
        destruct H1' as [H1'|H1']; [left|right]; (eapply linked_trans; [exact H1'|exact H2]).
      * right. split; [exact H1|exact H2'].
  - assert (M : forall u v, linked E u v -> linked ((a, b) :: E) u v)
      by (apply linked_mono; intros; right; auto).
    assert (AB : linked ((a, b) :: E) a b) by (apply linked_declared; left; reflexivity).
    assert (R : forall u, linked E a u \/ linked E b u -> linked ((a, b) :: E) a u).
    { intros u [H|H]; [apply M, H|eapply linked_trans; [exact AB|apply M, H]]. }
    intros [H|[H1 H2]]; [apply M, H|].
    eapply linked_trans; [apply linked_sym, R, H1|apply R, H2].
Qed.

(** ** One copy *)
Definition tidy (fuel : nat) (p : perm) (a b : nat * nat) : cres :=
  olet left_cycle := get2 (pm_aux p) a in
  olet right_cycle := get2 (pm_aux p) b in
  if pair_eqb left_cycle right_cycle then COk p else
  olet ls := get2 (pm_sizes p) left_cycle in
  olet rs := get2 (pm_sizes p) right_cycle in
  let '(left_cycle, right_cycle) :=
    if ls <? rs then (right_cycle, left_cycle) else (left_cycle, right_cycle) in
  olet ls := get2 (pm_sizes p) left_cycle in
  olet rs := get2 (pm_sizes p) right_cycle in
  olet sizes := set2 (pm_sizes p) left_cycle (ls + rs) in
  match relabel fuel (pm_mapping p) left_cycle right_cycle right_cycle (pm_aux p) with
  | WPanic => CPanic
  | WDiverge => CDiverge
  | WDone aux =>
      olet tmp := get2 (pm_mapping p) a in
      olet v := get2 (pm_mapping p) b in
      olet mapping := set2 (pm_mapping p) a v in
      olet mapping := set2 mapping b tmp in
      COk (mkPerm (pm_columns p) mapping aux sizes)
  end.

Lemma tidy_ok m n fuel E p a b : inv m n E p -> m * n <= fuel -> inside m n a -> inside m n b ->
  exists p', tidy fuel p a b = COk p' /\ inv m n ((a, b) :: E) p' /\ pm_columns p' = pm_columns p.
Proof.
  intros I Hf Ia Ib. unfold tidy.
  pose proof (inside_finite m n) as F.
  rewrite (get2_fn m n _ a (i_aux _ _ _ _ I) Ia), (get2_fn m n _ b (i_aux _ _ _ _ I) Ib). simpl orpanic.
  pose proof (i_perm _ _ _ _ I) as P.
  destruct (pair_eqb (fn (pm_aux p) a) (fn (pm_aux p) b)) eqn:Eq.
  { apply pair_eqb_eq in Eq. exists p. split; [reflexivity|]. split; [|reflexivity].
    assert (L : linked E a b).
    { apply (i_linked _ _ _ _ I); auto. apply (i_label _ _ _ _ I); auto. }
    constructor; try apply I. intros x y Ix Iy. rewrite (i_linked _ _ _ _ I) by auto. split.
    - apply linked_mono. intros; right; auto.
    - intros H. apply linked_cons in H as [H|[H1 H2]]; [exact H|].
      assert (R : forall u, linked E a u \/ linked E b u -> linked E a u).
      { intros u [H|H]; [exact H|eapply linked_trans; eauto]. }
      eapply linked_trans; [apply linked_sym, R, H1|apply R, H2]. }
  apply pair_eqb_neq in Eq.
  set (la := fn (pm_aux p) a) in *. set (lb := fn (pm_aux p) b) in *.
  assert (Ila : inside m n la) by (apply (i_auxin _ _ _ _ I); auto).
  assert (Ilb : inside m n lb) by (apply (i_auxin _ _ _ _ I); auto).
  destruct (get2_in m n _ la (i_sizes _ _ _ _ I) Ila) as [sa Esa].
  destruct (get2_in m n _ lb (i_sizes _ _ _ _ I) Ilb) as [sb Esb].
  rewrite Esa, Esb. simpl orpanic.
  assert (N : ~ on_cycle (fn (pm_mapping p)) a b).
  { intros C. apply Eq. apply (i_label _ _ _ _ I); auto. }
  assert (K : exists keep gone ck cg, (if sa <? sb then (lb, la) else (la, lb)) = (keep, gone) /\
    inside m n keep /\ inside m n gone /\ inside m n ck /\ inside m n cg /\
    keep = fn (pm_aux p) ck /\ gone = fn (pm_aux p) cg /\
    keep <> gone /\ (ck = a /\ cg = b \/ ck = b /\ cg = a)).
  { destruct (sa <? sb).
    - exists lb, la, b, a. split; [reflexivity|]. repeat (split; [assumption || reflexivity || congruence|]). auto.
    - exists la, lb, a, b. split; [reflexivity|]. repeat (split; [assumption || reflexivity || congruence|]). auto. }
  destruct K as (keep & gone & ck & cg & -> & Ik & Ig & Ick & Icg & Ek & Eg & Nkg & AB).
  destruct (get2_in m n _ keep (i_sizes _ _ _ _ I) Ik) as [sk ->].
  destruct (get2_in m n _ gone (i_sizes _ _ _ _ I) Ig) as [sg ->]. simpl orpanic.
  destruct (set2_in m n _ keep (sk + sg) (i_sizes _ _ _ _ I) Ik) as (sizes & -> & Ss & _ & _).
  simpl orpanic.
  destruct (first_return cell_dec _ _ _ F P gone Ig) as (k & Hk & Er & M).
  rewrite inside_length in Hk.
  destruct (relabel_spec m n (pm_mapping p) keep gone k (i_map _ _ _ _ I) P Ig (proj1 Hk) Er M
    (k - 1) 0 fuel (pm_aux p)) as (aux & Ea & Sa & Ha); [lia|lia|apply (i_aux _ _ _ _ I)|].
  simpl Nat.iter in Ea. rewrite Ea. clear Ea.
  rewrite (get2_fn m n _ a (i_map _ _ _ _ I) Ia), (get2_fn m n _ b (i_map _ _ _ _ I) Ib). simpl orpanic.
  destruct (set2_fn m n _ a (fn (pm_mapping p) b) (i_map _ _ _ _ I) Ia) as (m1 & -> & S1 & G1 & O1).
  simpl orpanic.
  destruct (set2_fn m n _ b (fn (pm_mapping p) a) S1 Ib) as (m2 & -> & S2 & G2 & O2).
  simpl orpanic. eexists. split; [reflexivity|]. split; [|reflexivity].
  assert (Nab : a <> b) by (intros ->; apply N, cycle_refl).
  assert (X : exchanged (fn (pm_mapping p)) (fn m2) a b).
  { repeat split.
    - rewrite O2 by auto. exact G1.
    - exact G2.
    - intros x Na Nb. rewrite O2, O1 by auto. reflexivity. }
  set (f := fn (pm_mapping p)) in *.
  pose proof (exchanged_perm cell_dec _ _ _ _ _ Ia Ib P X) as Q.
  pose proof (merge cell_dec _ _ _ _ _ _ F P Ia Ib N X) as MG.
  pose proof (cycle_sym cell_dec _ _ _ F P) as SY.
  pose proof (cycle_in _ _ P) as CI.
  assert (Cg : on_cycle f cg gone) by (rewrite Eg; apply (i_auxcyc _ _ _ _ I); auto).
  assert (Ck : on_cycle f ck keep) by (rewrite Ek; apply (i_auxcyc _ _ _ _ I); auto).
  assert (Lg : fn (pm_aux p) gone = gone).
  { rewrite Eg at 2. symmetry. apply (i_label _ _ _ _ I); auto. }
  assert (Lk : fn (pm_aux p) keep = keep).
  { rewrite Ek at 2. symmetry. apply (i_label _ _ _ _ I); auto. }
  (* the labels after the walk *)
  assert (HA : forall x, inside m n x ->
    fn (pm_aux p) x = gone /\ fn aux x = keep \/ fn (pm_aux p) x <> gone /\ fn aux x = fn (pm_aux p) x).
  { intros x Ix. destruct (Ha x) as [[(t & Ht & Et) Hl]|[Nx Ho]].
    - left. split; [|exact Hl]. rewrite <- Lg. symmetry. apply (i_label _ _ _ _ I); auto.
      exists t. symmetry. exact Et.
    - right. split; [|exact Ho]. intros E'. apply Nx.
      assert (C : on_cycle f gone x).
      { apply (i_label _ _ _ _ I); auto. rewrite Lg, E'. reflexivity. }
      destruct C as [t Et]. exists (t mod k). split; [pose proof (Nat.mod_upper_bound t k); lia|].
      rewrite <- Et. apply iter_mod; [lia|exact Er]. }
  assert (INab : forall x, inside m n x ->
    (on_cycle f a x \/ on_cycle f b x) <-> (fn aux x = keep)).
  { intros x Ix. destruct (HA x Ix) as [[H1 H2]|[H1 H2]].
    - split; [intros _; exact H2|]. intros _.
      assert (on_cycle f cg x).
      { apply (i_label _ _ _ _ I); auto. rewrite H1. symmetry. exact Eg. }
      destruct AB as [[-> ->]|[-> ->]]; auto.
    - rewrite H2. split.
      + intros [H|H]; apply (i_label _ _ _ _ I) in H; auto; destruct AB as [[-> ->]|[-> ->]]; congruence.
      + intros H. assert (on_cycle f ck x) by (apply (i_label _ _ _ _ I); auto; congruence).
        destruct AB as [[-> ->]|[-> ->]]; auto. }
  constructor; simpl; auto.
  - intros x Ix. destruct (HA x Ix) as [[_ ->]|[_ ->]]; auto. apply (i_auxin _ _ _ _ I); auto.
  - intros x Ix. apply MG; auto. destruct (HA x Ix) as [[H1 H2]|[H1 H2]]; rewrite H2.
    + right. split; [apply INab; auto|]. apply INab; auto.
      destruct (HA keep Ik) as [[_ ->]|[_ ->]]; auto.
    + left. apply (i_auxcyc _ _ _ _ I); auto.
  - intros x y Ix Iy. rewrite MG by auto. rewrite !INab by auto.
    pose proof (i_label _ _ _ _ I x y Ix Iy) as LB. fold f in LB. rewrite LB. split.
    + intros [H|[H1 H2]]; [|congruence].
      destruct (HA x Ix) as [[H1 ->]|[H1 ->]]; destruct (HA y Iy) as [[H2 ->]|[H2 ->]]; congruence.
    + intros H. destruct (cell_dec (fn aux x) keep) as [Ex|Nx]; [right; split; congruence|].
      left. destruct (HA x Ix) as [[H1 E1]|[H1 E1]]; destruct (HA y Iy) as [[H2 E2]|[H2 E2]]; congruence.
  - intros x y Ix Iy. rewrite MG by auto. rewrite linked_cons.
    pose proof (i_linked _ _ _ _ I) as LK. fold f in LK.
    rewrite (LK x y), (LK a x), (LK b x), (LK a y), (LK b y) by auto. reflexivity.
Qed.

(** ** Columns *)
Lemma column_eqb_iff a b : column_eqb a b = true <-> a = b.
Proof.
  destruct a as [[a1 a2]|a|a], b as [[b1 b2]|b|b]; simpl; unfold acol_eqb; simpl;
    rewrite ?andb_true_iff, ?Nat.eqb_eq; split; try discriminate; try congruence.
  - intros [-> ->]. reflexivity.
  - intros [= -> ->]. auto.
Qed.
Lemma position_none {A} (f : A -> bool) l : position f l = None <-> forall x, In x l -> f x = false.
Proof.
  induction l as [|a l IH]; simpl; [split; [intros _ x []|reflexivity]|].
  destruct (f a) eqn:E.
  - split; [discriminate|]. intros H. rewrite (H a) in E by auto. discriminate.
  - destruct (position f l) eqn:E'; simpl.
    + split; [discriminate|]. intros H. destruct IH as [_ IH].
      discriminate IH. intros; apply H; auto.
    + split; [|reflexivity]. intros _ x [<-|I]; [exact E|]. apply IH; auto.
Qed.
Lemma position_some {A} (f : A -> bool) l i : position f l = Some i ->
  exists x, nth_error l i = Some x /\ f x = true.
Proof.
  revert i. induction l as [|a l IH]; simpl; intros i; [discriminate|].
  destruct (f a) eqn:E; [intros [= <-]; exists a; auto|].
  destruct (position f l); [|discriminate]. simpl. intros [= <-]. simpl. auto.
Qed.
Lemma position_col cols c i : position (column_eqb c) cols = Some i -> nth_error cols i = Some c.
Proof.
  intros H. apply position_some in H as (x & E & F). apply column_eqb_iff in F. congruence.
Qed.
Lemma position_nodup cols i c : NoDup cols -> nth_error cols i = Some c ->
  position (column_eqb c) cols = Some i.
Proof.
  intros N H. destruct (position (column_eqb c) cols) as [k|] eqn:E.
  - apply position_col in E. f_equal. apply (proj1 (NoDup_nth_error cols) N); [|congruence].
    apply nth_error_Some. congruence.
  - rewrite position_none in E. specialize (E c (nth_error_In _ _ H)).
    rewrite (proj2 (column_eqb_iff c c) eq_refl) in E. discriminate.
Qed.

Section Columns.
Variables (n : nat) (cols : list column) (fuel : nat).
Hypothesis ND : NoDup cols.
Hypothesis Hfuel : length cols * n <= fuel.

Definition ix (x : acell) : nat * nat :=
  (match position (column_eqb (fst x)) cols with Some i => i | None => 0 end, snd x).
Definition back (x : nat * nat) : acell := (nth (fst x) cols (CFixed 0), snd x).
Let m := length cols.

Lemma on_table_pos x : on_table n cols x -> exists i, position (column_eqb (fst x)) cols = Some i /\ i < m.
Proof.
  intros [H _]. apply In_nth_error in H as [i E]. exists i. split; [apply position_nodup; auto|].
  apply nth_error_Some. congruence.
Qed.
Lemma ix_inside x : on_table n cols x -> inside m n (ix x).
Proof.
  intros H. destruct (on_table_pos x H) as (i & E & Hi). unfold ix, inside. rewrite E. simpl.
  split; [exact Hi|apply H].
Qed.
Lemma back_on x : inside m n x -> on_table n cols (back x).
Proof. intros [H1 H2]. split; [apply nth_In; exact H1|exact H2]. Qed.
Lemma back_ix x : on_table n cols x -> back (ix x) = x.
Proof.
  intros H. destruct (on_table_pos x H) as (i & E & Hi). unfold back, ix. rewrite E. simpl.
  apply position_col in E. apply nth_error_nth with (d := CFixed 0) in E. rewrite E.
  destruct x; reflexivity.
Qed.
Lemma ix_back x : inside m n x -> ix (back x) = x.
Proof.
  intros [H1 H2]. unfold ix, back. simpl.
  rewrite (position_nodup cols (fst x)); [destruct x; reflexivity|exact ND|].
  apply nth_error_nth'. exact H1.
Qed.

Lemma tidy_copy p lc lr rc rr : pm_columns p = cols -> shaped m n (pm_mapping p) ->
  on_table n cols (lc, lr) -> on_table n cols (rc, rr) ->
  perm_copy fuel p lc lr rc rr = tidy fuel p (ix (lc, lr)) (ix (rc, rr)).
Proof.
  intros C [L R] Hl Hr. unfold perm_copy. rewrite C.
  destruct (on_table_pos _ Hl) as (i & Ei & Hi). destruct (on_table_pos _ Hr) as (j & Ej & Hj).
  unfold ix. simpl fst in *. simpl snd in *. rewrite Ei, Ej.
  destruct (nth_error (pm_mapping p) i) as [r1|] eqn:E1; [|apply nth_error_None in E1; lia].
  destruct (nth_error (pm_mapping p) j) as [r2|] eqn:E2; [|apply nth_error_None in E2; lia].
  simpl orpanic. rewrite (R _ _ E1), (R _ _ E2).
  destruct Hl as [_ Hl], Hr as [_ Hr]. simpl in Hl, Hr.
  destruct (Nat.leb_spec n lr); [lia|]. destruct (Nat.leb_spec n rr); [lia|]. simpl orb. cbv iota.
  unfold tidy. rewrite C. reflexivity.
Qed.

Lemma identity_get i j : i < m -> j < n ->
  get2 (map (fun i => map (fun j => (i, j)) (seq 0 n)) (seq 0 m)) (i, j) = Some (i, j).
Proof.
  intros Hi Hj. unfold get2. simpl.
  rewrite nth_error_map', nth_error_nth' with (d := 0) by (rewrite seq_length; lia).
  simpl. rewrite seq_nth by lia. simpl.
  rewrite nth_error_map', nth_error_nth' with (d := 0) by (rewrite seq_length; lia).
  simpl. rewrite seq_nth by lia. reflexivity.
Qed.
Lemma identity_shaped :
  shaped m n (map (fun i => map (fun j => (i, j)) (seq 0 n)) (seq 0 m)).
Proof.
  split; [rewrite map_length, seq_length; reflexivity|].
  intros i row H. rewrite nth_error_map' in H. destruct (nth_error (seq 0 m) i); [|discriminate].
  injection H as <-. rewrite map_length, seq_length. reflexivity.
Qed.
Lemma new_inv : inv m n [] (perm_new n cols).
Proof.
  assert (I : forall x, inside m n x ->
    fn (map (fun i => map (fun j => (i, j)) (seq 0 n)) (seq 0 m)) x = x).
  { intros [i j] [H1 H2]. unfold fn. rewrite identity_get by assumption. reflexivity. }
  assert (C : forall x y, inside m n x ->
    on_cycle (fn (map (fun i => map (fun j => (i, j)) (seq 0 n)) (seq 0 m))) x y <-> x = y).
  { intros x y Ix. split; [|intros <-; apply cycle_refl]. intros [k <-].
    induction k; simpl; [reflexivity|]. rewrite <- IHk. symmetry. apply I, Ix. }
  assert (LK : forall (x y : nat * nat), linked [] x y -> x = y).
  { intros x y L. induction L; [contradiction|reflexivity|congruence|congruence]. }
  constructor; unfold perm_new; fold m; simpl.
  - apply identity_shaped.
  - apply identity_shaped.
  - split; [apply map_length|]. intros i row H. rewrite nth_error_map' in H.
    destruct (nth_error cols i); [|discriminate]. injection H as <-. apply repeat_length.
  - split; [intros x Ix; rewrite I; auto|]. intros x y Ix Iy. rewrite !I; auto.
  - intros x Ix. rewrite I; auto.
  - intros x Ix. apply C; auto. symmetry. auto.
  - intros x y Ix Iy. rewrite C, !I by auto. reflexivity.
  - intros x y Ix Iy. rewrite C by auto. split; [intros <-; apply linked_refl|apply LK].
Qed.

Lemma copies_inv : forall l E p, inv m n E p -> pm_columns p = cols ->
  (forall x y, In (x, y) l -> on_table n cols x /\ on_table n cols y) ->
  exists p', perm_copies fuel p l = COk p' /\
    inv m n (rev (map (fun e => (ix (fst e), ix (snd e))) l) ++ E) p' /\ pm_columns p' = cols.
Proof.
  induction l as [|[[lc lr] [rc rr]] l IH]; intros E p I C H.
  - exists p. split; [reflexivity|]. split; assumption.
  - destruct (H (lc, lr) (rc, rr)) as [Hl Hr]; [left; reflexivity|].
    cbn [perm_copies]. rewrite tidy_copy by (auto; apply (i_map _ _ _ _ I)).
    destruct (tidy_ok m n fuel E p _ _ I Hfuel (ix_inside _ Hl) (ix_inside _ Hr)) as (p1 & -> & I1 & C1).
    destruct (IH _ p1 I1) as (p2 & E2 & I2 & C2); [congruence|intros; apply H; right; assumption|].
    exists p2. split; [exact E2|]. split; [|exact C2].
    cbn [map rev fst snd]. rewrite <- app_assoc. exact I2.
Qed.

(** Nothing panics or runs forever, whatever is declared. *)
Lemma copies_total : forall l E p, inv m n E p -> pm_columns p = cols ->
  (exists p', perm_copies fuel p l = COk p' /\
     forall x y, In (x, y) l -> on_table n cols x /\ on_table n cols y) \/
  (exists e, perm_copies fuel p l = CErr e /\
     exists x y, In (x, y) l /\ ~ (on_table n cols x /\ on_table n cols y)).
Proof.
  induction l as [|[[lc lr] [rc rr]] l IH]; intros E p I C.
  - left. exists p. split; [reflexivity|intros x y []].
  - cbn [perm_copies].
    assert (D : forall x : acell, on_table n cols x \/ ~ on_table n cols x).
    { intros x. unfold on_table.
      destruct (in_dec (fun a b => match Bool.bool_dec (column_eqb a b) true with
                          | left e => left (proj1 (column_eqb_iff a b) e)
                          | right ne => right (fun e => ne (proj2 (column_eqb_iff a b) e)) end) (fst x) cols);
      destruct (lt_dec (snd x) n); tauto. }
    assert (B : (on_table n cols (lc, lr) /\ on_table n cols (rc, rr)) \/
      ~ (on_table n cols (lc, lr) /\ on_table n cols (rc, rr))).
    { destruct (D (lc, lr)), (D (rc, rr)); tauto. }
    destruct B as [[Hl Hr]|N].
    + rewrite tidy_copy by (auto; apply (i_map _ _ _ _ I)).
      destruct (tidy_ok m n fuel E p _ _ I Hfuel (ix_inside _ Hl) (ix_inside _ Hr)) as (p1 & -> & I1 & C1).
      destruct (IH _ p1 I1) as [(p2 & E2 & H)|(e & E2 & x & y & Hi & Hn)]; [congruence| |].
      * left. exists p2. split; [exact E2|]. intros x y [[= <- <-]|Hi]; auto.
      * right. exists e. split; [exact E2|]. exists x, y. split; [right; exact Hi|exact Hn].
    + right. assert (X : exists e, perm_copy fuel p lc lr rc rr = CErr e).
      { unfold perm_copy. rewrite C.
        destruct (position (column_eqb lc) cols) as [i|] eqn:Ei; [|eauto].
        destruct (position (column_eqb rc) cols) as [j|] eqn:Ej; [|eauto].
        apply position_col in Ei, Ej. destruct (i_map _ _ _ _ I) as [L R].
        assert (i < m) by (apply nth_error_Some; congruence).
        assert (j < m) by (apply nth_error_Some; congruence).
        destruct (nth_error (pm_mapping p) i) as [r1|] eqn:E1; [|apply nth_error_None in E1; lia].
        destruct (nth_error (pm_mapping p) j) as [r2|] eqn:E2; [|apply nth_error_None in E2; lia].
        simpl orpanic. rewrite (R _ _ E1), (R _ _ E2).
        destruct (Nat.leb_spec n lr); [simpl; eauto|].
        destruct (Nat.leb_spec n rr); [simpl; eauto|].
        exfalso. apply N. split; (split; [eapply nth_error_In; eauto|assumption]). }
      destruct X as [e ->]. exists e. split; [reflexivity|]. exists (lc, lr), (rc, rr).
      split; [left; reflexivity|exact N].
Qed.

Lemma linked_ix E x y : linked E x y ->
  linked (map (fun e : acell * acell => (ix (fst e), ix (snd e))) E) (ix x) (ix y).
Proof.
  intros L. induction L.
  - apply linked_declared. apply in_map_iff. exists (x, y). auto.
  - apply linked_refl.
  - apply linked_sym; auto.
  - eapply linked_trans; eauto.
Qed.
Lemma linked_back E : (forall x y, In (x, y) E -> on_table n cols x /\ on_table n cols y) ->
  forall u v, linked (map (fun e : acell * acell => (ix (fst e), ix (snd e))) E) u v ->
  linked E (back u) (back v).
Proof.
  intros H u v L. induction L.
  - apply in_map_iff in H0 as ([a b] & [= <- <-] & I). destruct (H _ _ I).
    simpl. rewrite !back_ix by assumption. apply linked_declared, I.
  - apply linked_refl.
  - apply linked_sym; auto.
  - eapply linked_trans; eauto.
Qed.

Lemma inv_expresses E p : (forall x y, In (x, y) E -> on_table n cols x /\ on_table n cols y) ->
  pm_columns p = cols ->
  inv m n (rev (map (fun e => (ix (fst e), ix (snd e))) E) ++ []) p -> expresses n cols E p.
Proof.
  intros HE C I. rewrite app_nil_r in I.
  set (f := fn (pm_mapping p)).
  pose proof (i_perm _ _ _ _ I) as P. pose proof (inside_finite m n) as F.
  exists (fun x => back (f (ix x))).
  assert (IN : forall x, on_table n cols x -> inside m n (f (ix x))).
  { intros x Hx. apply P. apply ix_inside, Hx. }
  assert (IT : forall k x, on_table n cols x ->
    Nat.iter k (fun x => back (f (ix x))) x = back (Nat.iter k f (ix x)) /\
    inside m n (Nat.iter k f (ix x))).
  { induction k; intros x Hx; simpl.
    - split; [symmetry; apply back_ix, Hx|apply ix_inside, Hx].
    - destruct (IHk x Hx) as [E1 E2]. rewrite E1, ix_back by exact E2. split; [reflexivity|].
      apply P, E2. }
  assert (CY : forall x y, on_table n cols x -> on_table n cols y ->
    (on_cycle (fun x => back (f (ix x))) x y <-> linked E x y)).
  { intros x y Hx Hy.
    assert (Q : on_cycle f (ix x) (ix y) <-> linked E x y).
    { pose proof (i_linked _ _ _ _ I (ix x) (ix y) (ix_inside _ Hx) (ix_inside _ Hy)) as Q.
      fold f in Q. rewrite Q. split; intros L.
      - rewrite <- (back_ix x Hx), <- (back_ix y Hy). apply linked_back; [exact HE|].
        revert L. apply linked_mono. intros e. apply in_rev.
      - apply linked_ix in L. revert L. apply linked_mono. intros e. rewrite <- in_rev. auto. }
    rewrite <- Q. split; intros [k Ek]; exists k.
    - destruct (IT k x Hx) as [E1 E2]. rewrite <- (ix_back _ E2), <- E1, Ek. reflexivity.
    - destruct (IT k x Hx) as [E1 E2]. rewrite E1, Ek. apply back_ix, Hy. }
  split; [|split; [|split]].
  - intros x Hx. unfold image. rewrite C.
    destruct (on_table_pos x Hx) as (i & Ei & Hi). rewrite Ei.
    assert (Ex : ix x = (i, snd x)) by (unfold ix; rewrite Ei; reflexivity).
    rewrite <- Ex. rewrite (get2_fn m n _ _ (i_map _ _ _ _ I) (ix_inside _ Hx)).
    fold f. pose proof (IN x Hx) as [H1 H2]. destruct (f (ix x)) as [i' j'] eqn:Ef. simpl in H1, H2.
    rewrite (nth_error_nth' cols (CFixed 0)) by exact H1. unfold back. reflexivity.
  - split; [|split].
    + intros x Hx. apply back_on, IN, Hx.
    + intros x y Hx Hy Exy. apply (f_equal ix) in Exy. rewrite !ix_back in Exy by auto.
      destruct P as [_ P2]. apply P2 in Exy; [|apply ix_inside; auto..].
      rewrite <- (back_ix x Hx), <- (back_ix y Hy). congruence.
    + intros y Hy. destruct (perm_onto cell_dec _ _ _ F P (ix y) (ix_inside _ Hy)) as (x & Ix & Ex).
      exists (back x). split; [apply back_on, Ix|]. rewrite ix_back by exact Ix. unfold f. rewrite Ex.
      apply back_ix, Hy.
  - exact CY.
  - intros V v. split.
    + intros H x y Hi. destruct (HE _ _ Hi) as [Hx Hy].
      assert (L : on_cycle (fun x => back (f (ix x))) x y) by (apply CY; auto; apply linked_declared, Hi).
      destruct L as [k <-]. clear Hi Hy. induction k; simpl; [reflexivity|].
      rewrite IHk. symmetry. apply H. rewrite (proj1 (IT k x Hx)). apply back_on, (IT k x Hx).
    + intros H x Hx.
      assert (L : linked E x (back (f (ix x)))).
      { apply CY; auto; [apply back_on, IN, Hx|]. exists 1. reflexivity. }
      symmetry. revert L. generalize (back (f (ix x))). intros y L. clear Hx.
      induction L; auto; congruence.
Qed.

Lemma copies_express E : (forall x y, In (x, y) E -> on_table n cols x /\ on_table n cols y) ->
  exists p, perm_copies fuel (perm_new n cols) E = COk p /\ expresses n cols E p.
Proof.
  intros H. destruct (copies_inv E [] (perm_new n cols) new_inv eq_refl H) as (p & Ep & I & C).
  exists p. split; [exact Ep|]. apply inv_expresses; auto.
Qed.
Lemma copies_verdict E :
  (exists p, perm_copies fuel (perm_new n cols) E = COk p /\
     forall x y, In (x, y) E -> on_table n cols x /\ on_table n cols y) \/
  (exists e, perm_copies fuel (perm_new n cols) E = CErr e /\
     exists x y, In (x, y) E /\ ~ (on_table n cols x /\ on_table n cols y)).
Proof. apply copies_total with (E := []); [apply new_inv|reflexivity]. Qed.
End Columns.
