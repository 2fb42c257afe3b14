(** Facts about the tables of a finished run, used to show that they satisfy
    the circuit. *)
From Coq Require Import ZArith List Bool Arith Lia Permutation Sorted.
From Verif Require Import Base Field FieldFacts BFSpec BFFacts CompileSpec VMModel VMSim VMInv VMTrace
  TraceSpec ListFacts.
Import List ListNotations.
Local Open Scope Z_scope.

(** ** A trace as a sequence of states *)
Lemma trace_states W w i ip c rows ip' c' : trace W w i ip c rows ip' c' ->
  exists (ipf : nat -> Z) (cf : nat -> config),
    ipf 0%nat = ip /\ cf 0%nat = c /\ ipf (length rows) = ip' /\ cf (length rows) = c' /\
    (forall k, (k < length rows)%nat -> vstep W w (ipf k) (cf k) (ipf (S k)) (cf (S k))) /\
    (forall k r, nth_error rows k = Some r -> row_shows W (i + k) (ipf k) (cf k) r).
Proof.
  induction 1 as [i ip c|i ip c r ip1 c1 rows ip2 c2 Hr Hv _ (ipf & cf & E1 & E2 & E3 & E4 & V & R)].
  - exists (fun _ => ip), (fun _ => c). cbn [length]. repeat split.
    + intros k Hk. lia.
    + destruct k; discriminate.
    + destruct k; discriminate.
    + destruct k; discriminate.
    + destruct k; discriminate.
    + destruct k; discriminate.
    + destruct k; discriminate.
    + destruct k; discriminate.
    + destruct k; discriminate.
  - exists (fun k => match k with O => ip | S k => ipf k end), (fun k => match k with O => c | S k => cf k end).
    cbn [length]. split; [reflexivity|]. split; [reflexivity|]. split; [exact E3|]. split; [exact E4|]. split.
    + intros [|k] Hk; [rewrite E1, E2; exact Hv|]. apply V. lia.
    + intros [|k] x Hx; cbn [nth_error] in Hx.
      * injection Hx as <-. rewrite Nat.add_0_r. exact Hr.
      * replace (i + S k)%nat with (S i + k)%nat by lia. apply R. exact Hx.
Qed.

(** ** Effects of one step *)
Lemma vstep_word W w ip c ip' c' : vstep W w ip c ip' c' ->
  exists o, word W ip = Some o /\ List.In o instr_chars.
Proof. unfold instr_chars. intros H; inversion H; subst; eexists; (split; [eassumption|cbn [List.In]; tauto]). Qed.
Lemma vstep_tape W w ip c ip' c' : vstep W w ip c ip' c' ->
  forall a, a <> pos c -> tape c' a = tape c a.
Proof.
  intros H a Ha. apply Z.eqb_neq in Ha.
  inversion H; subst; cbn [tape move set_cell emit_cell take_input pos]; try reflexivity; rewrite Ha; reflexivity.
Qed.
Lemma vstep_pos W w ip c ip' c' : vstep W w ip c ip' c' -> 0 <= pos c ->
  0 <= pos c' /\ (pos c' = pos c \/ (forall a, tape c' a = tape c a) /\ (pos c' = pos c + 1 \/ pos c' = pos c - 1)).
Proof.
  intros H Hp; inversion H; subst; cbn [pos tape move set_cell emit_cell take_input];
    (split; [lia|]); first [left; reflexivity|right; split; [reflexivity|lia]].
Qed.
Lemma vstep_io W w ip c ip' c' : vstep W w ip c ip' c' ->
  read c' ++ unread c' = read c ++ unread c.
Proof.
  intros H; inversion H; subst; cbn [read unread move set_cell emit_cell take_input]; try reflexivity.
  match goal with E : unread c = _ |- _ => rewrite E end. rewrite <- app_assoc. reflexivity.
Qed.
Definition in_bounds (w : Z) (c : config) : Prop :=
  (forall a, 0 <= tape c a < 2 ^ w) /\ in_range w (unread c).
Lemma vstep_bounds W w ip c ip' c' : 0 <= w -> vstep W w ip c ip' c' -> in_bounds w c -> in_bounds w c'.
Proof.
  intros Hw H [B1 B2]. assert (P : 0 < 2 ^ w) by (apply Z.pow_pos_nonneg; lia).
  inversion H; subst; cbn [tape unread move set_cell emit_cell take_input]; unfold in_bounds;
    cbn [tape unread move set_cell emit_cell take_input]; try (split; assumption).
  - split; [|exact B2]. intros a. destruct (a =? pos c); [apply Z.mod_pos_bound; lia|apply B1].
  - split; [|exact B2]. intros a. destruct (a =? pos c); [apply Z.mod_pos_bound; lia|apply B1].
  - unfold in_range in *. rewrite H1 in B2. inversion B2; subst. cbv beta in *. split; [|assumption].
    intros a. cbn [pos]. destruct (a =? pos c); [lia|apply B1].
Qed.

(** ** States of a run *)
Record states (W : list Z) (w : Z) (inp : list Z) (P : list register) (N : nat)
    (ipf : nat -> Z) (cf : nat -> config) : Prop := mkStates {
  st_len : length P = S N;
  st_ip0 : ipf 0%nat = 0;
  st_c0 : cf 0%nat = initial inp;
  st_end : ipf N = lenZ W;
  st_step : forall k, (k < N)%nat -> vstep W w (ipf k) (cf k) (ipf (S k)) (cf (S k));
  st_row : forall k r, nth_error P k = Some r -> row_shows W k (ipf k) (cf k) r
}.
Lemma states_of_trace W w inp rows last c' :
  trace W w 0 0 (initial inp) rows (lenZ W) c' -> row_shows W (length rows) (lenZ W) c' last ->
  exists ipf cf, states W w inp (rows ++ [last]) (length rows) ipf cf /\ cf (length rows) = c'.
Proof.
  intros T L. destruct (trace_states _ _ _ _ _ _ _ _ T) as (ipf & cf & E1 & E2 & E3 & E4 & V & R).
  exists ipf, cf. split; [|exact E4]. constructor; try assumption.
  - rewrite app_length. cbn [length]. lia.
  - intros k r Hk. destruct (lt_dec k (length rows)) as [Hl|Hl].
    + rewrite nth_error_app1 in Hk by exact Hl. apply R. exact Hk.
    + rewrite nth_error_app2 in Hk by lia. destruct (k - length rows)%nat eqn:Ek; [|destruct n; discriminate].
      injection Hk as <-. assert (k = length rows) as -> by lia. rewrite E3, E4. exact L.
Qed.

Section States.
Variables (W : list Z) (w : Z) (inp : list Z) (P : list register) (N : nat)
  (ipf : nat -> Z) (cf : nat -> config).
Hypothesis Hw : 0 <= w.
Hypothesis Hin : in_range w inp.
Hypothesis S : states W w inp P N ipf cf.

Lemma st_bounds k : (k <= N)%nat -> in_bounds w (cf k).
Proof.
  induction k as [|k IH]; intros Hk.
  - rewrite (st_c0 _ _ _ _ _ _ _ S). split; [|exact Hin]. intros a. cbn [tape initial].
    assert (0 < 2 ^ w) by (apply Z.pow_pos_nonneg; lia). lia.
  - refine (vstep_bounds _ _ _ _ _ _ Hw (st_step _ _ _ _ _ _ _ S k _) (IH _)); lia.
Qed.
Lemma st_pos k : (k <= N)%nat -> 0 <= pos (cf k) <= Z.of_nat k.
Proof.
  induction k as [|k IH]; intros Hk.
  - rewrite (st_c0 _ _ _ _ _ _ _ S). cbn [pos initial]. lia.
  - specialize (IH ltac:(lia)).
    destruct (vstep_pos _ _ _ _ _ _ (st_step _ _ _ _ _ _ _ S k ltac:(lia)) (proj1 IH)) as [H1 H2].
    lia.
Qed.
Lemma st_io k : (k <= N)%nat -> read (cf k) ++ unread (cf k) = inp.
Proof.
  induction k as [|k IH]; intros Hk.
  - rewrite (st_c0 _ _ _ _ _ _ _ S). reflexivity.
  - rewrite (vstep_io _ _ _ _ _ _ (st_step _ _ _ _ _ _ _ S k ltac:(lia))). apply IH. lia.
Qed.
Lemma st_op k : (k < N)%nat -> exists o, word W (ipf k) = Some o /\ List.In o instr_chars.
Proof. intros Hk. exact (vstep_word _ _ _ _ _ _ (st_step _ _ _ _ _ _ _ S k Hk)). Qed.
Lemma st_iprange k : (k <= N)%nat -> 0 <= ipf k <= lenZ W.
Proof.
  intros Hk. destruct (Nat.eq_dec k N) as [->|Hn].
  - rewrite (st_end _ _ _ _ _ _ _ S). pose proof (lenZ_nonneg W). lia.
  - destruct (st_op k ltac:(lia)) as (o & Ho & _). apply word_range in Ho. lia.
Qed.

(** Cells not visited keep their value. *)
Lemma st_tape a i j : (i <= j)%nat -> (j <= N)%nat ->
  (forall t, (i <= t)%nat -> (t < j)%nat -> pos (cf t) <> a) -> tape (cf j) a = tape (cf i) a.
Proof.
  intros Hij Hj H. induction j as [|j IH].
  - replace i with 0%nat by lia. reflexivity.
  - destruct (Nat.eq_dec i (Datatypes.S j)) as [->|Hn]; [reflexivity|].
    rewrite (vstep_tape _ _ _ _ _ _ (st_step _ _ _ _ _ _ _ S j ltac:(lia)) a).
    + apply IH; [lia|lia|]. intros t H1 H2. apply H; lia.
    + apply not_eq_sym, H; lia.
Qed.
Lemma st_first a j : (j <= N)%nat -> (forall t, (t < j)%nat -> pos (cf t) <> a) -> tape (cf j) a = 0.
Proof.
  intros Hj H. rewrite (st_tape a 0 j) by (try lia; intros; apply H; lia).
  rewrite (st_c0 _ _ _ _ _ _ _ S). reflexivity.
Qed.
(** Between two successive visits the cell keeps its value, except across one step. *)
Lemma st_next a i j : (i < j)%nat -> (j <= N)%nat -> pos (cf i) = a -> pos (cf j) = a ->
  (forall t, (i < t)%nat -> (t < j)%nat -> pos (cf t) <> a) ->
  j = Datatypes.S i \/ tape (cf j) a = tape (cf i) a.
Proof.
  intros Hij Hj Ei Ej H. destruct (Nat.eq_dec j (Datatypes.S i)) as [E|Hn]; [left; exact E|right].
  rewrite (st_tape a (Datatypes.S i) j) by (try lia; intros; apply H; lia).
  destruct (vstep_pos _ _ _ _ _ _ (st_step _ _ _ _ _ _ _ S i ltac:(lia)) (proj1 (st_pos i ltac:(lia))))
    as [_ [H2|[H2 _]]].
  - exfalso. apply (H (Datatypes.S i)); [lia|lia|]. congruence.
  - apply H2.
Qed.
(** Visited cells are contiguous from 0. *)
Lemma st_contig j : (j <= N)%nat -> forall a, 0 <= a <= pos (cf j) -> exists i, (i <= j)%nat /\ pos (cf i) = a.
Proof.
  induction j as [|j IH]; intros Hj a Ha.
  - rewrite (st_c0 _ _ _ _ _ _ _ S) in Ha. cbn [pos initial] in Ha. exists 0%nat. split; [lia|].
    rewrite (st_c0 _ _ _ _ _ _ _ S). cbn [pos initial]. lia.
  - destruct (Z.eq_dec a (pos (cf (Datatypes.S j)))) as [->|Hn]; [exists (Datatypes.S j); auto|].
    destruct (vstep_pos _ _ _ _ _ _ (st_step _ _ _ _ _ _ _ S j ltac:(lia)) (proj1 (st_pos j ltac:(lia)))) as [_ H2].
    destruct (IH ltac:(lia) a ltac:(lia)) as (i & Hi & E). exists i. split; [lia|exact E].
Qed.
End States.

(** ** Sorted lists *)
Lemma sorted_nth {A} (R : A -> A -> Prop) l i j x y : StronglySorted R l ->
  (i < j)%nat -> nth_error l i = Some x -> nth_error l j = Some y -> R x y.
Proof.
  intros H. revert i j. induction H as [|a l H IH Hf]; intros i j Hij Hx Hy; [destruct i; discriminate|].
  destruct j as [|j]; [lia|]. destruct i as [|i]; cbn [nth_error] in *.
  - injection Hx as <-. rewrite Forall_forall in Hf. apply Hf. exact (nth_error_In _ _ Hy).
  - exact (IH i j ltac:(lia) Hx Hy).
Qed.
Lemma sorted_consec {A} (R : A -> A -> Prop) l i x y z : StronglySorted R l ->
  nth_error l i = Some x -> nth_error l (S i) = Some y -> List.In z l ->
  z = x \/ z = y \/ R z x \/ R y z.
Proof.
  intros H Hx Hy Hz. apply In_nth_error in Hz. destruct Hz as [j Hj].
  destruct (lt_eq_lt_dec j i) as [[L| ->]|L].
  - right. right. left. exact (sorted_nth R l j i z x H L Hj Hx).
  - left. congruence.
  - destruct (Nat.eq_dec j (S i)) as [->|N]; [right; left; congruence|].
    right. right. right. exact (sorted_nth R l (S i) j y z H ltac:(lia) Hy Hj).
Qed.

Lemma nth_error_ext' {A} (l l' : list A) : (forall k, nth_error l k = nth_error l' k) -> l = l'.
Proof.
  revert l'. induction l as [|x l IH]; intros [|y l'] H; [reflexivity|discriminate (H 0%nat)|discriminate (H 0%nat)|].
  pose proof (H 0%nat) as H0. injection H0 as ->. f_equal. apply IH. intros k. exact (H (S k)).
Qed.

(** ** The memory table *)
Section Memory.
Variables (W : list Z) (w : Z) (inp : list Z) (P : list register) (N : nat)
  (ipf : nat -> Z) (cf : nat -> config).
Hypothesis HN : Z.of_nat N < 2 ^ 64.
Hypothesis Hst : states W w inp P N ipf cf.
Variable M : list mrow.
Hypothesis HP : Permutation M (map mrow_of P).
Hypothesis HS : StronglySorted (fun x y => fval (m_mp x) < fval (m_mp y) \/
     m_mp x = m_mp y /\ fval (m_clk x) < fval (m_clk y)) M.

Definition mrow_at (k : nat) : mrow := mkM (FrZ (Z.of_nat k)) (FrZ (pos (cf k))) (FrZ (cell (cf k))).
Lemma row_mrow k r : nth_error P k = Some r -> mrow_of r = mrow_at k.
Proof.
  intros H. destruct (st_row _ _ _ _ _ _ _ Hst k r H) as (E1 & _ & _ & _ & E2 & E3 & _).
  unfold mrow_of, mrow_at. rewrite E1, E2, E3. reflexivity.
Qed.
Lemma in_M x : List.In x M <-> exists k, (k <= N)%nat /\ x = mrow_at k.
Proof.
  split.
  - intros H. apply (Permutation_in _ HP) in H. apply in_map_iff in H. destruct H as (r & <- & H).
    apply In_nth_error in H. destruct H as [k H]. exists k. split; [|apply row_mrow; exact H].
    assert (k < length P)%nat by (apply nth_error_Some; congruence).
    rewrite (st_len _ _ _ _ _ _ _ Hst) in *. lia.
  - intros (k & Hk & ->). apply (Permutation_in _ (Permutation_sym HP)).
    destruct (nth_error P k) as [r|] eqn:E.
    + rewrite <- (row_mrow k r E). apply in_map. exact (nth_error_In _ _ E).
    + apply nth_error_None in E. rewrite (st_len _ _ _ _ _ _ _ Hst) in E. lia.
Qed.
Lemma pos64 k : (k <= N)%nat -> 0 <= pos (cf k) < 2 ^ 64.
Proof. intros Hk. pose proof (st_pos _ _ _ _ _ _ _ Hst k Hk). lia. Qed.
Lemma mrow_mp k : (k <= N)%nat -> fval (m_mp (mrow_at k)) = pos (cf k).
Proof. intros Hk. apply fval_FrZ. apply pos64. exact Hk. Qed.
Lemma mrow_clk k : (k <= N)%nat -> fval (m_clk (mrow_at k)) = Z.of_nat k.
Proof. intros Hk. apply fval_FrZ. lia. Qed.

Lemma memory_consec i x y : nth_error M i = Some x -> nth_error M (S i) = Some y ->
  exists a b, (a <= N)%nat /\ (b <= N)%nat /\ x = mrow_at a /\ y = mrow_at b /\
    ((pos (cf b) = pos (cf a) /\ (b = S a \/ cell (cf b) = cell (cf a))) \/
     (pos (cf b) = pos (cf a) + 1 /\ cell (cf b) = 0)).
Proof.
  intros Hx Hy.
  destruct (proj1 (in_M x) (nth_error_In _ _ Hx)) as (a & Ha & ->).
  destruct (proj1 (in_M y) (nth_error_In _ _ Hy)) as (b & Hb & ->).
  exists a, b. split; [exact Ha|]. split; [exact Hb|]. split; [reflexivity|]. split; [reflexivity|].
  pose proof (sorted_nth _ _ i (S i) _ _ HS ltac:(lia) Hx Hy) as Hxy. cbv beta in Hxy.
  rewrite !mrow_mp, !mrow_clk in Hxy by assumption.
  assert (Hz : forall t, (t <= N)%nat ->
     (pos (cf t) = pos (cf a) /\ t = a) \/ (pos (cf t) = pos (cf b) /\ t = b) \/
     (pos (cf t) < pos (cf a) \/ pos (cf t) = pos (cf a) /\ (t < a)%nat) \/
     (pos (cf b) < pos (cf t) \/ pos (cf b) = pos (cf t) /\ (b < t)%nat)).
  { intros t Ht.
    assert (Hinj : forall u v, (u <= N)%nat -> (v <= N)%nat -> m_mp (mrow_at u) = m_mp (mrow_at v) -> pos (cf u) = pos (cf v)).
    { intros u v Hu Hv E. rewrite <- (mrow_mp u Hu), <- (mrow_mp v Hv), E. reflexivity. }
    destruct (sorted_consec _ _ _ _ _ (mrow_at t) HS Hx Hy (proj2 (in_M _) (ex_intro _ t (conj Ht eq_refl))))
      as [E|[E|[E|E]]].
    - left. apply (f_equal (fun r => fval (m_clk r))) in E as E1. rewrite !mrow_clk in E1 by assumption.
      assert (t = a) as -> by lia. auto.
    - right. left. apply (f_equal (fun r => fval (m_clk r))) in E as E1. rewrite !mrow_clk in E1 by assumption.
      assert (t = b) as -> by lia. auto.
    - right. right. left. cbv beta in E. rewrite !mrow_mp, !mrow_clk in E by assumption.
      destruct E as [E|[E1 E2]]; [left; exact E|right]. split; [apply Hinj; assumption|lia].
    - right. right. right. cbv beta in E. rewrite !mrow_mp, !mrow_clk in E by assumption.
      destruct E as [E|[E1 E2]]; [left; exact E|right]. split; [apply Hinj; assumption|lia]. }
  destruct Hxy as [Hlt|[He Hlt]].
  - right. assert (Ep : pos (cf b) = pos (cf a) + 1).
    { destruct (Z.eq_dec (pos (cf b)) (pos (cf a) + 1)) as [E|Hn]; [exact E|exfalso].
      pose proof (st_pos _ _ _ _ _ _ _ Hst a Ha) as Hpa.
      destruct (st_contig _ _ _ _ _ _ _ Hst b Hb (pos (cf a) + 1) ltac:(lia)) as (t & Ht & Et).
      specialize (Hz t ltac:(lia)). lia. }
    split; [exact Ep|]. unfold cell. apply (st_first _ _ _ _ _ _ _ Hst); [exact Hb|].
    intros t Ht E. specialize (Hz t ltac:(lia)). lia.
  - left. assert (Ep : pos (cf b) = pos (cf a)).
    { apply (f_equal fval) in He. rewrite !mrow_mp in He by assumption. congruence. }
    split; [exact Ep|]. unfold cell. rewrite Ep.
    apply (st_next _ _ _ _ _ _ _ Hst); [lia|exact Hb|reflexivity|exact Ep|].
    intros t H1 H2 E. specialize (Hz t ltac:(lia)). lia.
Qed.
End Memory.

(** ** The instruction table *)
(** Rows whose successor has another address, and the other rows. *)
Fixpoint boundary (l : list nat) : list nat :=
  match l with
  | x :: r => match r with
              | y :: _ => if Nat.eqb y x then boundary r else x :: boundary r
              | [] => []
              end
  | [] => []
  end.
Fixpoint interior (l : list nat) : list nat :=
  match l with
  | x :: r => match r with
              | y :: _ => if Nat.eqb y x then x :: interior r else interior r
              | [] => [x]
              end
  | [] => []
  end.
Lemma boundary_perm l : Permutation l (boundary l ++ interior l).
Proof.
  induction l as [|x l IH]; [reflexivity|]. cbn [boundary interior]. destruct l as [|y l]; [reflexivity|].
  destruct (Nat.eqb y x); [|cbn [app]; apply perm_skip; exact IH].
  apply Permutation_cons_app. exact IH.
Qed.
Lemma boundary_seq L l a : StronglySorted le (a :: l) ->
  (forall k, (a <= k <= L)%nat -> List.In k (a :: l)) -> (forall k, List.In k (a :: l) -> (k <= L)%nat) ->
  boundary (a :: l) = seq a (L - a).
Proof.
  revert a. induction l as [|b l IH]; intros a HS HC HL.
  - cbn [boundary]. specialize (HC L). pose proof (HL a (or_introl eq_refl)) as Ha.
    destruct (HC ltac:(lia)) as [->|[]]. rewrite Nat.sub_diag. reflexivity.
  - change (boundary (a :: b :: l)) with (if Nat.eqb b a then boundary (b :: l) else a :: boundary (b :: l)).
    inversion HS as [|? ? HS1 HF]; subst. inversion HF as [|? ? Hab _]; subst.
    pose proof (HL b (or_intror (or_introl eq_refl))) as Hb.
    destruct (Nat.eqb b a) eqn:E.
    + apply Nat.eqb_eq in E. subst b. apply IH; [exact HS1| |].
      * intros k Hk. destruct (HC k Hk) as [->|H]; [left; reflexivity|exact H].
      * intros k Hk. apply HL. right. exact Hk.
    + apply Nat.eqb_neq in E. assert (b = S a) as ->.
      { destruct (HC (S a) ltac:(lia)) as [H|H]; [lia|]. destruct H as [H|H]; [exact H|].
        inversion HS1 as [|? ? _ HF1]; subst. rewrite Forall_forall in HF1. specialize (HF1 _ H). lia. }
      rewrite IH; [|exact HS1| |].
      * replace (L - a)%nat with (S (L - S a)) by lia. reflexivity.
      * intros k Hk. destruct (HC k ltac:(lia)) as [H|H]; [lia|exact H].
      * intros k Hk. apply HL. right. exact Hk.
Qed.

Definition irow_at (W : list Z) (k : nat) : irow :=
  mkI (FrZ (Z.of_nat k)) (FrZ (word_or_0 W (Z.of_nat k))) (FrZ (word_or_0 W (Z.of_nat k + 1))).
Lemma word_or_0_nth W k : FrZ (word_or_0 W (Z.of_nat k)) = nth k (map FrZ W) f0.
Proof.
  unfold word_or_0. rewrite word_nth by lia. rewrite Nat2Z.id.
  change f0 with (FrZ 0). rewrite map_nth. destruct (nth_error W k) as [x|] eqn:E.
  - rewrite (nth_error_nth W k 0 E). reflexivity.
  - apply nth_error_None in E. rewrite nth_overflow by exact E. reflexivity.
Qed.

Section Instructions.
Variables (W : list Z) (w : Z) (inp : list Z) (P : list register) (N : nat)
  (ipf : nat -> Z) (cf : nat -> config).
Hypothesis HL : lenZ W < 2 ^ 64.
Hypothesis Hst : states W w inp P N ipf cf.
Variable T : list irow.
Let words := map (fun i => mkI (FrZ (Z.of_nat i)) (nth i (map FrZ W) f0) (nth (S i) (map FrZ W) f0))
               (seq 0 (length (map FrZ W))).
Hypothesis HP : Permutation T (words ++ map irow_of P).
Hypothesis HS : StronglySorted (fun x y => fval (i_ip x) <= fval (i_ip y)) T.

Definition ips : list nat := map (fun k => Z.to_nat (ipf k)) (seq 0 (S N)).
Lemma ips_len k : (k <= N)%nat -> (Z.to_nat (ipf k) <= length W)%nat.
Proof. intros Hk. pose proof (st_iprange _ _ _ _ _ _ _ Hst k Hk). unfold lenZ in *. lia. Qed.
Lemma rows_irow : map irow_of P = map (irow_at W) ips.
Proof.
  unfold ips. rewrite map_map. apply nth_error_ext'. 
  intros k. rewrite !nth_error_map.
  destruct (nth_error P k) as [r|] eqn:E; cbn [option_map].
  - assert (Hk : (k < S N)%nat).
    { rewrite <- (st_len _ _ _ _ _ _ _ Hst). apply nth_error_Some. congruence. }
    rewrite (nth_error_nth' (seq 0 (S N)) 0%nat) by (rewrite seq_length; exact Hk).
    rewrite seq_nth by exact Hk. cbn [option_map Nat.add].
    destruct (st_row _ _ _ _ _ _ _ Hst k r E) as (_ & E1 & E2 & E3 & _).
    pose proof (st_iprange _ _ _ _ _ _ _ Hst k ltac:(lia)).
    unfold irow_of, irow_at. rewrite E1, E2, E3, Z2Nat.id by lia. reflexivity.
  - apply nth_error_None in E. rewrite (st_len _ _ _ _ _ _ _ Hst) in E.
    rewrite (proj2 (nth_error_None (seq 0 (S N)) k)) by (rewrite seq_length; exact E). reflexivity.
Qed.
Lemma words_irow : words = map (irow_at W) (seq 0 (length W)).
Proof.
  unfold words. rewrite map_length. apply map_ext. intros k. unfold irow_at.
  rewrite word_or_0_nth. replace (Z.of_nat k + 1) with (Z.of_nat (S k)) by lia.
  rewrite word_or_0_nth. reflexivity.
Qed.
Lemma table_addresses : exists ks, T = map (irow_at W) ks /\
  Permutation ks (seq 0 (length W) ++ ips) /\ StronglySorted le ks /\
  (forall k, List.In k ks <-> (k <= length W)%nat).
Proof.
  pose proof HP as HP'. rewrite words_irow, rows_irow, <- map_app in HP'.
  apply Permutation_map_inv in HP'. destruct HP' as (ks & E & Hp).
  assert (Hin : forall k, List.In k ks <-> (k <= length W)%nat).
  { intros k. split.
    - intros H. apply (Permutation_in _ (Permutation_sym Hp)) in H. apply in_app_or in H. destruct H as [H|H].
      + apply in_seq in H. lia.
      + unfold ips in H. apply in_map_iff in H. destruct H as (j & <- & H). apply in_seq in H.
        apply ips_len. lia.
    - intros H. apply (Permutation_in _ Hp). apply in_or_app.
      destruct (Nat.eq_dec k (length W)) as [->|Hn]; [right|left; apply in_seq; lia].
      unfold ips. apply in_map_iff. exists N. split; [|apply in_seq; lia].
      rewrite (st_end _ _ _ _ _ _ _ Hst). unfold lenZ. apply Nat2Z.id. }
  exists ks. split; [exact E|]. split; [apply Permutation_sym; exact Hp|]. split; [|exact Hin].
  assert (Hle : forall k, List.In k ks -> (k <= length W)%nat) by (intros k; apply Hin).
  clear Hp Hin. pose proof HS as HS'. rewrite E in HS'. clear E.
  induction ks as [|k ks IH]; [constructor|]. cbn [map] in HS'. inversion HS' as [|? ? H1 HF]; subst.
  constructor; [apply IH; [intros j Hj; apply Hle; right; exact Hj|exact H1]|].
  rewrite Forall_forall in *. intros j Hj. specialize (HF _ (in_map (irow_at W) _ _ Hj)). cbv beta in HF.
  pose proof (Hle k (or_introl eq_refl)). pose proof (Hle j (or_intror Hj)).
  cbn [irow_at i_ip] in HF. rewrite !fval_FrZ in HF by (unfold lenZ in HL; lia). lia.
Qed.
End Instructions.
