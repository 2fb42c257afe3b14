(** The permuted columns of a lookup. *)
From Coq Require Import ZArith List Arith Lia Bool Permutation Sorted.
From Verif Require Import Base ListFacts Moduli Field FieldFacts Halo2Model PermModel DomainModel VkModel IopModel ProverModel.
Import ListNotations.
Local Open Scope nat_scope.

Lemma perm_eq {A} (l k : list A) : l = k -> Permutation l k.
Proof. intros ->. apply Permutation_refl. Qed.
(** ** Sorting *)
Lemma insert_perm a l : Permutation (insert_fr a l) (a :: l).
Proof.
  induction l as [|b l IH]; [apply Permutation_refl|]. cbn [insert_fr]. destruct (_ <=? _)%Z; [apply Permutation_refl|].
  apply (Permutation_trans (perm_skip b IH)). apply perm_swap.
Qed.
Lemma sort_perm l : Permutation (sort_fr l) l.
Proof.
  induction l as [|a l IH]; [apply Permutation_refl|]. cbn [sort_fr fold_right]. fold (sort_fr l).
  apply (Permutation_trans (insert_perm a _)). apply perm_skip, IH.
Qed.
Definition le_fr (a b : Fr) : Prop := (fval a <= fval b)%Z.
Lemma insert_sorted a l : StronglySorted le_fr l -> StronglySorted le_fr (insert_fr a l).
Proof.
  induction l as [|b l IH]; intros H; cbn [insert_fr]; [repeat constructor|].
  inversion_clear H as [|? ? Hs Hf]. destruct (Z.leb_spec (fval a) (fval b)) as [L|L].
  - constructor; [constructor; assumption|]. constructor; [exact L|]. revert Hf. apply Forall_impl. unfold le_fr. intros; lia.
  - constructor; [apply IH, Hs|]. apply Forall_forall. intros x I. apply (Permutation_in _ (insert_perm a l)) in I.
    destruct I as [<-|I]; [unfold le_fr; lia|]. rewrite Forall_forall in Hf. apply Hf, I.
Qed.
Lemma sort_sorted l : StronglySorted le_fr (sort_fr l).
Proof. induction l as [|a l IH]; [constructor|]. apply insert_sorted, IH. Qed.

(** ** The table as a multiset *)
Definition expand (m : table_map) : list Fr := flat_map (fun kc => repeat (fst kc) (snd kc)) m.
Fixpoint ordered (m : table_map) : Prop :=
  match m with [] => True | (x, c) :: m => (forall y k, In (y, k) m -> (fval x < fval y)%Z) /\ ordered m end.
Lemma fval_eq (a b : Fr) : fval a = fval b -> a = b.
Proof. apply fe_eq. Qed.
Lemma bump_expand x m : Permutation (expand (bump x m)) (x :: expand m).
Proof.
  induction m as [|[y c] m IH]; [apply Permutation_refl|]. cbn [bump]. destruct (feqb x y) eqn:E.
  - apply feqb_eq in E. subst y. apply Permutation_refl.
  - destruct (_ <? _)%Z; [apply Permutation_refl|]. cbn [expand flat_map fst snd]. fold (expand (bump x m)) (expand m).
    apply (Permutation_trans (Permutation_app_head _ IH)). apply Permutation_sym, Permutation_middle.
Qed.
Lemma bump_keys x m y k : In (y, k) (bump x m) -> y = x \/ exists k', In (y, k') m.
Proof.
  induction m as [|[z c] m IH]; cbn [bump].
  - intros [[= <- _]|[]]. auto.
  - destruct (feqb x z) eqn:E.
    + intros [[= <- _]|I]; [right; exists c; left; reflexivity|right; exists k; right; exact I].
    + destruct (_ <? _)%Z.
      * intros [[= <- _]|I]; [auto|right; exists k; exact I].
      * intros [[= <- _]|I]; [right; exists c; left; reflexivity|]. destruct (IH I) as [->|(k' & I')]; [auto|right; exists k'; right; exact I'].
Qed.
Lemma bump_ordered x m : ordered m -> ordered (bump x m).
Proof.
  induction m as [|[y c] m IH]; intros O; cbn [bump]; [split; [contradiction|exact I]|].
  destruct O as [Oy Om]. destruct (feqb x y) eqn:E; [split; assumption|].
  destruct (Z.ltb_spec (fval x) (fval y)) as [L|L].
  - split; [|split; assumption]. intros z k [[= <- _]|I]; [exact L|]. specialize (Oy z k I). lia.
  - split; [|apply IH, Om]. intros z k I. apply bump_keys in I. destruct I as [->|(k' & I)]; [|apply (Oy z k' I)].
    apply feqb_neq in E. assert (fval x <> fval y) by (intros X; apply E, fval_eq, X). lia.
Qed.
Lemma bump_pos x m : (forall y k, In (y, k) m -> 0 < k) -> forall y k, In (y, k) (bump x m) -> 0 < k.
Proof.
  induction m as [|[z c] m IH]; intros H y k; cbn [bump].
  - intros [[= _ <-]|[]]. lia.
  - destruct (feqb x z).
    + intros [[= _ <-]|I]; [lia|]. apply (H y k). right. exact I.
    + destruct (_ <? _)%Z.
      * intros [[= _ <-]|I]; [lia|]. apply (H y k I).
      * intros [[= <- <-]|I]; [apply (H z c); left; reflexivity|]. revert I. apply IH. intros a b I. apply (H a b). right. exact I.
Qed.
Lemma count_table_is l : ordered (count_table l) /\ (forall y k, In (y, k) (count_table l) -> 0 < k) /\
  Permutation (expand (count_table l)) l.
Proof.
  unfold count_table. rewrite <- fold_left_rev_right.
  assert (G : forall l, let m := fold_right (fun x m => bump x m) [] l in ordered m /\ (forall y k, In (y, k) m -> 0 < k) /\ Permutation (expand m) l).
  { clear l. induction l as [|x l (O & P & E)]; cbn [fold_right]; [repeat split; [contradiction|apply Permutation_refl]|].
    split; [apply bump_ordered, O|]. split; [apply bump_pos, P|].
    apply (Permutation_trans (bump_expand x _)). apply perm_skip, E. }
  destruct (G (rev l)) as (O & P & E). split; [exact O|]. split; [exact P|].
  apply (Permutation_trans E). apply Permutation_sym, Permutation_rev.
Qed.
Lemma in_expand m x : In x (expand m) <-> exists k, In (x, k) m /\ 0 < k.
Proof.
  unfold expand. rewrite in_flat_map. split.
  - intros ([y k] & I & J). cbn [fst snd] in J. pose proof J as J2. apply repeat_spec in J2. subst y.
    exists k. split; [exact I|]. destruct k; [contradiction|lia].
  - intros (k & I & L). exists (x, k). split; [exact I|]. cbn [fst snd]. destruct k; [lia|]. left. reflexivity.
Qed.

Lemma take_one_is x m : ordered m -> (forall k, In (x, k) m -> 0 < k) ->
  match take_one x m with
  | Absent => forall k, ~ In (x, k) m
  | Zero_count => False
  | Taken m' => Permutation (expand m) (x :: expand m') /\ ordered m' /\
      (exists k, In (x, k) m) /\
      (forall y k, y <> x -> In (y, k) m' <-> In (y, k) m) /\ (forall y k, In (y, k) m' -> exists k', In (y, k') m)
  end.
Proof.
  induction m as [|[y c] m IH]; intros O P; cbn [take_one]; [intros k []|]. destruct O as [Oy Om].
  destruct (feqb x y) eqn:E.
  - apply feqb_eq in E. subst y. destruct c as [|c]; [pose proof (P 0 (or_introl eq_refl)); lia|].
    split; [apply Permutation_refl|]. split; [split; assumption|]. split; [eexists; left; reflexivity|]. split.
    + intros y k N. cbn [In]. split; (intros [[= X _]|I]; [congruence|right; exact I]).
    + intros y k [[= <- _]|I]; [eexists; left; reflexivity|exists k; right; exact I].
  - apply feqb_neq in E. specialize (IH Om ltac:(intros k I; apply (P k); right; exact I)).
    destruct (take_one x m) as [| |m'].
    + intros k [[= X _]|I]; [congruence|apply (IH k I)].
    + exact IH.
    + destruct IH as (A & B & (k0 & K0) & C & D). split.
      { cbn [expand flat_map fst snd]. fold (expand m) (expand m'). apply (Permutation_trans (Permutation_app_head _ A)).
        apply Permutation_sym, Permutation_middle. }
      split; [split; [|exact B]; intros z k I; destruct (D z k I) as (k' & I'); apply (Oy z k' I')|].
      split; [exists k0; right; exact K0|]. split.
      * intros z k N. cbn [In]. rewrite (C z k N). reflexivity.
      * intros z k [[= <- _]|I]; [eexists; left; reflexivity|]. destruct (D z k I) as (k' & I'). exists k'. right. exact I'.
Qed.

(** ** The pass over the inputs *)
Definition above (prev : option Fr) (x : Fr) : Prop := match prev with None => True | Some b => (fval b < fval x)%Z end.
Definition from (prev : option Fr) (x : Fr) : Prop := match prev with None => True | Some b => (fval b <= fval x)%Z end.

Lemma fill_is : forall inputs prev row m, StronglySorted le_fr inputs -> Forall (from prev) inputs ->
  ordered m -> (forall x k, above prev x -> In (x, k) m -> 0 < k) ->
  match fill prev row inputs m with
  | PPanic => False
  | PFail => exists x, In x inputs /\ prev <> Some x /\ forall k, ~ In (x, k) m
  | POk (t, rows, m') =>
      (forall x, In x inputs -> prev <> Some x -> exists k, In (x, k) m) /\
      length t = length inputs /\
      (exists oth, Permutation (seq row (length inputs)) (rows ++ oth) /\
        Permutation (expand m) (map (fun i => nth (i - row) t f0) oth ++ expand m')) /\
      (forall i, i < length inputs -> In (row + i) rows ->
         match i with O => prev = Some (nth 0 inputs f0) | S j => nth i inputs f0 = nth j inputs f0 end) /\
      (forall i, i < length inputs -> ~ In (row + i) rows -> nth i t f0 = nth i inputs f0)
  end.
Proof.
  induction inputs as [|a inputs IH]; intros prev row m Hs Hf O P; cbn [fill].
  { split; [contradiction|]. split; [reflexivity|]. split; [|split; intros i L; cbn in L; lia].
    exists []. split; [apply Permutation_refl|]. apply Permutation_refl. }
  inversion_clear Hs as [|? ? Hs' Hall]. inversion_clear Hf as [|? ? Ha Hf'].
  assert (Hfa : Forall (from (Some a)) inputs) by (revert Hall; apply Forall_impl; intros b; exact (fun H => H)).
  destruct (match prev with None => true | Some b => negb (feqb a b) end) eqn:EF.
  - assert (Hab : above prev a /\ prev <> Some a).
    { destruct prev as [b|]; [|split; [exact I|discriminate]]. apply negb_true_iff, feqb_neq in EF. cbn [above from] in *.
      split; [|congruence]. assert (fval a <> fval b) by (intros X; apply EF, fval_eq, X). lia. }
    destruct Hab as [Hab Hne].
    pose proof (take_one_is a m O ltac:(intros k I; apply (P a k Hab I))) as T.
    destruct (take_one a m) as [| |m1]; [exists a; split; [left; reflexivity|split; [exact Hne|exact T]]|contradiction|].
    destruct T as (T1 & T2 & (k0 & K0) & T3 & T4).
    assert (P1 : forall x k, above (Some a) x -> In (x, k) m1 -> 0 < k).
    { intros x k Ax I. cbn [above] in Ax. apply T3 in I; [|intros ->; lia]. apply (P x k); [|exact I].
      destruct prev as [b|]; [|exact Logic.I]. cbn [above from] in *. lia. }
    specialize (IH (Some a) (S row) m1 Hs' Hfa T2 P1).
    destruct (fill (Some a) (S row) inputs m1) as [[[t rows] m']| |]; cbn [pbind].
    + destruct IH as (Q0 & Q1 & (oth & Q2 & Q3) & Q4 & Q5).
      split.
      { intros x [<-|I] N; [exists k0; exact K0|]. destruct (fe_dec x a) as [->|Nx]; [exists k0; exact K0|].
        destruct (Q0 x I) as (k & Ik); [congruence|]. exists k. apply T3; [exact Nx|exact Ik]. }
      split; [cbn [length]; rewrite Q1; reflexivity|]. split; [|split].
      * exists (row :: oth). split.
        -- cbn [length seq]. apply Permutation_cons_app, Q2.
        -- apply (Permutation_trans T1). cbn [map app]. rewrite Nat.sub_diag. change (nth 0 (a :: t) f0) with a. apply perm_skip.
           apply (Permutation_trans Q3). apply Permutation_app_tail.
           apply perm_eq.
           apply map_ext_in. intros i I. assert (J : In i (seq (S row) (length inputs))).
           { apply (Permutation_in _ (Permutation_sym Q2)). apply in_app_iff. right. exact I. }
           apply in_seq in J. replace (i - row) with (S (i - S row)) by lia. reflexivity.
      * assert (R : forall i, In i rows -> S row <= i < S row + length inputs).
        { intros i I. assert (J : In i (seq (S row) (length inputs))).
          { apply (Permutation_in _ (Permutation_sym Q2)). apply in_app_iff. left. exact I. } apply in_seq in J. lia. }
        intros [|i] L I; [apply R in I; lia|]. cbn [length] in L.
        specialize (Q4 i ltac:(lia)). replace (row + S i) with (S row + i) in I by lia. specialize (Q4 I).
        destruct i as [|i]; cbn [nth]; [injection Q4 as X; symmetry; exact X|exact Q4].
      * intros [|i] L N; [reflexivity|]. cbn [nth length] in *. apply Q5; [lia|]. intros I. apply N. replace (row + S i) with (S row + i) by lia. exact I.
    + destruct IH as (x & I & N & H). exists x. split; [right; exact I|].
      destruct (fe_dec x a) as [->|Nx]; [exfalso; apply N; reflexivity|]. split.
      * intros ->. cbn [above] in Hab. rewrite Forall_forall in Hfa. specialize (Hfa x I). cbn [from] in Hfa. lia.
      * intros k Ik. apply (H k). apply T3; assumption.
    + contradiction.
  - destruct prev as [b|]; [|discriminate]. apply negb_false_iff, feqb_eq in EF. subst b.
    specialize (IH (Some a) (S row) m Hs' Hfa O P).
    destruct (fill (Some a) (S row) inputs m) as [[[t rows] m']| |]; cbn [pbind].
    + destruct IH as (Q0 & Q1 & (oth & Q2 & Q3) & Q4 & Q5).
      split; [intros x [<-|I] N; [contradiction N; reflexivity|exact (Q0 x I N)]|].
      split; [cbn [length]; rewrite Q1; reflexivity|]. split; [|split].
      * exists oth. split; [cbn [length seq app]; apply perm_skip, Q2|].
        apply (Permutation_trans Q3). apply Permutation_app_tail.
        apply perm_eq.
        apply map_ext_in. intros i I. assert (J : In i (seq (S row) (length inputs))).
        { apply (Permutation_in _ (Permutation_sym Q2)). apply in_app_iff. right. exact I. }
        apply in_seq in J. replace (i - row) with (S (i - S row)) by lia. reflexivity.
      * intros [|i] L I; [reflexivity|]. cbn [length] in L. specialize (Q4 i ltac:(lia)).
        replace (row + S i) with (S row + i) in I by lia. destruct I as [I|I]; [lia|]. specialize (Q4 I).
        destruct i as [|i]; cbn [nth]; [injection Q4 as X; symmetry; exact X|exact Q4].
      * intros [|i] L N; [exfalso; apply N; left; lia|]. cbn [nth length] in *. apply Q5; [lia|]. intros I. apply N. right.
        replace (row + S i) with (S row + i) by lia. exact I.
    + destruct IH as (x & I & N & H). exists x. split; [right; exact I|]. auto.
    + contradiction.
Qed.

(** ** Leftovers *)
Fixpoint put (vals : list Fr) (rows : list nat) (t : list Fr) : list Fr :=
  match vals, rows with x :: vals, r :: rows => put vals rows (upd t r x) | _, _ => t end.
Lemma place_is x c : forall t rows, c <= length rows -> place x c t rows = POk (put (repeat x c) (firstn c rows) t, skipn c rows).
Proof.
  induction c as [|c IH]; intros t rows L; [reflexivity|]. destruct rows as [|r rows]; [cbn in L; lia|].
  cbn [place repeat firstn skipn put]. apply IH. cbn in L. lia.
Qed.
Lemma put_app vals vals' : forall rows rows' t, length vals = length rows -> put (vals ++ vals') (rows ++ rows') t = put vals' rows' (put vals rows t).
Proof. induction vals as [|x vals IH]; intros [|r rows] rows' t L; try discriminate; [reflexivity|]. cbn [app put]. apply IH. injection L as L. exact L. Qed.
Lemma populate_is m : forall t rows, length (expand m) = length rows -> populate m t rows = POk (put (expand m) rows t).
Proof.
  induction m as [|[x c] m IH]; intros t rows L; cbn [populate].
  - destruct rows; [reflexivity|discriminate].
  - cbn [expand flat_map fst snd] in *. fold (expand m) in *. rewrite app_length, repeat_length in L.
    rewrite place_is by lia. cbn [pbind fst snd]. rewrite IH by (rewrite skipn_length; change (fe r_pos) with Fr in *; lia).
    f_equal. rewrite <- (firstn_skipn c rows) at 3. rewrite put_app; [reflexivity|]. rewrite repeat_length, firstn_length. change (fe r_pos) with Fr in *. lia.
Qed.
Lemma put_length vals : forall rows t, length (put vals rows t) = length t.
Proof. induction vals as [|x vals IH]; intros [|r rows] t; try reflexivity. cbn [put]. rewrite IH. apply upd_length. Qed.
Lemma nth_upd_eq (t : list Fr) i x : i < length t -> nth i (upd t i x) f0 = x.
Proof. intros L. apply nth_error_nth, nth_error_upd_eq, L. Qed.
Lemma nth_upd_neq (t : list Fr) i j x : i <> j -> nth j (upd t i x) f0 = nth j t f0.
Proof.
  intros N. pose proof (nth_error_upd_neq t i j x N) as E. destruct (nth_error t j) as [y|] eqn:Ej.
  - rewrite (nth_error_nth _ _ _ E), (nth_error_nth _ _ _ Ej). reflexivity.
  - apply nth_error_None in E, Ej. rewrite !nth_overflow by assumption. reflexivity.
Qed.
Lemma put_other vals : forall rows t i, ~ In i rows -> nth i (put vals rows t) f0 = nth i t f0.
Proof.
  induction vals as [|x vals IH]; intros [|r rows] t i N; try reflexivity. cbn [put]. rewrite IH by (intros I; apply N; right; exact I).
  apply nth_upd_neq. intros ->. apply N. left. reflexivity.
Qed.
Lemma put_at vals : forall rows t, NoDup rows -> length vals = length rows -> (forall r, In r rows -> r < length t) ->
  map (fun i => nth i (put vals rows t) f0) rows = vals.
Proof.
  induction vals as [|x vals IH]; intros [|r rows] t N L B; try discriminate; [reflexivity|].
  inversion_clear N as [|? ? Nr Nrows]. cbn [put map]. f_equal.
  - rewrite put_other by exact Nr. apply nth_upd_eq, B. left. reflexivity.
  - apply IH; [exact Nrows|injection L as L; exact L|]. intros q I. rewrite upd_length. apply B. right. exact I.
Qed.

(** ** The permuted pair *)
Lemma map_nth_seq' (l : list Fr) : map (fun i => nth i l f0) (seq 0 (length l)) = l.
Proof. induction l as [|a l IH]; [reflexivity|]. cbn [length seq map nth]. f_equal. rewrite <- seq_shift, map_map. exact IH. Qed.

Theorem permute_pair_is u inputs tables :
  match permute_pair u inputs tables with
  | PPanic => False
  | PFail => exists r, r < u /\ forall r', r' < u -> inputs r <> tables r'
  | POk (a', s') =>
      (forall r, r < u -> exists r', r' < u /\ inputs r = tables r') /\
      Permutation a' (map inputs (seq 0 u)) /\ Permutation s' (map tables (seq 0 u)) /\
      (forall r, r < u -> nth r a' f0 = nth r s' f0 \/ exists q, r = S q /\ nth r a' f0 = nth q a' f0)
  end.
Proof.
  unfold permute_pair. set (A := map inputs (seq 0 u)). set (T := map tables (seq 0 u)).
  destruct (count_table_is T) as (O & P & E).
  pose proof (fill_is (sort_fr A) None 0 (count_table T) (sort_sorted A)) as F.
  assert (LA : length (sort_fr A) = u).
  { rewrite (Permutation_length (sort_perm A)). unfold A. rewrite map_length, seq_length. reflexivity. }
  assert (LT : length T = u) by (unfold T; rewrite map_length, seq_length; reflexivity).
  specialize (F ltac:(apply Forall_forall; intros x _; exact I) O ltac:(intros x k _; apply P)).
  destruct (fill None 0 (sort_fr A) (count_table T)) as [[[t rows] m']| |]; cbn [pbind].
  - destruct F as (F0 & F1 & (oth & F2 & F3) & F4 & F5). rewrite LA in *.
    assert (NR : NoDup (rows ++ oth)) by (apply (Permutation_NoDup F2), seq_NoDup).
    assert (LR : length (expand m') = length rows).
    { apply Permutation_length in F2, F3. rewrite seq_length, app_length in F2. rewrite app_length, map_length in F3.
      pose proof (Permutation_length E) as LE. change (fe r_pos) with Fr in *. lia. }
    assert (BR : forall r, In r rows -> r < u).
    { intros r I. assert (J : In r (seq 0 u)) by (apply (Permutation_in _ (Permutation_sym F2)), in_app_iff; auto). apply in_seq in J. lia. }
    assert (NRows : NoDup rows) by
      (clear - NR; induction rows as [|r rows IH]; [constructor|]; cbn [app] in NR; inversion_clear NR as [|? ? N1 N2];
       constructor; [intros I; apply N1, in_app_iff; auto|apply IH, N2]).
    assert (ND : forall i, In i oth -> ~ In i rows).
    { intros i Io Ir. clear - NR Io Ir. induction rows as [|r rows IH]; [contradiction|]. cbn [app] in NR. inversion_clear NR as [|? ? N1 N2].
      destruct Ir as [->|Ir]; [apply N1, in_app_iff; auto|apply IH; assumption]. }
    rewrite populate_is by (rewrite rev_length; exact LR). cbn [pbind]. set (s' := put (expand m') (rev rows) t).
    assert (OTH : forall i, ~ In i rows -> nth i s' f0 = nth i t f0).
    { intros i N. apply put_other. intros I. apply N, in_rev, I. }
    split; [|split; [|split]].
    + intros r Hr. assert (I1 : In (inputs r) (sort_fr A)).
      { apply (Permutation_in _ (Permutation_sym (sort_perm A))). unfold A. apply in_map, in_seq. lia. }
      destruct (F0 _ I1 ltac:(discriminate)) as (k & Ik).
      assert (I2 : In (inputs r) T). { apply (Permutation_in _ E), in_expand. exists k. split; [exact Ik|apply (P _ _ Ik)]. }
      unfold T in I2. apply in_map_iff in I2. destruct I2 as (r' & E' & I'). apply in_seq in I'. exists r'. split; [lia|congruence].
    + apply sort_perm.
    + assert (LS : length s' = u) by (unfold s'; rewrite put_length; exact F1).
      rewrite <- (map_nth_seq' s'), LS.
      apply (Permutation_trans (Permutation_map _ F2)). rewrite map_app.
      assert (E1 : Permutation (map (fun i => nth i s' f0) rows) (expand m')).
      { apply (Permutation_trans (Permutation_map _ (Permutation_rev rows))).
        unfold s'. rewrite put_at; [apply Permutation_refl|apply NoDup_rev, NRows|rewrite rev_length; exact LR|].
        intros r I. change (fe r_pos) with Fr in *. rewrite F1. apply BR, in_rev, I. }
      assert (E2 : map (fun i => nth i s' f0) oth = map (fun i => nth (i - 0) t f0) oth).
      { apply map_ext_in. intros i I. rewrite Nat.sub_0_r. apply OTH, ND, I. }
      rewrite E2. apply (Permutation_trans (Permutation_app_tail _ E1)).
      apply (Permutation_trans (Permutation_app_comm _ _)). apply (Permutation_trans (Permutation_sym F3)). exact E.
    + intros r Hr. destruct (in_dec Nat.eq_dec r rows) as [I|N].
      * right. specialize (F4 r Hr I). destruct r as [|q]; [discriminate|]. exists q. split; [reflexivity|exact F4].
      * left. rewrite OTH by exact N. symmetry. apply F5; [exact Hr|exact N].
  - destruct F as (x & I & _ & H). apply (Permutation_in _ (sort_perm A)) in I. unfold A in I. apply in_map_iff in I.
    destruct I as (r & <- & Ir). apply in_seq in Ir. exists r. split; [lia|]. intros r' Hr' E'.
    assert (J : In (inputs r) (expand (count_table T))).
    { apply (Permutation_in _ (Permutation_sym E)). rewrite E'. unfold T. apply in_map, in_seq. lia. }
    apply in_expand in J. destruct J as (k & Jk & _). exact (H k Jk).
  - exact F.
Qed.
