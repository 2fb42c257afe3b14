(** Selector compression: the columns and expressions [process] emits. *)
From Coq Require Import ZArith List Bool Arith Lia Permutation.
From Verif Require Import Base ListFacts Moduli Field FieldFacts Halo2Model SelectorModel SelectorSpec.
Import ListNotations.

(** ** Columns are allocated one after the other *)
Section Emit.
Context {S : Type} (alloc : S -> res (expr * S)).
(** The assignments emitted in blocks, one column per block. *)
Inductive emits : nat -> S -> list expr -> list selassign -> S -> Prop :=
| em_nil k s : emits k s [] [] s
| em_cons k s e s1 qs block asgs s' :
    alloc s = Ok (e, s1) -> block <> [] -> Forall (fun a => sa_combination a = k) block ->
    emits (Datatypes.S k) s1 qs asgs s' -> emits k s (e :: qs) (block ++ asgs) s'.

Lemma emits_app k s qs asgs s1 qs' asgs' s2 : emits k s qs asgs s1 ->
  emits (k + length qs) s1 qs' asgs' s2 -> emits k s (qs ++ qs') (asgs ++ asgs') s2.
Proof.
  intros H. revert qs' asgs' s2. induction H; intros qs' asgs' s2 H'.
  - rewrite Nat.add_0_r in H'. exact H'.
  - rewrite <- app_assoc. simpl. econstructor; eauto. apply IHemits. simpl in H'.
    replace (Datatypes.S k + length qs) with (k + Datatypes.S (length qs)) by lia. exact H'.
Qed.
End Emit.

Lemma bind_ok {A B} (x : res A) (f : A -> res B) y : bind x f = Ok y ->
  exists a, x = Ok a /\ f a = Ok y.
Proof. destruct x; simpl; [eauto|discriminate]. Qed.

(** ** What one assignment achieves *)
Record good_one (n maxd : nat) (q : expr) (col : list Fr) (d : seldesc) (a : selassign) : Prop := {
  go_sel : sa_selector a = sd_selector d;
  go_len : length col = n;
  go_rows : forall asg row, row < n -> eval asg row q = nth row col f0 ->
    (eval asg row (sa_expr a) <> f0 <-> nth row (sd_act d) false = true);
  go_alone : sd_deg d = 0 -> sa_expr a = q /\ col = map bool_f (sd_act d);
  go_deg : 0 < sd_deg d -> degree q = 1 -> sd_deg d - 1 + degree (sa_expr a) <= maxd;
  go_nosel : forall s, In s (selectors_in (sa_expr a)) -> In s (selectors_in q);
  go_fixed : forall i, In i (fixed_in (sa_expr a)) -> In i (fixed_in q);
  go_others : forall l, In l (others_in (sa_expr a)) -> In l (others_in q)
}.
Definition good (n maxd k0 : nat) (qs : list expr) (cols : list (list Fr)) (d : seldesc) (a : selassign) : Prop :=
  exists i q col, sa_combination a = k0 + i /\ nth_error qs i = Some q /\ nth_error cols i = Some col /\
    good_one n maxd q col d a.
Lemma good_app_l n maxd k0 qs cols qs' cols' d a :
  good n maxd k0 qs cols d a -> good n maxd k0 (qs ++ qs') (cols ++ cols') d a.
Proof.
  intros (i & q & col & H1 & H2 & H3 & H4). exists i, q, col.
  rewrite !nth_error_app1; auto; apply nth_error_Some; congruence.
Qed.
Lemma good_app_r n maxd k0 qs cols qs' cols' d a : length qs = length cols ->
  good n maxd (k0 + length qs) qs' cols' d a -> good n maxd k0 (qs ++ qs') (cols ++ cols') d a.
Proof.
  intros L (i & q & col & H1 & H2 & H3 & H4). exists (length qs + i), q, col.
  split; [lia|]. rewrite !nth_error_app2 by lia.
  replace (length qs + i - length qs) with i by lia.
  replace (length qs + i - length cols) with i by lia. auto.
Qed.

(** ** Roots *)
Local Open Scope F_scope.
Lemma FrZ_small_inj a b : (0 <= a < r_modulus)%Z -> (0 <= b < r_modulus)%Z -> FrZ a = FrZ b -> a = b.
Proof.
  intros Ha Hb E. apply of_Z_eq_mod in E. rewrite r_pos_eq, !Z.mod_small in E; auto.
Qed.
Lemma FrZ_succ a : FrZ (Z.of_nat a) + f1 = FrZ (Z.of_nat (S a)).
Proof.
  rewrite Nat2Z.inj_succ, <- Z.add_1_r. unfold FrZ. rewrite of_Z_add. reflexivity.
Qed.
Lemma root_product_eval asg row q a : (Z.of_nat a < r_modulus)%Z -> forall len b acc,
  (Z.of_nat (b + len) <= r_modulus)%Z ->
  (eval asg row (root_product len q (FrZ (Z.of_nat a)) (FrZ (Z.of_nat b)) acc) <> f0 <->
   eval asg row acc <> f0 /\
   forall i, (b <= i < b + len)%nat -> i <> a -> eval asg row q <> FrZ (Z.of_nat i)).
Proof.
  intros Ha. induction len; intros b acc Hb; cbn [root_product].
  - split; [intros H; split; [exact H|intros; lia]|tauto].
  - rewrite FrZ_succ, IHlen by lia.
    destruct (feqb_spec (FrZ (Z.of_nat b)) (FrZ (Z.of_nat a))) as [E|N].
    + apply FrZ_small_inj in E; [|lia..]. apply Nat2Z.inj in E. subst b.
      split; intros [H1 H2]; (split; [exact H1|]); intros i Hi Ni; apply H2; lia.
    + assert (Nba : b <> a) by congruence.
      assert (EV : eval asg row (EProd acc (esub (EConst (FrZ (Z.of_nat b))) q)) =
                   eval asg row acc * (FrZ (Z.of_nat b) + - eval asg row q)) by reflexivity.
      rewrite EV.
      split.
      * intros [H1 H2]. split; [intros E; apply H1; rewrite E; fring|].
        intros i Hi Ni. destruct (Nat.eq_dec i b) as [->|].
        -- intros E. apply H1. rewrite E. fring.
        -- apply H2; lia.
      * intros [H1 H2]. split; [|intros i Hi Ni; apply H2; lia].
        intros E. apply Fr_mul_eq_0 in E as [E|E]; [contradiction|].
        apply (H2 b); [lia|exact Nba|]. 
        replace (FrZ (Z.of_nat b)) with ((FrZ (Z.of_nat b) + - eval asg row q) + eval asg row q) by fring.
        rewrite E. fring.
Qed.
Lemma root_product_degree q a : degree q = 1%nat -> (Z.of_nat a < r_modulus)%Z -> forall len b acc,
  (Z.of_nat (b + len) <= r_modulus)%Z ->
  degree (root_product len q (FrZ (Z.of_nat a)) (FrZ (Z.of_nat b)) acc) =
  (degree acc + len - (if (b <=? a)%nat && (a <? b + len)%nat then 1 else 0))%nat.
Proof.
  intros Dq Ha. induction len; intros b acc Hb; cbn [root_product].
  - destruct (Nat.leb_spec b a); destruct (Nat.ltb_spec a (b + 0)); cbn [andb]; lia.
  - rewrite FrZ_succ, IHlen by lia.
    destruct (feqb_spec (FrZ (Z.of_nat b)) (FrZ (Z.of_nat a))) as [E|N].
    + apply FrZ_small_inj in E; [|lia..]. apply Nat2Z.inj in E. subst b.
      destruct (Nat.leb_spec (S a) a); [lia|]. destruct (Nat.leb_spec a a); [|lia].
      destruct (Nat.ltb_spec a (a + S len)); [|lia]. cbn [andb]. lia.
    + assert (Nba : b <> a) by congruence. cbn [degree esub]. rewrite Dq. cbn [Nat.max].
      destruct (Nat.leb_spec (S b) a), (Nat.leb_spec b a), (Nat.ltb_spec a (S b + len)),
        (Nat.ltb_spec a (b + S len)); cbn [andb]; lia.
Qed.
Lemma root_product_sel q a : forall len b acc s,
  In s (selectors_in (root_product len q a b acc)) -> In s (selectors_in acc) \/ In s (selectors_in q).
Proof.
  induction len; intros b acc s; cbn [root_product]; [auto|]. intros H. apply IHlen in H as [H|H]; [|auto].
  destruct (feqb b a); [auto|]. cbn [selectors_in esub] in H. rewrite !in_app_iff in H.
  cbn in H. tauto.
Qed.
Lemma root_product_fixed q a : forall len b acc s,
  In s (fixed_in (root_product len q a b acc)) -> In s (fixed_in acc) \/ In s (fixed_in q).
Proof.
  induction len; intros b acc s; cbn [root_product]; [auto|]. intros H. apply IHlen in H as [H|H]; [|auto].
  destruct (feqb b a); [auto|]. cbn [fixed_in esub] in H. rewrite !in_app_iff in H.
  cbn in H. tauto.
Qed.
Lemma root_product_others q a : forall len b acc s,
  In s (others_in (root_product len q a b acc)) -> In s (others_in acc) \/ In s (others_in q).
Proof.
  induction len; intros b acc s; cbn [root_product]; [auto|]. intros H. apply IHlen in H as [H|H]; [|auto].
  destruct (feqb b a); [auto|]. cbn [others_in esub] in H. rewrite !in_app_iff in H.
  cbn in H. tauto.
Qed.

(** ** One combination *)
Lemma set_rows_length : forall col act v, length (set_rows col act v) = length col.
Proof. induction col; intros [|b act] v; simpl; auto. Qed.
Lemma set_rows_nth : forall col act v row, (row < length col)%nat ->
  nth row (set_rows col act v) f0 = if nth row act false then v else nth row col f0.
Proof.
  induction col; intros [|b act] v row H; cbn [length] in H; [lia|lia| |].
  - destruct row; reflexivity.
  - destruct row; [destruct b; reflexivity|]. cbn [set_rows nth]. apply IHcol. lia.
Qed.
Definition act_at (d : seldesc) (row : nat) : bool := nth row (sd_act d) false.
Lemma assign_comb_spec len index q : forall comb a col,
  exists col' new, assign_comb comb len index q (FrZ (Z.of_nat a)) col = (col', new) /\
  length col' = length col /\
  (forall row, (row < length col)%nat -> (forall d, In d comb -> act_at d row = false) ->
     nth row col' f0 = nth row col f0) /\
  (forall row j d, (row < length col)%nat -> nth_error comb j = Some d -> act_at d row = true ->
     (forall j' d', (j < j')%nat -> nth_error comb j' = Some d' -> act_at d' row = false) ->
     nth row col' f0 = FrZ (Z.of_nat (a + j))) /\
  length new = length comb /\
  (forall j d x, nth_error comb j = Some d -> nth_error new j = Some x ->
     x = SelAssign (sd_selector d) index (root_product len q (FrZ (Z.of_nat (a + j))) f1 q)).
Proof.
  induction comb as [|d comb IH]; intros a col; cbn [assign_comb].
  - exists col, []. split; [reflexivity|]. split; [reflexivity|]. split; [auto|].
    split; [intros row [|j] d H E; discriminate|]. split; [reflexivity|].
    intros [|j] d x E; discriminate.
  - rewrite FrZ_succ.
    destruct (IH (S a) (set_rows col (sd_act d) (FrZ (Z.of_nat a)))) as (col' & new & E & L & H1 & H2 & H3 & H4).
    rewrite E. rewrite set_rows_length in *.
    eexists. eexists. split; [reflexivity|]. split; [exact L|]. split; [|split; [|split]].
    + intros row Hr Hd. rewrite H1; [|exact Hr|intros; apply Hd; right; auto].
      rewrite set_rows_nth by exact Hr. specialize (Hd d (or_introl eq_refl)). unfold act_at in Hd. rewrite Hd. reflexivity.
    + intros row j d' Hr Ej Ha Hn. destruct j as [|j].
      * injection Ej as <-. rewrite Nat.add_0_r. rewrite H1; [|exact Hr|].
        -- rewrite set_rows_nth by exact Hr. unfold act_at in Ha. rewrite Ha. reflexivity.
        -- intros d' Hi. apply In_nth_error in Hi as [j' Ej']. apply (Hn (S j') d'); [lia|exact Ej'].
      * replace (a + S j)%nat with (S a + j)%nat by lia. apply (H2 row j d'); auto.
        intros j' d'' Hj. apply (Hn (S j')). lia.
    + cbn [length]. rewrite H3. reflexivity.
    + intros j d' x Ej Ex. destruct j as [|j].
      * injection Ej as <-. injection Ex as <-. rewrite Nat.add_0_r. reflexivity.
      * replace (a + S j)%nat with (S a + j)%nat by lia. apply (H4 j d' x); auto.
Qed.

Lemma excludes_false a b : length (sd_act a) = length (sd_act b) -> excludes a b = false ->
  forall row, act_at a row = true -> act_at b row = false.
Proof.
  unfold excludes, act_at. generalize (sd_act a) (sd_act b). clear a b.
  induction l as [|x l IH]; intros [|y m] L H row Hx; cbn [length] in L; try discriminate;
    [destruct row; discriminate|].
  cbn [combine existsb fst snd] in H. apply orb_false_iff in H as [H1 H2].
  destruct row as [|row]; cbn [nth] in *.
  - subst x. exact H1.
  - apply (IH m); auto.
Qed.

(** A combination as [try_selectors] builds it. *)
Record good_comb (n maxd d : nat) (comb : list seldesc) : Prop := {
  gc_len : forall s, In s comb -> length (sd_act s) = n /\ (0 < sd_deg s)%nat /\ (sd_deg s - 1 <= d)%nat;
  gc_deg : (d + length comb <= maxd)%nat;
  gc_disj : forall i j a b row, (i < j)%nat -> nth_error comb i = Some a -> nth_error comb j = Some b ->
    act_at a row = true -> act_at b row = false
}.
Lemma comb_block n maxd d comb index q : good_comb n maxd d comb -> (Z.of_nat (length comb) < r_modulus)%Z ->
  exists col new, assign_comb comb (length comb) index q f1 (repeat f0 n) = (col, new) /\
    Forall (fun a => sa_combination a = index) new /\ Forall2 (good_one n maxd q col) comb new.
Proof.
  intros [G1 G2 G3] Hr. change f1 with (FrZ (Z.of_nat 1)).
  destruct (assign_comb_spec (length comb) index q comb 1 (repeat f0 n))
    as (col & new & E & L & H1 & H2 & H3 & H4).
  rewrite repeat_length in *. exists col, new. split; [exact E|].
  assert (DIS : forall i j a b row, i <> j -> nth_error comb i = Some a -> nth_error comb j = Some b ->
    act_at a row = true -> act_at b row = false).
  { intros i j a b row N Ei Ej Ha. destruct (Nat.lt_trichotomy i j) as [H|[H|H]]; [eauto|lia|].
    destruct (act_at b row) eqn:Eb; [|reflexivity].
    rewrite (G3 j i b a row H Ej Ei Eb) in Ha. discriminate. }
  assert (ONE : forall j d x, nth_error comb j = Some d -> nth_error new j = Some x ->
    sa_combination x = index /\ good_one n maxd q col d x).
  { intros j s x Ej Ex. pose proof (H4 j s x Ej Ex) as ->. split; [reflexivity|].
    assert (Hj : (j < length comb)%nat) by (apply nth_error_Some; congruence).
    assert (Is : In s comb) by (eapply nth_error_In; eauto). destruct (G1 s Is) as (Ls & Ds & Dd).
    constructor; cbn [sa_selector sa_expr].
    - reflexivity.
    - exact L.
    - intros asg row Hrow Eq. change f1 with (FrZ (Z.of_nat 1)) at 1.
      rewrite (root_product_eval asg row q (1 + j)) by lia. rewrite Eq. change (nth row (sd_act s) false) with (act_at s row). split.
      + intros [N0 N1].
        destruct (act_at s row) eqn:As; [reflexivity|]. exfalso.
        (* some other selector of the combination is active, or none *)
        assert (D : (exists j' d', nth_error comb j' = Some d' /\ act_at d' row = true) \/
                    (forall d', In d' comb -> act_at d' row = false)).
        { clear. induction comb as [|c comb [ (j & d & E & A) | N ] ]; [right; intros ? []| |].
          - left. exists (S j), d. auto.
          - destruct (act_at c row) eqn:Ec; [left; exists 0%nat, c; auto|].
            right. intros d' [<-|I]; auto. }
        destruct D as [(j' & d' & Ej' & A')|N].
        * assert (j' <> j) by congruence.
          assert (Hj' : (j' < length comb)%nat) by (apply nth_error_Some; congruence).
          apply (N1 (1 + j')%nat); [lia|lia|]. apply (H2 row j' d'); auto.
          intros j2 d2 Hj2 E2. apply (DIS j' j2 d' d2 row); auto. lia.
        * apply N0. rewrite H1 by auto. apply nth_repeat.
      + intros As.
        assert (V : nth row col f0 = FrZ (Z.of_nat (1 + j))).
        { apply (H2 row j s); auto. intros j2 d2 Hj2 E2. apply (DIS j j2 s d2 row); auto. lia. }
        rewrite V. split.
        * intros E0. change f0 with (FrZ 0) in E0. apply FrZ_small_inj in E0; lia.
        * intros i Hi Ni E0. apply FrZ_small_inj in E0; lia.
    - intros E0. lia.
    - intros _ Dq. change f1 with (FrZ (Z.of_nat 1)) at 1. rewrite root_product_degree by (assumption || lia).
      rewrite Dq. destruct (Nat.leb_spec 1 (1 + j)); [|lia].
      destruct (Nat.ltb_spec (1 + j) (1 + length comb)); [|lia]. cbn [andb]. lia.
    - intros t Ht. apply root_product_sel in Ht. tauto.
    - intros t Ht. apply root_product_fixed in Ht. tauto.
    - intros t Ht. apply root_product_others in Ht. tauto. }
  split.
  - apply Forall_forall. intros x Ix. apply In_nth_error in Ix as [j Ej].
    destruct (nth_error comb j) as [s|] eqn:Es; [apply (ONE j s x Es Ej)|].
    apply nth_error_None in Es. assert (j < length new)%nat by (apply nth_error_Some; congruence). lia.
  - clear - ONE H3. revert new H3 ONE. induction comb as [|s comb IH]; intros [|x new] H3 ONE; try discriminate;
      constructor.
    + apply (ONE 0%nat); reflexivity.
    + apply IH; [injection H3; auto|]. intros j d y Ej Ey. apply (ONE (S j)); assumption.
Qed.

(** ** Which selectors are still to be placed *)
Local Open Scope nat_scope.
Fixpoint pending (sels : list seldesc) (j : nat) (added : list bool) : list seldesc :=
  match sels with
  | [] => []
  | s :: sels => if nth j added false then pending sels (S j) added else s :: pending sels (S j) added
  end.
Lemma pending_ext sels : forall j a b, (forall k, j <= k -> nth k a false = nth k b false) ->
  pending sels j a = pending sels j b.
Proof.
  induction sels; intros j x y H; simpl; [reflexivity|]. rewrite H by lia.
  rewrite (IHsels (S j) x y); [reflexivity|]. intros; apply H; lia.
Qed.
Lemma nth_upd_eq (l : list bool) j b : j < length l -> nth j (upd l j b) false = b.
Proof. intros H. apply nth_error_nth. apply nth_error_upd_eq. exact H. Qed.
Lemma nth_upd_neq (l : list bool) j k b : k <> j -> nth k (upd l j b) false = nth k l false.
Proof.
  intros H. pose proof (nth_error_upd_neq l j k b ltac:(auto)) as E.
  destruct (nth_error l k) eqn:E1.
  - rewrite (nth_error_nth _ _ _ E). symmetry. apply nth_error_nth. exact E1.
  - rewrite !nth_overflow; [reflexivity| |].
    + apply nth_error_None. exact E1.
    + apply nth_error_None. exact E.
Qed.

Lemma try_spec n maxd : forall sels j d comb added,
  good_comb n maxd d comb -> length added = j + length sels ->
  (forall s, In s sels -> length (sd_act s) = n /\ 0 < sd_deg s) ->
  exists new added' d', try_selectors maxd sels j d comb added = (comb ++ new, added') /\
    good_comb n maxd d' (comb ++ new) /\ length added' = length added /\
    (forall k, k < j -> nth k added' false = nth k added false) /\
    Permutation (pending sels j added) (new ++ pending sels j added').
Proof.
  induction sels as [|s sels IH]; intros j d comb added G L HS; cbn [try_selectors pending].
  - exists [], added, d. rewrite app_nil_r. cbn [app]. auto.
  - assert (STOP : forall added0 added', (forall k, k < S j -> nth k added' false = nth k added0 false) ->
      nth j added' false = nth j added0 false) by (intros; apply H; lia).
    assert (SKIP : exists new added' d', try_selectors maxd sels (S j) d comb added = (comb ++ new, added') /\
      good_comb n maxd d' (comb ++ new) /\ length added' = length added /\
      (forall k, k < j -> nth k added' false = nth k added false) /\
      Permutation (pending (s :: sels) j added) (new ++ pending (s :: sels) j added')).
    { destruct (IH (S j) d comb added G) as (new & a' & d' & E & G' & L' & K & P);
        [cbn [length] in L; lia|intros; apply HS; right; auto|].
      exists new, a', d'. split; [exact E|]. split; [exact G'|]. split; [exact L'|].
      split; [intros; apply K; lia|]. cbn [pending]. rewrite (K j) by lia.
      destruct (nth j added false); [exact P|]. rewrite P. apply Permutation_middle. }
    destruct (Nat.eqb (d + length comb) maxd).
    { exists [], added, d. rewrite app_nil_r. cbn [app]. auto. }
    cbn [pending] in SKIP.
    destruct (nth j added false) eqn:Ej; [exact SKIP|].
    destruct (existsb (excludes s) comb) eqn:EX; [exact SKIP|].
    destruct (Nat.ltb_spec maxd (Nat.max d (sd_deg s - 1) + length comb + 1)) as [LT|GE]; [exact SKIP|].
    clear SKIP. destruct (HS s (or_introl eq_refl)) as [Ls Ds].
    assert (G' : good_comb n maxd (Nat.max d (sd_deg s - 1)) (comb ++ [s])).
    { destruct G as [G1 G2 G3]. constructor.
      - intros t Ht. apply in_app_iff in Ht as [Ht|[<-|[]]].
        + destruct (G1 t Ht) as (A & B & C). repeat split; auto. lia.
        + repeat split; auto. lia.
      - rewrite app_length. cbn [length]. lia.
      - intros a b x y row Hab Ex Ey Hx.
        assert (Lb : b < length (comb ++ [s])) by (apply nth_error_Some; congruence).
        rewrite app_length in Lb. cbn [length] in Lb.
        destruct (Nat.eq_dec b (length comb)) as [->|Nb].
        + rewrite nth_error_app2, Nat.sub_diag in Ey by lia. injection Ey as <-.
          rewrite nth_error_app1 in Ex by lia.
          destruct (act_at s row) eqn:As; [|reflexivity].
          assert (EF : excludes s x = false).
          { destruct (excludes s x) eqn:EE; [|reflexivity].
            assert (T : existsb (excludes s) comb = true).
            { apply existsb_exists. exists x. split; [eapply nth_error_In; eauto|exact EE]. }
            congruence. }
          pose proof (excludes_false s x) as Q. rewrite Q in Hx; auto.
          rewrite Ls. symmetry. apply G1. eapply nth_error_In; eauto.
        + rewrite nth_error_app1 in Ex, Ey by lia. apply (G3 a b x y); auto. }
    destruct (IH (S j) _ _ (upd added j true) G') as (new & a' & d' & E & G2 & L' & K & P).
    { rewrite upd_length. cbn [length] in L. lia. }
    { intros; apply HS; right; auto. }
    exists (s :: new), a', d'. rewrite <- app_assoc in E, G2. cbn [app] in E, G2.
    split; [exact E|]. split; [exact G2|]. split; [rewrite L'; apply upd_length|].
    split.
    { intros k Hk. rewrite K by lia. apply nth_upd_neq. lia. }
    cbn [app]. constructor. rewrite (K j) by lia.
    rewrite nth_upd_eq by (cbn [length] in L; lia).
    rewrite (pending_ext sels (S j) added (upd added j true)); [exact P|].
    intros k Hk. symmetry. apply nth_upd_neq. lia.
Qed.

(** ** The loops *)
Lemma Forall2_impl {A B} (P Q : A -> B -> Prop) l m : (forall a b, P a b -> Q a b) ->
  Forall2 P l m -> Forall2 Q l m.
Proof. intros H F. induction F; constructor; auto. Qed.
Lemma Forall2_app_good n maxd k0 qs cols qs' cols' ds as_ ds' as' :
  length qs = length cols ->
  Forall2 (good n maxd k0 qs cols) ds as_ -> Forall2 (good n maxd (k0 + length qs) qs' cols') ds' as' ->
  Forall2 (good n maxd k0 (qs ++ qs') (cols ++ cols')) (ds ++ ds') (as_ ++ as').
Proof.
  intros L H H'. apply Forall2_app.
  - eapply Forall2_impl; [|exact H]. intros. apply good_app_l. assumption.
  - eapply Forall2_impl; [|exact H']. intros. apply good_app_r; assumption.
Qed.

Lemma pending_le sels : forall j a, length (pending sels j a) <= length sels.
Proof. induction sels; intros; simpl; [lia|]. destruct (nth j a0 false); simpl; specialize (IHsels (S j) a0); lia. Qed.

Section Loops.
Context {S : Type} (alloc : S -> res (expr * S)).
Definition succeeds : Prop := forall s, exists e s', alloc s = Ok (e, s').

(** Soundness of the loops: whatever they return has the shape required. *)
Lemma combine_all_spec n maxd : forall sels i added combs asgs s combs' asgs' s',
  length added = i + length sels -> (Z.of_nat (length sels) < r_modulus)%Z ->
  (forall d, In d sels -> length (sd_act d) = n /\ 0 < sd_deg d) ->
  combine_all alloc n maxd sels i added combs asgs s = Ok (combs', asgs', s') ->
  exists qs cols new ds, combs' = combs ++ cols /\ asgs' = asgs ++ new /\ length qs = length cols /\
    emits alloc (length combs) s qs new s' /\
    Permutation (pending sels i added) ds /\
    Forall2 (good n maxd (length combs) qs cols) ds new.
Proof.
  induction sels as [|d sels IH]; intros i added combs asgs s combs' asgs' s' L Hr HS H;
    cbn [combine_all pending] in *.
  - injection H as <- <- <-. exists [], [], [], []. rewrite !app_nil_r.
    repeat (split; [reflexivity || constructor|]). constructor.
  - cbn [length] in L, Hr. replace (i + 1) with (Datatypes.S i) in H by lia.
    destruct (nth i added false) eqn:Ei.
    { apply IH in H; [exact H|lia|lia|intros; apply HS; right; auto]. }
    destruct (Nat.ltb_spec maxd (sd_deg d)) as [|GE]; [discriminate|].
    destruct (HS d (or_introl eq_refl)) as [Ld Dd].
    assert (G0 : good_comb n maxd (sd_deg d - 1) [d]).
    { constructor.
      - intros t [<-|[]]. repeat split; auto.
      - cbn [length]. lia.
      - intros a b x y row Hab Ex Ey. destruct b as [|[|b]]; [lia| |];
          (destruct a as [|[|a]]; try discriminate; try lia). }
    destruct (try_spec n maxd sels (Datatypes.S i) (sd_deg d - 1) [d] (upd added i true) G0)
      as (new & a' & d' & E & G & L' & K & P).
    { rewrite upd_length. lia. }
    { intros; apply HS; right; auto. }
    rewrite upd_length in L'. rewrite E in H. clear E. apply bind_ok in H as ([q s1] & Eq & H).
    assert (Lnew : length new <= length sels).
    { apply Permutation_length in P. rewrite app_length in P.
      pose proof (pending_le sels (Datatypes.S i) (upd added i true)). lia. }
    destruct (comb_block n maxd d' ([d] ++ new) (length combs) q G) as (col & blk & Eb & FB & F2).
    { cbn [app length]. lia. }
    rewrite Eb in H.
    apply IH in H; [|lia|lia|intros; apply HS; right; auto].
    destruct H as (qs & cols & new' & ds & -> & -> & Lq & EM & PM & F2').
    exists (q :: qs), (col :: cols), (blk ++ new'), ((d :: new) ++ ds).
    split; [rewrite <- app_assoc; reflexivity|]. split; [rewrite <- app_assoc; reflexivity|].
    split; [cbn [length]; lia|].
    rewrite app_length in EM, F2'. cbn [length] in EM, F2'. rewrite Nat.add_1_r in EM.
    split; [|split].
    + econstructor; [exact Eq| |exact FB|exact EM].
      intros ->. inversion F2.
    + cbn [app]. constructor. rewrite <- PM.
      rewrite (pending_ext sels (Datatypes.S i) added (upd added i true)); [exact P|].
      intros k Hk. symmetry. apply nth_upd_neq. lia.
    + change (q :: qs) with ([q] ++ qs). change (col :: cols) with ([col] ++ cols).
      apply Forall2_app_good; [reflexivity| |exact F2'].
      cbn [app] in F2. clear - F2 FB. revert FB. induction F2; intros FB; [constructor|].
      apply Forall_cons_iff in FB as [FB1 FB2]. constructor; [|apply IHF2, FB2].
      exists 0, q, col. split; [lia|]. auto.
Qed.

Lemma alone_spec n maxd : forall sels combs asgs s rest combs' asgs' s',
  (forall d, In d sels -> length (sd_act d) = n) ->
  alone alloc sels combs asgs s = Ok (rest, combs', asgs', s') ->
  exists qs cols new ds, combs' = combs ++ cols /\ asgs' = asgs ++ new /\ length qs = length cols /\
    emits alloc (length combs) s qs new s' /\
    Permutation sels (ds ++ rest) /\ (forall d, In d rest -> 0 < sd_deg d) /\
    Forall2 (good n maxd (length combs) qs cols) ds new.
Proof.
  induction sels as [|d sels IH]; intros combs asgs s rest combs' asgs' s' HS H; cbn [alone] in H.
  - injection H as <- <- <- <-. exists [], [], [], []. rewrite !app_nil_r.
    repeat (split; [reflexivity || constructor|]). split; [intros ? []|constructor].
  - destruct (Nat.eqb_spec (sd_deg d) 0) as [E0|N0].
    + apply bind_ok in H as ([q s1] & Eq & H).
      apply IH in H; [|intros; apply HS; right; auto].
      destruct H as (qs & cols & new & ds & -> & -> & Lq & EM & PM & HD & F2).
      exists (q :: qs), (map bool_f (sd_act d) :: cols), (SelAssign (sd_selector d) (length combs) q :: new), (d :: ds).
      split; [rewrite <- app_assoc; reflexivity|]. split; [rewrite <- app_assoc; reflexivity|].
      split; [cbn [length]; lia|].
      rewrite app_length in EM, F2. cbn [length] in EM, F2. rewrite Nat.add_1_r in EM.
      split; [|split; [|split; [exact HD|]]].
      * change (?x :: new) with ([x] ++ new). econstructor; [exact Eq|discriminate| |exact EM].
        constructor; [reflexivity|constructor].
      * cbn [app]. constructor. exact PM.
      * change (q :: qs) with ([q] ++ qs). change (?c :: cols) with ([c] ++ cols).
        change (d :: ds) with ([d] ++ ds). change (?x :: new) with ([x] ++ new).
        apply Forall2_app_good; [reflexivity| |exact F2].
        constructor; [|constructor]. exists 0, q, (map bool_f (sd_act d)). cbn [sa_combination].
        split; [lia|]. split; [reflexivity|]. split; [reflexivity|].
        constructor; cbn [sa_selector sa_expr]; auto.
        -- rewrite map_length. apply HS. left. reflexivity.
        -- intros asg row Hrow ->. change f0 with (bool_f false) at 1. rewrite map_nth.
           destruct (nth row (sd_act d) false); cbn [bool_f]; split; intros X; auto.
           ++ apply Fr_1_neq_0.
           ++ discriminate.
        -- intros; lia.
    + apply bind_ok in H as ([[[rest1 combs1] asgs1] s1] & E & H). injection H as <- <- <- <-.
      apply IH in E; [|intros; apply HS; right; auto].
      destruct E as (qs & cols & new & ds & -> & -> & Lq & EM & PM & HD & F2).
      exists qs, cols, new, ds. repeat (split; [reflexivity || assumption|]).
      split; [|split; [|exact F2]].
      * rewrite PM. apply Permutation_middle.
      * intros x [<-|Hx]; [lia|auto].
Qed.

Lemma pending_none sels : forall j k, pending sels j (repeat false k) = sels.
Proof.
  induction sels; intros j k; simpl; [reflexivity|].
  replace (nth j (repeat false k) false) with false; [rewrite IHsels; reflexivity|].
  symmetry. apply nth_repeat.
Qed.

Lemma process_spec n maxd sels s combs asgs s' :
  (forall d, In d sels -> length (sd_act d) = n) -> (Z.of_nat (length sels) < r_modulus)%Z ->
  process sels maxd alloc s = Ok (combs, asgs, s') ->
  exists qs ds, length qs = length combs /\ emits alloc 0 s qs asgs s' /\
    Permutation sels ds /\ Forall2 (good n maxd 0 qs combs) ds asgs.
Proof.
  intros HS Hr H. unfold process in H. destruct sels as [|d0 sels].
  - injection H as <- <- <-. exists [], []. repeat (split; [reflexivity || constructor|]). constructor.
  - assert (Ln : length (sd_act d0) = n) by (apply HS; left; reflexivity).
    destruct (negb _); [discriminate|].
    apply bind_ok in H as ([[[rest combs1] asgs1] s1] & E & H). rewrite Ln in H.
    apply (alone_spec n maxd) in E; [|exact HS].
    destruct E as (qs & cols & new & ds & E1 & E2 & Lq & EM & PM & HD & F2). cbn [app] in E1, E2. subst combs1 asgs1.
    assert (HR : forall d, In d rest -> length (sd_act d) = n /\ 0 < sd_deg d).
    { intros d Hd. split; [|apply HD, Hd]. apply HS.
      apply Permutation_in with (ds ++ rest); [symmetry; exact PM|]. apply in_app_iff. auto. }
    assert (LR : length rest <= length (d0 :: sels)).
    { rewrite (Permutation_length PM), app_length. lia. }
    apply combine_all_spec in H; [|rewrite repeat_length; reflexivity|lia|exact HR].
    destruct H as (qs' & cols' & new' & ds' & -> & -> & Lq' & EM' & PM' & F2').
    rewrite pending_none in PM'.
    exists (qs ++ qs'), (ds ++ ds'). split; [rewrite !app_length; lia|].
    split; [|split].
    + eapply emits_app; [exact EM|]. rewrite Lq. exact EM'.
    + rewrite PM, PM'. reflexivity.
    + apply Forall2_app_good; [exact Lq|exact F2|]. rewrite Lq. exact F2'.
Qed.

(** Success. *)
Lemma alone_ok : succeeds -> forall sels combs asgs s, exists r, alone alloc sels combs asgs s = Ok r.
Proof.
  intros HA. induction sels as [|d sels IH]; intros; cbn [alone]; [eauto|].
  destruct (Nat.eqb (sd_deg d) 0).
  - destruct (HA s) as (e & s1 & ->). cbn [bind]. apply IH.
  - destruct (IH combs asgs s) as [[[[r c] a] s1] ->]. cbn [bind]. eauto.
Qed.
Lemma combine_ok n maxd : succeeds -> forall sels i added combs asgs s,
  (forall d, In d sels -> sd_deg d <= maxd) ->
  exists r, combine_all alloc n maxd sels i added combs asgs s = Ok r.
Proof.
  intros HA. induction sels as [|d sels IH]; intros i added combs asgs s HD; cbn [combine_all]; [eauto|].
  destruct (nth i added false); [apply IH; intros; apply HD; right; auto|].
  destruct (Nat.ltb_spec maxd (sd_deg d)); [specialize (HD d (or_introl eq_refl)); lia|].
  destruct (try_selectors _ _ _ _ _ _) as [comb a']. destruct (HA s) as (e & s1 & ->). cbn [bind].
  destruct (assign_comb _ _ _ _ _ _). apply IH. intros; apply HD; right; auto.
Qed.
Lemma process_ok n maxd sels s : succeeds -> (forall d, In d sels -> length (sd_act d) = n /\ sd_deg d <= maxd) ->
  exists r, process sels maxd alloc s = Ok r.
Proof.
  intros HA HS. unfold process. destruct sels as [|d0 sels]; [eauto|].
  assert (HN : negb (forallb (fun d => length (sd_act d) =? length (sd_act d0)) (d0 :: sels)) = false).
  { apply negb_false_iff. apply forallb_forall. intros d Hd. apply Nat.eqb_eq.
    rewrite (proj1 (HS d Hd)). symmetry. apply HS. left. reflexivity. }
  rewrite HN. destruct (alone_ok HA (d0 :: sels) [] [] s) as [[[[r c] a] s1] E]. rewrite E. cbn [bind].
  apply combine_ok; [exact HA|].
  apply (alone_spec n maxd) in E; [|intros; apply HS; auto].
  destruct E as (qs & cols & new & ds & _ & _ & _ & _ & PM & _ & _).
  intros d Hd. apply HS. apply Permutation_in with (ds ++ r); [symmetry; exact PM|]. apply in_app_iff; auto.
Qed.
End Loops.
