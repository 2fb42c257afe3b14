(** Completeness: the columns the prover computes from a satisfying assignment
    make every constraint vanish on every row. *)
From Coq Require Import ZArith List Arith Lia Bool Permutation.
From Verif Require Import Base ListFacts Moduli Field FieldFacts LimbSpec LimbField LimbConst RootFacts PolyFacts Halo2Model SelectorModel
  PermModel PermSpec SelectorSpec SelectorClaims DomainModel DomainSpec DomainFacts VkModel
  IopModel IopPoly IopRows IopSpec IopLagrange IopTotal IopAccept IopSound IopDegree IopMain ProverModel ProverSpec ProverFacts IopComplete.
Import ListNotations.
Local Open Scope F_scope.

Lemma sub_self (a : Fr) : a - a = f0.
Proof. fring. Qed.
Lemma mul_0_l (a : Fr) : f0 * a = f0.
Proof. fring. Qed.
Lemma mul_0_r (a : Fr) : a * f0 = f0.
Proof. fring. Qed.

Section Honest.
Variables (v : vkey) (j k : Z) (n : nat).
Hypothesis Hk28 : (0 <= k <= 28)%Z.
Hypothesis Hn : Z.of_nat n = (2 ^ k)%Z.
Hypothesis Hd : domain_for j k (vk_domain v).
Hypothesis Hj : (Z.of_nat (vk_degree v) <= j)%Z.
Hypothesis Hrows : (minimum_rows (vk_cs v) <= n)%nat.
Hypothesis Hwf : well_formed (vk_cs v).
Hypothesis Hdeg : vk_degree v = cs_degree (vk_cs v).
Hypothesis Hperm : length (vk_permutation v) = length (perm_columns (vk_cs v)).
Local Notation d := (vk_domain v).
Local Notation c := (vk_cs v).
Local Notation w := (d_omega d).
Local Notation point := (pt w).
Local Notation u := (usable_rows n c).
Local Notation m := (length (perm_columns c)).
Local Notation lg := (lag n (d_omega_inv d) (d_barycentric_weight d)).
Variables (insts : list (list Fr)) (chs : list Fr) (instf : nat -> nat -> Fr).
Hypothesis Hchs : length chs = num_challenges c.
Hypothesis Hinstf : forall i r, (r < n)%nat -> ipoly d n (nth i insts []) (point r) = instf i r.
Variables (fixed : nat -> nat -> Fr) (F S_ advice : nat -> list Fr) (copies : list (acell * acell)).
Hypothesis HF : forall i r, (i < num_fixed c)%nat -> (r < n)%nat -> peval (F i) (point r) = fixed i r.
Local Notation asg := (asg v n chs instf fixed advice).
Local Notation tagid := (fun ir : nat * nat => fpow DELTA (Z.of_nat (fst ir)) * point (snd ir)).
Local Notation tagsg := (fun ir : nat * nat => peval (S_ (fst ir)) (point (snd ir))).
Local Notation val := (fun ir : nat * nat => cell_value asg (nth (fst ir) (perm_columns c) (CFixed 0), snd ir)).

Section Rows.
Variables (theta beta gamma : Fr) (product lproduct linput ltable : nat -> list Fr) (random : list Fr).
Local Notation P := (Committed advice F S_ product lproduct linput ltable [] random).
Local Notation Fs := (all_fs v n insts chs P theta beta gamma).
Local Notation zr := (fun i r => peval (product i) (point r)).
Local Notation s := (length (JJ v)).
Local Notation den := (fun J r => fprod (map (fun i => val (i, r) + beta * tagsg (i, r) + gamma) J)).
Local Notation num := (fun J r => fprod (map (fun i => val (i, r) + beta * tagid (i, r) + gamma) J)).

Hypothesis HG : gates_hold c asg.
Hypothesis HZ0 : (0 < s)%nat -> zr 0%nat 0%nat = f1.
Hypothesis HZL : forall i, (S i < s)%nat -> zr (S i) 0%nat = zr i u.
Hypothesis HZE : forall q, s = S q -> zr q u = f1.
Hypothesis HZP : forall i J r, nth_error (JJ v) i = Some J -> (r < u)%nat -> zr i (S r) * den J r = zr i r * num J r.
Hypothesis HL : forall i l, nth_error (lookups c) i = Some l ->
  let a r := compress theta (map (eval asg r) (fst l)) in
  let t r := compress theta (map (eval asg r) (snd l)) in
  let a' r := peval (linput i) (point r) in let t' r := peval (ltable i) (point r) in
  let p r := peval (lproduct i) (point r) in
  p 0%nat = f1 /\ p u = f1 /\
  (forall r, (r < u)%nat -> p (S r) * (a' r + beta) * (t' r + gamma) = p r * (a r + beta) * (t r + gamma)) /\
  a' 0%nat = t' 0%nat /\
  (forall r, (S r < u)%nat -> (a' (S r) - t' (S r)) * (a' (S r) - a' r) = f0).

Lemma act_off r : (u <= r < n)%nat -> activef d n v (point r) = f0.
Proof.
  intros Hr. rewrite (activef_at d j k n ltac:(lia) Hn Hd v Hrows) by lia. destruct (Nat.ltb_spec r u); [lia|reflexivity].
Qed.
Theorem honest_rows f r : In f Fs -> (r < n)%nat -> f (point r) = f0.
Proof.
  pose proof (rows_split n v Hrows) as [Hsp Hu2].
  intros If Hr. unfold all_fs in If. rewrite !in_app_iff in If. destruct If as [I|[[I|[I|[I|I]]]|I]].
  - unfold gate_fs in I. apply in_map_iff in I. destruct I as (e & <- & I).
    rewrite (evalx_row v j k n Hk28 Hn Hd Hrows Hwf Hdeg Hperm insts chs instf Hchs Hinstf fixed F S_ advice HF).
    + apply in_concat in I. destruct I as (g & Ig & Ie). apply (HG g e r Ig Ie Hr).
    + apply (wf_exprs _ Hwf). left. exact I.
    + exact Hr.
  - unfold first_fs in I. destruct s eqn:Es; [contradiction|]. destruct I as [<-|[]].
    rewrite (lag0 v j k n Hk28 Hn Hd Hrows Hdeg Hperm chs Hchs) by exact Hr. destruct (Nat.eqb_spec r 0) as [->|N]; [|apply mul_0_l].
    unfold zf. cbn [cm_product]. rewrite HZ0 by lia. rewrite sub_self. apply mul_0_r.
  - unfold last_fs in I. destruct s as [|q] eqn:Es; [contradiction|]. destruct I as [<-|[]].
    rewrite (lagu v j k n Hk28 Hn Hd Hrows Hdeg Hperm chs Hchs) by exact Hr. destruct (Nat.eqb_spec r u) as [->|N]; [|apply mul_0_r].
    unfold zf. cbn [cm_product]. rewrite (HZE q eq_refl). fring.
  - unfold link_fs in I. apply in_map_iff in I. destruct I as (i & <- & I). apply in_seq in I.
    rewrite (lag0 v j k n Hk28 Hn Hd Hrows Hdeg Hperm chs Hchs) by exact Hr. destruct (Nat.eqb_spec r 0) as [->|N]; [|apply mul_0_r].
    rewrite (rot_last v j k n Hk28 Hn Hd Hrows Hdeg Hperm chs Hchs). unfold zf. cbn [cm_product]. rewrite HZL by lia. rewrite sub_self. apply mul_0_l.
  - unfold prod_fs in I. apply in_map_iff in I. destruct I as ([i J] & <- & I). apply enum_nth in I. cbn [fst snd].
    destruct (Nat.lt_ge_cases r u) as [L|L]; [|rewrite act_off by lia; apply mul_0_r].
    rewrite (rot_next v j k n Hk28 Hn Hd Hrows Hdeg Hperm chs Hchs) by lia. unfold zf. cbn [cm_product].
    assert (ED : denf v n insts P beta gamma J (point r) = den J r).
    { unfold denf. f_equal. apply map_ext_in. intros i' Ii'. pose proof (in_JJ v k n Hrows Hdeg Hperm chs Hchs i J I i' Ii') as Hi'.
      rewrite (vf_row v n Hwf insts chs instf Hinstf fixed F S_ advice HF) by assumption. reflexivity. }
    assert (EN : numf v n insts P beta gamma J (point r) = num J r).
    { unfold numf. f_equal. apply map_ext_in. intros i' Ii'. pose proof (in_JJ v k n Hrows Hdeg Hperm chs Hchs i J I i' Ii') as Hi'.
      rewrite (vf_row v n Hwf insts chs instf Hinstf fixed F S_ advice HF) by assumption. cbn [fst snd].
      generalize (fpow DELTA (Z.of_nat i')). intros. fring. }
    rewrite ED, EN, (HZP i J r I L), sub_self. apply mul_0_l.
  - apply in_flat_map in I. destruct I as ([i l] & Il & I). apply enum_nth in Il.
    destruct (HL i l Il) as (H1 & H2 & H3 & H4 & H5).
    assert (RG : forall e, In e (fst l) \/ In e (snd l) -> registered c e).
    { intros e Ie. apply (wf_exprs _ Hwf). right. unfold lookup_exprs. apply in_flat_map. exists l.
      split; [apply (nth_error_In _ _ Il)|]. apply in_app_iff. exact Ie. }
    unfold lk_fs in I. cbn [cm_lproduct cm_linput cm_ltable] in I. destruct I as [<-|[<-|[<-|[<-|[<-|[]]]]]].
    + rewrite (lag0 v j k n Hk28 Hn Hd Hrows Hdeg Hperm chs Hchs) by exact Hr. destruct (Nat.eqb_spec r 0) as [->|N]; [|apply mul_0_l].
      rewrite H1, sub_self. apply mul_0_r.
    + rewrite (lagu v j k n Hk28 Hn Hd Hrows Hdeg Hperm chs Hchs) by exact Hr. destruct (Nat.eqb_spec r u) as [->|N]; [|apply mul_0_l].
      rewrite H2. fring.
    + destruct (Nat.lt_ge_cases r u) as [L|L]; [|rewrite act_off by lia; apply mul_0_r].
      rewrite (rot_next v j k n Hk28 Hn Hd Hrows Hdeg Hperm chs Hchs) by lia.
      rewrite (cmp_row v j k n Hk28 Hn Hd Hrows Hwf Hdeg Hperm insts chs instf Hchs Hinstf fixed F S_ advice HF theta product lproduct linput ltable [] random (fst l)) by (try lia; intros; apply RG; auto).
      rewrite (cmp_row v j k n Hk28 Hn Hd Hrows Hwf Hdeg Hperm insts chs instf Hchs Hinstf fixed F S_ advice HF theta product lproduct linput ltable [] random (snd l)) by (try lia; intros; apply RG; auto).
      rewrite (H3 r L), sub_self. apply mul_0_l.
    + rewrite (lag0 v j k n Hk28 Hn Hd Hrows Hdeg Hperm chs Hchs) by exact Hr. destruct (Nat.eqb_spec r 0) as [->|N]; [|apply mul_0_l].
      rewrite H4, sub_self. apply mul_0_r.
    + destruct (Nat.lt_ge_cases r u) as [L|L]; [|rewrite act_off by lia; apply mul_0_r].
      destruct r as [|r].
      * rewrite H4, sub_self, !mul_0_l. reflexivity.
      * rewrite (rot_prev v j k n Hk28 Hn Hd Hrows Hdeg Hperm chs Hchs) by lia. rewrite (H5 r L). apply mul_0_l.
Qed.
End Rows.

Section Grid.
Variable p : perm.
Hypothesis Hp : perm_copies (m * n) (perm_new n (perm_columns c)) copies = COk p.
Hypothesis HS : forall i r, (i < m)%nat -> (r < n)%nat -> get2 (perm_polys DELTA w n p) (i, r) = Some (Some (peval (S_ i) (point r))).
Hypothesis Hus : forall x y, In (x, y) copies -> (snd x < u)%nat /\ (snd y < u)%nat.
Hypothesis HCp : copies_hold copies asg.
Local Notation cells := (grid u (JJ v)).

Lemma cells_in i r : In (i, r) cells <-> (r < u)%nat /\ (i < m)%nat.
Proof. rewrite grid_in, (JJ_concat v Hdeg), in_seq. lia. Qed.
Lemma tag_inj' i r i' r' : (i < m)%nat -> (r < n)%nat -> (i' < m)%nat -> (r' < n)%nat ->
  fpow DELTA (Z.of_nat i) * point r = fpow DELTA (Z.of_nat i') * point r' -> i = i' /\ r = r'.
Proof.
  intros Hi Hr Hi' Hr' E. pose proof (wf_tags _ Hwf) as Hm. assert (Htt : (2 ^ 20 < tt)%Z) by (vm_compute; reflexivity).
  rewrite DELTA_is in E.
  destruct (tag_inj w k (Z.of_nat i) (Z.of_nat r) (Z.of_nat i') (Z.of_nat r') Hk28) as [T1 T2]; try lia.
  - rewrite <- Hn. exact (Hw d j k n Hn Hd).
  - exact E.
Qed.
(** where a cell is sent *)
Lemma sent i r : (i < m)%nat -> (r < u)%nat -> exists i' r', (i' < m)%nat /\ (r' < u)%nat /\
  tagsg (i, r) = tagid (i', r') /\ val (i, r) = val (i', r') /\
  image p (nth i (perm_columns c) (CFixed 0), r) = Some (nth i' (perm_columns c) (CFixed 0), r').
Proof.
  intros Hi Hr. pose proof (rows_split n v Hrows) as [Hsp Hu2].
  destruct (polys_tags DELTA w n (perm_columns c) _ copies p (wf_nodup _ Hwf) (le_n _) Hp) as [EX TG].
  destruct (TG i r (nth i (perm_columns c) (CFixed 0)) (nth_error_nth' _ _ Hi) ltac:(lia)) as (i' & r' & col' & Ei' & Hr' & Eim & Eg).
  rewrite (HS i r Hi ltac:(lia)) in Eg.
  assert (Eg' : peval (S_ i) (point r) = fpow DELTA (Z.of_nat i') * fpow w (Z.of_nat r')) by congruence.
  assert (Hi' : (i' < m)%nat) by (apply nth_error_Some; congruence).
  destruct EX as (sigma & IM & (S1 & _) & CY & INV).
  assert (Tx : on_table n (perm_columns c) (nth i (perm_columns c) (CFixed 0), r)) by (split; [apply nth_In, Hi|cbn [snd]; lia]).
  pose proof (IM _ Tx) as E1. rewrite Eim in E1. injection E1 as E1.
  pose proof (proj2 (INV _ (cell_value asg)) HCp _ Tx) as Ev.
  rewrite <- E1 in Ev.
  exists i', r'. rewrite (nth_error_nth _ _ (CFixed 0) Ei'). cbn [fst snd] in *.
  rewrite (nth_error_nth _ _ (CFixed 0) Ei').
  repeat apply conj; try assumption.
  - destruct (linked_rows copies u Hus (nth i (perm_columns c) (CFixed 0), r) (col', r')) as [X|[_ X]].
    + apply CY; [exact Tx|rewrite E1; apply S1, Tx|]. exists 1%nat. cbn [Nat.iter]. symmetry. exact E1.
    + injection X as _ X. lia.
    + exact X.
  - symmetry. exact Ev.
Qed.
Lemma cells_nodup : NoDup cells.
Proof.
  unfold grid.
  assert (N : NoDup (concat (JJ v))) by (rewrite (JJ_concat v Hdeg); apply seq_NoDup).
  clear - N. induction (JJ v) as [|J l IH]; [constructor|]. cbn [flat_map concat] in *.
  assert (NJ : NoDup J /\ NoDup (concat l) /\ forall a, In a J -> ~ In a (concat l)).
  { clear IH. induction J as [|a J IHJ]; cbn [app] in N.
    - split; [constructor|]. split; [exact N|intros a []].
    - inversion N as [|x y H1 H2]; subst. destruct (IHJ H2) as (A & B & D). rewrite in_app_iff in H1.
      split; [constructor; tauto|]. split; [exact B|]. intros b [<-|Ib]; [tauto|apply D, Ib]. }
  destruct NJ as (A & B & D).
  assert (NR : forall rows : list nat, NoDup rows -> NoDup (flat_map (fun r : nat => map (fun i : nat => (i, r)) J) rows)).
  { induction rows as [|r rows IHr]; intros NR; [constructor|]. inversion NR as [|x y H1 H2]; subst. cbn [flat_map].
    assert (N1 : NoDup (map (fun i : nat => (i, r)) J)).
    { apply NoDup_map_in; [|exact A]. intros x y _ _ [= E]. exact E. }
    specialize (IHr H2). revert N1 IHr.
    assert (DJ : forall x, In x (map (fun i : nat => (i, r)) J) -> ~ In x (flat_map (fun r : nat => map (fun i : nat => (i, r)) J) rows)).
    { intros x Ix Iy. apply in_map_iff in Ix. destruct Ix as (i & <- & Ii). apply in_flat_map in Iy. destruct Iy as (r' & Ir' & Iy).
      apply in_map_iff in Iy. destruct Iy as (i' & [= _ ->] & _). contradiction. }
    revert DJ. clear. generalize (map (fun i : nat => (i, r)) J) (flat_map (fun r : nat => map (fun i : nat => (i, r)) J) rows). intros l1 l2.
    induction l1 as [|a l1 IH]; intros DJ N1 N2; [exact N2|]. inversion N1 as [|x y H1 H2]; subst. cbn [app]. constructor.
    - rewrite in_app_iff. intros [X|X]; [contradiction|]. apply (DJ a (or_introl eq_refl) X).
    - apply IH; [intros x Ix; apply DJ; right; exact Ix|exact H2|exact N2]. }
  specialize (NR (seq 0 u) (seq_NoDup _ _)). specialize (IH B). revert NR IH.
  assert (DJ : forall x, In x (flat_map (fun r : nat => map (fun i : nat => (i, r)) J) (seq 0 u)) ->
    ~ In x (flat_map (fun J => flat_map (fun r : nat => map (fun i : nat => (i, r)) J) (seq 0 u)) l)).
  { intros [i r] Ix Iy. apply in_flat_map in Ix. destruct Ix as (r1 & _ & Ix). apply in_map_iff in Ix. destruct Ix as (i1 & [= -> ->] & Ii).
    apply (D i Ii). apply in_flat_map in Iy. destruct Iy as (J' & IJ' & Iy). apply in_flat_map in Iy. destruct Iy as (r2 & _ & Iy).
    apply in_map_iff in Iy. destruct Iy as (i2 & [= -> ->] & Ii2). apply in_concat. exists J'. auto. }
  revert DJ. generalize (flat_map (fun r : nat => map (fun i : nat => (i, r)) J) (seq 0 u))
    (flat_map (fun J => flat_map (fun r : nat => map (fun i : nat => (i, r)) J) (seq 0 u)) l). clear. intros l1 l2.
  induction l1 as [|a l1 IH]; intros DJ N1 N2; [exact N2|]. inversion N1 as [|x y H1 H2]; subst. cbn [app]. constructor.
  - rewrite in_app_iff. intros [X|X]; [contradiction|]. apply (DJ a (or_introl eq_refl) X).
  - apply IH; [intros x Ix; apply DJ; right; exact Ix|exact H2|exact N2].
Qed.
Lemma grid_perm : Permutation (map (fun ir => (val ir, tagsg ir)) cells) (map (fun ir => (val ir, tagid ir)) cells).
Proof.
  pose proof (rows_split n v Hrows) as [Hsp Hu2].
  apply NoDup_Permutation_bis.
  - apply NoDup_map_in; [|exact cells_nodup]. intros [i1 r1] [i2 r2] I1 I2 E. apply cells_in in I1, I2. injection E as _ E.
    destruct (sent i1 r1) as (i1' & r1' & A1 & B1 & C1 & _ & D1); try tauto.
    destruct (sent i2 r2) as (i2' & r2' & A2 & B2 & C2 & _ & D2); try tauto.
    cbn [fst snd] in *. rewrite C1, C2 in E. apply tag_inj' in E; try lia. destruct E as [-> ->].
    destruct (polys_tags DELTA w n (perm_columns c) _ copies p (wf_nodup _ Hwf) (le_n _) Hp) as [EX _].
    destruct EX as (sigma & IM & (_ & S2 & _) & _ & _).
    assert (T1 : on_table n (perm_columns c) (nth i1 (perm_columns c) (CFixed 0), r1)) by (split; [apply nth_In; tauto|cbn [snd]; lia]).
    assert (T2 : on_table n (perm_columns c) (nth i2 (perm_columns c) (CFixed 0), r2)) by (split; [apply nth_In; tauto|cbn [snd]; lia]).
    pose proof (IM _ T1) as F1. pose proof (IM _ T2) as F2. rewrite D1 in F1. rewrite D2 in F2.
    injection F1 as F1. injection F2 as F2. pose proof (S2 _ _ T1 T2 (eq_trans (eq_sym F1) F2)) as X. injection X as X ->.
    f_equal. apply (proj1 (NoDup_nth (perm_columns c) (CFixed 0)) (wf_nodup _ Hwf)); tauto.
  - rewrite !map_length. lia.
  - intros x Ix. apply in_map_iff in Ix. destruct Ix as ([i r] & <- & I). apply cells_in in I.
    destruct (sent i r) as (i' & r' & A & B & C & D & _); try tauto. apply in_map_iff. exists (i', r'). split; [|apply cells_in; tauto].
    rewrite C, D. reflexivity.
Qed.
End Grid.
End Honest.

(** ** The running products of the permutation argument *)
Fixpoint contig (a : nat) (l : list (list nat)) : Prop :=
  match l with [] => True | J :: l => J = seq a (length J) /\ contig (a + length J) l end.
Lemma skipn_seq' : forall len a b, skipn len (seq a b) = seq (a + len) (b - len).
Proof.
  induction len as [|len IH]; intros a b; [rewrite Nat.add_0_r, Nat.sub_0_r; reflexivity|].
  destruct b as [|b]; [reflexivity|]. cbn [seq skipn Nat.sub]. rewrite IH. f_equal. lia.
Qed.
Lemma firstn_seq' : forall len a b, firstn len (seq a b) = seq a (Nat.min len b).
Proof.
  induction len as [|len IH]; intros a b; [reflexivity|].
  destruct b as [|b]; [reflexivity|]. cbn [seq firstn Nat.min]. rewrite IH. reflexivity.
Qed.
Lemma chunks_contig len : (0 < len)%nat -> forall fuel a b, contig a (chunks_go fuel len (seq a b)).
Proof.
  intros Hl. induction fuel as [|fuel IH]; intros a b; [exact Logic.I|].
  destruct b as [|b]; [exact Logic.I|].
  change (chunks_go (S fuel) len (seq a (S b))) with (firstn len (seq a (S b)) :: chunks_go fuel len (skipn len (seq a (S b)))).
  rewrite skipn_seq', firstn_seq'. cbn [contig]. rewrite seq_length. split; [reflexivity|].
  destruct (Nat.le_gt_cases (S b) len) as [L|L].
  - replace (S b - len)%nat with 0%nat by lia. destruct fuel; exact Logic.I.
  - rewrite Nat.min_l by lia. apply IH.
Qed.
Lemma batch_inv_nz x : x <> f0 -> batch_inv x * x = f1.
Proof.
  intros H. unfold batch_inv. destruct (feqb x f0) eqn:E; [apply feqb_eq in E; contradiction|]. apply (finv_l r_prime), H.
Qed.
Lemma fpow_nat_S (x : Fr) a : fpow x (Z.of_nat (S a)) = fpow x (Z.of_nat a) * x.
Proof. rewrite fpow_S'. fring. Qed.
Lemma delta_after_is {A} (cols : list A) : forall a, delta_after (fpow DELTA (Z.of_nat a)) cols = fpow DELTA (Z.of_nat (a + length cols)).
Proof.
  unfold delta_after. induction cols as [|x cols IH]; intros a; cbn [fold_left length].
  - rewrite Nat.add_0_r. reflexivity.
  - rewrite <- fpow_nat_S, IH. f_equal. lia.
Qed.
Lemma numer_is (cv : nat -> Fr) b g wr : forall len a acc,
  perm_numer b g (fpow DELTA (Z.of_nat a)) wr (map cv (seq a len)) acc =
  acc * fprod (map (fun i => cv i + b * (fpow DELTA (Z.of_nat i) * wr) + g) (seq a len)).
Proof.
  induction len as [|len IH]; intros a acc; cbn [seq map perm_numer fprod].
  - fring.
  - rewrite <- fpow_nat_S, IH. generalize (fpow DELTA (Z.of_nat a)). intros. fring.
Qed.
Lemma denom_is (cv sv : nat -> nat -> Fr) b g r : forall J acc,
  fold_left (fun m (cs : (nat -> Fr) * (nat -> Fr)) => m * (b * snd cs r + g + fst cs r)) (combine (map cv J) (map sv J)) acc =
  acc * fprod (map (fun i => cv i r + b * sv i r + g) J).
Proof.
  induction J as [|i J IH]; intros acc; cbn [map combine fold_left fprod].
  - fring.
  - rewrite IH. cbn [fst snd]. fring.
Qed.
Lemma perm_factor_is w b g a len (cv sv : nat -> nat -> Fr) r :
  fprod (map (fun i => cv i r + b * sv i r + g) (seq a len)) <> f0 ->
  perm_factor w b g (fpow DELTA (Z.of_nat a)) (map cv (seq a len)) (map sv (seq a len)) r *
    fprod (map (fun i => cv i r + b * sv i r + g) (seq a len)) =
  fprod (map (fun i => cv i r + b * (fpow DELTA (Z.of_nat i) * pt w r) + g) (seq a len)).
Proof.
  intros H. unfold perm_factor. rewrite denom_is, map_map.
  rewrite (numer_is (fun i => cv i r)).
  replace (pow_vartime w (Z.of_nat r)) with (pt w r) by (unfold pt; symmetry; apply pow_vartime_is; lia).
  set (D := fprod (map (fun i => cv i r + b * sv i r + g) (seq a len))) in *.
  rewrite one_l. pose proof (batch_inv_nz D H) as E.
  set (N := fprod _). transitivity ((batch_inv D * D) * N); [generalize (batch_inv D); intros; fring|]. rewrite E. fring.
Qed.
Lemma perm_sets_is w n bf u b g random (cv sv : nat -> nat -> Fr) : (n = u + bf + 1)%nat ->
  forall JJ a i0 last, contig a JJ ->
  (forall i J r, nth_error JJ i = Some J -> (r < u)%nat -> fprod (map (fun i => cv i r + b * sv i r + g) J) <> f0) ->
  let Z := perm_sets w n bf b g random (map (map cv) JJ) (map (map sv) JJ) i0 (fpow DELTA (Z.of_nat a)) last in
  length Z = length JJ /\
  forall i J, nth_error JJ i = Some J ->
    nth i Z (fun _ => f0) 0%nat = match i with O => last | S i => nth i Z (fun _ => f0) u end /\
    forall r, (r < u)%nat ->
      nth i Z (fun _ => f0) (S r) * fprod (map (fun i => cv i r + b * sv i r + g) J) =
      nth i Z (fun _ => f0) r * fprod (map (fun i => cv i r + b * (fpow DELTA (Z.of_nat i) * pt w r) + g) J).
Proof.
  intros Hn. induction JJ as [|J JJ IH]; intros a i0 last C NZ Z; [split; [reflexivity|intros [|i] J E; discriminate]|].
  destruct C as [EJ C].
  set (z := fun r => if (r <? n - bf)%nat then run last (perm_factor w b g (fpow DELTA (Z.of_nat a)) (map cv J) (map sv J)) r else random i0 r).
  assert (EZ : Z = z :: perm_sets w n bf b g random (map (map cv) JJ) (map (map sv) JJ) (S i0) (fpow DELTA (Z.of_nat (a + length J))) (z u)).
  { unfold Z. cbn [map perm_sets]. fold z. rewrite delta_after_is, map_length. replace (n - (bf + 1))%nat with u by lia. reflexivity. }
  destruct (IH (a + length J)%nat (S i0) (z u) C) as [L R].
  { intros i J' r E Hr. apply (NZ (S i) J' r E Hr). }
  rewrite EZ. split; [cbn [length]; rewrite L; reflexivity|]. intros [|i] J' E.
  - cbn [nth_error] in E. injection E as <-. cbn [nth]. split.
    + unfold z. destruct (Nat.ltb_spec 0 (n - bf)); [reflexivity|lia].
    + intros r Hr. unfold z. destruct (Nat.ltb_spec (S r) (n - bf)); [|lia]. destruct (Nat.ltb_spec r (n - bf)); [|lia].
      cbn [run]. pose proof (NZ 0%nat J r eq_refl Hr) as N0. rewrite EJ in N0 |- *.
      rewrite <- (perm_factor_is w b g a (length J) cv sv r) by exact N0.
      generalize (run last (perm_factor w b g (fpow DELTA (Z.of_nat a)) (map cv (seq a (length J))) (map sv (seq a (length J)))) r)
        (perm_factor w b g (fpow DELTA (Z.of_nat a)) (map cv (seq a (length J))) (map sv (seq a (length J))) r)
        (fprod (map (fun i => cv i r + b * sv i r + g) (seq a (length J)))). intros. fring.
  - cbn [nth_error] in E. cbn [nth]. destruct (R i J' E) as [R1 R2]. split; [|exact R2]. rewrite R1. destruct i; reflexivity.
Qed.

(** ** The lookup argument *)
Lemma compressed_is (ev : nat -> expr -> Fr) theta es r : compressed_row ev theta es r = compress theta (map (ev r) es).
Proof.
  unfold compressed_row, compress. generalize (f0 : Fr). induction es as [|e es IH]; intros a; [reflexivity|]. cbn [map fold_left]. apply IH.
Qed.
Lemma fadd_swap (a b : Fr) : a + b = b + a.
Proof. fring. Qed.
Lemma lookup_honest n bf u beta gamma (a s : nat -> Fr) a' s' fa fs fz : (n = u + bf + 1)%nat -> (2 <= u)%nat ->
  permute_pair u a s = POk (a', s') ->
  (forall r, (r < u)%nat -> beta + a r <> f0 /\ gamma + s r <> f0) ->
  let A := with_random u a' fa in let T := with_random u s' fs in
  let p := lookup_product n bf beta gamma a s A T fz in
  p 0%nat = f1 /\ p u = f1 /\
  (forall r, (r < u)%nat -> p (S r) * (A r + beta) * (T r + gamma) = p r * (a r + beta) * (s r + gamma)) /\
  A 0%nat = T 0%nat /\
  (forall r, (S r < u)%nat -> (A (S r) - T (S r)) * (A (S r) - A r) = f0).
Proof.
  intros Hn Hu E NZ A T p. pose proof (permute_pair_is u a s) as PP. rewrite E in PP. destruct PP as (_ & PA & PS & ST).
  assert (WA : forall r, (r < u)%nat -> A r = nth r a' f0).
  { intros r Hr. unfold A, with_random. destruct (Nat.ltb_spec r u); [reflexivity|lia]. }
  assert (WT : forall r, (r < u)%nat -> T r = nth r s' f0).
  { intros r Hr. unfold T, with_random. destruct (Nat.ltb_spec r u); [reflexivity|lia]. }
  assert (LA : length a' = u) by (rewrite (Permutation_length PA), map_length, seq_length; reflexivity).
  assert (LS : length s' = u) by (rewrite (Permutation_length PS), map_length, seq_length; reflexivity).
  assert (PA' : Permutation (map A (seq 0 u)) (map a (seq 0 u))).
  { rewrite (map_ext_in A (fun r => nth r a' f0)) by (intros r Ir; apply in_seq in Ir; apply WA; lia).
    replace (map (fun r => nth r a' f0) (seq 0 u)) with a'; [exact PA|]. rewrite <- LA. symmetry. apply map_nth_seq. }
  assert (PS' : Permutation (map T (seq 0 u)) (map s (seq 0 u))).
  { rewrite (map_ext_in T (fun r => nth r s' f0)) by (intros r Ir; apply in_seq in Ir; apply WT; lia).
    replace (map (fun r => nth r s' f0) (seq 0 u)) with s'; [exact PS|]. rewrite <- LS. symmetry. apply map_nth_seq. }
  assert (NA : forall r, (r < u)%nat -> beta + A r <> f0).
  { intros r Hr. assert (I : In (A r) (map a (seq 0 u))) by (apply (Permutation_in _ PA'); apply in_map, in_seq; lia).
    apply in_map_iff in I. destruct I as (q & <- & I). apply in_seq in I. apply NZ. lia. }
  assert (NT : forall r, (r < u)%nat -> gamma + T r <> f0).
  { intros r Hr. assert (I : In (T r) (map s (seq 0 u))) by (apply (Permutation_in _ PS'); apply in_map, in_seq; lia).
    apply in_map_iff in I. destruct I as (q & <- & I). apply in_seq in I. apply NZ. lia. }
  assert (P0 : p 0%nat = f1).
  { unfold p, lookup_product. destruct (Nat.ltb_spec 0 (n - bf)); [reflexivity|lia]. }
  assert (PR : forall r, (r < u)%nat -> p (S r) * ((A r + beta) * (T r + gamma)) = p r * ((a r + beta) * (s r + gamma))).
  { intros r Hr. unfold p, lookup_product. destruct (Nat.ltb_spec (S r) (n - bf)); [|lia]. destruct (Nat.ltb_spec r (n - bf)); [|lia].
    cbn [run]. unfold lookup_factor. 
    assert (B : batch_inv ((beta + A r) * (gamma + T r)) * ((beta + A r) * (gamma + T r)) = f1).
    { apply batch_inv_nz. intros X. apply Fr_mul_eq_0 in X. destruct X as [X|X]; [apply (NA r Hr X)|apply (NT r Hr X)]. }
    set (R := run _ _ r). set (V := batch_inv _) in *.
    transitivity (R * ((a r + beta) * (s r + gamma)) * (V * ((beta + A r) * (gamma + T r)))).
    - clearbody V R. generalize (A r) (T r) (a r) (s r). intros. fring.
    - rewrite B. fring. }
  repeat apply conj.
  - exact P0.
  - pose proof (running p (fun r => (a r + beta) * (s r + gamma)) (fun r => (A r + beta) * (T r + gamma)) u PR) as R.
    rewrite P0 in R. pose proof (lookup_complete u a s A T beta gamma PA' PS') as LC. cbv zeta in LC.
    set (D := fprod (map (fun r => (A r + beta) * (T r + gamma)) (seq 0 u))) in *.
    assert (R2 : p u * D = f1 * D) by (etransitivity; [exact R|]; f_equal; symmetry; exact LC).
    assert (ND : D <> f0).
    { intros X. unfold D in X. apply fprod_zero in X. apply in_map_iff in X. destruct X as (r & X & I). apply in_seq in I.
      apply Fr_mul_eq_0 in X. rewrite !(fadd_swap _ beta), !(fadd_swap _ gamma) in X.
      destruct X as [X|X]; [apply (NA r ltac:(lia) X)|apply (NT r ltac:(lia) X)]. }
    apply (fmul_cancel D _ _ ND). transitivity (p u * D); [fring|]. rewrite R2. fring.
  - intros r Hr. pose proof (PR r Hr) as X. transitivity (p (S r) * ((A r + beta) * (T r + gamma))); [fring|]. rewrite X. fring.
  - rewrite WA, WT by lia. destruct (ST 0%nat ltac:(lia)) as [X|(q & X & _)]; [exact X|discriminate X].
  - intros r Hr. rewrite !WA, WT by lia. destruct (ST (S r) Hr) as [X|(q & X & Y)].
    + rewrite X, sub_self. apply mul_0_l.
    + injection X as <-. rewrite Y, sub_self. apply mul_0_r.
Qed.
