(** Soundness: the row equations give the gates, the copies and the lookups. *)
From Coq Require Import ZArith List Arith Lia Bool Permutation.
From Verif Require Import Base ListFacts Moduli Field FieldFacts LimbSpec LimbField LimbConst RootFacts PolyFacts Halo2Model SelectorModel
  PermModel PermSpec SelectorSpec SelectorClaims DomainModel DomainSpec DomainFacts VkModel
  IopModel IopPoly IopRows IopSpec IopLagrange IopTotal IopAccept IopSound IopDegree.
Import ListNotations.
Local Open Scope F_scope.

Lemma mul1_eq (a b : Fr) : f1 * a = f0 -> a = f0.
Proof. intros E. rewrite <- E. fring. Qed.
Lemma one_sub (a : Fr) : f1 * (f1 - a) = f0 -> a = f1.
Proof. intros E. symmetry. apply fsub_eq. rewrite <- E. fring. Qed.
Lemma eq_of_l (a b : Fr) : f1 * (a - b) = f0 -> a = b.
Proof. intros E. apply fsub_eq. rewrite <- E. fring. Qed.
Lemma eq_of_r (a b : Fr) : (a - b) * f1 = f0 -> a = b.
Proof. intros E. apply fsub_eq. rewrite <- E. fring. Qed.

Section Main.
Variables (v : vkey) (j k : Z) (n : nat).
Hypothesis Hk28 : (0 <= k <= 28)%Z.
Hypothesis Hn : Z.of_nat n = (2 ^ k)%Z.
Hypothesis Hd : domain_for j k (vk_domain v).
Hypothesis Hj : (Z.of_nat (vk_degree v) <= j)%Z.
Hypothesis Hrows : (minimum_rows (vk_cs v) <= n)%nat.
Hypothesis Hwf : well_formed (vk_cs v).
Hypothesis Hdeg : vk_degree v = cs_degree (vk_cs v).
Hypothesis Hperm : length (vk_permutation v) = length (perm_columns (vk_cs v)).
Local Notation d := (vk_domain v).
Local Notation c := (vk_cs v).
Local Notation w := (d_omega d).
Local Notation point := (pt w).
Local Notation u := (usable_rows n c).
Local Notation m := (length (perm_columns c)).
Local Notation lg := (lag n (d_omega_inv d) (d_barycentric_weight d)).
Variables (insts : list (list Fr)) (chs : list Fr) (instf : nat -> nat -> Fr).
Hypothesis Hchs : length chs = num_challenges c.
Hypothesis Hinstf : forall i r, (r < n)%nat -> ipoly d n (nth i insts []) (point r) = instf i r.
Variables (fixed : nat -> nat -> Fr) (F S_ advice : nat -> list Fr) (copies : list (acell * acell)).
Hypothesis HF : forall i r, (i < num_fixed c)%nat -> (r < n)%nat -> peval (F i) (point r) = fixed i r.
Definition asg : assignment :=
  mkAssign n (fun _ _ => false) fixed (fun i r => peval (advice i) (point r)) instf (fun i => nth i chs f0).

Lemma Hk0 : (0 <= k)%Z. Proof. lia. Qed.
Lemma split_rows : n = (u + blinding_factors c + 1)%nat /\ (2 <= u)%nat.
Proof. exact (rows_split n v Hrows). Qed.
Lemma rot_pt r t : rotate_omega d (point r) t = point (rotate n r t).
Proof. exact (rotate_omega_pt d j k n Hk0 Hn Hd r t). Qed.
Lemma rot_lt r t : (rotate n r t < n)%nat.
Proof. exact (rotate_lt d j k n Hk0 Hn Hd r t). Qed.

Section One.
Variables (theta beta gamma : Fr) (product lproduct linput ltable : nat -> list Fr) (q : list (list Fr)) (random : list Fr).
Local Notation P := (Committed advice F S_ product lproduct linput ltable q random).
Local Notation Fs := (all_fs v n insts chs P theta beta gamma).

Lemma evalx_row e r : registered c e -> (r < n)%nat -> evalx v n insts chs P e (point r) = eval asg r e.
Proof.
  intros H Hr. induction e; cbn [registered] in H; unfold evalx, eval; cbn [evaluate cm_fixed cm_advice].
  - reflexivity.
  - contradiction.
  - rewrite rot_pt. apply HF; [|apply rot_lt]. apply (wf_fixed _ Hwf _ (nth_error_In _ _ H)).
  - rewrite rot_pt. reflexivity.
  - rewrite rot_pt. apply Hinstf, rot_lt.
  - reflexivity.
  - exact (f_equal fopp (IHe H)).
  - exact (f_equal2 fadd (IHe1 (proj1 H)) (IHe2 (proj2 H))).
  - exact (f_equal2 fmul (IHe1 (proj1 H)) (IHe2 (proj2 H))).
  - exact (f_equal (fun a => fmul a f) (IHe H)).
Qed.
Lemma vf_row i r : (i < m)%nat -> (r < n)%nat -> vf v n insts P i (point r) = cell_value asg (nth i (perm_columns c) (CFixed 0), r).
Proof.
  intros Hi Hr. unfold vf, colf, cell_value. cbn [fst snd].
  pose proof (wf_perm _ Hwf _ (nth_In _ (CFixed 0) Hi)) as Q. destruct (nth i (perm_columns c) (CFixed 0)); cbn [cm_advice cm_fixed].
  - reflexivity.
  - apply HF; [|exact Hr]. apply (wf_fixed _ Hwf _ Q).
  - apply Hinstf, Hr.
Qed.
Lemma cmp_row es r : (forall e, In e es -> registered c e) -> (r < n)%nat ->
  cmp v n insts chs P theta es (point r) = compress theta (map (eval asg r) es).
Proof.
  intros H Hr. unfold cmp. f_equal. apply map_ext_in. intros e I. apply evalx_row; [apply H, I|exact Hr].
Qed.

Hypothesis HV : forall f r, In f Fs -> (r < n)%nat -> f (point r) = f0.

Lemma gates_row : gates_hold c asg.
Proof.
  intros g p row Ig Ip Hr. cbn [as_n asg] in Hr.
  assert (I : In p (concat (gates c))) by (apply in_concat; eauto).
  rewrite <- (evalx_row p row); [|apply (wf_exprs _ Hwf); left; exact I|exact Hr].
  apply HV; [|exact Hr]. unfold all_fs. apply in_app_iff. left. unfold gate_fs. apply in_map, I.
Qed.

Local Notation tagid := (fun ir : nat * nat => fpow DELTA (Z.of_nat (fst ir)) * point (snd ir)).
Local Notation tagsg := (fun ir : nat * nat => peval (S_ (fst ir)) (point (snd ir))).
Local Notation val := (fun ir : nat * nat => cell_value asg (nth (fst ir) (perm_columns c) (CFixed 0), snd ir)).
Local Notation cells := (grid u (JJ v)).
Lemma lag0 r : (r < n)%nat -> lg 0 (point r) = if (r =? 0)%nat then f1 else f0.
Proof. intros Hr. apply (lag_row d j k n Hn Hd); lia. Qed.
Lemma lagu r : (r < n)%nat -> lg u (point r) = if (r =? u)%nat then f1 else f0.
Proof. intros Hr. pose proof split_rows. apply (lag_row d j k n Hn Hd); lia. Qed.
Lemma act_row r : (r < u)%nat -> activef d n v (point r) = f1.
Proof.
  intros Hr. pose proof split_rows. rewrite (activef_at d j k n Hk0 Hn Hd v Hrows) by lia.
  destruct (Nat.ltb_spec r u); [reflexivity|lia].
Qed.
Lemma rot_next r : (S r < n)%nat -> rotate_omega d (point r) next = point (S r).
Proof.
  intros Hr. rewrite rot_pt. f_equal. unfold rotate, next. rewrite Z.mod_small by lia. lia.
Qed.
Lemma rot_prev r : (S r < n)%nat -> rotate_omega d (point (S r)) prev = point r.
Proof.
  intros Hr. rewrite rot_pt. f_equal. unfold rotate, prev. rewrite Z.mod_small by lia. lia.
Qed.
Lemma rot_last : rotate_omega d (point 0) (LAST v) = point u.
Proof.
  pose proof split_rows. rewrite rot_pt. f_equal. unfold rotate, LAST.
  rewrite <- (Z_mod_plus_full _ 1), Z.mod_small by lia. lia.
Qed.
Lemma in_JJ i J : nth_error (JJ v) i = Some J -> forall i', In i' J -> (i' < m)%nat.
Proof.
  intros E i' I. assert (X : In i' (concat (JJ v))) by (apply in_concat; exists J; split; [apply (nth_error_In _ _ E)|exact I]).
  rewrite (JJ_concat v Hdeg) in X. apply in_seq in X. lia.
Qed.
Lemma perm_row : exists zu, zu * zu = zu /\
  zu * fprod (map (fun ir => val ir + beta * tagsg ir + gamma) cells) = fprod (map (fun ir => val ir + beta * tagid ir + gamma) cells).
Proof.
  pose proof split_rows as [Hsp Hu2].
  destruct (length (JJ v)) as [|s] eqn:Es.
  - exists f1. split; [fring|]. destruct (JJ v); [|discriminate]. cbn [grid flat_map map fprod]. fring.
  - exists (zf P s (point u)). split.
    + assert (X : (zf P s (point u) * zf P s (point u) - zf P s (point u)) * lg u (point u) = f0).
      { apply (HV (fun x => (zf P s x * zf P s x - zf P s x) * lg u x)); [|lia].
        unfold all_fs. rewrite !in_app_iff. right. left. right. left. unfold last_fs. rewrite Es. left. reflexivity. }
      rewrite lagu, Nat.eqb_refl in X by lia. apply eq_of_r in X. exact X.
    + assert (T := telescope (fun i r => zf P i (point r))
        (fun i r => val (i, r) + beta * tagid (i, r) + gamma) (fun i r => val (i, r) + beta * tagsg (i, r) + gamma) u (JJ v) 0).
      cbn [Nat.add] in T. rewrite Es in T. replace (Datatypes.S s - 1)%nat with s in T by lia.
      assert (Z0 : zf P 0 (point 0) = f1).
      { assert (X : lg 0 (point 0) * (f1 - zf P 0 (point 0)) = f0).
        { apply (HV (fun x => lg 0 x * (f1 - zf P 0 x))); [|lia].
          unfold all_fs. rewrite !in_app_iff. right. left. left. unfold first_fs. rewrite Es. left. reflexivity. }
        rewrite lag0 in X by lia. cbn [Nat.eqb] in X. apply one_sub in X. exact X. }
      rewrite Z0 in T. etransitivity; [|etransitivity; [apply T|]].
      * reflexivity.
      * intros i Hi. assert (X : (zf P (Datatypes.S i) (point 0) - zf P i (rotate_omega d (point 0) (LAST v))) * lg 0 (point 0) = f0).
        { apply (HV (fun x => (zf P (Datatypes.S i) x - zf P i (rotate_omega d x (LAST v))) * lg 0 x)); [|lia].
          unfold all_fs. rewrite !in_app_iff. right. left. right. right. left. unfold link_fs. rewrite Es.
          apply in_map_iff. exists i. split; [reflexivity|]. apply in_seq. lia. }
        rewrite lag0 in X by lia. cbn [Nat.eqb] in X. apply eq_of_r in X. rewrite rot_last in X. exact X.
      * intros i r J EJ Hr.
        assert (X : (zf P i (rotate_omega d (point r) next) * denf v n insts P beta gamma J (point r) -
                     zf P i (point r) * numf v n insts P beta gamma J (point r)) * activef d n v (point r) = f0).
        { apply (HV (fun x => (zf P i (rotate_omega d x next) * denf v n insts P beta gamma J x - zf P i x * numf v n insts P beta gamma J x) * activef d n v x)); [|lia].
          unfold all_fs. rewrite !in_app_iff. right. left. right. right. right. unfold prod_fs.
          apply in_map_iff. exists (i, J). split; [reflexivity|]. apply enum_nth, EJ. }
        rewrite act_row in X by exact Hr. apply eq_of_r in X. rewrite rot_next in X by lia.
        unfold denf, numf in X. etransitivity; [|etransitivity; [exact X|]]; f_equal; f_equal; apply map_ext_in; intros i' Ii'; cbn [fst snd];
          (assert (i' < m)%nat by (exact (in_JJ _ _ EJ _ Ii'))).
        -- rewrite vf_row by lia. reflexivity.
        -- rewrite vf_row by lia. generalize (fpow DELTA (Z.of_nat i')). intros. fring.
      * lia.
      * rewrite one_l. reflexivity.
Qed.

Lemma lookup_row i l : nth_error (lookups c) i = Some l ->
  let a r := compress theta (map (eval asg r) (fst l)) in
  let t r := compress theta (map (eval asg r) (snd l)) in
  let a' r := peval (linput i) (point r) in let t' r := peval (ltable i) (point r) in
  (exists zu, zu * zu = zu /\ zu * fprod (map (fun r => (a' r + beta) * (t' r + gamma)) (seq 0 u)) =
     fprod (map (fun r => (a r + beta) * (t r + gamma)) (seq 0 u))) /\
  a' 0%nat = t' 0%nat /\
  (forall r, (Datatypes.S r < u)%nat -> (a' (Datatypes.S r) - t' (Datatypes.S r)) * (a' (Datatypes.S r) - a' r) = f0).
Proof.
  intros El a t a' t'. pose proof split_rows as [Hsp Hu2].
  assert (IF : forall f r, In f (lk_fs v n insts chs P theta beta gamma (i, l)) -> (r < n)%nat -> f (point r) = f0).
  { intros f r If Hr. apply HV; [|exact Hr]. unfold all_fs. rewrite !in_app_iff. right. right. apply in_flat_map.
    exists (i, l). split; [apply enum_nth, El|exact If]. }
  assert (RG : forall e, In e (fst l) \/ In e (snd l) -> registered c e).
  { intros e I. apply (wf_exprs _ Hwf). right. unfold lookup_exprs. apply in_flat_map. exists l.
    split; [apply (nth_error_In _ _ El)|]. apply in_app_iff. exact I. }
  pose proof (IF _ 0%nat (or_introl eq_refl)) as X1.
  pose proof (IF _ u (or_intror (or_introl eq_refl))) as X2.
  pose proof (fun r => IF _ r (or_intror (or_intror (or_introl eq_refl)))) as X3.
  pose proof (IF _ 0%nat (or_intror (or_intror (or_intror (or_introl eq_refl))))) as X4.
  pose proof (fun r => IF _ r (or_intror (or_intror (or_intror (or_intror (or_introl eq_refl)))))) as X5.
  cbn beta in X1, X2, X3, X4, X5. cbn [cm_lproduct cm_linput cm_ltable] in X1, X2, X3, X4, X5.
  specialize (X1 ltac:(lia)). specialize (X2 ltac:(lia)). specialize (X4 ltac:(lia)).
  rewrite lag0 in X1, X4 by lia. cbn [Nat.eqb] in X1, X4. rewrite lagu, Nat.eqb_refl in X2 by lia.
  apply one_sub in X1. apply eq_of_l in X2, X4.
  repeat apply conj.
  - exists (peval (lproduct i) (point u)). split; [exact X2|].
    assert (R := running (fun r => peval (lproduct i) (point r)) (fun r => (a r + beta) * (t r + gamma)) (fun r => (a' r + beta) * (t' r + gamma)) u).
    cbn beta in R. rewrite X1 in R. rewrite one_l in R. apply R. intros r Hr.
    specialize (X3 r ltac:(lia)). rewrite act_row in X3 by exact Hr. apply eq_of_r in X3. rewrite rot_next in X3 by lia.
    rewrite (cmp_row (fst l)), (cmp_row (snd l)) in X3 by (try lia; intros; apply RG; auto).
    unfold a', t', a, t.
    etransitivity; [|etransitivity; [exact X3|]].
    + generalize (peval (lproduct i) (point (Datatypes.S r))) (peval (linput i) (point r)) (peval (ltable i) (point r)). intros. fring.
    + generalize (peval (lproduct i) (point r)) (compress theta (map (eval asg r) (fst l))) (compress theta (map (eval asg r) (snd l))). intros. fring.
  - exact X4.
  - intros r Hr. specialize (X5 (Datatypes.S r) ltac:(lia)). rewrite act_row in X5 by lia. rewrite rot_prev in X5 by lia.
    unfold a', t'. rewrite one_r in X5. exact X5.
Qed.
End One.

(** ** All challenges *)
Hypothesis HC : convincing v k insts chs F S_ advice.
Hypothesis Hn' : n = Z.to_nat (2 ^ k).
Variable p : perm.
Hypothesis Hp : perm_copies (m * n) (perm_new n (perm_columns c)) copies = COk p.
Hypothesis HS : forall i r, (i < m)%nat -> (r < n)%nat -> get2 (perm_polys DELTA w n p) (i, r) = Some (Some (peval (S_ i) (point r))).
Hypothesis Hus : forall x y, In (x, y) copies -> (snd x < u)%nat /\ (snd y < u)%nat.

Lemma n_small : (Z.of_nat n <= 2 ^ 28)%Z.
Proof. rewrite Hn. apply Z.pow_le_mono_r; lia. Qed.

Lemma need_pos : (1 <= need_theta c u /\ 1 <= need_beta c u /\ 1 <= need_gamma c u)%nat.
Proof. unfold need_theta, need_beta, need_gamma. clear. rewrite !Nat.add_1_r. repeat apply conj; apply le_n_S, Nat.le_0_l. Qed.

Lemma tree : many (need_theta c u) (fun theta => exists linput ltable,
  many (need_beta c u) (fun beta => many (need_gamma c u) (fun gamma => exists product lproduct random,
    length insts = num_instance c /\
    forall f r, In f (all_fs v n insts chs (Committed advice F S_ product lproduct linput ltable [] random) theta beta gamma) ->
      (r < n)%nat -> f (point r) = f0))).
Proof.
  pose proof HC as HC'. unfold convincing in HC'. rewrite <- Hn' in HC'. revert HC'. apply many_mono; [lia|]. intros theta (li & lt & H). exists li, lt.
  revert H. apply many_mono; [lia|]. intros beta. apply many_mono; [lia|]. intros gamma (pr & lp & rn & H).
  exists pr, lp, rn. destruct (rows_vanish v j k n Hk0 Hn Hd Hj Hrows Hwf Hdeg Hperm insts chs theta beta gamma advice F S_ pr lp li lt rn Hchs H) as (_ & A & B).
  split; [exact A|exact B].
Qed.

Lemma sound_gates : gates_hold c asg.
Proof.
  destruct need_pos as (N1 & N2 & N3).
  destruct (many_one _ _ N1 tree) as (theta & li & lt & H).
  destruct (many_one _ _ N2 H) as (beta & H2).
  destruct (many_one _ _ N3 H2) as (gamma & pr & lp & rn & _ & H3).
  exact (gates_row theta beta gamma pr lp li lt [] rn H3).
Qed.
Lemma sound_lookups : lookups_hold c asg.
Proof.
  intros l row Il Hrow. cbn [as_n asg] in Hrow |- *. destruct (In_nth_error _ _ Il) as (i & El).
  assert (HL : (length (fst l) <= lookup_width c)%nat).
  { unfold lookup_width. clear - Il. induction (lookups c) as [|x ls IH]; [contradiction|]. cbn [map fold_right].
    destruct Il as [->|I]; [lia|]. specialize (IH I). lia. }
  destruct (compress_inj u (length (fst l)) (map (eval asg row) (fst l)) (fun r => map (eval asg r) (snd l))) as (r' & Hr' & E).
  - apply map_length.
  - intros r _. rewrite map_length. symmetry. apply (wf_lookups _ Hwf _ Il).
  - pose proof tree as T. revert T. apply many_mono.
    + unfold need_theta. nia.
    + intros theta (li & lt & H).
      pose proof (lookup_rows u (fun r => compress theta (map (eval asg r) (fst l))) (fun r => compress theta (map (eval asg r) (snd l)))
        (fun r => peval (li i) (point r)) (fun r => peval (lt i) (point r))) as LR.
      pose proof n_small. pose proof split_rows.
      assert (HX : exists beta gamma pr lp rn, 
         forall f r, In f (all_fs v n insts chs (Committed advice F S_ pr lp li lt [] rn) theta beta gamma) -> (r < n)%nat -> f (point r) = f0).
      { destruct need_pos as (N1 & N2 & N3). destruct (many_one _ _ N2 H) as (beta & H2).
        destruct (many_one _ _ N3 H2) as (gamma & pr & lp & rn & _ & H3). exists beta, gamma, pr, lp, rn. exact H3. }
      destruct HX as (b0 & g0 & pr0 & lp0 & rn0 & H3).
      destruct (lookup_row theta b0 g0 pr0 lp0 li lt [] rn0 H3 i l El) as (_ & A0 & A1).
      apply LR; [lia| |intros _; exact A0|exact A1|exact Hrow].
      revert H. apply many_mono; [unfold need_beta; nia|]. intros beta. apply many_mono; [unfold need_gamma; nia|].
      intros gamma (pr & lp & rn & _ & HV). exact (proj1 (lookup_row theta beta gamma pr lp li lt [] rn HV i l El)).
  - exists r'. split; [exact Hr'|exact E].
Qed.
Lemma sound_copies : copies_hold copies asg.
Proof.
  pose proof split_rows as [Hsp Hu2]. pose proof n_small. pose proof (wf_tags _ Hwf) as Hm.
  assert (Htt : (2 ^ 20 < tt)%Z) by (vm_compute; reflexivity).
  destruct (polys_tags DELTA w n (perm_columns c) _ copies p (wf_nodup _ Hwf) (le_n _) Hp) as [EX TG].
  intros x y. apply (copies_from_images n (perm_columns c) copies p u (cell_value asg) EX Hus). clear x y.
  intros [col r] y [Tc Tr] Hr Ey. cbn [fst snd] in *.
  destruct (In_nth_error _ _ Tc) as (i & Ei).
  assert (Hi : (i < m)%nat) by (apply nth_error_Some; congruence).
  destruct (TG i r col Ei Tr) as (i' & r' & col' & Ei' & Hr' & Eim & Eg).
  rewrite (HS i r Hi Tr) in Eg. assert (Eg' : peval (S_ i) (point r) = fpow DELTA (Z.of_nat i') * fpow w (Z.of_nat r')) by congruence.
  rewrite Eim in Ey. injection Ey as <-.
  assert (PM : Permutation (map (fun ir => (cell_value asg (nth (fst ir) (perm_columns c) (CFixed 0), snd ir), peval (S_ (fst ir)) (point (snd ir)))) (grid u (JJ v)))
    (map (fun ir => (cell_value asg (nth (fst ir) (perm_columns c) (CFixed 0), snd ir), fpow DELTA (Z.of_nat (fst ir)) * point (snd ir))) (grid u (JJ v)))).
  { assert (LG : length (grid u (JJ v)) = (m * u)%nat).
    { rewrite grid_length, (JJ_concat v Hdeg), seq_length. reflexivity. }
    apply (perm_sound (grid u (JJ v)) (fun ir : nat * nat => cell_value asg (nth (fst ir) (perm_columns c) (CFixed 0), snd ir))
      (fun ir => fpow DELTA (Z.of_nat (fst ir)) * point (snd ir)) (fun ir => peval (S_ (fst ir)) (point (snd ir)))).
    - rewrite LG. nia.
    - rewrite LG. destruct need_pos as (N1 & _ & _). destruct (many_one _ _ N1 tree) as (theta & li & lt & H1). revert H1.
      apply many_mono; [unfold need_beta; nia|]. intros beta. apply many_mono; [unfold need_gamma; nia|].
      intros gamma (pr & lp & rn & _ & HV). exact (perm_row theta beta gamma pr lp li lt [] rn HV). }
  assert (I : In (cell_value asg (col, r), peval (S_ i) (point r))
    (map (fun ir => (cell_value asg (nth (fst ir) (perm_columns c) (CFixed 0), snd ir), fpow DELTA (Z.of_nat (fst ir)) * point (snd ir))) (grid u (JJ v)))).
  { apply (Permutation_in _ PM). apply in_map_iff. exists (i, r). cbn [fst snd]. split.
    - rewrite (nth_error_nth _ _ _ Ei). reflexivity.
    - apply grid_in. split; [exact Hr|]. rewrite (JJ_concat v Hdeg). apply in_seq. lia. }
  apply in_map_iff in I. destruct I as ([i2 r2] & E2 & I2). cbn [fst snd] in E2. injection E2 as E2 E3.
  apply grid_in in I2. destruct I2 as [Hr2 I2]. rewrite (JJ_concat v Hdeg) in I2. apply in_seq in I2.
  rewrite Eg', DELTA_is in E3.
  destruct (tag_inj w k (Z.of_nat i2) (Z.of_nat r2) (Z.of_nat i') (Z.of_nat r') Hk28) as [T1 T2]; try lia.
  - rewrite <- Hn. exact (Hw d j k n Hn Hd).
  - assert (i' < m)%nat by (apply nth_error_Some; congruence). lia.
  - exact E3.
  - assert (i2 = i') by lia. assert (r2 = r') by lia. subst i2 r2. rewrite <- E2. rewrite (nth_error_nth _ _ _ Ei'). reflexivity.
Qed.
Theorem sound : satisfied c copies asg /\ length insts = num_instance c.
Proof.
  split; [split; [exact sound_gates|split; [exact sound_lookups|exact sound_copies]]|].
  destruct need_pos as (N1 & N2 & N3).
  destruct (many_one _ _ N1 tree) as (theta & li & lt & H).
  destruct (many_one _ _ N2 H) as (beta & H2).
  destruct (many_one _ _ N3 H2) as (gamma & pr & lp & rn & A & _). exact A.
Qed.
End Main.
