(** The values the prover computes for the quotient are those of the verifier's
    constraints. *)
From Coq Require Import ZArith List Arith Bool Lia.
From Verif Require Import Base Moduli Field FieldFacts ListFacts LimbSpec LimbField LimbConst PolyFacts Halo2Model SelectorModel
  PermModel PermFacts SelectorSpec SelectorClaims DomainModel DomainSpec DomainFacts VkModel IopModel IopPoly IopRows IopSpec IopLagrange
  IopTotal ArithModel ArithSpec FftFacts TransformFacts IopHonest GraphModel GraphFacts.
Import ListNotations.
Local Open Scope F_scope.

Section Quotient.
Variables (pk : pkey) (j k : Z) (n : nat).
Local Notation v := (pk_vk pk).
Local Notation d := (vk_domain v).
Local Notation c := (vk_cs v).
Local Notation w := (d_omega d).
Local Notation lg := (lag n (d_omega_inv d) (d_barycentric_weight d)).
Local Notation u := (usable_rows n c).
Local Notation bf := (blinding_factors c).
Local Notation clen := (chunk_len v).
Local Notation m := (length (perm_columns c)).
Local Notation rot := (rotate_omega d).
Hypothesis Hk : (0 <= k)%Z.
Hypothesis Hn : Z.of_nat n = (2 ^ k)%Z.
Hypothesis Hd : domain_for j k d.
Hypothesis Hg : d_g_coset d = ZETA.
Hypothesis Hwf : well_formed c.
Hypothesis Hdeg : vk_degree v = cs_degree c.
Hypothesis Hadv : forall q, In q (advice_queries c) -> (ac_index (fst q) < num_advice c)%nat.

Variables (insts : list (list Fr)) (chs : list Fr) (P : committed) (theta beta gamma y : Fr).
Hypothesis Hchs : length chs = num_challenges c.
Local Notation s := (length (JJ v)).

(** the polynomials the prover holds *)
Variables (advice instance sets : list (list Fr)) (lks : list lookup_polys).
Definition poly_is (p : list Fr) (f : Fr -> Fr) : Prop := length p = n /\ forall x, peval p x = f x.
Definition polys_are (ps : list (list Fr)) (N : nat) (f : nat -> Fr -> Fr) : Prop :=
  length ps = N /\ forall i, (i < N)%nat -> poly_is (nth i ps []) (f i).
Hypothesis HA : polys_are advice (num_advice c) (fun i => peval (cm_advice P i)).
Hypothesis HI : polys_are instance (num_instance c) (fun i => ipoly d n (nth i insts [])).
Hypothesis HF : polys_are (pk_fixed_polys pk) (num_fixed c) (fun i => peval (cm_fixed P i)).
Hypothesis HS : polys_are (pk_sigma_polys pk) m (fun i => peval (cm_sigma P i)).
Hypothesis HZ : polys_are sets s (fun i => peval (cm_product P i)).
Hypothesis HLz : polys_are (map lp_product lks) (length (lookups c)) (fun i => peval (cm_lproduct P i)).
Hypothesis HLa : polys_are (map lp_input lks) (length (lookups c)) (fun i => peval (cm_linput P i)).
Hypothesis HLt : polys_are (map lp_table lks) (length (lookups c)) (fun i => peval (cm_ltable P i)).
Hypothesis H0 : poly_is (pk_l0 pk) (lg 0).
Hypothesis Hlast : poly_is (pk_l_last pk) (lg u).
Hypothesis Hact : poly_is (pk_l_active_row pk) (activef d n v).
Hypothesis Hev : evaluator_new c = Ok (pk_ev pk).

Section Part.
Variable part : Fr.
Definition X (r : nat) : Fr := d_g_coset d * part * pt w r.
Definition vals (f : Fr -> Fr) : list Fr := map (fun r => f (X r)) (seq 0 n).

Lemma n_is : n = (2 ^ Z.to_nat k)%nat.
Proof. apply Nat2Z.inj. rewrite Hn, Nat2Z.inj_pow, Z2Nat.id by exact Hk. reflexivity. Qed.
Lemma to_part_is p f : poly_is p f -> to_part d part p = Ok (vals f).
Proof.
  intros [Lp Ep]. unfold to_part. rewrite (coeff_to_extended_part_ok _ _ _ _ fr_module j k d Hd Hk p part).
  - rewrite <- n_is. apply (f_equal Ok). apply map_ext. intro r. rewrite comb_peval. apply Ep.
  - rewrite <- n_is. exact Lp.
Qed.
Lemma polys_part ps N f : polys_are ps N f -> rmap (to_part d part) ps = Ok (map (fun i => vals (f i)) (seq 0 N)).
Proof.
  intros [L E]. rewrite (rmap_map _ (fun p => vals (peval p))).
  - apply (f_equal Ok). rewrite <- (map_nth_seq ps []) at 1. rewrite L, map_map. apply map_ext_in. intros i Hi. apply in_seq in Hi.
    apply map_ext. intro r. apply (E i). lia.
  - intros p Hp. destruct (In_nth ps p [] Hp) as [i [Hi <-]]. apply to_part_is. split; [|reflexivity].
    apply (E i). lia.
Qed.
Lemma X_rot idx t : (idx < n)%nat -> X (rotation_idx n idx t) = rot (X idx) t.
Proof.
  intro Hi. rewrite (rotate_omega_lin d j k n Hk Hn Hd). unfold X.
  change (rotation_idx n idx t) with (rotate n idx t). rewrite <- (point_rotate d j k n Hk Hn Hd). fring.
Qed.
Lemma n_pos : (0 < n)%nat.
Proof. enough (0 < Z.of_nat n)%Z by lia. rewrite Hn. apply Z.pow_pos_nonneg; lia. Qed.
Lemma rot_lt idx t : (rotation_idx n idx t < n)%nat.
Proof. unfold rotation_idx. pose proof n_pos. pose proof (Z.mod_pos_bound (Z.of_nat idx + t) (Z.of_nat n)). lia. Qed.
Lemma vals_at f r : (r < n)%nat -> at_ (vals f) r = Ok (f (X r)).
Proof.
  intro Hr. apply at_some. unfold vals. apply (map_nth_error (fun r => f (X r))).
  rewrite nth_error_nth' with (d := 0%nat) by (rewrite seq_length; exact Hr). rewrite seq_nth by exact Hr. reflexivity.
Qed.
Lemma cell_at N (f : nat -> Fr -> Fr) i r : (i < N)%nat -> (r < n)%nat ->
  cell (map (fun i => vals (f i)) (seq 0 N)) i r = Ok (f i (X r)).
Proof.
  intros Hi Hr. unfold cell. rewrite (at_some _ i (vals (f i))).
  - apply vals_at. exact Hr.
  - apply (map_nth_error (fun i => vals (f i))).
    rewrite nth_error_nth' with (d := 0%nat) by (rewrite seq_length; exact Hi). rewrite seq_nth by exact Hi. reflexivity.
Qed.

Definition E_ : env := Env (map (fun i => vals (peval (cm_fixed P i))) (seq 0 (num_fixed c)))
  (map (fun i => vals (peval (cm_advice P i))) (seq 0 (num_advice c)))
  (map (fun i => vals (ipoly d n (nth i insts []))) (seq 0 (num_instance c))) chs beta gamma theta y.

Section Row.
Variable idx : nat.
Hypothesis Hidx : (idx < n)%nat.
Local Notation x := (X idx).
Local Notation ex := (evalx v n insts chs P).

Lemma simple_is e : registered c e -> simple_evaluate E_ n idx e = Ok (ex e x).
Proof.
  unfold simple_evaluate, evalx. induction e; cbn [registered evaluate]; intro H.
  - reflexivity.
  - contradiction.
  - cbn [en_fixed E_]. rewrite (cell_at (num_fixed c) (fun i => peval (cm_fixed P i))).
    + rewrite X_rot by exact Hidx. reflexivity.
    + apply (wf_fixed _ Hwf (q_col q, q_rot q)). eapply nth_error_In, H.
    + apply rot_lt.
  - cbn [en_advice E_]. rewrite (cell_at (num_advice c) (fun i => peval (cm_advice P i))).
    + rewrite X_rot by exact Hidx. reflexivity.
    + apply (Hadv (ACol (q_col q) phase, q_rot q)). eapply nth_error_In, H.
    + apply rot_lt.
  - cbn [en_instance E_]. rewrite (cell_at (num_instance c) (fun i => ipoly d n (nth i insts []))).
    + rewrite X_rot by exact Hidx. reflexivity.
    + apply (wf_instance _ Hwf (q_col q, q_rot q)). eapply nth_error_In, H.
    + apply rot_lt.
  - cbn [en_challenges E_]. apply at_some. apply nth_error_nth'. rewrite Hchs. exact H.
  - rewrite (IHe H). reflexivity.
  - rewrite (IHe1 (proj1 H)), (IHe2 (proj2 H)). reflexivity.
  - rewrite (IHe1 (proj1 H)), (IHe2 (proj2 H)). reflexivity.
  - rewrite (IHe H). reflexivity.
Qed.

Local Notation hy := (fold_left (fun value e => value * y + e)).
Lemma gates_is : graph_evaluate (ev_gates (pk_ev pk)) E_ f0 n idx = Ok (hy (map (fun f => f x) (gate_fs v n insts chs P)) f0).
Proof.
  rewrite (gates_value E_ f0 n idx c (pk_ev pk) (map (fun f => f x) (gate_fs v n insts chs P)) Hev).
  - reflexivity.
  - unfold gate_fs. rewrite map_map. apply rmap_map. intros e He. apply simple_is. apply (wf_exprs _ Hwf). left. exact He.
Qed.

Lemma column_is col : In col (perm_columns c) -> env_column E_ col = Ok (vals (colf v n insts P col)).
Proof.
  intro H. pose proof (wf_perm _ Hwf _ H) as Q. destruct col as [a|i|i]; cbn [queried env_column colf] in *; apply at_some; cbn [E_ en_advice en_fixed en_instance].
  - apply (map_nth_error (fun i => vals (peval (cm_advice P i)))).
    pose proof (Hadv _ Q) as L. cbn [fst] in L. rewrite nth_error_nth' with (d := 0%nat) by (rewrite seq_length; exact L). rewrite seq_nth by exact L. reflexivity.
  - apply (map_nth_error (fun i => vals (peval (cm_fixed P i)))).
    pose proof (wf_fixed _ Hwf _ Q) as L. cbn [fst] in L. rewrite nth_error_nth' with (d := 0%nat) by (rewrite seq_length; exact L). rewrite seq_nth by exact L. reflexivity.
  - apply (map_nth_error (fun i => vals (ipoly d n (nth i insts [])))).
    pose proof (wf_instance _ Hwf _ Q) as L. cbn [fst] in L. rewrite nth_error_nth' with (d := 0%nat) by (rewrite seq_length; exact L). rewrite seq_nth by exact L. reflexivity.
Qed.

Lemma set_left_is : forall J (acc : Fr),
  set_left idx beta gamma (map (fun i => vals (vf v n insts P i)) J) (map (fun i => vals (sf P i)) J) acc =
  Ok (acc * denf v n insts P beta gamma J x).
Proof.
  unfold denf. induction J as [|i J IH]; intro acc; cbn [map set_left fprod].
  - apply (f_equal Ok). fring.
  - rewrite !vals_at by exact Hidx. cbn [bind]. rewrite IH. apply (f_equal Ok). fring.
Qed.
Lemma set_right_is b0 : forall len a (acc : Fr),
  set_right idx gamma (map (fun i => vals (vf v n insts P i)) (seq a len)) acc (b0 * fpow DELTA (Z.of_nat a)) =
  Ok (acc * fprod (map (fun i => vf v n insts P i x + b0 * fpow DELTA (Z.of_nat i) + gamma) (seq a len)), b0 * fpow DELTA (Z.of_nat (a + len))).
Proof.
  induction len as [|len IH]; intros a acc; cbn [seq map set_right fprod].
  - rewrite Nat.add_0_r. f_equal. f_equal. fring.
  - rewrite vals_at by exact Hidx. cbn [bind].
    replace (b0 * fpow DELTA (Z.of_nat a) * DELTA) with (b0 * fpow DELTA (Z.of_nat (S a))) by (rewrite fpow_S'; generalize DELTA; intros; fring).
    rewrite IH. replace (S a + len)%nat with (a + S len)%nat by lia. f_equal. f_equal. generalize DELTA. intros. fring.
Qed.

Local Notation numj := (numf v n insts P beta gamma).
Local Notation denj := (denf v n insts P beta gamma).
Lemma set_products_is active : forall Js i0 a (value : Fr), contig a Js ->
  (forall J i, In J Js -> In i J -> (i < m)%nat) ->
  set_products E_ idx (rotation_idx n idx 1) active (map (map (fun i => nth i (perm_columns c) (CFixed 0))) Js)
    (map (fun i => vals (zf P i)) (seq i0 (length Js))) (map (map (fun i => vals (sf P i))) Js)
    (beta * x * fpow DELTA (Z.of_nat a)) value =
  Ok (hy (map (fun iJ => (zf P (fst iJ) (rot x next) * denj (snd iJ) x - zf P (fst iJ) x * numj (snd iJ) x) * active)
        (combine (seq i0 (length Js)) Js)) value).
Proof.
  induction Js as [|J Js IH]; intros i0 a value Hc Hm; cbn [map length seq combine fold_left set_products]; [reflexivity|].
  destruct Hc as [HJ Hc]. rewrite vals_at by apply rot_lt. cbn [bind]. rewrite X_rot by exact Hidx.
  rewrite (rmap_map _ (fun col => vals (colf v n insts P col))).
  2:{ intros col Hin. apply in_map_iff in Hin as [i [<- Hi]]. apply column_is. apply nth_In. apply (Hm J i); [left; reflexivity|exact Hi]. }
  cbn [bind E_ en_beta en_gamma en_y]. rewrite map_map. change (fun x0 => vals (colf v n insts P (nth x0 (perm_columns c) (CFixed 0)))) with (fun i => vals (vf v n insts P i)).
  rewrite set_left_is. cbn [bind]. rewrite vals_at by exact Hidx. cbn [bind].
  pose proof (set_right_is (beta * x) (length J) a (zf P i0 x)) as Hr. rewrite <- HJ in Hr. rewrite Hr. cbn [bind fst snd].
  rewrite IH; [|exact Hc|intros J' i HJ' Hi; apply (Hm J' i); [right; exact HJ'|exact Hi]]. unfold numf. reflexivity.
Qed.
Lemma set_links_is l0 : forall N i0 (value : Fr),
  set_links E_ idx (rotation_idx n idx (LAST v)) l0 (vals (zf P i0)) (map (fun i => vals (zf P i)) (seq (S i0) N)) value =
  Ok (hy (map (fun i => (zf P (S i) x - zf P i (rot x (LAST v))) * l0) (seq i0 N)) value).
Proof.
  induction N as [|N IH]; intros i0 value; cbn [seq map fold_left set_links]; [reflexivity|].
  rewrite vals_at by exact Hidx. cbn [bind]. rewrite vals_at by apply rot_lt. cbn [bind]. rewrite X_rot by exact Hidx.
  cbn [E_ en_y]. rewrite IH. reflexivity.
Qed.
Lemma hy_app l1 l2 (a : Fr) : hy (l1 ++ l2) a = hy l2 (hy l1 a).
Proof. apply fold_left_app. Qed.
Lemma last_map_seq (f : nat -> list Fr) N : last (map f (seq 0 (S N))) [] = f N.
Proof. rewrite seq_S, map_app. apply last_last. Qed.
Lemma perm_value_is (value : Fr) :
  perm_value v E_ n idx part (lg 0 x) (lg u x) (activef d n v x) (map (fun i => vals (zf P i)) (seq 0 s))
    (match s with O => [] | S _ => map (fun i => vals (sf P i)) (seq 0 m) end) value =
  Ok (hy (map (fun f => f x) (first_fs v n P ++ last_fs v n P ++ link_fs v n P ++ prod_fs v n insts P beta gamma)) value).
Proof.
  unfold perm_value, first_fs, last_fs, link_fs, prod_fs. destruct s as [|q] eqn:Es.
  - cbn [seq map]. assert (EJ : JJ v = []) by (apply length_zero_iff_nil; exact Es). rewrite EJ. reflexivity.
  - change (map (fun i => vals (zf P i)) (seq 0 (S q))) with (vals (zf P 0) :: map (fun i => vals (zf P i)) (seq 1 q)) at 1.
    cbv beta iota zeta. rewrite vals_at by exact Hidx. cbn [bind].
    rewrite last_map_seq, vals_at by exact Hidx. cbn [bind].
    change (- (Z.of_nat bf + 1))%Z with (LAST v). rewrite set_links_is. cbn [bind].
    assert (Ec : (cs_degree c - 2)%nat = clen) by (unfold chunk_len; rewrite Hdeg; reflexivity). rewrite Ec.
    rewrite chunk_columns, chunks_map. fold (JJ v). rewrite <- Es.
    assert (Eb : en_beta E_ * ZETA * (part * pow_vartime w (Z.of_nat idx)) = beta * x * fpow DELTA (Z.of_nat 0)).
    { rewrite pow_vartime_is by lia. cbn [E_ en_beta]. unfold X. rewrite Hg. change (fpow DELTA (Z.of_nat 0)) with (@f1 r_pos).
      unfold pt. generalize ZETA. intros. fring. }
    rewrite Eb, set_products_is.
    + rewrite !map_app, !hy_app. cbn [map fold_left E_ en_y]. rewrite !map_map. replace (s - 1)%nat with q by (rewrite Es; lia).
      replace ((f1 - zf P 0 x) * lg 0 x) with (lg 0 x * (f1 - zf P 0 x)) by fring. reflexivity.
    + unfold JJ, chunks. apply chunks_contig. apply clen_pos. exact Hdeg.
    + intros J i HJ Hi. assert (I : In i (concat (JJ v))) by (apply in_concat; eauto). rewrite JJ_concat in I by exact Hdeg.
      apply in_seq in I. lia.
Qed.
Lemma lookup_value_is i l g (value : Fr) : nth_error (lookups c) i = Some l -> lookup_graph l = Ok g ->
  lookup_value E_ n idx (lg 0 x) (lg u x) (activef d n v x) g
    (LPolys (vals (peval (cm_lproduct P i))) (vals (peval (cm_linput P i))) (vals (peval (cm_ltable P i)))) value =
  Ok (hy (map (fun f => f x) (lk_fs v n insts chs P theta beta gamma (i, l))) value).
Proof.
  intros Hl Hgr. unfold lookup_value.
  assert (R : forall e, In e (fst l) \/ In e (snd l) -> simple_evaluate E_ n idx e = Ok (ex e x)).
  { intros e He. apply simple_is. apply (wf_exprs _ Hwf). right. unfold lookup_exprs. apply in_flat_map. exists l.
    split; [eapply nth_error_In; exact Hl|]. apply in_app_iff. exact He. }
  rewrite (lookup_graph_value E_ f0 n idx l g (map (fun e => ex e x) (fst l)) (map (fun e => ex e x) (snd l)) Hgr)
    by (apply rmap_map; intros e He; apply R; auto).
  cbn [bind lp_input lp_table lp_product]. rewrite !vals_at by (try exact Hidx; apply rot_lt). cbn [bind].
  rewrite !X_rot by exact Hidx. cbn [E_ en_y en_beta en_gamma en_theta lk_fs map fold_left].
  apply (f_equal Ok). unfold cmp, compress, GraphFacts.horner, next, prev.
  generalize (fold_left (fun value p : Fr => value * theta + p) (map (fun e => ex e x) (fst l)) f0).
  generalize (fold_left (fun value p : Fr => value * theta + p) (map (fun e => ex e x) (snd l)) f0).
  intros T A. fring.
Qed.
Lemma lookup_values_is : forall ls i0 gs (value : Fr),
  (forall p l, nth_error ls p = Some l -> nth_error (lookups c) (i0 + p) = Some l) -> rmap lookup_graph ls = Ok gs ->
  lookup_values E_ n idx (lg 0 x) (lg u x) (activef d n v x) gs
    (map (fun i => LPolys (vals (peval (cm_lproduct P i))) (vals (peval (cm_linput P i))) (vals (peval (cm_ltable P i)))) (seq i0 (length ls))) value =
  Ok (hy (map (fun f => f x) (flat_map (lk_fs v n insts chs P theta beta gamma) (combine (seq i0 (length ls)) ls))) value).
Proof.
  induction ls as [|l ls IH]; intros i0 gs value Hl Hr; cbn [rmap] in Hr.
  - destruct gs; reflexivity.
  - destruct (lookup_graph l) as [g|] eqn:Eg; cbn [bind] in Hr; [|discriminate].
    destruct (rmap lookup_graph ls) as [gs'|] eqn:Er; cbn [bind] in Hr; [|discriminate]. inversion Hr; subst.
    cbn [length seq map lookup_values combine flat_map].
    rewrite (lookup_value_is i0 l g value); [|rewrite <- (Nat.add_0_r i0); apply Hl; reflexivity|exact Eg]. cbn [bind].
    rewrite IH; [|intros p l' Hp; replace (S i0 + p)%nat with (i0 + S p)%nat by lia; apply (Hl (S p)); exact Hp|reflexivity].
    rewrite map_app, hy_app. reflexivity.
Qed.
End Row.

Lemma lks_part : rmap (fun l => let! z := to_part d part (lp_product l) in let! a := to_part d part (lp_input l) in
    let! t := to_part d part (lp_table l) in Ok (LPolys z a t)) lks =
  Ok (map (fun i => LPolys (vals (peval (cm_lproduct P i))) (vals (peval (cm_linput P i))) (vals (peval (cm_ltable P i)))) (seq 0 (length (lookups c)))).
Proof.
  destruct HLz as [Lz Ez], HLa as [La Ea], HLt as [Lt Et]. rewrite map_length in *.
  set (dl := LPolys [] [] []).
  assert (Nz : forall i, nth i (map lp_product lks) [] = lp_product (nth i lks dl)) by (intro i; apply (map_nth lp_product lks dl)).
  assert (Na : forall i, nth i (map lp_input lks) [] = lp_input (nth i lks dl)) by (intro i; apply (map_nth lp_input lks dl)).
  assert (Nt : forall i, nth i (map lp_table lks) [] = lp_table (nth i lks dl)) by (intro i; apply (map_nth lp_table lks dl)).
  rewrite (rmap_map _ (fun l => LPolys (vals (peval (lp_product l))) (vals (peval (lp_input l))) (vals (peval (lp_table l))))).
  - apply (f_equal Ok). rewrite <- (map_nth_seq lks dl) at 1. rewrite Lz, map_map. apply map_ext_in. intros i Hi. apply in_seq in Hi.
    f_equal; unfold vals; apply map_ext; intro r; [rewrite <- Nz; apply (Ez i)|rewrite <- Na; apply (Ea i)|rewrite <- Nt; apply (Et i)]; lia.
  - intros l Hl. destruct (In_nth lks l dl Hl) as [i [Hi <-]].
    rewrite (to_part_is _ (peval (lp_product (nth i lks dl)))) by (split; [rewrite <- Nz; apply (Ez i); lia|reflexivity]). cbn [bind].
    rewrite (to_part_is _ (peval (lp_input (nth i lks dl)))) by (split; [rewrite <- Na; apply (Ea i); lia|reflexivity]). cbn [bind].
    rewrite (to_part_is _ (peval (lp_table (nth i lks dl)))) by (split; [rewrite <- Nt; apply (Et i); lia|reflexivity]). reflexivity.
Qed.

Lemma h_part_is : h_part pk advice instance chs y beta gamma theta lks sets part =
  Ok (map (fun r => compress y (map (fun f => f (X r)) (all_fs v n insts chs P theta beta gamma))) (seq 0 n)).
Proof.
  unfold h_part. destruct (df_size _ _ _ Hd) as (_ & Ek & _). rewrite Ek.
  assert (En : Z.to_nat (2 ^ k) = n) by lia. rewrite En.
  rewrite (polys_part _ _ _ HF). cbn [bind].
  rewrite (to_part_is _ _ H0), (to_part_is _ _ Hlast), (to_part_is _ _ Hact). cbn [bind].
  rewrite (polys_part _ _ _ HA). cbn [bind]. rewrite (polys_part _ _ _ HI). cbn [bind]. rewrite (polys_part _ _ _ HZ). cbn [bind].
  assert (Esg : (match sets with [] => Ok [] | _ :: _ => rmap (to_part d part) (pk_sigma_polys pk) end) =
    Ok (match s with O => [] | S _ => map (fun i => vals (sf P i)) (seq 0 m) end)).
  { pose proof (proj1 HZ) as Ls. destruct sets as [|z0 zs], s; try discriminate Ls; [reflexivity|]. apply (polys_part _ _ _ HS). }
  rewrite Esg. cbn [bind]. rewrite lks_part. cbn [bind].
  apply rmap_map. intros idx Hi. apply in_seq in Hi. assert (Hidx : (idx < n)%nat) by lia.
  change (Env _ _ _ _ _ _ _ _) with E_.
  rewrite (gates_is idx Hidx). cbn [bind]. rewrite !vals_at by exact Hidx. cbn [bind].
  change (map (fun i => vals (peval (cm_product P i))) (seq 0 s)) with (map (fun i => vals (zf P i)) (seq 0 s)).
  rewrite (perm_value_is idx Hidx). cbn [bind].
  assert (Eg : rmap lookup_graph (lookups c) = Ok (ev_lookup_graphs (pk_ev pk))).
  { revert Hev. unfold evaluator_new. destruct (add_expressions _ _) as [[ps g]|]; cbn [bind]; [|discriminate].
    destruct (rmap lookup_graph (lookups c)); cbn [bind]; [|discriminate]. intro H. inversion H. reflexivity. }
  rewrite (lookup_values_is idx Hidx (lookups c) 0 _ _ (fun p l H => H) Eg).
  apply (f_equal Ok). unfold all_fs, compress. rewrite !(map_app (fun f : Fr -> Fr => f (X idx))). rewrite !fold_left_app. reflexivity.
Qed.
End Part.

Lemma h_parts_is f (g : Fr -> list Fr) omega : (forall a, f a = Ok (g a)) -> forall count part,
  h_parts count f omega part = Ok (map (fun p => g (part * fpow omega (Z.of_nat p))) (seq 0 count)).
Proof.
  intro H. induction count as [|count IH]; intro part; cbn [h_parts]; [reflexivity|].
  rewrite H. cbn [bind]. rewrite IH. cbn [bind seq map]. apply (f_equal Ok).
  f_equal; [f_equal; change (fpow omega (Z.of_nat 0)) with (@f1 r_pos); fring|]. rewrite <- seq_shift, map_map. apply map_ext. intro p.
  f_equal. rewrite fpow_S'. fring.
Qed.
(** [evaluate_h] computes the constraints on the coset *)
Theorem evaluate_h_is : evaluate_h pk advice instance chs y beta gamma theta lks sets =
  Ok (map (fun i => compress y (map (fun f => f (d_g_coset d * fpow (d_extended_omega d) (Z.of_nat i))) (all_fs v n insts chs P theta beta gamma)))
        (seq 0 (2 ^ Z.to_nat (d_extended_k d)))).
Proof.
  unfold evaluate_h. rewrite (h_parts_is _ (fun part => map (fun r => compress y (map (fun f => f (X part r)) (all_fs v n insts chs P theta beta gamma))) (seq 0 n)))
    by apply h_part_is. cbn [bind].
  destruct (df_size _ _ _ Hd) as (_ & Ek & _). rewrite Ek, (pn_eq j k d Hd), Nat2Z.id.
  pose proof (from_parts_ok f0 j k d Hd Hk (fun x => compress y (map (fun f => f x) (all_fs v n insts chs P theta beta gamma)))) as Hp.
  rewrite <- n_is in Hp. etransitivity; [|exact Hp]. f_equal. apply map_ext. intro p. apply map_ext. intro r. f_equal. apply map_ext. intro f. f_equal.
  unfold X, pt. fring.
Qed.
End Quotient.
