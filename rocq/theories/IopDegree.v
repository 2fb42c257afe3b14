(** Degrees of the constraints: enough evaluation points make the verifier's
    equation an identity, so all constraints vanish on the rows. *)
From Coq Require Import ZArith List Arith Lia Bool Permutation.
From Verif Require Import Base ListFacts Moduli Field FieldFacts LimbSpec LimbField LimbConst PolyFacts Halo2Model SelectorModel
  PermModel SelectorSpec SelectorClaims DomainModel DomainSpec DomainFacts VkModel
  IopModel IopPoly IopRows IopSpec IopLagrange IopTotal IopAccept.
Import ListNotations.
Local Open Scope F_scope.

Section Degree.
Variables (v : vkey) (j k : Z) (n : nat).
Hypothesis Hk : (0 <= k)%Z.
Hypothesis Hn : Z.of_nat n = (2 ^ k)%Z.
Hypothesis Hd : domain_for j k (vk_domain v).
Hypothesis Hj : (Z.of_nat (vk_degree v) <= j)%Z.
Local Notation d := (vk_domain v).
Local Notation c := (vk_cs v).
Local Notation m := (length (perm_columns c)).
Local Notation rot := (rotate_omega d).
Local Notation u := (usable_rows n c).
Hypothesis Hrows : (minimum_rows c <= n)%nat.
Hypothesis Hwf : well_formed c.
Hypothesis Hdeg : vk_degree v = cs_degree c.
Hypothesis Hperm : length (vk_permutation v) = m.
Variables (insts : list (list Fr)) (chs : list Fr) (P : committed) (theta beta gamma : Fr).
Hypothesis Hchs : length chs = num_challenges c.
Hypothesis Hb : bounded v n P.
Local Notation Fs := (all_fs v n insts chs P theta beta gamma).
Local Notation lg := (lag n (d_omega_inv d) (d_barycentric_weight d)).
Local Notation point := (pt (d_omega d)).

(** functions of degree at most t(n-1) *)
Definition fdeg (t : nat) (f : Fr -> Fr) : Prop := polyfun (S (t * (n - 1))) f.
Lemma n_ge2 : (2 <= n)%nat.
Proof using Hrows. clear - Hrows. pose proof (rows_split n v Hrows). lia. Qed.
Lemma fdeg_poly f : polyfun n f -> fdeg 1 f.
Proof. intros H. unfold fdeg. pose proof n_ge2. replace (S (1 * (n - 1))) with n by lia. exact H. Qed.
Lemma fdeg_mono t t' f : (t <= t')%nat -> fdeg t f -> fdeg t' f.
Proof. intros L. apply polyfun_mono. nia. Qed.
Lemma fdeg_mul t t' f g : fdeg t f -> fdeg t' g -> fdeg (t + t') (fun x => f x * g x).
Proof.
  intros Hf Hg. unfold fdeg. replace (S ((t + t') * (n - 1))) with (S (t * (n - 1)) + t' * (n - 1))%nat by lia.
  apply polyfun_mul; assumption.
Qed.
Lemma fdeg_add t f g : fdeg t f -> fdeg t g -> fdeg t (fun x => f x + g x).
Proof. apply polyfun_add. Qed.
Lemma fdeg_sub t f g : fdeg t f -> fdeg t g -> fdeg t (fun x => f x - g x).
Proof. apply polyfun_sub. Qed.
Lemma fdeg_const t a : fdeg t (fun _ => a).
Proof. apply polyfun_const. apply Nat.lt_0_succ. Qed.
Lemma fdeg_rot t f z : fdeg t f -> fdeg t (fun x => f (rot x z)).
Proof.
  intros H. apply (polyfun_ext _ (fun x => f (pt (d_omega d) (rotate n 0 z) * x))).
  - intros x. rewrite (rotate_omega_lin d j k n Hk Hn Hd). reflexivity.
  - apply (polyfun_arg _ (pt (d_omega d) (rotate n 0 z)) f H).
Qed.
Lemma fdeg_ext t f g : (forall x, f x = g x) -> fdeg t f -> fdeg t g.
Proof. apply polyfun_ext. Qed.
Lemma fdeg_scale t a f : fdeg t f -> fdeg t (fun x => a * f x).
Proof. apply polyfun_scale. Qed.
Lemma fdeg_id : fdeg 1 (fun x => x).
Proof. apply fdeg_poly, (polyfun_mono 2); [apply n_ge2|apply polyfun_id]. Qed.
Lemma fdeg_list l : (length l <= n)%nat -> fdeg 1 (peval l).
Proof. intros L. apply fdeg_poly, polyfun_peval, L. Qed.
Lemma fdeg_lag i : fdeg 1 (lg i).
Proof. apply fdeg_poly, lag_poly. Qed.
Lemma fdeg_act : fdeg 1 (activef d n v).
Proof. apply fdeg_poly. apply (activef_poly d j k n Hn Hd v). Qed.
Lemma fdeg_prod {A} t (F : A -> Fr -> Fr) l : (forall a, In a l -> fdeg t (F a)) -> fdeg (t * length l) (fun x => fprod (map (fun a => F a x) l)).
Proof.
  induction l as [|a l IH]; intros H; cbn [map fprod length]; [apply fdeg_const|].
  replace (t * S (length l))%nat with (t + t * length l)%nat by lia. apply fdeg_mul; [apply H; left; reflexivity|].
  apply IH. intros b I. apply H. right. exact I.
Qed.
Lemma fdeg_zf i : fdeg 1 (zf P i).
Proof. apply fdeg_list, (bd_product _ _ _ Hb). Qed.
Lemma fdeg_sf i : fdeg 1 (sf P i).
Proof. apply fdeg_list, (bd_sigma _ _ _ Hb). Qed.
Lemma fdeg_ip inst : fdeg 1 (ipoly d n inst).
Proof. apply fdeg_poly, ipoly_poly. Qed.
Lemma fdeg_vf i : fdeg 1 (vf v n insts P i).
Proof.
  unfold vf, colf. destruct (nth i (perm_columns c) (CFixed 0)).
  - apply fdeg_list, (bd_advice _ _ _ Hb).
  - apply fdeg_list, (bd_fixed _ _ _ Hb).
  - apply fdeg_ip.
Qed.
Lemma fdeg_expr e : fdeg (degree e) (evalx v n insts chs P e).
Proof.
  induction e; unfold evalx; cbn [evaluate degree].
  - apply fdeg_const.
  - apply (fdeg_mono 0); [lia|]. apply fdeg_const.
  - apply (fdeg_rot 1 (peval (cm_fixed P (q_col q)))), fdeg_list, (bd_fixed _ _ _ Hb).
  - apply (fdeg_rot 1 (peval (cm_advice P (q_col q)))), fdeg_list, (bd_advice _ _ _ Hb).
  - apply (fdeg_rot 1 (ipoly d n _)), fdeg_ip.
  - apply fdeg_const.
  - apply polyfun_opp. exact IHe.
  - apply fdeg_add; [apply (fdeg_mono (degree e1)); [lia|exact IHe1]|apply (fdeg_mono (degree e2)); [lia|exact IHe2]].
  - apply fdeg_mul; assumption.
  - apply (fdeg_ext _ (fun x => f * evalx v n insts chs P e x)); [intros x; unfold evalx; fring|apply fdeg_scale, IHe].
Qed.
Lemma fdeg_cmp es t : (forall e, In e es -> (degree e <= t)%nat) -> fdeg t (cmp v n insts chs P theta es).
Proof.
  intros H. unfold cmp, compress.
  assert (G : forall l f, fdeg t f -> (forall e, In e l -> (degree e <= t)%nat) ->
    fdeg t (fun x => fold_left (fun acc e => acc * theta + e) (map (fun e => evalx v n insts chs P e x) l) (f x))).
  { induction l as [|e l IH]; intros f Hf Hl; [exact Hf|]. cbn [map fold_left].
    apply (IH (fun x => f x * theta + evalx v n insts chs P e x)); [|intros e' I; apply Hl; right; exact I].
    apply fdeg_add.
    - apply (fdeg_ext _ (fun x => theta * f x)); [intros x; fring|apply fdeg_scale, Hf].
    - apply (fdeg_mono (degree e)); [apply Hl; left; reflexivity|apply fdeg_expr]. }
  apply (G es (fun _ => f0)); [apply fdeg_const|exact H].
Qed.
Lemma max_fold_ge es : forall a, (a <= fold_left (fun acc e => Nat.max acc (degree e)) es a)%nat /\
  forall e, In e es -> (degree e <= fold_left (fun acc e => Nat.max acc (degree e)) es a)%nat.
Proof.
  induction es as [|x es IH]; intros a; cbn [fold_left]; [split; [lia|contradiction]|].
  destruct (IH (Nat.max a (degree x))) as [A B]. split; [lia|]. intros e [<-|I]; [lia|apply B, I].
Qed.
Lemma lookup_degree_le l : In l (lookups c) -> (lookup_degree l <= cs_degree c)%nat.
Proof.
  intros I. unfold cs_degree. pose proof (max_list_ge (map lookup_degree (lookups c)) 1 (lookup_degree l) (in_map _ _ _ I)). lia.
Qed.
Lemma fs_degree f : In f Fs -> fdeg (cs_degree c) f.
Proof.
  pose proof (degree_bound v) as D3. unfold all_fs. rewrite !in_app_iff.
  intros [I|[[I|[I|[I|I]]]|I]].
  - unfold gate_fs in I. apply in_map_iff in I. destruct I as (e & <- & I).
    apply (fdeg_mono (degree e)); [apply gate_degree, I|apply fdeg_expr].
  - unfold first_fs in I. destruct (length (JJ v)); [contradiction|]. destruct I as [<-|[]].
    apply (fdeg_mono (1 + 1)); [lia|]. apply fdeg_mul; [apply fdeg_lag|]. apply fdeg_sub; [apply fdeg_const|apply fdeg_zf].
  - unfold last_fs in I. destruct (length (JJ v)) as [|q]; [contradiction|]. destruct I as [<-|[]].
    apply (fdeg_mono (2 + 1)); [lia|]. apply fdeg_mul; [|apply fdeg_lag]. apply fdeg_sub.
    + apply (fdeg_mul 1 1); apply fdeg_zf.
    + apply (fdeg_mono 1); [lia|apply fdeg_zf].
  - unfold link_fs in I. apply in_map_iff in I. destruct I as (i & <- & _).
    apply (fdeg_mono (1 + 1)); [lia|]. apply fdeg_mul; [|apply fdeg_lag]. apply fdeg_sub; [apply fdeg_zf|apply fdeg_rot, fdeg_zf].
  - unfold prod_fs in I. apply in_map_iff in I. destruct I as ([i J] & <- & I). apply enum_nth in I.
    destruct (JJ_seq v Hdeg i J I) as [_ LJ]. cbn [fst snd].
    assert (CL : chunk_len v = (cs_degree c - 2)%nat) by (unfold chunk_len; rewrite Hdeg; reflexivity).
    apply (fdeg_mono ((1 + length J) + 1)); [lia|].
    apply fdeg_mul; [|apply fdeg_act].
    apply fdeg_sub; (apply fdeg_mul; [try apply fdeg_rot; apply fdeg_zf|]); unfold denf, numf;
      rewrite <- (Nat.mul_1_l (length J)).
    + apply (fdeg_prod 1 (fun i x => vf v n insts P i x + beta * sf P i x + gamma)).
      intros q _. apply fdeg_add; [|apply fdeg_const]. apply fdeg_add; [apply fdeg_vf|apply fdeg_scale, fdeg_sf].
    + apply (fdeg_prod 1 (fun i x => vf v n insts P i x + beta * x * fpow DELTA (Z.of_nat i) + gamma)).
      intros q _. apply fdeg_add; [|apply fdeg_const]. apply fdeg_add; [apply fdeg_vf|].
      generalize (fpow DELTA (Z.of_nat q)). intros D.
      apply (fdeg_ext _ (fun x => (beta * D) * x)); [intros x; fring|apply fdeg_scale, fdeg_id].
  - apply in_flat_map in I. destruct I as ([i l] & Il & I). apply enum_nth, nth_error_In in Il.
    pose proof (lookup_degree_le l Il) as LD. unfold lookup_degree in LD.
    pose proof (max_fold_ge (fst l) 1) as [M1 M1']. pose proof (max_fold_ge (snd l) 1) as [M2 M2'].
    assert (Fp : fdeg 1 (peval (cm_lproduct P i))) by apply fdeg_list, (bd_lproduct _ _ _ Hb).
    assert (Fa : fdeg 1 (peval (cm_linput P i))) by apply fdeg_list, (bd_linput _ _ _ Hb).
    assert (Ft : fdeg 1 (peval (cm_ltable P i))) by apply fdeg_list, (bd_ltable _ _ _ Hb).
    pose proof (fdeg_cmp (fst l) _ M1') as C1. pose proof (fdeg_cmp (snd l) _ M2') as C2.
    set (d1 := fold_left _ (fst l) 1%nat) in *. set (d2 := fold_left _ (snd l) 1%nat) in *.
    unfold lk_fs in I. destruct I as [<-|[<-|[<-|[<-|[<-|[]]]]]].
    + apply (fdeg_mono (1 + 1)); [lia|]. apply fdeg_mul; [apply fdeg_lag|]. apply fdeg_sub; [apply fdeg_const|exact Fp].
    + apply (fdeg_mono (1 + 2)); [lia|]. apply fdeg_mul; [apply fdeg_lag|]. apply fdeg_sub; [apply (fdeg_mul 1 1); exact Fp|].
      apply (fdeg_mono 1); [lia|exact Fp].
    + apply (fdeg_mono ((1 + d1 + d2) + 1)); [lia|]. apply fdeg_mul; [|apply fdeg_act]. apply fdeg_sub.
      * apply (fdeg_mono (1 + 1 + 1)); [lia|]. apply fdeg_mul; [apply fdeg_mul|].
        -- apply fdeg_rot, Fp.
        -- apply fdeg_add; [exact Fa|apply fdeg_const].
        -- apply fdeg_add; [exact Ft|apply fdeg_const].
      * apply fdeg_mul; [apply fdeg_mul|].
        -- exact Fp.
        -- apply fdeg_add; [exact C1|apply fdeg_const].
        -- apply fdeg_add; [exact C2|apply fdeg_const].
    + apply (fdeg_mono (1 + 1)); [lia|]. apply fdeg_mul; [apply fdeg_lag|]. apply fdeg_sub; [exact Fa|exact Ft].
    + apply (fdeg_mono (1 + 1 + 1)); [lia|]. apply fdeg_mul; [apply fdeg_mul|apply fdeg_act].
      * apply fdeg_sub; [exact Fa|exact Ft].
      * apply fdeg_sub; [exact Fa|apply fdeg_rot, Fa].
Qed.
Lemma need_x_is : need_x v n = (Z.to_nat j * n)%nat /\ (3 <= Z.to_nat j)%nat /\ (cs_degree c <= Z.to_nat j)%nat.
Proof using Hd Hj Hdeg.
  clear - Hd Hj Hdeg.
  unfold need_x. rewrite (proj2 (proj2 (df_size _ _ _ Hd))). pose proof (degree_bound v). rewrite Hdeg in Hj.
  split; [|lia]. f_equal. lia.
Qed.
Lemma fs_poly f : In f Fs -> polyfun (need_x v n) f.
Proof.
  intros I. apply (polyfun_mono (S (cs_degree c * (n - 1)))); [|apply fs_degree, I].
  destruct need_x_is as (-> & J3 & JD). pose proof n_ge2. nia.
Qed.
Lemma compress_poly dd y (fs : list (Fr -> Fr)) : (forall f, In f fs -> polyfun dd f) ->
  polyfun dd (fun x => compress y (map (fun f => f x) fs)).
Proof.
  intros H. unfold compress.
  assert (G : forall l f, polyfun dd f -> (forall e, In e l -> polyfun dd e) ->
    polyfun dd (fun x => fold_left (fun acc e => acc * y + e) (map (fun f => f x) l) (f x))).
  { induction l as [|e l IH]; intros f Hf Hl; [exact Hf|]. cbn [map fold_left].
    apply (IH (fun x => f x * y + e x)); [|intros e' I; apply Hl; right; exact I].
    apply polyfun_add; [|apply Hl; left; reflexivity].
    apply (polyfun_ext _ (fun x => y * f x)); [intros x; fring|apply polyfun_scale, Hf]. }
  apply (G fs (fun _ => f0)); [apply polyfun_zero_fun|exact H].
Qed.

(** the quotient assembled from its pieces *)
Fixpoint pieces (hs : list (list Fr)) (x xn : Fr) : Fr :=
  match hs with [] => f0 | h :: hs => peval h x + xn * pieces hs x xn end.
Lemma h_combine_is xn hs x : peval (h_combine (fun x => map (fmul x)) padd [] xn hs) x = pieces hs x xn.
Proof.
  unfold h_combine. rewrite <- fold_left_rev_right, rev_involutive. induction hs as [|h hs IH]; [reflexivity|].
  cbn [fold_right pieces]. rewrite padd_eval, pscale_eval, IH. fring.
Qed.
Lemma pieces_poly hs : (forall h, In h hs -> (length h <= n)%nat) -> polyfun (length hs * n) (fun x => pieces hs x (fpow x (2 ^ k)%Z)).
Proof.
  induction hs as [|h hs IH]; intros H; [apply polyfun_zero_fun|]. cbn [pieces length].
  apply polyfun_add.
  - apply (polyfun_mono n); [lia|]. apply polyfun_peval, H. left. reflexivity.
  - apply (polyfun_ext _ (fun x => pieces hs x (fpow x (2 ^ k)%Z) * fpow x (Z.of_nat n))); [intros x; rewrite Hn; fring|].
    replace (S (length hs) * n)%nat with (length hs * n + n)%nat by lia. apply polyfun_mul; [|apply polyfun_pow].
    apply IH. intros q I. apply H. right. exact I.
Qed.
Lemma quotient_poly : polyfun (need_x v n) (fun x => quotient_at k P x * (fpow x (2 ^ k)%Z - f1)).
Proof.
  destruct (bd_quotient _ _ _ Hb) as [LQ HQ].
  unfold need_x. replace ((Z.to_nat (d_quotient_poly_degree d) + 1) * n)%nat with (length (cm_quotient P) * n + n)%nat.
  2:{ change (fe r_pos) with Fr in *. rewrite LQ. lia. }
  apply polyfun_mul.
  - apply (polyfun_ext _ (fun x => pieces (cm_quotient P) x (fpow x (2 ^ k)%Z))).
    + intros x. unfold quotient_at. cbn [poly_of]. rewrite h_combine_is. reflexivity.
    + apply pieces_poly, HQ.
  - apply polyfun_sub; [rewrite <- Hn; apply polyfun_pow|apply polyfun_const; lia].
Qed.
Lemma row_sum y : many (need_x v n) (fun x => accepts v (2 ^ k) insts chs theta beta gamma y x P) ->
  forall r, (r < n)%nat -> compress y (map (fun f => f (point r)) Fs) = f0.
Proof.
  intros (l & Nl & Ll & Hl) r Hr.
  assert (E : forall x, compress y (map (fun f => f x) Fs) = quotient_at k P x * (fpow x (2 ^ k)%Z - f1)).
  { apply (polyfun_eq (need_x v n) (fun x => compress y (map (fun f => f x) Fs)) (fun x => quotient_at k P x * (fpow x (2 ^ k)%Z - f1)) l).
    - apply compress_poly, fs_poly.
    - apply quotient_poly.
    - exact Nl.
    - exact Ll.
    - intros a Ia. apply (accepts_inv v j k n Hk Hn Hd Hrows Hwf Hdeg Hperm insts chs P theta beta gamma Hchs y a (Hl a Ia)). }
  rewrite E, <- Hn. rewrite (pt_pow_n n (d_omega d) (Hw d j k n Hn Hd) r). generalize (quotient_at k P (point r)). intros. fring.
Qed.
Lemma fs_length : length Fs = need_y v.
Proof using.
  clear.
  unfold all_fs, need_y, gate_exprs, perm_constraints. rewrite !app_length. unfold gate_fs. rewrite map_length, (sets_count v).
  assert (X : length (flat_map (lk_fs v n insts chs P theta beta gamma) (enum (lookups c))) = (5 * length (lookups c))%nat).
  { rewrite <- (enum_length (lookups c)). induction (enum (lookups c)) as [|[i l] q IH]; [reflexivity|].
    cbn [flat_map]. rewrite app_length, IH. cbn [lk_fs length]. lia. }
  rewrite X. unfold first_fs, last_fs, link_fs, prod_fs. rewrite !map_length, seq_length, enum_length.
  destruct (length (JJ v)) as [|q]; cbn [length Nat.eqb]; lia.
Qed.
End Degree.

(** what enough answers in [y] and [x] give *)
Section Rows.
Variables (v : vkey) (j k : Z) (n : nat).
Hypothesis Hk : (0 <= k)%Z.
Hypothesis Hn : Z.of_nat n = (2 ^ k)%Z.
Hypothesis Hd : domain_for j k (vk_domain v).
Hypothesis Hj : (Z.of_nat (vk_degree v) <= j)%Z.
Hypothesis Hrows : (minimum_rows (vk_cs v) <= n)%nat.
Hypothesis Hwf : well_formed (vk_cs v).
Hypothesis Hdeg : vk_degree v = cs_degree (vk_cs v).
Hypothesis Hperm : length (vk_permutation v) = length (perm_columns (vk_cs v)).
Variables (insts : list (list Fr)) (chs : list Fr) (theta beta gamma : Fr)
  (advice F S product lproduct linput ltable : nat -> list Fr) (random : list Fr).
Hypothesis Hchs : length chs = num_challenges (vk_cs v).
Let P q := Committed advice F S product lproduct linput ltable q random.
Theorem rows_vanish :
  many (Nat.max 1 (need_y v)) (fun y => exists quotient, bounded v n (P quotient) /\
    many (need_x v n) (fun x => accepts v (2 ^ k) insts chs theta beta gamma y x (P quotient))) ->
  bounded v n (P (repeat [] (Z.to_nat (d_quotient_poly_degree (vk_domain v))))) /\
  length insts = num_instance (vk_cs v) /\
  forall f r, In f (all_fs v n insts chs (P []) theta beta gamma) -> (r < n)%nat -> f (pt (d_omega (vk_domain v)) r) = f0.
Proof.
  intros HM. split; [|split].
  - destruct (many_one _ _ (Nat.le_max_l _ _) HM) as (y & q & B & _). destruct B. constructor; try assumption.
    cbn [cm_quotient P]. split; [apply repeat_length|]. intros h I. apply repeat_spec in I. subst h. cbn [length]. lia.
  - destruct (many_one _ _ (Nat.le_max_l _ _) HM) as (y & q & B & HX).
    assert (X1 : (1 <= need_x v n)%nat).
    { destruct (need_x_is v j k n Hd Hj Hdeg) as (-> & J3 & _). pose proof (n_ge2 v n Hrows). nia. }
    destruct (many_one _ _ X1 HX) as (x & A).
    apply (accepts_inv v j k n Hk Hn Hd Hrows Hwf Hdeg Hperm insts chs (P q) theta beta gamma Hchs y x A).
  - intros f r If Hr.
    destruct HM as (l & Nl & Ll & Hl).
    assert (Z : zeros (rev (map (fun f => f (pt (d_omega (vk_domain v)) r)) (all_fs v n insts chs (P []) theta beta gamma)))).
    { apply (many_roots _ l Nl).
      - intros y Iy. rewrite <- compress_peval. destruct (Hl y Iy) as (q & B & HX).
        apply (row_sum v j k n Hk Hn Hd Hj Hrows Hwf Hdeg Hperm insts chs (P q) theta beta gamma Hchs B y HX r Hr).
      - rewrite rev_length, map_length, fs_length. change (fe r_pos) with Fr in *. lia. }
    apply Forall_rev in Z. rewrite rev_involutive in Z. rewrite Forall_forall in Z. apply Z.
    apply (in_map (fun f => f (pt (d_omega (vk_domain v)) r)) _ f If).
Qed.
End Rows.
