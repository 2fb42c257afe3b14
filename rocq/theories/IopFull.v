(** Completeness of the protocol: the polynomials computed by the prover's
    functions are accepted, and a satisfying assignment convinces. *)
From Coq Require Import ZArith List Arith Lia Bool Permutation.
From Verif Require Import Base ListFacts Moduli Field FieldFacts LimbSpec LimbField LimbConst RootFacts PolyFacts Halo2Model SelectorModel
  PermModel PermSpec SelectorSpec SelectorClaims DomainModel DomainSpec DomainFacts VkModel
  IopModel IopPoly IopRows IopSpec IopLagrange IopTotal IopAccept IopSound IopDegree IopMain IopKey ProverModel ProverSpec ProverFacts IopComplete IopHonest.
Import ListNotations.
Local Open Scope F_scope.

Lemma product_ext n bf beta gamma a s (A B A' B' z : nat -> Fr) r : (r <= n)%nat ->
  (forall q, (q < n)%nat -> A q = A' q) -> (forall q, (q < n)%nat -> B q = B' q) ->
  lookup_product n bf beta gamma a s A B z r = lookup_product n bf beta gamma a s A' B' z r.
Proof.
  intros Hr HA HB. unfold lookup_product. destruct (r <? n - bf)%nat; [|reflexivity].
  induction r as [|r IH]; [reflexivity|]. cbn [run]. rewrite IH by lia. unfold lookup_factor. rewrite HA, HB by lia. reflexivity.
Qed.

Lemma choice_fin {A} N (Q : nat -> A -> Prop) d : (forall i, (i < N)%nat -> exists x, Q i x) ->
  exists f, (forall i, (i < N)%nat -> Q i (f i)) /\ (forall i, (N <= i)%nat -> f i = d).
Proof.
  induction N as [|N IH]; intros H.
  - exists (fun _ => d). split; [intros i Hi; lia|reflexivity].
  - destruct IH as (f & F1 & F2); [intros i Hi; apply H; lia|]. destruct (H N ltac:(lia)) as (x & Hx).
    exists (fun i => if (i =? N)%nat then x else f i). split; intros i Hi.
    + destruct (Nat.eqb_spec i N) as [->|E]; [exact Hx|apply F1; lia].
    + destruct (Nat.eqb_spec i N) as [->|E]; [lia|apply F2; lia].
Qed.
Lemma flat_length {A B} u (g : A -> list B) l : (forall x, length (g x) = u) -> length (flat_map g l) = (length l * u)%nat.
Proof. intros H. induction l as [|x l IH]; [reflexivity|]. cbn [flat_map length]. rewrite app_length, H, IH. lia. Qed.
Lemma add_opp (x g : Fr) : x + g = f0 -> g = - x.
Proof. intros E. transitivity (x + g - x); [fring|]. rewrite E. fring. Qed.
Lemma filter_split {A} (f : A -> bool) l : (length (filter f l) + length (filter (fun x => negb (f x)) l) = length l)%nat.
Proof. induction l as [|x l IH]; [reflexivity|]. cbn [filter]. destruct (f x); cbn [negb length]; lia. Qed.
Lemma many_avoid dd (bad : list Fr) : (Z.of_nat (dd + length bad) < 2 ^ 128)%Z -> many dd (fun x => ~ In x bad).
Proof.
  intros H. pose proof (enough_elems (dd + length bad) H) as N.
  set (f := fun x => if in_dec (fe_dec (p := r_pos)) x bad then false else true).
  exists (filter f (elems (dd + length bad))). split; [apply NoDup_filter, N|]. split.
  - assert (L : (length (filter (fun x => negb (f x)) (elems (dd + length bad))) <= length bad)%nat).
    { apply NoDup_incl_length; [apply NoDup_filter, N|]. intros x Ix. apply filter_In in Ix. destruct Ix as [_ Ix]. unfold f in Ix.
      destruct (in_dec fe_dec x bad) as [?|?]; [assumption|discriminate]. }
    pose proof (filter_split f (elems (dd + length bad))) as FL. pose proof (elems_length (dd + length bad)) as EL.
    change (fe r_pos) with Fr in *. lia.
  - intros x Ix. apply filter_In in Ix. destruct Ix as [_ Ix]. unfold f in Ix. destruct (in_dec fe_dec x bad) as [?|?]; [discriminate|assumption].
Qed.

Section Key.
Variables (v : vkey) (k : Z) (fixed : nat -> nat -> Fr) (copies : list (acell * acell)) (F S_ : nat -> list Fr).
Hypothesis HK : key_for v k fixed copies F S_.
Variables (insts : list (list Fr)) (chs : list Fr) (advice : nat -> list Fr).
Hypothesis Hchs : length chs = num_challenges (vk_cs v).
Hypothesis Hinst : length insts = num_instance (vk_cs v).
Hypothesis Hlen : forall l, In l insts -> (Z.of_nat (length l) <= 2 ^ k)%Z.
Local Notation n := (Z.to_nat (2 ^ k)).
Local Notation c := (vk_cs v).
Local Notation u := (usable_rows n c).
Local Notation m := (length (perm_columns c)).
Local Notation w := (d_omega (vk_domain v)).
Local Notation a := (assigned n w fixed advice insts chs).
Hypothesis HSat : satisfied c copies a.
Local Notation qd := (Z.to_nat (d_quotient_poly_degree (vk_domain v))).

Lemma key_split : n = (u + blinding_factors c + 1)%nat /\ (2 <= u)%nat.
Proof. exact (rows_split n v (kf_rows _ _ _ _ _ _ HK)). Qed.
Lemma key_n : Z.of_nat n = (2 ^ k)%Z.
Proof. pose proof (kf_k _ _ _ _ _ _ HK). assert (0 < 2 ^ k)%Z by (apply Z.pow_pos_nonneg; lia). lia. Qed.
Lemma key_inst j : domain_for j k (vk_domain v) ->
  forall i r, (r < n)%nat -> ipoly (vk_domain v) n (nth i insts []) (pt w r) = instance_fn insts i r.
Proof.
  intros Hd i r Hr. pose proof (kf_k _ _ _ _ _ _ HK). rewrite (ipoly_at (vk_domain v) j k n ltac:(lia) key_n Hd _ r Hr).
  unfold instance_fn. apply wrapped_short; [|exact Hr].
  destruct (Nat.lt_ge_cases i (length insts)) as [H1|H1]; [|rewrite nth_overflow by exact H1; simpl; lia].
  specialize (Hlen _ (nth_In insts [] H1)). lia.
Qed.

Lemma sets_are beta gamma random : (2 < vk_degree v)%nat -> exists zs,
  perm_commit v n beta gamma random (map (table_column a) (perm_columns c)) (map (fun i r => peval (S_ i) (pt w r)) (seq 0 m)) = POk zs /\
  zs = perm_sets w n (blinding_factors c) beta gamma random
    (map (map (fun i r => cell_value a (nth i (perm_columns c) (CFixed 0), r))) (JJ v))
    (map (map (fun i r => peval (S_ i) (pt w r))) (JJ v)) 0 (fpow DELTA (Z.of_nat 0)) f1.
Proof.
  intros H. unfold perm_commit. destruct (Nat.ltb_spec (vk_degree v) 3); [lia|]. eexists. split; [reflexivity|].
  replace (map (table_column a) (perm_columns c)) with (map (fun i r => cell_value a (nth i (perm_columns c) (CFixed 0), r)) (seq 0 m)).
  - rewrite !chunks_map. reflexivity.
  - rewrite (columns_seq v) at 2. rewrite map_map. reflexivity.
Qed.

Section Theorem1.
Variables (theta beta gamma : Fr) (product lproduct linput ltable : nat -> list Fr) (random : list Fr).
Local Notation P q := (Committed advice F S_ product lproduct linput ltable q random).
Hypothesis HPm : permuted v n a theta linput ltable.
Hypothesis HPr : products v n a S_ linput ltable theta beta gamma product lproduct.
Hypothesis HLk : lucky v n a S_ theta beta gamma.
Hypothesis Hb : bounded v n (P (repeat [] qd)).

(** the constraints hold on every row *)
Lemma honest_vanish quotient f r : In f (all_fs v n insts chs (P quotient) theta beta gamma) -> (r < n)%nat -> f (pt w r) = f0.
Proof.
  revert f r.
  destruct (kf_domain _ _ _ _ _ _ HK) as (j & Hd & Hj). destruct (kf_sigma _ _ _ _ _ _ HK) as (p & Hp & HS).
  pose proof (kf_k _ _ _ _ _ _ HK) as Hk. pose proof key_n as Hn. pose proof key_split as [Hsp Hu].
  destruct HSat as (HG & HL & HC).
  assert (Hjl : (Z.of_nat (vk_degree v) <= j)%Z) by lia.
  assert (HD3 : (2 < vk_degree v)%nat).
  { rewrite (kf_degree _ _ _ _ _ _ HK). unfold cs_degree. clear. cbv zeta. lia. }
  destruct HPr as [(rnd & zs & EZ & HZ) HLP]. destruct HLk as [NZ1 NZ2].
  destruct (sets_are beta gamma rnd HD3) as (zs' & EZ' & Dzs).
  assert (Ezz : zs' = zs) by (pose proof (eq_trans (eq_sym EZ') EZ) as X; injection X as X; exact X). rewrite Ezz in Dzs. clear EZ'.
  assert (CT : contig 0 (JJ v)).
  { unfold JJ, chunks. apply chunks_contig. apply (clen_pos v). exact (kf_degree _ _ _ _ _ _ HK). }
  destruct (perm_sets_is w n (blinding_factors c) u beta gamma rnd (fun i r => cell_value a (nth i (perm_columns c) (CFixed 0), r))
    (fun i r => peval (S_ i) (pt w r)) Hsp (JJ v) 0%nat 0%nat f1 CT) as [LZ RZ].
  { intros i J r EJ Hr X. apply fprod_zero in X. apply in_map_iff in X. destruct X as (i' & X & Ii').
    assert (Hi' : (i' < m)%nat) by (apply (in_JJ v k n (kf_rows _ _ _ _ _ _ HK) (kf_degree _ _ _ _ _ _ HK) (kf_perm _ _ _ _ _ _ HK) chs Hchs i J EJ i' Ii')).
    apply (NZ1 i' (nth i' (perm_columns c) (CFixed 0)) r (nth_error_nth' _ _ Hi') Hr X). }
  rewrite <- Dzs in LZ, RZ.
  assert (RW : forall i r, (i < length (JJ v))%nat -> (r < n)%nat -> peval (product i) (pt w r) = nth i zs (fun _ => f0) r).
  { intros i r Hi Hr. apply (HZ i); [|exact Hr]. apply nth_error_nth'. change (nat -> Fr) with (nat -> fe r_pos) in *. lia. }
  assert (NI : forall i J, nth_error (JJ v) i = Some J -> (i < length (JJ v))%nat) by (intros i J E; apply nth_error_Some; congruence).
  assert (EI : forall i, (i < length (JJ v))%nat -> exists J, nth_error (JJ v) i = Some J).
  { intros i Hi. destruct (nth_error (JJ v) i) as [J|] eqn:E; [eauto|]. apply nth_error_None in E. lia. }
  assert (HZ0 : (0 < length (JJ v))%nat -> peval (product 0%nat) (pt w 0) = f1).
  { intros H0. rewrite RW by lia. destruct (EI 0%nat H0) as (J & EJ). apply (RZ 0%nat J EJ). }
  assert (HZL : forall i, (S i < length (JJ v))%nat -> peval (product (S i)) (pt w 0) = peval (product i) (pt w u)).
  { intros i Hi. rewrite !RW by lia. destruct (EI (S i) Hi) as (J & EJ). apply (proj1 (RZ (S i) J EJ)). }
  assert (HZP : forall i J r, nth_error (JJ v) i = Some J -> (r < u)%nat ->
    peval (product i) (pt w (S r)) * fprod (map (fun i => cell_value a (nth i (perm_columns c) (CFixed 0), r) + beta * peval (S_ i) (pt w r) + gamma) J) =
    peval (product i) (pt w r) * fprod (map (fun i => cell_value a (nth i (perm_columns c) (CFixed 0), r) + beta * (fpow DELTA (Z.of_nat i) * pt w r) + gamma) J)).
  { intros i J r EJ Hr. pose proof (NI i J EJ). rewrite !RW by lia. apply (proj2 (RZ i J EJ) r Hr). }
  intros f r If Hr.
  apply (honest_rows v j k n Hk Hn Hd (kf_rows _ _ _ _ _ _ HK) (kf_cs _ _ _ _ _ _ HK) (kf_degree _ _ _ _ _ _ HK)
    (kf_perm _ _ _ _ _ _ HK) insts chs (instance_fn insts) Hchs (key_inst j Hd) fixed F S_ advice (kf_fixed _ _ _ _ _ _ HK)
    theta beta gamma product lproduct linput ltable random); try assumption.
  - intros q Eq.
    assert (T := telescope (fun i r => peval (product i) (pt w r))
      (fun i r => cell_value a (nth i (perm_columns c) (CFixed 0), r) + beta * (fpow DELTA (Z.of_nat i) * pt w r) + gamma)
      (fun i r => cell_value a (nth i (perm_columns c) (CFixed 0), r) + beta * peval (S_ i) (pt w r) + gamma) u (JJ v) 0).
    cbn [Nat.add] in T. specialize (T HZL (fun i r J E H => HZP i J r E H) ltac:(lia)).
    rewrite Eq in T. replace (S q - 1)%nat with q in T by lia. rewrite HZ0 in T by lia.
    pose proof (grid_perm v j k n Hk Hn Hd (kf_rows _ _ _ _ _ _ HK) (kf_cs _ _ _ _ _ _ HK) (kf_degree _ _ _ _ _ _ HK)
      (kf_perm _ _ _ _ _ _ HK) chs (instance_fn insts) Hchs fixed S_ advice copies p Hp HS (kf_usable _ _ _ _ _ _ HK) HC) as GP.
    pose proof (perm_complete _ _ _ _ beta gamma GP) as PC. cbv zeta in PC.
    set (D := fprod (map (fun c0 : nat * nat => cell_value a (nth (fst c0) (perm_columns c) (CFixed 0), snd c0) + beta * peval (S_ (fst c0)) (pt w (snd c0)) + gamma)
      (grid u (JJ v)))) in *.
    assert (ND : D <> f0).
    { intros X. unfold D in X. apply fprod_zero in X. apply in_map_iff in X. destruct X as ([i' r'] & X & I).
      apply (cells_in v k n (kf_rows _ _ _ _ _ _ HK) (kf_degree _ _ _ _ _ _ HK) (kf_perm _ _ _ _ _ _ HK) chs Hchs) in I. cbn [fst snd] in X.
      apply (NZ1 i' (nth i' (perm_columns c) (CFixed 0)) r' (nth_error_nth' _ _ (proj2 I)) (proj1 I) X). }
    assert (T2 : peval (product q) (pt w u) * D = f1 * D).
    { etransitivity; [exact T|]. f_equal. symmetry. exact PC. }
    apply (fmul_cancel D _ _ ND). transitivity (peval (product q) (pt w u) * D); [fring|]. rewrite T2. fring.
  - intros i l El.
    destruct (HPm i l El) as (a' & s' & fa & fs & EP & Oa & Os). destruct (HLP i l El) as (fz & Oz).
    pose proof (lookup_honest n (blinding_factors c) u beta gamma (compressed_row (eval a) theta (fst l)) (compressed_row (eval a) theta (snd l))
      a' s' fa fs fz Hsp Hu EP (fun r Hr => NZ2 l r (nth_error_In _ _ El) Hr)) as LH.
    cbv zeta in LH |- *. destruct LH as (H1 & H2 & H3 & H4 & H5).
    set (A := with_random u a' fa) in *. set (T := with_random u s' fs) in *.
    assert (OA : forall q, (q < n)%nat -> peval (linput i) (pt w q) = A q) by exact Oa.
    assert (OT : forall q, (q < n)%nat -> peval (ltable i) (pt w q) = T q) by exact Os.
    assert (OZ : forall q, (q < n)%nat -> peval (lproduct i) (pt w q) = lookup_product n (blinding_factors c) beta gamma
      (compressed_row (eval a) theta (fst l)) (compressed_row (eval a) theta (snd l)) A T fz q).
    { intros q Hq. etransitivity; [exact (Oz q Hq)|]. apply product_ext; [lia|exact OA|exact OT]. }
    repeat apply conj.
    + rewrite OZ by lia. exact H1.
    + rewrite OZ by lia. exact H2.
    + intros q Hq. rewrite !OZ, OA, OT by lia.
      etransitivity; [exact (H3 q Hq)|]. rewrite !compressed_is. reflexivity.
    + rewrite OA, OT by lia. exact H4.
    + intros q Hq. rewrite !OA, OT by lia. exact (H5 q Hq).
Qed.

Theorem honest_accepted y : exists quotient, bounded v n (P quotient) /\
  forall x, fpow x (2 ^ k)%Z <> f1 -> accepts v (2 ^ k) insts chs theta beta gamma y x (P quotient).
Proof.
  destruct (kf_domain _ _ _ _ _ _ HK) as (j & Hd & Hj). destruct (kf_sigma _ _ _ _ _ _ HK) as (p & Hp & HS).
  pose proof (kf_k _ _ _ _ _ _ HK) as Hk. pose proof key_n as Hn. pose proof key_split as [Hsp Hu].
  destruct HSat as (HG & HL & HC).
  assert (Hjl : (Z.of_nat (vk_degree v) <= j)%Z) by lia.
  apply (quotient_exists v j k n ltac:(lia) Hn Hd Hjl (kf_rows _ _ _ _ _ _ HK) (kf_cs _ _ _ _ _ _ HK) (kf_degree _ _ _ _ _ _ HK)
    (kf_perm _ _ _ _ _ _ HK) insts chs theta beta gamma advice F S_ product lproduct linput ltable random Hchs Hinst Hb).
  intros f r. apply honest_vanish.
Qed.
End Theorem1.

(** ** Existence *)
Lemma rows_poly (f : nat -> Fr) : exists p, (length p <= n)%nat /\ on_rows v n p f.
Proof.
  destruct (kf_domain _ _ _ _ _ _ HK) as (j & Hd & _). pose proof key_n as Hn.
  destruct (interp_poly n (d_omega_inv (vk_domain v)) (d_barycentric_weight (vk_domain v)) f) as (p & Lp & Ep).
  exists p. split; [exact Lp|]. intros r Hr. rewrite <- Ep.
  exact (interp_at n w (d_omega_inv (vk_domain v)) (Hw _ j k n Hn Hd) (Hwi _ j k Hd) (d_barycentric_weight (vk_domain v)) (Hni _ j k n Hn Hd) f r Hr).
Qed.
Lemma permuted_exist theta : exists linput ltable, permuted v n a theta linput ltable /\
  (forall i, (length (linput i) <= n)%nat) /\ (forall i, (length (ltable i) <= n)%nat).
Proof.
  destruct HSat as (_ & HL & _).
  destruct (choice_fin (length (lookups c)) (fun i (x : list Fr * list Fr) => (length (fst x) <= n)%nat /\ (length (snd x) <= n)%nat /\
    forall l, nth_error (lookups c) i = Some l -> exists a' s' fa fs,
    permute_pair u (compressed_row (eval a) theta (fst l)) (compressed_row (eval a) theta (snd l)) = POk (a', s') /\
    on_rows v n (fst x) (with_random u a' fa) /\ on_rows v n (snd x) (with_random u s' fs)) ([], [])) as (f & H1 & H2).
  - intros i Hi. destruct (nth_error (lookups c) i) as [l|] eqn:El; [|apply nth_error_None in El; lia].
    pose proof (permute_pair_is u (compressed_row (eval a) theta (fst l)) (compressed_row (eval a) theta (snd l))) as PP.
    destruct (permute_pair u _ _) as [[a' s']| |] eqn:EP.
    + destruct (rows_poly (with_random u a' (fun _ => f0))) as (p1 & L1 & O1).
      destruct (rows_poly (with_random u s' (fun _ => f0))) as (p2 & L2 & O2).
      exists (p1, p2). cbn [fst snd]. split; [exact L1|]. split; [exact L2|]. intros l' El'. injection El' as <-.
      exists a', s', (fun _ => f0), (fun _ => f0). auto.
    + exfalso. destruct PP as (r & Hr & N). destruct (HL l r (nth_error_In _ _ El) Hr) as (r' & Hr' & E).
      apply (N r' Hr'). rewrite !compressed_is. f_equal. exact E.
    + contradiction.
  - exists (fun i => fst (f i)), (fun i => snd (f i)). split; [|split].
    + intros i l El. assert (Hi : (i < length (lookups c))%nat) by (apply nth_error_Some; congruence).
      apply (H1 i Hi). exact El.
    + intros i. destruct (Nat.lt_ge_cases i (length (lookups c))) as [Hi|Hi]; [apply (H1 i Hi)|rewrite (H2 i Hi); cbn; lia].
    + intros i. destruct (Nat.lt_ge_cases i (length (lookups c))) as [Hi|Hi]; [apply (H1 i Hi)|rewrite (H2 i Hi); cbn; lia].
Qed.
Lemma products_exist theta beta gamma linput ltable : exists product lproduct,
  products v n a S_ linput ltable theta beta gamma product lproduct /\
  (forall i, (length (product i) <= n)%nat) /\ (forall i, (length (lproduct i) <= n)%nat).
Proof.
  assert (HD3 : (2 < vk_degree v)%nat).
  { rewrite (kf_degree _ _ _ _ _ _ HK). unfold cs_degree. clear. cbv zeta. lia. }
  destruct (sets_are beta gamma (fun _ _ => f0) HD3) as (zs & EZ & _).
  destruct (choice_fin (length zs) (fun i (x : list Fr) => (length x <= n)%nat /\ forall z, nth_error zs i = Some z -> on_rows v n x z) []) as (f & F1 & F2).
  { intros i Hi. destruct (rows_poly (nth i zs (fun _ => f0))) as (p & Lp & Op). exists p. split; [exact Lp|].
    intros z Ez. rewrite (nth_error_nth _ _ _ Ez) in Op. exact Op. }
  destruct (choice_fin (length (lookups c)) (fun i (x : list Fr) => (length x <= n)%nat /\ forall l, nth_error (lookups c) i = Some l ->
    on_rows v n x (lookup_product n (blinding_factors c) beta gamma (compressed_row (eval a) theta (fst l)) (compressed_row (eval a) theta (snd l))
      (fun r => peval (linput i) (pt w r)) (fun r => peval (ltable i) (pt w r)) (fun _ => f0))) []) as (g & G1 & G2).
  { intros i Hi. destruct (nth_error (lookups c) i) as [l|] eqn:El; [|apply nth_error_None in El; lia].
    destruct (rows_poly (lookup_product n (blinding_factors c) beta gamma (compressed_row (eval a) theta (fst l)) (compressed_row (eval a) theta (snd l))
      (fun r => peval (linput i) (pt w r)) (fun r => peval (ltable i) (pt w r)) (fun _ => f0))) as (p & Lp & Op). exists p. split; [exact Lp|].
    intros l' El'. injection El' as <-. exact Op. }
  exists f, g. split; [split|split].
  - exists (fun _ _ => f0), zs. split; [exact EZ|]. intros i z Ez. assert (Hi : (i < length zs)%nat) by (apply nth_error_Some; congruence).
    apply (proj2 (F1 i Hi) z Ez).
  - intros i l El. exists (fun _ => f0). assert (Hi : (i < length (lookups c))%nat) by (apply nth_error_Some; congruence).
    exact (proj2 (G1 i Hi) l El).
  - intros i. destruct (Nat.lt_ge_cases i (length zs)) as [Hi|Hi]; [apply (F1 i Hi)|rewrite (F2 i Hi); cbn; lia].
  - intros i. destruct (Nat.lt_ge_cases i (length (lookups c))) as [Hi|Hi]; [apply (G1 i Hi)|rewrite (G2 i Hi); cbn; lia].
Qed.

Hypothesis HbF : forall i, (length (F i) <= n)%nat.
Hypothesis HbS : forall i, (length (S_ i) <= n)%nat.
Hypothesis Hba : forall i, (length (advice i) <= n)%nat.
Hypothesis Hsmall : (Z.of_nat (need_y v + lookup_width c) < 2 ^ 60)%Z.

(** most challenges are lucky *)
Lemma mostly_lucky : many (need_theta c u) (fun theta => exists li lt, permuted v n a theta li lt /\
  many (need_beta c u) (fun beta => many (need_gamma c u) (fun gamma => exists pr lp,
    products v n a S_ li lt theta beta gamma pr lp /\ lucky v n a S_ theta beta gamma /\
    bounded v n (Committed advice F S_ pr lp li lt (repeat [] qd) [f1])))).
Proof.
  pose proof key_n as Hn. pose proof key_split as [Hsp Hu]. pose proof (kf_k _ _ _ _ _ _ HK) as Hk.
  assert (Hn28 : (Z.of_nat n <= 2 ^ 28)%Z) by (rewrite Hn; apply Z.pow_le_mono_r; lia).
  pose proof (wf_tags _ (kf_cs _ _ _ _ _ _ HK)) as Hm.
  assert (HLn : (length (lookups c) <= need_y v)%nat) by (unfold need_y; lia).
  eapply many_mono; [apply le_n| |apply (many_avoid (need_theta c u) [])].
  2:{ unfold need_theta. cbn [length]. nia. }
  intros theta _. destruct (permuted_exist theta) as (li & lt & HP & B1 & B2). exists li, lt. split; [exact HP|].
  set (badb := flat_map (fun l => map (fun r => - compressed_row (eval a) theta (fst l) r) (seq 0 u)) (lookups c)).
  eapply many_mono; [apply le_n| |apply (many_avoid (need_beta c u) badb)].
  2:{ unfold badb. rewrite (flat_length u) by (intros; rewrite map_length, seq_length; reflexivity). unfold need_beta. nia. }
  intros beta Nb.
  set (badg := flat_map (fun l => map (fun r => - compressed_row (eval a) theta (snd l) r) (seq 0 u)) (lookups c) ++
    flat_map (fun i => map (fun r => - (cell_value a (nth i (perm_columns c) (CFixed 0), r) + beta * peval (S_ i) (pt w r))) (seq 0 u)) (seq 0 m)).
  eapply many_mono; [apply le_n| |apply (many_avoid (need_gamma c u) badg)].
  2:{ unfold badg. rewrite app_length, !(flat_length u) by (intros; rewrite map_length, seq_length; reflexivity). rewrite seq_length. unfold need_gamma. nia. }
  intros gamma Ng. destruct (products_exist theta beta gamma li lt) as (pr & lp & HPr & B3 & B4). exists pr, lp. split; [exact HPr|]. split.
  - split.
    + intros i col r Ei Hr X. apply Ng. unfold badg. apply in_app_iff. right. apply in_flat_map. exists i.
      split; [apply in_seq; assert (i < m)%nat by (apply nth_error_Some; congruence); lia|].
      apply in_map_iff. exists r. split; [|apply in_seq; lia]. rewrite (nth_error_nth _ _ _ Ei). symmetry. apply add_opp. exact X.
    + intros l r Il Hr. split; intros X.
      * apply Nb. unfold badb. apply in_flat_map. exists l. split; [exact Il|]. apply in_map_iff. exists r. split; [|apply in_seq; lia].
        symmetry. apply add_opp. rewrite fadd_swap. exact X.
      * apply Ng. unfold badg. apply in_app_iff. left. apply in_flat_map. exists l. split; [exact Il|]. apply in_map_iff. exists r. split; [|apply in_seq; lia].
        symmetry. apply add_opp. rewrite fadd_swap. exact X.
  - constructor; cbn [cm_advice cm_fixed cm_sigma cm_product cm_lproduct cm_linput cm_ltable cm_quotient cm_random]; try assumption.
    + split; [apply repeat_length|]. intros x Ix. apply repeat_spec in Ix. subst x. cbn. lia.
    + cbn [length]. lia.
Qed.
(** the honest prover answers every [x] off the rows *)
Lemma complete_all : many (need_theta c u) (fun theta => exists linput ltable,
  many (need_beta c u) (fun beta => many (need_gamma c u) (fun gamma => exists product lproduct random,
  many (Nat.max 1 (need_y v)) (fun y => exists quotient,
    let P := Committed advice F S_ product lproduct linput ltable quotient random in
    bounded v n P /\ forall x, fpow x (2 ^ k)%Z <> f1 -> accepts v (2 ^ k) insts chs theta beta gamma y x P)))).
Proof.
  pose proof key_n as Hn. pose proof key_split as [Hsp Hu]. pose proof (kf_k _ _ _ _ _ _ HK) as Hk.
  assert (Hn28 : (Z.of_nat n <= 2 ^ 28)%Z) by (rewrite Hn; apply Z.pow_le_mono_r; lia).
  assert (HLn : (length (lookups c) <= need_y v)%nat) by (unfold need_y; lia).
  eapply many_mono; [apply le_n| |exact mostly_lucky]. cbv beta.
  intros theta (li & lt & HP & HB). exists li, lt. eapply many_mono; [apply le_n| |exact HB]. cbv beta.
  intros beta HG. eapply many_mono; [apply le_n| |exact HG]. cbv beta.
  intros gamma (pr & lp & HPr & HLk & Hb). exists pr, lp, [f1].
  eapply many_mono; [apply le_n| |apply (many_avoid (Nat.max 1 (need_y v)) [])].
  2:{ cbn [length]. lia. }
  intros y _. destruct (honest_accepted theta beta gamma pr lp li lt [f1] HP HPr HLk Hb y) as (q & Bq & Aq).
  exists q. split; [exact Bq|exact Aq].
Qed.
Lemma off_rows extra : (Z.of_nat extra < 2 ^ 64)%Z -> many (extra + need_x v n) (fun x => fpow x (2 ^ k)%Z <> f1).
Proof.
  intros He. pose proof key_n as Hn. pose proof (kf_k _ _ _ _ _ _ HK) as Hk.
  assert (Hn28 : (Z.of_nat n <= 2 ^ 28)%Z) by (rewrite Hn; apply Z.pow_le_mono_r; lia).
  eapply many_mono; [apply le_n| |apply (many_avoid (extra + need_x v n) (points n w))].
  - intros x Nx X. apply Nx. apply points_in.
    destruct (kf_domain _ _ _ _ _ _ HK) as (j & Hd & _). rewrite <- Hn in X. apply (vanishing_roots n w (Hw _ j k n Hn Hd)) in X. exact X.
  - destruct (kf_domain _ _ _ _ _ _ HK) as (j & Hd & Hj). rewrite points_length.
    destruct (need_x_is v j k n Hd ltac:(lia) (kf_degree _ _ _ _ _ _ HK)) as (-> & _).
    rewrite !Nat2Z.inj_add, Nat2Z.inj_mul, Z2Nat.id by lia. nia.
Qed.
Lemma complete : convincing v k insts chs F S_ advice.
Proof.
  unfold convincing. cbv zeta. eapply many_mono; [apply le_n| |exact complete_all]. cbv beta.
  intros theta (li & lt & HB). exists li, lt. eapply many_mono; [apply le_n| |exact HB]. cbv beta.
  intros beta HG. eapply many_mono; [apply le_n| |exact HG]. cbv beta.
  intros gamma (pr & lp & ran & HY). exists pr, lp, ran. eapply many_mono; [apply le_n| |exact HY]. cbv beta zeta.
  intros y (q & Bq & Aq). exists q. split; [exact Bq|]. eapply many_mono; [apply le_n| |exact (off_rows 0 ltac:(reflexivity))]. exact Aq.
Qed.
End Key.
