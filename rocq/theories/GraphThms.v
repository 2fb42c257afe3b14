(** The prover's evaluation of the constraints, in terms of GraphSpec. *)
From Coq Require Import ZArith List Arith Bool Lia.
From Verif Require Import Base Moduli Field FieldFacts ListFacts LimbSpec LimbField LimbConst PolyFacts LimbModel Halo2Model CircuitModel VMModel
  SelectorModel PermModel PermFacts SelectorSpec SelectorClaims SerdeModel DomainModel DomainSpec DomainFacts VkModel VkFacts IopModel IopPoly IopRows
  IopSpec IopLagrange IopTotal IopFull CircuitFacts LayoutFacts IopKey ArithModel ArithSpec FftFacts TransformFacts
  PermSpec VerifierModel IopAccept IopDegree IopComplete ProverModel ProverSpec GraphModel GraphSpec GraphFacts CreateModel PiecesFacts PkFacts.
From Verif Require QuotientFacts.
Import ListNotations IopPoly.
Local Open Scope nat_scope.

(** ** Graphs *)
Lemma idx_lt size idx t : 0 < size -> rotation_idx size idx t < size.
Proof. unfold rotation_idx. intros H. pose proof (Z.mod_pos_bound (Z.of_nat idx + t) (Z.of_nat size)). lia. Qed.
Lemma cell_covered (cols : list (list Fr)) i col size r : nth_error cols i = Some col -> length col = size -> r < size ->
  cell cols i r = Ok (nth r (nth i cols []) f0).
Proof.
  intros E L Hr. unfold cell. rewrite (at_some _ _ _ E). cbn [bind]. rewrite (nth_error_nth _ _ _ E).
  apply at_some, nth_error_nth'. rewrite L. exact Hr.
Qed.
Lemma simple_covered E size idx e : 0 < size -> covered E size e -> simple_evaluate E size idx e = Ok (eval (table E size) idx e).
Proof.
  intros Hs. unfold simple_evaluate, eval. induction e; cbn [covered evaluate table as_n as_fixed as_advice as_instance as_challenge]; intro H.
  - reflexivity.
  - contradiction.
  - destruct H as (col & Ec & L). rewrite (cell_covered _ _ _ _ _ Ec L) by (apply idx_lt, Hs). reflexivity.
  - destruct H as (col & Ec & L). rewrite (cell_covered _ _ _ _ _ Ec L) by (apply idx_lt, Hs). reflexivity.
  - destruct H as (col & Ec & L). rewrite (cell_covered _ _ _ _ _ Ec L) by (apply idx_lt, Hs). reflexivity.
  - apply at_some, nth_error_nth'. exact H.
  - rewrite IHe by exact H. reflexivity.
  - destruct H as [H1 H2]. rewrite IHe1, IHe2 by assumption. reflexivity.
  - destruct H as [H1 H2]. rewrite IHe1, IHe2 by assumption. reflexivity.
  - rewrite IHe by exact H. reflexivity.
Qed.
Lemma gates_evaluate c ev E prev size idx : 0 < size -> (forall e, In e (concat (gates c)) -> covered E size e) -> evaluator_new c = Ok ev ->
  graph_evaluate (ev_gates ev) E prev size idx = Ok (combined (en_y E) prev (map (eval (table E size) idx) (concat (gates c)))).
Proof.
  intros Hs Hc He. apply (gates_value E prev size idx c ev); [exact He|]. apply rmap_map.
  intros e I. apply simple_covered; [exact Hs|]. apply Hc, I.
Qed.
Lemma lookup_evaluate c ev E size idx i l : 0 < size -> nth_error (lookups c) i = Some l ->
  (forall e, In e (fst l) \/ In e (snd l) -> covered E size e) -> evaluator_new c = Ok ev ->
  exists g, nth_error (ev_lookup_graphs ev) i = Some g /\
  graph_evaluate g E f0 size idx =
    Ok ((combined (en_theta E) f0 (map (eval (table E size) idx) (fst l)) + en_beta E) *
        (combined (en_theta E) f0 (map (eval (table E size) idx) (snd l)) + en_gamma E))%F.
Proof.
  intros Hs Hl Hc He.
  assert (Eg : rmap lookup_graph (lookups c) = Ok (ev_lookup_graphs ev)).
  { revert He. unfold evaluator_new. destruct (add_expressions _ _) as [[ps g]|]; cbn [bind]; [|discriminate].
    destruct (rmap lookup_graph (lookups c)); cbn [bind]; [|discriminate]. intro H. inversion H. reflexivity. }
  assert (Hg : exists g, nth_error (ev_lookup_graphs ev) i = Some g /\ lookup_graph l = Ok g).
  { revert Eg i Hl. generalize (ev_lookup_graphs ev). clear. induction (lookups c) as [|a ls IH]; intros gs Eg i Hl; [destruct i; discriminate|].
    cbn [rmap] in Eg. destruct (lookup_graph a) as [g|] eqn:Ea; [|discriminate]. cbn [bind] in Eg.
    destruct (rmap lookup_graph ls) as [gs'|]; [|discriminate]. cbn [bind] in Eg. apply ok_inj in Eg. subst gs.
    destruct i as [|i]; [injection Hl as ->; exists g; auto|]. apply (IH gs' eq_refl i Hl). }
  destruct Hg as (g & Ng & Gg). exists g. split; [exact Ng|].
  apply (lookup_graph_value E f0 size idx l g); [exact Gg|apply rmap_map..];
  intros e I; apply simple_covered; auto.
Qed.
Lemma evaluator_selectors c : evaluator_new c = Panic <-> exists e, (In e (gate_exprs c) \/ In e (lookup_exprs c)) /\ meets_selector e = true.
Proof.
  rewrite evaluator_panics, existsb_exists. unfold gate_exprs, lookup_exprs. rewrite flat_map_concat_map.
  split; intros (e & I & M); exists e; (split; [|exact M]); apply in_app_iff in I || apply in_app_iff; exact I.
Qed.

(** ** The quotient's numerator *)
Lemma Forall2_length {A B} (R : A -> B -> Prop) l1 l2 : Forall2 R l1 l2 -> length l1 = length l2.
Proof. induction 1; cbn [length]; congruence. Qed.
Lemma Forall2_nth {A B} (R : A -> B -> Prop) l1 l2 i a b : Forall2 R l1 l2 -> i < length l1 -> R (nth i l1 a) (nth i l2 b).
Proof.
  intros H. revert i. induction H as [|x1 x2 l1 l2 H1 H IH]; intros i Hi; [cbn in Hi; lia|]. destruct i as [|i]; [exact H1|]. apply IH. cbn in Hi. lia.
Qed.
Lemma nth_bound n (ps : list (list Fr)) i : (forall p, In p ps -> length p = n) -> length (nth i ps []) <= n.
Proof.
  intros H. destruct (Nat.lt_ge_cases i (length ps)) as [Hi|Hi]; [rewrite (H _ (nth_In ps [] Hi)); lia|]. rewrite nth_overflow by exact Hi. cbn. lia.
Qed.
Section Numerator.
Variables (v : vkey) (k : Z) (cols sigma : list (list Fr)) (pk : pkey) (fixed : nat -> nat -> Fr) (copies : list (acell * acell)) (F S_ : nat -> list Fr).
Local Notation n := (Z.to_nat (2 ^ k)).
Local Notation d := (vk_domain v).
Local Notation c := (vk_cs v).
Hypothesis HK : key_for v k fixed copies F S_.
Hypothesis HP : proving_key v n cols sigma pk.
Hypothesis Hg : d_g_coset d = ZETA.
Hypothesis Hadv : forall q, In q (advice_queries c) -> (ac_index (fst q) < num_advice c)%nat.
Hypothesis Lc : length cols = num_fixed c.
Hypothesis Ls : length sigma = length (perm_columns c).
Hypothesis Lcols : forall col, In col cols -> length col = n.
Hypothesis Lsigma : forall col, In col sigma -> length col = n.

Local Notation padded := (GraphSpec.padded n).
Lemma padded_length insts col : In col (padded insts) -> length col = n.
Proof. intros I. apply in_map_iff in I as (l & <- & _). rewrite map_length, seq_length. reflexivity. Qed.
Lemma padded_nth insts i : i < length insts -> nth i (padded insts) [] = map (fun r => nth r (nth i insts []) f0) (seq 0 n).
Proof.
  intros Hi. unfold GraphSpec.padded. etransitivity.
  - apply (nth_indep _ [] (map (fun r => nth r [] f0) (seq 0 n))). rewrite map_length. exact Hi.
  - exact (map_nth (fun l => map (fun r => nth r l f0) (seq 0 n)) insts [] i).
Qed.

Variables (insts : list (list Fr)) (chs : list Fr) (theta beta gamma y : Fr).
Hypothesis Hinst : length insts = num_instance c.
Hypothesis Hlen : forall l, In l insts -> (Z.of_nat (length l) <= 2 ^ k)%Z.
Hypothesis Hchs : length chs = num_challenges c.
Variables (advice instance sets : list (list Fr)) (lks : list lookup_polys) (random : list Fr).
Local Notation of_length := (polys_of n).
Hypothesis HA : of_length (num_advice c) advice.
Hypothesis HI : Forall2 (column_poly v n) (padded insts) instance.
Hypothesis HZ : of_length (VerifierModel.sets_count v) sets.
Hypothesis HL : of_length (length (lookups c)) (map lp_product lks) /\ of_length (length (lookups c)) (map lp_input lks) /\
  of_length (length (lookups c)) (map lp_table lks).

Local Notation committed_of := (commitments pk advice sets lks random).

Lemma Hn : Z.of_nat n = (2 ^ k)%Z.
Proof. apply Z2Nat.id, Z.pow_nonneg. lia. Qed.
Lemma Hk0 : (0 <= k)%Z.
Proof. apply (kf_k _ _ _ _ _ _ HK). Qed.
Lemma of_length_polys N ps f : of_length N ps -> (forall i, i < N -> f i = nth i ps []) -> QuotientFacts.polys_are n ps N (fun i => peval (f i)).
Proof.
  intros [L H] E. split; [exact L|]. intros i Hi. split; [|intros x; rewrite E by exact Hi; reflexivity].
  apply H, nth_In. rewrite L. exact Hi.
Qed.
Lemma column_polys cs ps : Forall2 (column_poly v n) cs ps -> of_length (length cs) ps.
Proof.
  intros H. split; [symmetry; exact (Forall2_length _ _ _ H)|]. induction H as [|a b l1 l2 [E _] H IH]; intros p []; [congruence|auto].
Qed.
Lemma sets_eq : VerifierModel.sets_count v = length (JJ v).
Proof. apply IopTotal.sets_count. Qed.
Lemma lk_nth {A} (f : lookup_polys -> A) i : f (nth i lks (LPolys [] [] [])) = nth i (map f lks) (f (LPolys [] [] [])).
Proof. symmetry. apply map_nth. Qed.
Lemma instance_polys : exists j, domain_for j k d /\ QuotientFacts.polys_are n instance (num_instance c) (fun i => ipoly d n (nth i insts [])).
Proof.
  destruct (kf_domain _ _ _ _ _ _ HK) as (j & Hd & Hj). exists j. split; [exact Hd|].
  pose proof (Forall2_length _ _ _ HI) as L. unfold GraphSpec.padded in L. rewrite map_length in L.
  split; [rewrite <- L; exact Hinst|]. intros i Hi. rewrite <- Hinst in Hi.
  apply (column_poly_is v j k n Hn Hd (kf_rows _ _ _ _ _ _ HK) (nth i (padded insts) [])).
  - apply (Forall2_nth _ _ _ _ _ _ HI). unfold GraphSpec.padded. rewrite map_length. exact Hi.
  - apply ipoly_poly.
  - intros r Hr. rewrite (ipoly_at d j k n Hk0 Hn Hd _ r Hr). rewrite wrapped_short; [|specialize (Hlen _ (nth_In insts [] Hi)); pose proof Hn; lia|exact Hr].
    rewrite (padded_nth insts i Hi). symmetry. apply (map_nth_seq' (fun r => nth r (nth i insts []) f0) n r f0 Hr).
Qed.
Lemma numerator_is pieces : evaluate_h pk advice instance chs y beta gamma theta lks sets =
  Ok (map (fun i => compress y (map (fun f => f (d_g_coset d * fpow (d_extended_omega d) (Z.of_nat i))%F) (all_fs v n insts chs (committed_of pieces) theta beta gamma)))
        (seq 0 (2 ^ Z.to_nat (d_extended_k d)))).
Proof.
  destruct instance_polys as (j & Hd & HI'). destruct HP. destruct HL as (L1 & L2 & L3).
  pose proof (kf_cs _ _ _ _ _ _ HK) as K1. pose proof (kf_degree _ _ _ _ _ _ HK) as K2. pose proof Hk0 as K3. pose proof Hn as K4.
  pose proof (of_length_polys _ _ (fun i => nth i advice []) HA (fun i _ => eq_refl)) as A1.
  pose proof (column_polys _ _ pk_fixed_ok) as C. rewrite Lc in C. apply (fun H => of_length_polys _ _ (fun i => nth i (pk_fixed_polys pk) []) H (fun i _ => eq_refl)) in C.
  pose proof (column_polys _ _ pk_sigma_ok) as C'. rewrite Ls in C'. apply (fun H => of_length_polys _ _ (fun i => nth i (pk_sigma_polys pk) []) H (fun i _ => eq_refl)) in C'.
  pose proof HZ as A2. rewrite sets_eq in A2. apply (fun H => of_length_polys _ _ (fun i => nth i sets []) H (fun i _ => eq_refl)) in A2.
  apply (fun H => of_length_polys _ _ (fun i => lp_product (nth i lks (LPolys [] [] []))) H (fun i _ => lk_nth lp_product i)) in L1.
  apply (fun H => of_length_polys _ _ (fun i => lp_input (nth i lks (LPolys [] [] []))) H (fun i _ => lk_nth lp_input i)) in L2.
  apply (fun H => of_length_polys _ _ (fun i => lp_table (nth i lks (LPolys [] [] []))) H (fun i _ => lk_nth lp_table i)) in L3.
  pose proof Hchs as K5. pose proof Hg as K6. pose proof Hadv as K7.
  clear HK HP Hinst Hchs HZ Hadv HL Hlen HI Hg HA pk_fixed_ok pk_sigma_ok Lc Ls Lcols Lsigma.
  revert pk_l0_ok pk_last_ok pk_active_ok pk_ev_ok A1 A2 C C' L1 L2 L3 K1 K2 K3 K4 K5 K6 K7 HI' Hd. rewrite <- pk_has_vk. intros.
  apply (QuotientFacts.evaluate_h_is pk j k n K3 K4 Hd K6 K1 K2 K7 insts chs (committed_of pieces)
    theta beta gamma y K5 advice instance sets lks); assumption.
Qed.
Lemma map_combine_seq {A B} (f : nat -> A -> B) (l : list A) a : map (fun ia => f (fst ia) (snd ia)) (combine (seq 0 (length l)) l) =
  map (fun i => f i (nth i l a)) (seq 0 (length l)).
Proof.
  transitivity (map (fun ia => f (fst ia) (snd ia)) (combine (seq 0 (length l)) (map (fun i => nth i l a) (seq 0 (length l))))).
  - rewrite map_nth_seq. reflexivity.
  - generalize (seq 0 (length l)). induction l0 as [|i s IH]; [reflexivity|]. cbn [map combine fst snd]. rewrite IH. reflexivity.
Qed.
Lemma evaluations_are pieces x : evaluations v advice (pk_fixed_polys pk) (pk_sigma_polys pk) sets lks random x = evalsx v (committed_of pieces) x.
Proof.
  destruct HP. destruct HL as ((L1 & _) & _). rewrite map_length in L1. unfold evaluations, evalsx. f_equal.
  - rewrite <- (map_nth_seq (pk_sigma_polys pk) []) at 1. rewrite map_map. rewrite <- (Forall2_length _ _ _ pk_sigma_ok), Ls. reflexivity.
  - unfold set_evals. rewrite <- sets_eq, <- (proj1 HZ).
    rewrite (map_combine_seq (fun i z => PSet (peval z x) (at_rotation v z x 1)
      (if S i <? length sets then Some (at_rotation v z x (- (Z.of_nat (blinding_factors c) + 1))) else None)) sets []).
    apply map_ext. intros i. unfold setx, zf, LAST. cbn [commitments cm_product]. rewrite <- sets_eq, <- (proj1 HZ). reflexivity.
  - rewrite <- (map_nth_seq lks (LPolys [] [] [])) at 1. rewrite map_map, L1. reflexivity.
Qed.
Lemma coset_off i : fpow (d_g_coset d * fpow (d_extended_omega d) (Z.of_nat i))%F (2 ^ k) <> f1.
Proof.
  destruct (kf_domain _ _ _ _ _ _ HK) as (j & Hd & Hj). destruct (df_vanishing _ _ _ Hd) as [_ V]. intros E.
  specialize (V (Z.of_nat i) ltac:(lia)). rewrite E in V. apply Fr_1_neq_0. rewrite <- V. fring.
Qed.
(** at every point of the coset, the value is the verifier's *)
Lemma numerator_ok : exists h, evaluate_h pk advice instance chs y beta gamma theta lks sets = Ok h /\
    Z.of_nat (length h) = (2 ^ d_extended_k d)%Z /\
    forall i, i < length h -> let x := (ZETA * fpow (d_extended_omega d) (Z.of_nat i))%F in
    exists inst l_0 l_last l_blind es,
      instance_evals v (2 ^ k) insts x = Ok inst /\ l_values v x (fpow x (2 ^ k)) = Ok (l_0, l_last, l_blind) /\
    expressions v inst chs l_0 l_last l_blind theta beta gamma x (evaluations v advice (pk_fixed_polys pk) (pk_sigma_polys pk) sets lks random x) = Ok es /\
    nth i h f0 = combined y f0 es.
Proof.
  eexists. split; [exact (numerator_is [])|]. destruct (kf_domain _ _ _ _ _ _ HK) as (j & Hd & Hj).
  rewrite map_length, seq_length. pose proof (df_extended _ _ _ Hd) as (Hx & _). pose proof Hk0.
  split; [rewrite Nat2Z.inj_pow, Z2Nat.id by lia; reflexivity|]. intros i Hi x.
  pose proof (coset_off i) as N. rewrite Hg in N. fold x in N.
  rewrite (instance_evals_are d j k n Hk0 Hn Hd v eq_refl insts x N) by (intros q Iq; rewrite Hinst; apply (wf_instance _ (kf_cs _ _ _ _ _ _ HK) _ Iq)).
  rewrite (l_values_are d j k n Hk0 Hn Hd v eq_refl (kf_rows _ _ _ _ _ _ HK) x N).
  eexists _, _, _, _, _. split; [reflexivity|]. split; [reflexivity|]. rewrite (evaluations_are []).
  split; [exact (expressions_are v n (kf_cs _ _ _ _ _ _ HK) (kf_degree _ _ _ _ _ _ HK) insts chs (committed_of []) theta beta gamma Hchs x)|].
  rewrite map_nth_seq' by exact Hi. rewrite Hg. reflexivity.
Qed.

(** ** The quotient of a prover with a satisfying assignment *)
Local Notation qd := (Z.to_nat (d_quotient_poly_degree d)).
Section Honest.
Hypothesis HK' : key_for v k fixed copies (fun i => nth i (pk_fixed_polys pk) []) (fun i => nth i (pk_sigma_polys pk) []).
Local Notation P := (committed_of []).
Local Notation a := (assigned n (d_omega d) fixed (cm_advice P) insts chs).
Hypothesis HSat : satisfied c copies a.
Hypothesis HPm : permuted v n a theta (cm_linput P) (cm_ltable P).
Hypothesis HPr : products v n a (cm_sigma P) (cm_linput P) (cm_ltable P) theta beta gamma (cm_product P) (cm_lproduct P).
Hypothesis HLk : lucky v n a (cm_sigma P) theta beta gamma.
Hypothesis HR : length random <= n.

Lemma committed_bounded pieces : length pieces = qd -> (forall h, In h pieces -> length h <= n) -> bounded v n (committed_of pieces).
Proof.
  intros L B. destruct HP. destruct HL as ((_ & L1) & (_ & L2) & (_ & L3)).
  constructor; cbn [commitments cm_advice cm_fixed cm_sigma cm_product cm_lproduct cm_linput cm_ltable cm_quotient cm_random]; try intros i; auto.
  - apply nth_bound, (proj2 HA).
  - apply nth_bound, (proj2 (column_polys _ _ pk_fixed_ok)).
  - apply nth_bound, (proj2 (column_polys _ _ pk_sigma_ok)).
  - apply nth_bound, (proj2 HZ).
  - rewrite lk_nth. apply nth_bound, L1.
  - rewrite lk_nth. apply nth_bound, L2.
  - rewrite lk_nth. apply nth_bound, L3.
Qed.
Lemma quotient_ok p : kz_n p = (2 ^ k)%Z -> exists h b q,
  evaluate_h pk advice instance chs y beta gamma theta lks sets = Ok h /\
  divide_by_vanishing_poly fmul d h = Ok b /\ extended_to_coeff fadd fsub fmul d b = Ok q /\
  chunks_exact p (length q) q = split_pieces n qd q /\ length q = qd * n /\
  (forall x, fpow x (2 ^ k) <> f1 -> compress y (map (fun f => f x) (all_fs v n insts chs P theta beta gamma)) = ((fpow x (2 ^ k) - f1) * peval q x)%F) /\
  bounded v n (committed_of (split_pieces n qd q)) /\
  forall x, fpow x (2 ^ k) <> f1 -> accepts v (2 ^ k) insts chs theta beta gamma y x (committed_of (split_pieces n qd q)).
Proof.
  intros Hp. destruct (kf_domain _ _ _ _ _ _ HK) as (j & Hd & Hj). pose proof (df_size _ _ _ Hd) as (_ & _ & Eqd).
  pose proof (kf_degree _ _ _ _ _ _ HK) as Kdeg.
  assert (D1 : (1 <= j)%Z) by (assert (0 < vk_degree v) by (rewrite Kdeg; unfold cs_degree; clear; cbv zeta; lia); lia).
  assert (B0 : bounded v n (committed_of (repeat [] qd))).
  { apply committed_bounded; [apply repeat_length|]. intros h Ih. apply repeat_spec in Ih. subst h. cbn. lia. }
  destruct (exact_quotient v j k n Hk0 Hn Hd ltac:(lia) (kf_rows _ _ _ _ _ _ HK) Kdeg (kf_perm _ _ _ _ _ _ HK) insts chs theta beta gamma
    (committed_of (repeat [] qd)) Hchs B0) with (y := y) as (q & Lq & Eq).
  { intros f r If Hr. exact (honest_vanish v k fixed copies _ _ HK' insts chs (cm_advice P) Hchs Hinst Hlen HSat theta beta gamma
      (cm_product P) (cm_lproduct P) (cm_linput P) (cm_ltable P) random HPm HPr HLk (repeat [] qd) f r If Hr). }
  assert (Lq2 : length q = Z.to_nat (2 ^ k * (j - 1))).
  { rewrite Lq, Eqd. rewrite Z2Nat.inj_mul by (try apply Z.pow_nonneg; lia). lia. }
  destruct (quotient_comes_back j k d Hd Hk0
    (fun x => compress y (map (fun f => f x) (all_fs v n insts chs (committed_of (repeat [] qd)) theta beta gamma))) q D1 Lq2 Eq) as (b & Eb & Ec).
  exists (map (fun i => compress y (map (fun f => f (d_g_coset d * fpow (d_extended_omega d) (Z.of_nat i))%F) (all_fs v n insts chs (committed_of (repeat [] qd)) theta beta gamma)))
        (seq 0 (2 ^ Z.to_nat (d_extended_k d)))), b, q.
  split; [exact (numerator_is (repeat [] qd))|]. split; [exact Eb|]. split; [exact Ec|].
  split; [rewrite <- Hp; apply chunks_exact_is; [rewrite Hp; pose proof Hn; assert (0 < 2 ^ k)%Z by (apply Z.pow_pos_nonneg; [lia|apply Hk0]); lia|apply le_n|rewrite Hp; exact Lq]|].
  split; [exact Lq|]. split; [intros x _; exact (Eq x)|].
  split.
  - apply committed_bounded; [apply split_length|apply split_bound].
  - intros x N.
    destruct (accepts_intro v j k n Hk0 Hn Hd (kf_rows _ _ _ _ _ _ HK) (kf_cs _ _ _ _ _ _ HK) Kdeg (kf_perm _ _ _ _ _ _ HK) insts chs
      (committed_of (split_pieces n qd q)) theta beta gamma Hchs Hinst y x N) as (ops & A & B & C).
    + unfold quotient_at. cbn [poly_of commitments cm_quotient]. rewrite h_combine_is.
      pose proof (split_eval n qd x q ltac:(rewrite Lq; apply le_n)) as SE. rewrite Hn in SE. rewrite SE.
      etransitivity; [exact (Eq x)|]. generalize (fpow x (2 ^ k)) (peval q x). intros. fring.
    + exists (write_evals (evalsx v (committed_of (split_pieces n qd q)) x)), (evalsx v (committed_of (split_pieces n qd q)) x), [], ops. auto.
Qed.
End Honest.
End Numerator.
