(** What a proving key holds. *)
From Coq Require Import ZArith List Arith Bool Lia.
From Verif Require Import Base Moduli Field FieldFacts ListFacts LimbSpec LimbField LimbConst PolyFacts LimbModel Halo2Model CircuitModel VMModel
  SelectorModel PermModel PermFacts SelectorSpec SelectorClaims SerdeModel DomainModel DomainSpec DomainFacts VkModel VkFacts IopModel IopPoly IopRows
  IopSpec IopLagrange IopTotal IopFull CircuitFacts LayoutFacts IopKey ArithModel ArithSpec FftFacts TransformFacts KzgModel ShplonkModel TranscriptModel VerifierModel ProverModel
  GraphModel GraphSpec GraphFacts CreateModel.
From Verif Require QuotientFacts.
Import IopPoly.
Import ListNotations.
Local Open Scope nat_scope.

Lemma registered_meets c e : registered c e -> meets_selector e = false.
Proof.
  induction e; cbn [registered meets_selector]; auto; try contradiction.
  - intros [A B]. rewrite IHe1, IHe2; auto.
  - intros [A B]. rewrite IHe1, IHe2; auto.
  - intros A. rewrite IHe by exact A. destruct (feqb f f0); reflexivity.
Qed.
Lemma map_nth_seq' {A} (f : nat -> A) n r x : r < n -> nth r (map f (seq 0 n)) x = f r.
Proof.
  intros H. rewrite nth_indep with (d' := f 0) by (rewrite map_length, seq_length; exact H).
  rewrite map_nth, seq_nth by exact H. reflexivity.
Qed.
Lemma evaluator_exists c : well_formed c -> exists ev, evaluator_new c = Ok ev.
Proof.
  intros W. destruct (evaluator_new c) as [ev|] eqn:E; [eauto|exfalso]. apply evaluator_panics in E.
  apply existsb_exists in E as (e & I & M). rewrite (registered_meets c e) in M; [discriminate|].
  apply (wf_exprs _ W). apply in_app_iff in I as [I|I]; [left; exact I|right].
  unfold lookup_exprs. rewrite flat_map_concat_map. exact I.
Qed.

Section Pk.
Variables (v : vkey) (j k : Z) (n : nat).
Local Notation d := (vk_domain v).
Local Notation w := (d_omega d).
Local Notation lg := (lag n (d_omega_inv d) (d_barycentric_weight d)).
Local Notation u := (usable_rows n (vk_cs v)).
Hypothesis Hk : (0 <= k)%Z.
Hypothesis Hn : Z.of_nat n = (2 ^ k)%Z.
Hypothesis Hd : domain_for j k d.
Hypothesis Hrows : (minimum_rows (vk_cs v) <= n)%nat.

Lemma n_is : n = (2 ^ Z.to_nat k)%nat.
Proof. apply Nat2Z.inj. rewrite Hn, Nat2Z.inj_pow, Z2Nat.id by exact Hk. reflexivity. Qed.
(** [p] takes the values of [col] on the domain *)
Definition column_poly (col p : list Fr) : Prop :=
  length p = n /\ forall r, (r < n)%nat -> peval p (pt w r) = nth r col f0.
Lemma to_coeff_ok col : length col = n -> exists p, to_coeff d col = Ok p /\ column_poly col p.
Proof.
  intros L. rewrite n_is in L. destruct (lagrange_to_coeff_ok _ _ _ _ fr_module j k d Hd Hk col L) as (a & E & La & V).
  rewrite <- n_is in La, V. exists a. split; [exact E|]. split; [exact La|]. intros r Hr. specialize (V r Hr).
  rewrite comb_peval in V. exact V.
Qed.
Lemma to_coeffs_ok cols : (forall col, In col cols -> length col = n) -> exists ps, rmap (to_coeff d) cols = Ok ps /\ Forall2 column_poly cols ps.
Proof.
  induction cols as [|col cols IH]; intros L; [exists []; split; [reflexivity|constructor]|].
  destruct (to_coeff_ok col) as (p & E & V); [apply L; left; reflexivity|].
  destruct IH as (ps & Es & Vs); [intros; apply L; right; assumption|].
  exists (p :: ps). cbn [rmap]. rewrite E, Es. split; [reflexivity|constructor; assumption].
Qed.
Lemma column_poly_is col p f : column_poly col p -> polyfun n f -> (forall r, (r < n)%nat -> f (pt w r) = nth r col f0) ->
  QuotientFacts.poly_is n p f.
Proof.
  intros [L E] Hf V. split; [exact L|]. pose proof (Hw d j k n Hn Hd) as HW.
  apply (polyfun_eq n (peval p) f (points n w)).
  - apply polyfun_peval. lia.
  - exact Hf.
  - apply points_nodup, HW.
  - rewrite points_length. lia.
  - intros x I. apply points_in in I as (r & Hr & ->). rewrite E, V by exact Hr. reflexivity.
Qed.
Lemma empty_length : length (empty d) = n.
Proof. unfold empty. rewrite repeat_length. destruct (df_size _ _ _ Hd) as (_ & -> & _). rewrite <- Hn. apply Nat2Z.id. Qed.
Lemma empty_at r : nth r (empty d) f0 = f0.
Proof. unfold empty. apply nth_repeat. Qed.
Lemma basis_ok i : i < n -> exists p, (let! l := aset (empty d) i f1 in to_coeff d l) = Ok p /\ QuotientFacts.poly_is n p (lg i).
Proof.
  intros Hi. rewrite aset_ok by (rewrite empty_length; exact Hi). cbn [bind].
  destruct (to_coeff_ok (upd (empty d) i f1)) as (p & E & V); [rewrite upd_length; exact empty_length|].
  exists p. split; [exact E|]. apply (column_poly_is _ _ _ V); [apply lag_poly|].
  intros r Hr. rewrite (lag_row d j k n Hn Hd) by assumption. rewrite nth_upd by (rewrite empty_length; exact Hi).
  rewrite empty_at. reflexivity.
Qed.

(** [cols], [sigma]: the columns; the rest is determined by them *)
Record proving_key (cols sigma : list (list Fr)) (pk : pkey) : Prop := {
  pk_has_vk : pk_vk pk = v;
  pk_has_fixed : pk_fixed_values pk = cols;
  pk_has_sigma : pk_permutations pk = sigma;
  pk_fixed_ok : Forall2 column_poly cols (pk_fixed_polys pk);
  pk_sigma_ok : Forall2 column_poly sigma (pk_sigma_polys pk);
  pk_l0_ok : QuotientFacts.poly_is n (pk_l0 pk) (lg 0);
  pk_last_ok : QuotientFacts.poly_is n (pk_l_last pk) (lg u);
  pk_active_ok : QuotientFacts.poly_is n (pk_l_active_row pk) (activef d n v);
  pk_ev_ok : evaluator_new (vk_cs v) = Ok (pk_ev pk) }.

Lemma build_pk_ok c a polys asgs p sigma : well_formed (vk_cs v) ->
  compress_selectors c (selector_rows c n a) = Ok (vk_cs v, polys, asgs) ->
  perm_copies (length (perm_columns c) * n) (perm_new n (perm_columns c)) (rev (asm_copies a)) = COk p ->
  rmap unwrap_all (perm_polys DELTA w n p) = Ok sigma ->
  (forall col, In col polys -> length col = n) -> (forall s, In s sigma -> length s = n) ->
  exists pk, build_pk n v c a = EOk pk /\
    proving_key (map (fun col => map (asm_fixed a col) (seq 0 n)) (seq 0 (num_fixed c)) ++ polys) sigma pk.
Proof.
  intros W Ec Ep Es Lp Ls. unfold build_pk. rewrite Ec. cbv zeta.
  set (cols := map _ (seq 0 (num_fixed c)) ++ polys).
  destruct (to_coeffs_ok cols) as (fp & E1 & V1).
  { intros col I. apply in_app_iff in I as [I|I]; [|apply Lp, I]. apply in_map_iff in I as (i & <- & _). rewrite map_length, seq_length. reflexivity. }
  destruct (to_coeffs_ok sigma Ls) as (sp & E2 & V2).
  pose proof (rows_split n v Hrows) as [Hs Hu].
  destruct (basis_ok 0) as (l0 & E3 & V3); [lia|].
  assert (Hun : u < n) by lia.
  destruct (basis_ok u Hun) as (ll & E4 & V4).
  assert (Eu : n - blinding_factors (vk_cs v) - 1 = u) by (unfold usable_rows; lia).
  rewrite aset_ok in E4 by (rewrite empty_length; exact Hun). cbn [bind] in E4.
  destruct (to_coeff_ok (map (fun r => (f1 - (nth r (upd (empty d) u f1) f0 + (if length (empty d) - blinding_factors (vk_cs v) <=? r then f1 else f0)))%F)
    (seq 0 (length (empty d))))) as (la & E5 & V5).
  { rewrite map_length, seq_length. exact empty_length. }
  destruct (evaluator_exists _ W) as (ev & E6).
  rewrite E1. cbn [lift_panic ebind]. rewrite Ep, Es. cbn [lift_panic ebind]. rewrite E2. cbn [lift_panic ebind].
  rewrite E3. cbn [lift_panic ebind]. rewrite Eu. rewrite aset_ok by (rewrite empty_length; exact Hun). cbn [lift_panic ebind].
  rewrite E4. cbn [lift_panic ebind]. rewrite E5. cbn [lift_panic ebind]. rewrite E6. cbn [lift_panic ebind].
  eexists. split; [reflexivity|]. constructor; cbn; auto.
  apply (column_poly_is _ _ _ V5); [apply (activef_poly d j k n Hn Hd)|].
  intros r Hr. rewrite (activef_at d j k n Hk Hn Hd v Hrows) by exact Hr.
  rewrite empty_length. rewrite (map_nth_seq' (fun r => (f1 - (nth r (upd (empty d) u f1) f0 + (if n - blinding_factors (vk_cs v) <=? r then f1 else f0)))%F)) by exact Hr.
  rewrite nth_upd by (rewrite empty_length; exact Hun). rewrite empty_at.
  destruct (Nat.ltb_spec r u), (Nat.eqb_spec r u), (Nat.leb_spec (n - blinding_factors (vk_cs v)) r); try lia; fring.
Qed.
End Pk.

Lemma columns_interpolate v n cols ps : (forall col, In col cols -> length col = n) ->
  Forall2 (column_poly v n) cols ps -> interpolates (d_omega (vk_domain v)) cols (fun i => nth i ps []).
Proof.
  intros L H i col r x Ei Er. revert i Ei L. induction H as [|a b cols ps [La Ea] H IH]; intros i Ei L; [destruct i; discriminate|].
  destruct i as [|i].
  - injection Ei as ->. cbn [nth]. rewrite <- (nth_error_nth _ _ f0 Er). apply Ea.
    rewrite <- (L col (or_introl eq_refl)). apply nth_error_Some. congruence.
  - apply (IH i Ei). intros; apply L; right; assumption.
Qed.
Lemma domain_new_coset pr j k d : domain_new pr j k = Ok d -> d_g_coset d = ZETA.
Proof.
  unfold domain_new. intros H.
  repeat match type of H with bind ?e _ = _ => destruct e; [cbn [bind] in H|discriminate H] end.
  apply ok_inj in H. subst d. reflexivity.
Qed.

(** proving keys of the project *)
Lemma project_pk commit pr k m v : keygen_vk commit pr k m = EOk v -> (0 <= k < 63)%Z ->
  exists pk asm c' polys asgs sigma,
    keygen_pk pr k v m = EOk pk /\
    bf_keygen (Z.to_nat (2 ^ k)) m = EOk (conf, bcs, asm) /\
    compress_selectors bcs (selector_rows bcs (Z.to_nat (2 ^ k)) asm) = Ok (c', polys, asgs) /\ vk_cs v = c' /\
    let cols := map (fun col => map (asm_fixed asm col) (seq 0 (Z.to_nat (2 ^ k)))) (seq 0 (num_fixed bcs)) ++ polys in
    vk_fixed v = map commit cols /\ vk_permutation v = map commit sigma /\
    length cols = num_fixed c' /\ length sigma = length (perm_columns c') /\
    (forall col, In col cols -> length col = Z.to_nat (2 ^ k)) /\ (forall s, In s sigma -> length s = Z.to_nat (2 ^ k)) /\
    (forall F S, interpolates (d_omega (vk_domain v)) cols F -> interpolates (d_omega (vk_domain v)) sigma S ->
      key_for v k (fixed_of asm polys) (rev (asm_copies asm)) F S) /\
    proving_key v (Z.to_nat (2 ^ k)) cols sigma pk /\ domain_for 11 k (vk_domain v) /\ d_g_coset (vk_domain v) = ZETA.
Proof.
  intros H Hk. destruct (project_parts commit pr k m v H Hk)
    as (asm & c' & polys & asgs & sigma & Ed & Hk24 & (p & Ep & Es) & EK & Ec & Ev & E1 & E2 & L1 & L2 & L3 & L4 & KF).
  assert (DF : domain_for 11 k (vk_domain v)).
  { destruct (domain_correct pr 11 k) as (d2 & E3 & D2); [lia|lia|change (Z.log2_up (11 - 1)) with 4%Z; lia|].
    rewrite Ed in E3. apply ok_inj in E3. rewrite E3. exact D2. }
  assert (Hn : Z.of_nat (Z.to_nat (2 ^ k)) = (2 ^ k)%Z) by (apply Z2Nat.id, Z.pow_nonneg; lia).
  assert (KF' : exists F S, key_for v k (fixed_of asm polys) (rev (asm_copies asm)) F S).
  { destruct (to_coeffs_ok v 11 k _ ltac:(lia) Hn DF _ L3) as (fp & _ & Vf).
    destruct (to_coeffs_ok v 11 k _ ltac:(lia) Hn DF _ L4) as (sp & _ & Vs).
    exists (fun i => nth i fp []), (fun i => nth i sp []). apply KF; apply (columns_interpolate v (Z.to_nat (2 ^ k))); assumption. }
  destruct KF' as (F & S & KK).
  destruct (build_pk_ok v 11 k (Z.to_nat (2 ^ k)) ltac:(lia) Hn DF (kf_rows _ _ _ _ _ _ KK) bcs asm polys asgs p sigma) as (pk & Eb & PK).
  - exact (kf_cs _ _ _ _ _ _ KK).
  - rewrite Ev. exact Ec.
  - exact Ep.
  - exact Es.
  - intros col I. apply L3, in_app_iff. right. exact I.
  - exact L4.
  - exists pk, asm, c', polys, asgs, sigma. split.
    + unfold keygen_pk. change (circuit_rows k) with (Z.to_nat (2 ^ k)).
      rewrite create_bcs, bcs_degree. change (Z.of_nat 11) with 11%Z. rewrite Ed. cbn [bind lift_panic ebind]. rewrite EK. exact Eb.
    + split; [exact EK|]. split; [exact Ec|]. split; [exact Ev|]. split; [exact E1|]. split; [exact E2|]. split; [exact L1|].
      split; [exact L2|]. split; [exact L3|]. split; [exact L4|]. split; [exact KF|]. split; [exact PK|]. split; [exact DF|].
      exact (domain_new_coset _ _ _ _ Ed).
Qed.
