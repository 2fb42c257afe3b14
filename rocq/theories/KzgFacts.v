(** What the reference string holds and what a commitment is. *)
From Coq Require Import ZArith List Arith Bool Lia Zpow_facts.
From Verif Require Import Base Moduli Field FieldFacts LimbSpec LimbField LimbModel LimbConst FieldClaims ListFacts RootFacts
  PolyFacts SerdeModel SerdeFacts DomainModel DomainSpec DomainFacts IopPoly IopCoeff ArithModel ArithSpec FftFacts TransformFacts
  ArithFacts MultiexpFacts KzgModel.
Import ListNotations.
Local Open Scope Z_scope.

Lemma ROOT_INV_is : (root_c * ROOT_INV)%F = f1.
Proof.
  destruct roots_hold as (w & wi & d & z & h & R1 & R2 & _ & _ & _ & _ & _ & _ & E & _).
  apply (rep_iff r_pos) in R1, R2. apply fr_value_rep in R1, R2. unfold ROOT_INV. rewrite R2.
  pose proof ROOT_is as X. unfold ROOT in X. rewrite R1 in X. rewrite <- X. exact E.
Qed.
Lemma TWO_INV_is : (FrZ 2 * TWO_INV)%F = f1.
Proof.
  destruct roots_hold as (w & wi & d & z & h & _ & _ & _ & _ & R & _ & _ & _ & _ & _ & _ & _ & _ & E).
  apply (rep_iff r_pos) in R. apply fr_value_rep in R. unfold TWO_INV. rewrite R. rewrite <- E.
  replace (FrZ 2) with (f1 + f1 : Fr)%F by (apply fe_eq; vm_compute; reflexivity). fring.
Qed.
Lemma finv_unique (a b : Fr) : (a * b)%F = f1 -> finv a = b.
Proof.
  intros E. assert (N : a <> f0).
  { intros ->. apply Fr_1_neq_0. rewrite <- E. fring. }
  pose proof (fmul_finv a N) as F. revert F. generalize (finv a). intros i F.
  transitivity (a * b * i)%F; [rewrite E; fring|]. transitivity (a * i * b)%F; [fring|]. rewrite F. fring.
Qed.
Lemma squarings_root k : 0 <= k <= 28 -> squarings (Z.to_nat (S_ - k)) (finv ROOT_INV) = omega_c k.
Proof.
  intros Hk. rewrite (finv_unique ROOT_INV root_c) by (rewrite <- ROOT_INV_is; fring).
  rewrite squarings_is, Z2Nat.id by (unfold S_; lia). reflexivity.
Qed.
Lemma squarings_root_inv k : 0 <= k <= 28 -> (omega_c k * squarings (Z.to_nat (S_ - k)) ROOT_INV)%F = f1.
Proof.
  intros Hk. rewrite squarings_is, Z2Nat.id by (unfold S_; lia). unfold omega_c, S_. rewrite <- fpow_fmul, ROOT_INV_is.
  apply fpow_one. apply Z.pow_nonneg. lia.
Qed.
Lemma FrZ_pow2 k : 0 <= k -> FrZ (2 ^ k) = fpow (FrZ 2) k.
Proof. intros Hk. unfold FrZ, fpow. rewrite fval_of_Z. apply of_Z_eq_mod. rewrite <- Zpower_mod by reflexivity. reflexivity. Qed.
Lemma two_inv_pow k : 0 <= k -> (FrZ (2 ^ k) * pow_vartime TWO_INV k)%F = f1.
Proof.
  intros Hk. rewrite pow_vartime_is, FrZ_pow2 by exact Hk. rewrite <- fpow_fmul, TWO_INV_is. apply fpow_one. exact Hk.
Qed.
Lemma omega_down k k' : 0 <= k' <= k -> k <= 28 -> omega_c k' = fpow (omega_c k) (2 ^ (k - k')).
Proof.
  intros H H28. unfold omega_c. rewrite fpow_mul by (apply Z.pow_nonneg; lia). f_equal. rewrite <- Z.pow_add_r by lia. f_equal. lia.
Qed.

Lemma map_res_ok {A B} (f : A -> res B) (g : A -> B) l : (forall a, In a l -> f a = Ok (g a)) -> map_res f l = Ok (map g l).
Proof.
  induction l as [|a l IH]; intros H; [reflexivity|]. cbn [map_res map]. rewrite H by (left; reflexivity). cbn [bind].
  rewrite IH by (intros; apply H; right; assumption). reflexivity.
Qed.
Lemma map_res_panic {A B} (f : A -> res B) l a : In a l -> f a = Panic -> map_res f l = Panic.
Proof.
  intros I E. induction l as [|b l IH]; [destruct I|]. cbn [map_res]. destruct I as [->|I]; [rewrite E; reflexivity|].
  destruct (f b); [cbn [bind]; rewrite IH by exact I; reflexivity|reflexivity].
Qed.

Section Srs.
Context {G1 G2 : Type}.
Variables (zero : G1) (add sub : G1 -> G1 -> G1) (scale : Fr -> G1 -> G1) (gen : G1).
Variables (scale2 : Fr -> G2 -> G2) (gen2 : G2).
Hypothesis M : is_module zero add sub scale.
Notation setup := (setup scale gen scale2 gen2).

(** the scalars of the Lagrange basis *)
Definition lag_c (k : Z) (i : nat) (s : Fr) : Fr := lag (Z.to_nat (2 ^ k)) (finv (omega_c k)) (finv (FrZ (2 ^ k))) i s.
Lemma pow2_nat k : 0 <= k -> Z.of_nat (Z.to_nat (2 ^ k)) = 2 ^ k.
Proof. intros Hk. apply Z2Nat.id, Z.pow_nonneg. lia. Qed.
Lemma omega_order k : 0 <= k <= 28 -> order_is (omega_c k) (Z.of_nat (Z.to_nat (2 ^ k))).
Proof. intros Hk. rewrite pow2_nat by lia. apply order_omega. exact Hk. Qed.
Lemma omega_inv k : 0 <= k <= 28 -> (omega_c k * finv (omega_c k))%F = f1.
Proof. intros Hk. apply fmul_finv, (order_nz _ (2 ^ k)), order_omega, Hk. Qed.
Lemma n_inv k : 0 <= k -> (FrZ (Z.of_nat (Z.to_nat (2 ^ k))) * finv (FrZ (2 ^ k)))%F = f1.
Proof. intros Hk. rewrite pow2_nat by exact Hk. apply fmul_finv, pow2_nz, Hk. Qed.

Lemma setup_ok k s : 0 <= k <= 28 -> fpow s (2 ^ k) <> f1 ->
  setup k s = Ok (Srs k (2 ^ k) (map (fun i => scale (fpow s (Z.of_nat i)) gen) (seq 0 (Z.to_nat (2 ^ k))))
                     (map (fun i => scale (lag_c k i s) gen) (seq 0 (Z.to_nat (2 ^ k)))) gen2 (scale2 s gen2)).
Proof.
  intros Hk Hs. unfold KzgModel.setup. destruct (Z.leb_spec k S_) as [_|L]; [|unfold S_ in L; lia].
  rewrite squarings_root by exact Hk.
  rewrite (map_res_ok _ (fun i => scale (lag_c k i s) gen)).
  - cbn [bind]. f_equal. f_equal. apply map_ext. intros i. rewrite pow_vartime_is by lia. reflexivity.
  - intros i Hi. apply in_seq in Hi. rewrite pow_vartime_is by lia. set (rp := fpow (omega_c k) (Z.of_nat i)).
    assert (N : (s - rp)%F <> f0).
    { intros E. apply fsub_eq in E. apply Hs. rewrite E. pose proof (pt_pow_n _ _ (omega_order k Hk) i) as P.
      rewrite pow2_nat in P by lia. exact P. }
    rewrite (proj2 (feqb_neq _ _) N). f_equal. f_equal.
    pose proof (lag_formula (Z.to_nat (2 ^ k)) (omega_c k) (finv (omega_c k)) (omega_order k Hk) (omega_inv k Hk) (finv (FrZ (2 ^ k))) i s) as F.
    unfold pt in F. fold rp in F. rewrite pow2_nat in F by lia. unfold lag_c.
    rewrite pow_vartime_is by (apply Z.pow_nonneg; lia).
    pose proof (fmul_finv _ N) as V. revert F V. generalize (lag (Z.to_nat (2 ^ k)) (finv (omega_c k)) (finv (FrZ (2 ^ k))) i s).
    generalize (finv (s - rp)%F) (finv (FrZ (2 ^ k))). intros v ni l F V.
    transitivity ((fpow s (2 ^ k) - f1) * (rp * ni) * v)%F; [fring|]. rewrite <- F. transitivity (l * ((s - rp) * v))%F; [fring|].
    rewrite V. fring.
Qed.
Lemma setup_panics k s : 0 <= k <= 28 -> fpow s (2 ^ k) = f1 -> setup k s = Panic.
Proof.
  intros Hk Hs. unfold KzgModel.setup. destruct (Z.leb_spec k S_) as [_|L]; [|unfold S_ in L; lia].
  rewrite squarings_root by exact Hk.
  assert (Hs' : fpow s (Z.of_nat (Z.to_nat (2 ^ k))) = f1) by (rewrite pow2_nat by lia; exact Hs).
  apply (vanishing_roots _ _ (omega_order k Hk)) in Hs'. destruct Hs' as (i & Hi & Ei).
  rewrite (map_res_panic _ _ i); [reflexivity|apply in_seq; lia|]. rewrite pow_vartime_is by lia. unfold pt in Ei. rewrite <- Ei.
  replace (s - s)%F with (@f0 r_pos) by fring. rewrite feqb_refl. reflexivity.
Qed.

(** linear combinations of multiples of one point *)
Lemma linear_gen coeffs : forall (f : nat -> Fr) a,
  linear zero add scale coeffs (map (fun i => scale (f i) gen) (seq a (length coeffs))) =
  scale (fsum (map (fun i => nth (i - a) coeffs f0 * f i)%F (seq a (length coeffs)))) gen.
Proof.
  unfold linear. induction coeffs as [|c coeffs IH]; intros f a; [symmetry; apply (mod_zero_scale _ _ _ _ M)|].
  cbn [length seq map combine gsum fold_right fsum fst snd]. rewrite Nat.sub_diag. cbn [nth].
  unfold gsum in IH. rewrite IH. rewrite <- (mod_mul_scale _ _ _ _ M), (mod_add_scale _ _ _ _ M). do 2 f_equal. f_equal.
  apply map_ext_in. intros i Hi. apply in_seq in Hi. replace (i - a)%nat with (S (i - S a)) by lia. reflexivity.
Qed.
Lemma firstn_seq m a n : (m <= n)%nat -> firstn m (seq a n) = seq a m.
Proof.
  revert a n. induction m as [|m IH]; intros a [|n] H; try lia; try reflexivity. cbn [seq firstn]. rewrite IH by lia. reflexivity.
Qed.
Lemma commit_with_gen (f : nat -> Fr) n poly : (length poly <= n)%nat ->
  commit_with zero add (map (fun i => scale (f i) gen) (seq 0 n)) poly =
  Ok (scale (fsum (map (fun i => nth i poly f0 * f i)%F (seq 0 (length poly)))) gen).
Proof.
  intros L. unfold commit_with. rewrite map_length, seq_length, (proj2 (Nat.leb_le _ _) L).
  rewrite firstn_map, firstn_seq by exact L. rewrite (multiexp_ok _ _ _ _ M) by (rewrite map_length, seq_length; reflexivity).
  f_equal. rewrite linear_gen. do 2 f_equal. apply map_ext. intros i. rewrite Nat.sub_0_r. reflexivity.
Qed.
Lemma commit_ok k s p poly : 0 <= k <= 28 -> setup k s = Ok p -> Z.of_nat (length poly) <= 2 ^ k ->
  commit zero add p poly = Ok (scale (peval poly s) gen).
Proof.
  intros Hk E L. destruct (fe_dec (fpow s (2 ^ k)) f1) as [C|C]; [rewrite setup_panics in E by assumption; discriminate|].
  rewrite setup_ok in E by assumption. injection E as <-. unfold commit. cbn [sr_g].
  rewrite commit_with_gen by lia. do 2 f_equal. rewrite <- peval_seq0. f_equal. symmetry. apply (list_is_map f0).
Qed.
Lemma commit_lagrange_ok k s p (vals c : list Fr) : 0 <= k <= 28 -> setup k s = Ok p ->
  Z.of_nat (length vals) = 2 ^ k -> Z.of_nat (length c) = 2 ^ k ->
  (forall r, (r < length vals)%nat -> peval c (fpow (omega_c k) (Z.of_nat r)) = nth r vals f0) ->
  commit_lagrange zero add p vals = Ok (scale (peval c s) gen).
Proof.
  intros Hk E Lv Lc H. destruct (fe_dec (fpow s (2 ^ k)) f1) as [C|C]; [rewrite setup_panics in E by assumption; discriminate|].
  rewrite setup_ok in E by assumption. injection E as <-. unfold commit_lagrange. cbn [sr_gl].
  rewrite commit_with_gen by lia. do 2 f_equal.
  pose proof (interp_unique (Z.to_nat (2 ^ k)) (omega_c k) (finv (omega_c k)) (omega_order k Hk) (omega_inv k Hk)
    (finv (FrZ (2 ^ k))) (n_inv k ltac:(lia)) (fun r => nth r vals f0) (peval c)) as U.
  rewrite U.
  - unfold interp. replace (length vals) with (Z.to_nat (2 ^ k)) by lia. reflexivity.
  - apply polyfun_peval. lia.
  - intros r Hr. apply H. lia.
Qed.

(** ** A smaller reference string *)
Lemma to_nat_pow2 k : 0 <= k -> Z.to_nat (2 ^ k) = (2 ^ Z.to_nat k)%nat.
Proof. intros Hk. apply Nat2Z.inj. rewrite Nat2Z.inj_pow, pow2_nat, Z2Nat.id by exact Hk. reflexivity. Qed.
Lemma g_to_lagrange_ok k s : 0 <= k <= 28 ->
  g_to_lagrange add sub scale (map (fun i => scale (fpow s (Z.of_nat i)) gen) (seq 0 (Z.to_nat (2 ^ k)))) k =
  Ok (map (fun i => scale (lag_c k i s) gen) (seq 0 (Z.to_nat (2 ^ k)))).
Proof.
  intros Hk. unfold g_to_lagrange. pose proof (squarings_root_inv k Hk) as I. set (wi := squarings _ ROOT_INV) in *.
  assert (Ow : order_is wi (2 ^ Z.of_nat (Z.to_nat k))).
  { rewrite Z2Nat.id by lia. apply (order_inv (omega_c k)); [apply order_omega; exact Hk|exact I]. }
  rewrite (fft_is _ _ _ _ M wi (Z.to_nat k) _ Ow) by (rewrite map_length, seq_length; apply to_nat_pow2; lia).
  cbn [bind]. rewrite map_map. f_equal. rewrite <- to_nat_pow2 by lia. apply map_ext_in. intros i Hi. apply in_seq in Hi.
  rewrite (comb_seq zero add scale). rewrite (scale_gs _ _ _ _ M).
  unfold lag_c, lag. rewrite (finv_unique _ _ I), (finv_unique _ _ (two_inv_pow k ltac:(lia))).
  rewrite fsum_scale, map_map. rewrite <- (gs_scalars zero add sub scale M). apply (gs_ext zero add). intros t Ht.
  rewrite <- !(mod_mul_scale _ _ _ _ M). rewrite fpow_fmul. f_equal. fring.
Qed.
Lemma downsize_ok k s p k' : 0 <= k' <= k -> k <= 28 -> setup k s = Ok p ->
  downsize add sub scale p k' = setup k' s.
Proof.
  intros Hk H28 E. destruct (fe_dec (fpow s (2 ^ k)) f1) as [C|C]; [rewrite setup_panics in E by (assumption || lia); discriminate|].
  rewrite setup_ok in E by (assumption || lia). injection E as <-. unfold downsize. cbn [sr_k sr_g sr_g2 sr_s_g2].
  destruct (Z.leb_spec k' k); [|lia]. rewrite firstn_map, firstn_seq by (apply Z2Nat.inj_le; try apply Z.pow_nonneg; try apply Z.pow_le_mono_r; lia).
  rewrite g_to_lagrange_ok by lia. cbn [bind]. rewrite setup_ok; [reflexivity|lia|].
  intros C'. apply C. replace (2 ^ k) with (2 ^ k' * 2 ^ (k - k')) by (rewrite <- Z.pow_add_r by lia; f_equal; lia).
  rewrite <- fpow_mul by (apply Z.pow_nonneg; lia). rewrite C'. apply fpow_one, Z.pow_nonneg. lia.
Qed.
Lemma setup_iff k s : 0 <= k <= 28 -> (setup k s = Panic <-> fpow s (2 ^ k) = f1).
Proof.
  intros Hk. split; [|apply setup_panics; exact Hk]. intros E. destruct (fe_dec (fpow s (2 ^ k)) f1) as [C|C]; [exact C|].
  rewrite setup_ok in E by assumption. discriminate.
Qed.
End Srs.

Lemma domain_omega pr j k d : 1 <= j < 2 ^ 32 -> 0 <= k -> k + Z.log2_up (j - 1) <= 28 -> domain_new pr j k = Ok d ->
  domain_for j k d /\ d_omega d = omega_c k.
Proof.
  intros Hj Hk HB E. destruct (domain_correct pr j k Hj Hk HB) as (d' & E' & D). assert (d' = d) by congruence. subst d'.
  split; [exact D|]. destruct (df_extended _ _ _ D) as (K1 & _ & K2). destruct (df_size _ _ _ D) as (_ & Ek & _).
  assert (K3 : d_extended_k d <= 28).
  { apply K2; [pose proof (Z.log2_up_nonneg (j - 1)); lia|]. destruct (Z.eq_dec j 1) as [->|N]; [rewrite Z.mul_0_r; lia|].
    assert (j - 1 <= 2 ^ Z.log2_up (j - 1)) by (apply Z.log2_up_le_pow2; lia).
    etransitivity; [apply Z.mul_le_mono_nonneg_l; [apply Z.pow_nonneg; lia|eassumption]|].
    rewrite <- Z.pow_add_r by (try apply Z.log2_up_nonneg; lia). apply Z.pow_le_mono_r; lia. }
  clear E' D K2 HB Hj. revert E K1 K3 Ek. unfold domain_new. assert (HS : S_ = 28) by reflexivity.
  generalize dependent S_. intros S0 HS.
  repeat match goal with |- (let! x := ?e in _) = _ -> _ => destruct e; [cbn [bind]|intros X; discriminate X] end.
  intros E. injection E as <-. cbn [d_omega d_extended_k d_k]. intros K1 K3 _.
  rewrite !squarings_is, !Z2Nat.id by lia. rewrite ROOT_is, fpow_mul by (apply Z.pow_nonneg; lia).
  unfold omega_c. f_equal. rewrite <- Z.pow_add_r by lia. f_equal. lia.
Qed.
