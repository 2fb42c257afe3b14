(** Evaluation domains are what they should be. *)
From Coq Require Import ZArith Znumtheory Zpow_facts List Lia Bool.
From Verif Require Import Base Moduli Field FieldFacts LimbModel LimbSpec LimbFacts LimbField LimbConst
  RootFacts FieldClaims SerdeModel SerdeFacts DomainModel DomainSpec.
Import ListNotations.
Local Open Scope Z_scope.

Lemma pow2_pos k : 0 <= k -> 0 < 2 ^ k.
Proof. intros. apply Z.pow_pos_nonneg; lia. Qed.
Lemma pow_vartime_is (a : Fr) n : 0 <= n -> pow_vartime a n = fpow a n.
Proof.
  intros H. unfold pow_vartime, fpow, FrZ. rewrite Zpow_mod_correct by discriminate.
  apply of_Z_eq_mod. rewrite Z.mod_mod by discriminate. reflexivity.
Qed.
Lemma squarings_is n : forall x : Fr, squarings n x = fpow x (2 ^ Z.of_nat n).
Proof.
  induction n as [|n IH]; intros x; cbn [squarings].
  - change (2 ^ Z.of_nat 0) with 1. symmetry. apply fpow_1.
  - rewrite IH. replace (x * x)%F with (fpow x 2).
    + rewrite fpow_mul by (try apply Z.pow_nonneg; lia). f_equal.
      rewrite Nat2Z.inj_succ, Z.pow_succ_r by lia. reflexivity.
    + change 2 with (1 + 1). rewrite fpow_add, fpow_1 by lia. reflexivity.
Qed.
Lemma ROOT_is : ROOT = root_c.
Proof.
  unfold ROOT, root_c. apply fr_value_rep, (rep_iff r_pos). crep good_fr.
Qed.
Lemma ZETA_is : (ZETA * ZETA * ZETA)%F = f1 /\ ZETA <> f1.
Proof.
  destruct roots_hold as (w & wi & d & z & h & _ & _ & _ & Z1 & _ & _ & _ & _ & _ & _ & _ & E & N & _).
  apply (rep_iff r_pos) in Z1. apply fr_value_rep in Z1. unfold ZETA. rewrite Z1. auto.
Qed.

(** ** Orders *)
Lemma order_omega k : 0 <= k <= 28 -> order_is (omega_c k) (2 ^ k).
Proof.
  intros Hk. pose proof (pow2_pos k ltac:(lia)). pose proof (pow2_pos (28 - k) ltac:(lia)). pose proof tt_pos.
  split; [assumption|]. intros i Hi. rewrite omega_is, fpow_mul by nia.
  assert (S : rm1 = tt * 2 ^ (28 - k) * 2 ^ k).
  { rewrite rm1_split, <- Z.mul_assoc, <- Z.pow_add_r by lia. replace (28 - k + k) with 28 by lia. ring. }
  split.
  - intros E. apply seven_order in E; [|nia]. rewrite S in E.
    apply Z.mul_divide_cancel_l in E; [exact E|nia].
  - intros (c & ->). replace (tt * 2 ^ (28 - k) * (c * 2 ^ k)) with (rm1 * c) by (rewrite S; ring).
    apply fpow_one_mult; [vm_compute; discriminate|nia|exact seven_fermat].
Qed.
Lemma order_pow a m d : order_is a (m * d) -> 0 < d -> order_is (fpow a d) m.
Proof.
  intros [P O] Hd. split; [nia|]. intros i Hi. rewrite fpow_mul, O by nia.
  rewrite (Z.mul_comm d i). split.
  - intros D. apply Z.mul_divide_cancel_r in D; [exact D|lia].
  - intros D. apply Z.mul_divide_mono_r, D.
Qed.
Lemma order_nz a m : order_is a m -> a <> f0.
Proof.
  intros [P O] ->. assert (E : fpow (@f0 r_pos) m = f1) by (apply O; [lia|apply Z.divide_refl]).
  rewrite (fpow_zero r_pos) in E by lia. symmetry in E. exact (Fr_1_neq_0 E).
Qed.
Lemma order_three z : (z * z * z)%F = f1 -> z <> f1 -> order_is z 3.
Proof.
  intros E N. assert (P3 : fpow z 3 = f1).
  { change 3 with (1 + 1 + 1). rewrite !fpow_add, fpow_1 by lia. exact E. }
  split; [lia|]. intros i Hi. split.
  - intros Ei. assert (NZ : z <> f0).
    { intros ->. apply Fr_1_neq_0. rewrite <- E. fring. }
    pose proof (fpow_one_gcd z i 3 NZ Hi ltac:(lia) Ei P3) as G.
    assert (D : (Z.gcd i 3 | 3)) by apply Z.gcd_divide_r.
    destruct (prime_divisors 3 prime_3 _ D) as [X|[X|[X|X]]]; pose proof (Z.gcd_nonneg i 3); try lia.
    + rewrite X, fpow_1 in G. contradiction.
    + rewrite <- X. apply Z.gcd_divide_l.
  - intros (c & ->). rewrite Z.mul_comm. apply fpow_one_mult; [lia|lia|exact P3].
Qed.
Lemma pow2_mod3 k : 0 <= k -> ~ (3 | 2 ^ k).
Proof.
  intros Hk D. apply prime_power_prime in D; [lia|exact Hk|exact prime_3|exact prime_2].
Qed.

(** ** The search for the extended domain *)
Lemma shl_ok pr k : 0 <= k < 64 -> shl_u64 pr k = Ok (2 ^ k).
Proof. intros H. unfold shl_u64. destruct (Z.ltb_spec k 64); [reflexivity|lia]. Qed.
Lemma search_ok pr k q : 0 <= k -> 0 <= q -> k + Z.log2_up q < 64 ->
  forall fuel ek, k <= ek <= k + Z.log2_up q -> (Z.to_nat (k + Z.log2_up q - ek) < fuel)%nat ->
  extended_search pr fuel ek (2 ^ k * q) = Ok (k + Z.log2_up q).
Proof.
  intros Hk Hq HB. induction fuel as [|fuel IH]; intros ek He Hf; [lia|]. cbn [extended_search].
  rewrite shl_ok by lia. cbn [bind].
  assert (X : 2 ^ ek = 2 ^ k * 2 ^ (ek - k)).
  { rewrite <- Z.pow_add_r by lia. f_equal. lia. }
  pose proof (pow2_pos k Hk). rewrite X.
  destruct (Z.ltb_spec (2 ^ k * 2 ^ (ek - k)) (2 ^ k * q)) as [L|L].
  - assert (L' : 2 ^ (ek - k) < q) by nia. apply Z.log2_up_lt_pow2 in L'; [|lia].
    apply IH; lia.
  - f_equal. assert (L' : q <= 2 ^ (ek - k)) by nia.
    destruct (Z.eq_dec q 0) as [->|NZ]; [change (Z.log2_up 0) with 0 in *; lia|].
    apply Z.log2_up_le_pow2 in L'; lia.
Qed.

(** ** The powers on the coset *)
Lemma coset_ok orig step c : orig <> f0 -> order_is step c ->
  forall n i, Z.of_nat n = c - i -> 0 <= i < c ->
  coset_loop n orig step (orig * fpow step i)%F =
    Some (map (fun t => orig * fpow step (i + Z.of_nat t))%F (seq 0 n)).
Proof.
  intros NZ [P O]. induction n as [|n IH]; intros i En Hi; [lia|]. cbn [coset_loop].
  assert (E : (orig * fpow step i * step)%F = (orig * fpow step (i + 1))%F)
    by (rewrite fpow_add, fpow_1 by lia; fring).
  rewrite E. destruct (feqb_spec (orig * fpow step (i + 1))%F orig) as [E1|N1].
  - assert (E2 : fpow step (i + 1) = f1).
    { transitivity (finv orig * (orig * fpow step (i + 1)))%F; [|rewrite E1]; ffield; exact NZ. }
    apply O in E2; [|lia]. apply Z.divide_pos_le in E2; [|lia].
    assert (n = 0%nat) by lia. subst n. cbn [seq map]. rewrite Z.add_0_r. reflexivity.
  - destruct n as [|n].
    + exfalso. apply N1. assert (i + 1 = c) by lia.
      replace (fpow step (i + 1)) with (@f1 r_pos); [fring|]. symmetry. apply O; [lia|]. exists 1. lia.
    + rewrite IH by lia. change (seq 0 (S (S n))) with (0%nat :: seq 1 (S n)). rewrite <- (seq_shift (S n) 0).
      change (Z.of_nat 0) with 0. cbn [map]. rewrite map_map. do 2 f_equal.
      * do 2 f_equal. cbn. lia.
      * apply map_ext. intros t. do 2 f_equal. lia.
Qed.

Lemma pow2_nz k : 0 <= k -> FrZ (2 ^ k) <> f0.
Proof.
  intros Hk E. assert (T : FrZ (2 ^ k) = fpow (FrZ 2) k).
  { unfold FrZ, fpow. rewrite fval_of_Z. apply of_Z_eq_mod. rewrite <- Zpower_mod by reflexivity. reflexivity. }
  rewrite T in E. revert E. apply (fpow_nz r_pos r_prime); [exact Hk|].
  intros E. apply (f_equal fval) in E. vm_compute in E. discriminate.
Qed.

Lemma fmul_finv (a : Fr) : a <> f0 -> (a * finv a)%F = f1.
Proof. intros N. ffield. exact N. Qed.

Theorem domain_correct pr j k : 1 <= j < 2 ^ 32 -> 0 <= k -> k + Z.log2_up (j - 1) <= 28 ->
  exists d, domain_new pr j k = Ok d /\ domain_for j k d.
Proof.
  intros Hj Hk HB. set (q := j - 1) in *. set (e := Z.log2_up q) in *.
  assert (He : 0 <= e) by apply Z.log2_up_nonneg.
  pose proof (pow2_pos k Hk) as Pk.
  assert (Q : q <= 2 ^ e).
  { destruct (Z.eq_dec q 0) as [->|NZ]; [pose proof (pow2_pos e He); lia|]. apply Z.log2_up_le_pow2; [lia|]. unfold e. lia. }
  assert (T : 2 ^ k * q <= 2 ^ (k + e)) by (rewrite Z.pow_add_r by lia; nia).
  assert (T28 : 2 ^ (k + e) <= 2 ^ 28) by (apply Z.pow_le_mono_r; lia).
  unfold domain_new. unfold overflow at 1. fold q.
  destruct (Z.leb_spec 0 q); [|lia]. destruct (Z.ltb_spec q (2 ^ 32)); [|lia]. cbn [andb bind].
  rewrite shl_ok by lia. cbn [bind]. unfold overflow.
  destruct (Z.leb_spec 0 (2 ^ k * q)); [|nia].
  destruct (Z.ltb_spec (2 ^ k * q) (2 ^ 64)); [|lia]. cbn [andb bind].
  rewrite (search_ok pr k q); [|lia|lia|fold e; lia|fold e; lia|fold e; lia]. fold e. cbn [bind].
  replace (k + e - k) with e by lia.
  set (xo := squarings (Z.to_nat (S_ - (k + e))) ROOT). set (w := squarings (Z.to_nat e) xo).
  assert (Xo : xo = omega_c (k + e)).
  { unfold xo, omega_c, S_. rewrite squarings_is, ROOT_is, Z2Nat.id by lia. reflexivity. }
  assert (Ox : order_is xo (2 ^ (k + e))) by (rewrite Xo; apply order_omega; lia).
  assert (Ew : w = fpow xo (2 ^ e)) by (unfold w; rewrite squarings_is, Z2Nat.id by lia; reflexivity).
  assert (Ow : order_is w (2 ^ k)).
  { rewrite Ew. apply order_pow; [|apply pow2_pos, He]. rewrite <- Z.pow_add_r by lia. exact Ox. }
  destruct ZETA_is as [Z3 Z1]. pose proof (order_three ZETA Z3 Z1) as OZ. pose proof (order_nz _ _ OZ) as NZ.
  rewrite !pow_vartime_is by lia. set (orig := fpow ZETA (2 ^ k)). set (step := fpow xo (2 ^ k)).
  assert (Os : order_is step (2 ^ e)).
  { unfold step. apply order_pow; [|exact Pk]. rewrite <- Z.pow_add_r by lia. rewrite Z.add_comm. exact Ox. }
  assert (No : orig <> f0) by (apply (fpow_nz r_pos r_prime); [lia|exact NZ]).
  rewrite shl_ok by lia. cbn [bind].
  pose proof (pow2_pos e He) as Pe.
  pose proof (coset_ok orig step (2 ^ e) No Os (Z.to_nat (2 ^ e)) 0 ltac:(lia) ltac:(lia)) as CO.
  replace (orig * fpow step 0)%F with orig in CO by (rewrite fpow_0; fring). rewrite CO.
  unfold lenZ. rewrite map_length, seq_length, Z2Nat.id by lia. rewrite Z.eqb_refl. cbn [bind].
  rewrite !shl_ok by lia. cbn [bind].
  eexists. split; [reflexivity|].
  constructor; cbn [d_n d_k d_extended_k d_omega d_omega_inv d_extended_omega d_extended_omega_inv d_g_coset
    d_g_coset_inv d_quotient_poly_degree d_ifft_divisor d_extended_ifft_divisor d_t_evaluations d_barycentric_weight];
    try replace (k + e - k) with e by lia; fold q.
  - auto.
  - split; [lia|]. split; [exact T|]. intros e' Hk' He'.
    assert (2 ^ k * q <= 2 ^ k * 2 ^ (e' - k)).
    { rewrite <- Z.pow_add_r by lia. replace (k + (e' - k)) with e' by lia. exact He'. }
    destruct (Z.eq_dec q 0) as [Eq|NQ]; [unfold e; rewrite Eq; change (Z.log2_up 0) with 0; lia|].
    assert (L : q <= 2 ^ (e' - k)) by nia. apply Z.log2_up_le_pow2 in L; [unfold e; lia|lia].
  - exact Ow.
  - split; [exact Ox|exact Ew].
  - split; [apply fmul_finv, (order_nz _ _ Ow)|]. split; [apply fmul_finv, (order_nz _ _ Ox)|].
    split; [transitivity (ZETA * ZETA * ZETA)%F; [fring|exact Z3]|].
    repeat split; apply fmul_finv, pow2_nz; lia.
  - exact OZ.
  - split.
    + unfold batch_invert. rewrite !map_length, seq_length. lia.
    + intros i Hi. pose proof (Z.mod_pos_bound i (2 ^ e) Pe) as B.
      set (v := (fpow (ZETA * fpow xo i) (2 ^ k))%F).
      assert (V : v = (orig * fpow step (i mod 2 ^ e))%F).
      { unfold v, orig, step. rewrite (fpow_fmul r_pos). f_equal. rewrite !fpow_mul by lia.
        rewrite (Z.div_mod i (2 ^ e)) at 1 by lia.
        assert (0 <= i / 2 ^ e) by (apply Z.div_pos; lia).
        replace ((2 ^ e * (i / 2 ^ e) + i mod 2 ^ e) * 2 ^ k)
          with (2 ^ (k + e) * (i / 2 ^ e) + 2 ^ k * (i mod 2 ^ e)) by (rewrite Z.pow_add_r by lia; ring).
        pose proof (pow2_pos (k + e) ltac:(lia)).
        rewrite fpow_add by nia. replace (fpow xo (2 ^ (k + e) * (i / 2 ^ e))) with (@f1 r_pos); [fring|].
        symmetry. apply Ox; [nia|]. exists (i / 2 ^ e). ring. }
      assert (NV : v <> f1).
      { intros E. rewrite V in E. set (m := i mod 2 ^ e) in *.
        assert (E3 : fpow step (m * 3) = f1).
        { assert (C : fpow (orig * fpow step m)%F 3 = f1) by (rewrite E; apply (fpow_one r_pos); lia).
          rewrite (fpow_fmul r_pos), fpow_mul in C by lia. rewrite <- C. unfold orig. rewrite fpow_mul by lia.
          replace (fpow ZETA (2 ^ k * 3)) with (@f1 r_pos); [fring|]. symmetry. apply OZ; [lia|].
          exists (2 ^ k). ring. }
        apply Os in E3; [|lia]. rewrite Z.mul_comm in E3. apply Gauss in E3.
        - apply Os in E3; [|lia]. rewrite E3 in E. replace (orig * f1)%F with orig in E by fring.
          unfold orig in E. apply OZ in E; [|lia]. exact (pow2_mod3 k Hk E).
        - apply rel_prime_sym, prime_rel_prime; [exact prime_3|apply pow2_mod3, He]. }
      unfold batch_invert. rewrite !map_map.
      set (f := fun x : nat => _).
      rewrite (nth_indep _ f0 (f O)) by (rewrite map_length, seq_length; lia).
      rewrite (map_nth f), seq_nth by lia. unfold f. rewrite Nat.add_0_l, Z.add_0_l, Z2Nat.id by lia.
      rewrite <- V. clearbody v. clear - NV. assert (N : (v - f1)%F <> f0).
      2: { apply (finv_l r_prime), N. }
      intros E. apply NV.
      transitivity (v - f1 + f1)%F; [fring|rewrite E; fring].
Qed.

(** ** sizes beyond the two-adicity, for degree 11 *)
Lemma coset_more orig step : forall n cur l m, coset_loop n orig step cur = Some l -> coset_loop (n + m) orig step cur = Some l.
Proof.
  induction n as [|n IH]; intros cur l m H; [discriminate|]. cbn [coset_loop Nat.add] in *.
  destruct (feqb _ _); [exact H|]. destruct (coset_loop n orig step _) as [l'|] eqn:E; [|discriminate].
  rewrite (IH _ _ m E). exact H.
Qed.
(** the order of the running factor is at most [2 ^ (28 - k)] *)
Lemma coset_length k : 0 <= k -> exists c, 0 < c /\ c = 2 ^ Z.max 0 (28 - k) /\ forall fuel, c <= Z.of_nat fuel ->
  exists l, coset_loop fuel (pow_vartime ZETA (2 ^ k)) (pow_vartime ROOT (2 ^ k)) (pow_vartime ZETA (2 ^ k)) = Some l /\ lenZ l = c.
Proof.
  intros Hk. pose proof (pow2_pos k Hk). rewrite !pow_vartime_is by lia.
  set (c := 2 ^ Z.max 0 (28 - k)). assert (Pc : 0 < c) by (apply pow2_pos; lia).
  exists c. split; [exact Pc|]. split; [reflexivity|]. intros fuel F.
  destruct ZETA_is as [Z3 Z1]. pose proof (order_nz _ _ (order_three ZETA Z3 Z1)) as NZ.
  set (orig := fpow ZETA (2 ^ k)). set (step := fpow ROOT (2 ^ k)).
  assert (No : orig <> f0) by (apply (fpow_nz r_pos r_prime); [lia|exact NZ]).
  assert (R : omega_c 28 = root_c) by (unfold omega_c; change (2 ^ (28 - 28)) with 1; apply fpow_1).
  pose proof (order_omega 28 ltac:(lia)) as OR. rewrite R, <- ROOT_is in OR.
  assert (Os : order_is step c).
  { destruct (Z.le_ge_cases k 28) as [L|L].
    - apply order_pow; [|assumption]. unfold c. rewrite Z.max_r, <- Z.pow_add_r by lia.
      replace (28 - k + k) with 28 by lia. exact OR.
    - unfold c. rewrite Z.max_l by lia. change (2 ^ 0) with 1.
      assert (E : step = f1).
      { apply OR; [lia|]. exists (2 ^ (k - 28)). rewrite <- Z.pow_add_r by lia. f_equal. lia. }
      rewrite E. split; [lia|]. intros i Hi. rewrite (fpow_one r_pos) by exact Hi. split; [intros _; apply Z.divide_1_l|reflexivity]. }
  pose proof (coset_ok orig step c No Os (Z.to_nat c) 0 ltac:(lia) ltac:(lia)) as CO.
  replace (orig * fpow step 0)%F with orig in CO by (rewrite fpow_0; fring).
  eexists. split.
  - replace fuel with (Z.to_nat c + (fuel - Z.to_nat c))%nat by lia. apply coset_more. exact CO.
  - unfold lenZ. rewrite map_length, seq_length. lia.
Qed.
Definition search_of (pr : profile) (j k : Z) : res Z :=
  let! q := overflow pr 32 (j - 1) in let! n := shl_u64 pr k in let! target := overflow pr 64 (n * q) in
  extended_search pr 256 k target.
Lemma domain_search pr j k : domain_new pr j k = Panic \/ exists ek, search_of pr j k = Ok ek.
Proof.
  unfold domain_new, search_of. destruct (overflow pr 32 (j - 1)); [|auto]. cbn [bind]. destruct (shl_u64 pr k); [|auto]. cbn [bind].
  destruct (overflow pr 64 _); [|auto]. cbn [bind]. destruct (extended_search _ _ _ _); [|auto]. eauto.
Qed.
Lemma domain_too_large pr j k ek : 0 <= k < 64 -> search_of pr j k = Ok ek -> 28 < ek -> k < ek < 64 -> domain_new pr j k = Panic.
Proof.
  intros Hk S H E. unfold search_of in S. unfold domain_new.
  destruct (overflow pr 32 (j - 1)) as [q|]; [|reflexivity]. cbn [bind] in *. rewrite shl_ok in * by lia. cbn [bind] in *.
  destruct (overflow pr 64 _) as [t|]; [|reflexivity]. cbn [bind] in *. rewrite S. cbn [bind].
  replace (Z.to_nat (S_ - ek)) with 0%nat by (unfold S_; lia). cbn [squarings]. rewrite shl_ok by lia. cbn [bind].
  destruct (coset_length k ltac:(lia)) as (c & Pc & Ec & C).
  assert (L : c < 2 ^ (ek - k)) by (rewrite Ec; apply Z.pow_lt_mono_r; lia).
  destruct (C (Z.to_nat (2 ^ (ek - k))) ltac:(lia)) as (l & -> & Ll). rewrite Ll.
  destruct (Z.eqb_spec c (2 ^ (ek - k))); [lia|]. reflexivity.
Qed.
Definition refused pr k : bool := match search_of pr 11 k with Panic => true | Ok ek => (28 <? ek) && (k <? ek) && (ek <? 64) end.
Lemma check_range (f : Z -> bool) lo n : forallb (fun i => f (lo + Z.of_nat i)) (seq 0 n) = true ->
  forall k, lo <= k < lo + Z.of_nat n -> f k = true.
Proof.
  intros A k H. rewrite forallb_forall in A. specialize (A (Z.to_nat (k - lo))).
  rewrite Z2Nat.id in A by lia. replace (lo + (k - lo)) with k in A by lia. apply A, in_seq. lia.
Qed.
Lemma refused_check pr : forallb (fun i => refused pr (25 + Z.of_nat i)) (seq 0 38) = true.
Proof. destruct pr; vm_compute; reflexivity. Qed.
(** a search that gives up stands for one that never ends *)
Lemma domain_refused pr k : 24 < k < 63 -> domain_new pr 11 k = Panic.
Proof.
  intros H. pose proof (check_range (refused pr) 25 38 (refused_check pr) k ltac:(lia)) as R. unfold refused in R.
  destruct (domain_search pr 11 k) as [P|[ek S]]; [exact P|]. rewrite S in R.
  apply andb_prop in R as [R R3]. apply andb_prop in R as [R1 R2]. apply Z.ltb_lt in R1, R2, R3.
  apply (domain_too_large pr 11 k ek); try assumption; lia.
Qed.
Lemma domain_wraps pr j k : 28 <= k < 64 -> search_of pr j k = Ok k -> exists d, domain_new pr j k = Ok d /\ d_omega d = ROOT.
Proof.
  intros Hk S. unfold search_of in S. unfold domain_new.
  destruct (overflow pr 32 (j - 1)) as [q|]; [|discriminate]. cbn [bind] in *. rewrite !shl_ok in * by lia. cbn [bind] in *.
  destruct (overflow pr 64 _) as [t|]; [|discriminate]. cbn [bind] in *. rewrite S. cbn [bind].
  replace (Z.to_nat (S_ - k)) with 0%nat by (unfold S_; lia). rewrite Z.sub_diag. change (Z.to_nat 0) with 0%nat. cbn [squarings].
  rewrite !shl_ok by lia. cbn [bind].
  destruct (coset_length k ltac:(lia)) as (c & _ & Ec & C). rewrite Z.max_l in Ec by lia. change (2 ^ 0) with 1 in *. subst c.
  destruct (C (Z.to_nat 1) ltac:(lia)) as (l & -> & Ll). rewrite Ll.
  change (1 =? 1) with true. cbv iota. cbn [bind]. eexists. split; reflexivity.
Qed.
Lemma search_63 : search_of Wrapping 11 63 = Ok 63. Proof. vm_compute. reflexivity. Qed.
Lemma domain_63 : exists d, domain_new Wrapping 11 63 = Ok d /\ ~ domain_for 11 63 d.
Proof.
  pose proof (domain_wraps Wrapping 11 63 ltac:(lia) search_63) as X.
  destruct X as (d & E & Y). exists d. split; [exact E|]. intros D.
  pose proof (df_omega _ _ _ D) as [_ O].
  rewrite Y, ROOT_is in O. pose proof (order_omega 28 ltac:(lia)) as [_ P].
  assert (F : fpow root_c (2 ^ 28) = f1).
  { assert (R : omega_c 28 = root_c) by (unfold omega_c; change (2 ^ (28 - 28)) with 1; apply fpow_1).
    rewrite <- R. apply P; [discriminate|apply Z.divide_refl]. }
  apply O in F; [|discriminate]. apply Z.divide_pos_le in F; [|reflexivity]. vm_compute in F. congruence.
Qed.
