(** Polynomial functions, evaluation on a subgroup, Lagrange polynomials. *)
From Coq Require Import ZArith List Arith Lia Permutation Bool.
From Verif Require Import Base Moduli Field FieldFacts LimbSpec LimbField LimbConst PolyFacts DomainModel DomainSpec DomainFacts.
Import ListNotations.
Local Open Scope F_scope.

Lemma polyfun_ext d f g : (forall x, f x = g x) -> polyfun d f -> polyfun d g.
Proof. intros E (p & L & H). exists p. split; [exact L|]. intros x. rewrite <- E. apply H. Qed.
Lemma polyfun_mono d d' f : (d <= d')%nat -> polyfun d f -> polyfun d' f.
Proof. intros L (p & Lp & H). exists p. split; [lia|exact H]. Qed.
Lemma polyfun_peval d p : (length p <= d)%nat -> polyfun d (peval p).
Proof. intros L. exists p. split; [exact L|reflexivity]. Qed.
Lemma polyfun_zero_fun d : polyfun d (fun _ => f0).
Proof. exists []. split; [cbn [length]; lia|reflexivity]. Qed.
Lemma polyfun_add d f g : polyfun d f -> polyfun d g -> polyfun d (fun x => f x + g x).
Proof.
  intros (p & Lp & Ep) (q & Lq & Eq). exists (padd p q). split.
  - rewrite padd_length. change (fe r_pos) with Fr in *; lia.
  - intros x. rewrite padd_eval, Ep, Eq. reflexivity.
Qed.
Lemma polyfun_scale d k f : polyfun d f -> polyfun d (fun x => k * f x).
Proof.
  intros (p & Lp & Ep). exists (map (fmul k) p). split; [rewrite map_length; exact Lp|].
  intros x. rewrite pscale_eval, Ep. reflexivity.
Qed.
Lemma polyfun_opp d f : polyfun d f -> polyfun d (fun x => - f x).
Proof. intros H. apply (polyfun_ext d (fun x => fopp f1 * f x)); [intros x; fring|apply polyfun_scale, H]. Qed.
Lemma polyfun_shift d f : polyfun d f -> polyfun (S d) (fun x => x * f x).
Proof.
  intros H. apply (polyfun_ext (S d) (fun x => (x - f0) * f x)); [intros x; fring|apply polyfun_lin, H].
Qed.
Lemma polyfun_mul d e f g : polyfun d f -> polyfun (S e) g -> polyfun (d + e) (fun x => f x * g x).
Proof.
  intros (p & Lp & Ep) Hg. apply (polyfun_ext _ (fun x => peval p x * g x)); [intros x; rewrite Ep; reflexivity|].
  clear f Ep. revert d Lp. induction p as [|c p IH]; intros d Lp.
  - apply (polyfun_ext _ (fun _ => f0)); [intros x; cbn [peval]; fring|apply polyfun_zero_fun].
  - cbn [length] in Lp. destruct d as [|d]; [lia|].
    apply (polyfun_ext _ (fun x => c * g x + x * (peval p x * g x))); [intros x; cbn [peval]; fring|].
    apply polyfun_add.
    + apply (polyfun_mono (S e)); [lia|]. apply polyfun_scale, Hg.
    + apply polyfun_shift, IH. lia.
Qed.
Lemma polyfun_arg d c f : polyfun d f -> polyfun d (fun x => f (c * x)).
Proof.
  intros (p & Lp & Ep). apply (polyfun_ext _ (fun x => peval p (c * x))); [intros x; rewrite Ep; reflexivity|].
  clear f Ep. revert d Lp. induction p as [|a p IH]; intros d Lp.
  - apply polyfun_zero_fun.
  - cbn [length] in Lp. destruct d as [|d]; [lia|].
    apply (polyfun_ext _ (fun x => a + x * (c * peval p (c * x)))); [intros x; cbn [peval]; fring|].
    apply polyfun_add; [apply polyfun_const; lia|]. apply polyfun_shift, polyfun_scale, IH. lia.
Qed.
Lemma polyfun_id : polyfun 2 (fun x => x).
Proof.
  apply (polyfun_ext _ (fun x => x * f1)); [intros x; fring|]. apply polyfun_shift, polyfun_const. lia.
Qed.
Lemma fpow_S' (x : Fr) m : fpow x (Z.of_nat (S m)) = x * fpow x (Z.of_nat m).
Proof. rewrite Nat2Z.inj_succ. unfold Z.succ. apply fpow_S; [exact r_prime|lia]. Qed.
Lemma polyfun_pow m : polyfun (S m) (fun x => fpow x (Z.of_nat m)).
Proof.
  induction m as [|m IH]; [apply (polyfun_ext _ (fun _ => f1)); [reflexivity|apply polyfun_const; lia]|].
  apply (polyfun_ext _ (fun x => x * fpow x (Z.of_nat m))); [intros x; symmetry; apply fpow_S'|].
  apply polyfun_shift, IH.
Qed.
(** equality of polynomial functions from enough points *)
Lemma polyfun_eq d f g roots : polyfun d f -> polyfun d g -> NoDup roots -> (d <= length roots)%nat ->
  (forall a, In a roots -> f a = g a) -> forall x, f x = g x.
Proof.
  intros Hf Hg N L H x. assert (E : f x - g x = f0).
  { apply (polyfun_zero d (fun x => f x - g x) roots); auto using polyfun_sub.
    intros a I. rewrite (H a I). fring. }
  replace (f x) with (f x - g x + g x) by fring. rewrite E. fring.
Qed.

(** sums *)
Fixpoint fsum (l : list Fr) : Fr := match l with [] => f0 | a :: l => a + fsum l end.
Lemma fsum_app l k : fsum (l ++ k) = fsum l + fsum k.
Proof. induction l as [|a l IH]; cbn [app fsum]; [fring|]. rewrite IH. fring. Qed.
Lemma fsum_left l : forall a, fold_left fadd l a = a + fsum l.
Proof. induction l as [|b l IH]; intros a; cbn [fold_left fsum]; [fring|]. rewrite IH. fring. Qed.
Lemma fsum_scale k l : k * fsum l = fsum (map (fmul k) l).
Proof. induction l as [|a l IH]; cbn [map fsum]; [fring|]. rewrite <- IH. fring. Qed.
Lemma fsum_map_add {A} (f g : A -> Fr) l : fsum (map (fun a => f a + g a) l) = fsum (map f l) + fsum (map g l).
Proof. induction l as [|a l IH]; cbn [map fsum]; [fring|]. rewrite IH. fring. Qed.
Lemma fsum_const {A} (k : Fr) (l : list A) : fsum (map (fun _ => k) l) = FrZ (Z.of_nat (length l)) * k.
Proof.
  induction l as [|a l IH]; cbn [map fsum length].
  - change (FrZ (Z.of_nat 0)) with (@f0 r_pos). fring.
  - rewrite IH. rewrite Nat2Z.inj_succ. unfold Z.succ, FrZ. rewrite of_Z_add.
    change (of_Z r_pos 1) with (@f1 r_pos). fring.
Qed.
Lemma fsum_zero {A} (f : A -> Fr) l : (forall a, In a l -> f a = f0) -> fsum (map f l) = f0.
Proof.
  intros H. induction l as [|a l IH]; [reflexivity|]. cbn [map fsum].
  rewrite IH by (intros; apply H; right; assumption). rewrite (H a (or_introl eq_refl)). fring.
Qed.
Lemma fsum_single (f : nat -> Fr) n i : (i < n)%nat -> (forall j, (j < n)%nat -> j <> i -> f j = f0) ->
  fsum (map f (seq 0 n)) = f i.
Proof.
  intros Hi H. replace n with (i + S (n - S i))%nat by lia. rewrite seq_app, map_app, fsum_app.
  cbn [seq map fsum]. change (0 + i)%nat with i. 
  rewrite !fsum_zero; [fring|..]; intros j Hj; apply in_seq in Hj; apply H; lia.
Qed.
Lemma polyfun_fsum {A} d (F : A -> Fr -> Fr) l : (forall a, In a l -> polyfun d (F a)) ->
  polyfun d (fun x => fsum (map (fun a => F a x) l)).
Proof.
  intros H. induction l as [|a l IH]; [apply polyfun_zero_fun|].
  apply (polyfun_ext _ (fun x => F a x + fsum (map (fun a => F a x) l))); [reflexivity|].
  apply polyfun_add; [apply H; left; reflexivity|]. apply IH. intros; apply H; right; assumption.
Qed.

Lemma fpow_swap (a : Fr) i j : (0 <= i)%Z -> (0 <= j)%Z -> fpow (fpow a i) j = fpow (fpow a j) i.
Proof. intros. rewrite !fpow_mul by lia. f_equal. lia. Qed.
Lemma fsub_eq (a b : Fr) : a - b = f0 -> a = b.
Proof. intros E. replace a with (a - b + b) by fring. rewrite E. fring. Qed.
Lemma fmul_cancel (c a b : Fr) : c <> f0 -> c * a = c * b -> a = b.
Proof.
  intros Hc E. apply fsub_eq. assert (X : c * (a - b) = f0) by (replace (c * (a - b)) with (c * a - c * b) by fring; rewrite E; fring).
  apply Fr_mul_eq_0 in X. tauto.
Qed.
Lemma fsub_nz (a b : Fr) : a <> b -> a - b <> f0.
Proof. intros N E. apply N, fsub_eq, E. Qed.

(** ** A cyclic subgroup of [n] points *)
Section Subgroup.
Variables (n : nat) (w wi : Fr).
Hypothesis Hw : order_is w (Z.of_nat n).
Hypothesis Hwi : w * wi = f1.
Definition pt (r : nat) : Fr := fpow w (Z.of_nat r).

Lemma n_pos : (0 < n)%nat.
Proof. destruct Hw. lia. Qed.
Lemma w_nz : w <> f0. Proof. exact (order_nz _ _ Hw). Qed.
Lemma pt_nz r : pt r <> f0.
Proof. apply fpow_nz; [exact r_prime|lia|exact w_nz]. Qed.
Lemma pt_add r s : pt (r + s) = pt r * pt s.
Proof. unfold pt. rewrite Nat2Z.inj_add. apply fpow_add; lia. Qed.
Lemma pt_n : pt n = f1.
Proof. unfold pt. apply Hw; [lia|apply Z.divide_refl]. Qed.
Lemma pt_0 : pt 0 = f1. Proof. reflexivity. Qed.
Lemma pt_1 : pt 1 = w. Proof. apply fpow_1. Qed.
Lemma pt_mul r q : fpow (pt r) (Z.of_nat q) = pt (r * q).
Proof. unfold pt. rewrite fpow_mul by lia. f_equal. lia. Qed.
Lemma pt_pow_n r : fpow (pt r) (Z.of_nat n) = f1.
Proof.
  unfold pt. rewrite fpow_swap by lia. fold (pt n). rewrite pt_n. apply fpow_one; lia.
Qed.
Lemma pt_inj r s : (r < n)%nat -> (s < n)%nat -> pt r = pt s -> r = s.
Proof.
  assert (G : forall r s, (r <= s)%nat -> (s < n)%nat -> pt r = pt s -> r = s).
  { clear r s. intros r s L Ls E. replace s with (r + (s - r))%nat in E by lia. rewrite pt_add in E.
    assert (E1 : pt (s - r) = f1).
    { apply (fmul_cancel (pt r)); [apply pt_nz|]. rewrite <- E. fring. }
    unfold pt in E1. apply Hw in E1; [|lia]. destruct E1 as [q Eq].
    destruct (Z.eq_dec q 0) as [->|Q]; [lia|]. exfalso. assert (q >= 1 \/ q <= -1)%Z by lia. nia. }
  intros Hr Hs E. destruct (le_lt_dec r s); [apply G; (lia || assumption)|symmetry; apply G; (lia || assumption || congruence)].
Qed.
Definition points : list Fr := map pt (seq 0 n).
Lemma points_length : length points = n.
Proof. unfold points. rewrite map_length, seq_length. reflexivity. Qed.
Lemma points_nodup : NoDup points.
Proof.
  apply NoDup_map_in; [|apply seq_NoDup]. intros x y Hx Hy. apply in_seq in Hx, Hy. apply pt_inj; lia.
Qed.
Lemma points_in x : In x points <-> exists r, (r < n)%nat /\ x = pt r.
Proof.
  unfold points. rewrite in_map_iff. split; intros (r & A & B).
  - exists r. apply in_seq in B. split; [lia|congruence].
  - exists r. split; [congruence|]. apply in_seq. lia.
Qed.

(** the points are the roots of X^n - 1 *)
Lemma vanishing_roots x : fpow x (Z.of_nat n) = f1 <-> exists r, (r < n)%nat /\ x = pt r.
Proof.
  split; [|intros (r & _ & ->); apply pt_pow_n].
  intros E. apply points_in. destruct (in_dec (@fe_dec r_pos) x points) as [I|I]; [exact I|exfalso].
  assert (Z0 : forall z : Fr, fpow z (Z.of_nat n) - f1 = f0).
  { apply (polyfun_zero (S n) _ (x :: points)).
    - apply polyfun_sub; [apply polyfun_pow|apply polyfun_const; lia].
    - constructor; [exact I|apply points_nodup].
    - cbn [length]. pose proof points_length as L. change (fe r_pos) with Fr in *. lia.
    - intros a [<-|Ia]; [rewrite E; fring|]. apply points_in in Ia. destruct Ia as (r & _ & ->). rewrite pt_pow_n. fring. }
  specialize (Z0 f0). rewrite fpow_zero in Z0 by (pose proof n_pos; lia).
  apply Fr_1_neq_0. replace (@f1 r_pos) with (f0 - (f0 - @f1 r_pos)) by fring. rewrite Z0. fring.
Qed.

(** rotation of rows *)
Lemma pt_mod z : (0 <= z)%Z -> fpow w z = pt (Z.to_nat (z mod Z.of_nat n)).
Proof.
  intros Hz. pose proof n_pos. unfold pt. rewrite Z2Nat.id by (apply Z.mod_pos_bound; lia).
  rewrite (Z.div_mod z (Z.of_nat n)) at 1 by lia. rewrite fpow_add, <- fpow_mul.
  2-5: try apply Z.div_pos; try apply Z.mod_pos_bound; try lia.
  2:{ apply Z.mul_nonneg_nonneg; [lia|]. apply Z.div_pos; lia. }
  fold (pt n). rewrite pt_n, fpow_one by (apply Z.div_pos; lia). fring.
Qed.
Lemma wi_pow j : (0 <= j)%Z -> fpow wi j * fpow w j = f1.
Proof.
  intros Hj. rewrite <- fpow_fmul. replace (wi * w) with (@f1 r_pos) by (rewrite <- Hwi; fring).
  apply fpow_one; lia.
Qed.
Lemma wi_is j : (0 <= j)%Z -> fpow wi j = pt (Z.to_nat ((- j) mod Z.of_nat n)).
Proof.
  intros Hj. pose proof n_pos. apply (fmul_cancel (fpow w j)).
  { apply fpow_nz; [exact r_prime|lia|exact w_nz]. }
  replace (fpow w j * fpow wi j) with (fpow wi j * fpow w j) by fring.
  rewrite (wi_pow j Hj). unfold pt. rewrite Z2Nat.id by (apply Z.mod_pos_bound; lia).
  rewrite <- fpow_add by (try apply Z.mod_pos_bound; lia). symmetry. apply Hw.
  - pose proof (Z.mod_pos_bound (- j) (Z.of_nat n)). lia.
  - apply Z.mod_divide; [lia|]. rewrite Zplus_mod_idemp_r, Z.add_opp_diag_r. apply Z.mod_0_l. lia.
Qed.

(** ** Lagrange polynomials *)
Variable ni : Fr.
Hypothesis Hni : FrZ (Z.of_nat n) * ni = f1.
(** l_i has coefficients w^(-ij)/n *)
Definition lag (i : nat) (x : Fr) : Fr := ni * fsum (map (fun j => fpow (fpow wi (Z.of_nat i) * x) (Z.of_nat j)) (seq 0 n)).

Lemma geometric (z : Fr) m : (z - f1) * fsum (map (fun j => fpow z (Z.of_nat j)) (seq 0 m)) = fpow z (Z.of_nat m) - f1.
Proof.
  induction m as [|m IH].
  - cbn [seq map fsum]. change (fpow z (Z.of_nat 0)) with (@f1 r_pos). fring.
  - rewrite seq_S, map_app, fsum_app, fpow_S'. cbn [map fsum].
    change (0 + m)%nat with m. replace ((z - f1) * (fsum (map (fun j => fpow z (Z.of_nat j)) (seq 0 m)) + (fpow z (Z.of_nat m) + f0)))
      with ((z - f1) * fsum (map (fun j => fpow z (Z.of_nat j)) (seq 0 m)) + (z - f1) * fpow z (Z.of_nat m)) by fring.
    rewrite IH. fring.
Qed.
Lemma lag_poly i : polyfun n (lag i).
Proof.
  apply polyfun_scale.
  apply (polyfun_arg n (fpow wi (Z.of_nat i)) (fun x => fsum (map (fun j => fpow x (Z.of_nat j)) (seq 0 n)))).
  apply polyfun_fsum. intros j Hj. apply in_seq in Hj. apply (polyfun_mono (S j)); [lia|apply polyfun_pow].
Qed.
Lemma lag_formula i x : (x - pt i) * lag i x = (fpow x (Z.of_nat n) - f1) * (pt i * ni).
Proof.
  unfold lag. pose proof (wi_pow (Z.of_nat i) ltac:(lia)) as W. fold (pt i) in W.
  set (c := fpow wi (Z.of_nat i)) in *.
  pose proof (geometric (c * x) n) as G.
  assert (C : fpow (c * x) (Z.of_nat n) = fpow x (Z.of_nat n)).
  { rewrite fpow_fmul. assert (E : fpow c (Z.of_nat n) = f1).
    { unfold c. rewrite fpow_swap by lia. pose proof (wi_pow (Z.of_nat n) ltac:(lia)) as Wn. fold (pt n) in Wn.
      rewrite pt_n in Wn. replace (fpow wi (Z.of_nat n) * f1) with (fpow wi (Z.of_nat n)) in Wn by fring. rewrite Wn.
      apply fpow_one; lia. }
    rewrite E. fring. }
  rewrite C in G. set (Sg := fsum _) in *.
  rewrite <- G. replace (x - pt i) with ((c * x - f1) * pt i).
  2:{ replace ((c * x - f1) * pt i) with (c * pt i * x - pt i) by fring. rewrite W. fring. }
  fring.
Qed.
Lemma lag_at i r : (i < n)%nat -> (r < n)%nat -> lag i (pt r) = if (r =? i)%nat then f1 else f0.
Proof.
  intros Hi Hr. destruct (Nat.eqb_spec r i) as [->|N].
  - unfold lag. rewrite (wi_pow (Z.of_nat i) ltac:(lia) : fpow wi (Z.of_nat i) * pt i = f1).
    rewrite (map_ext_in _ (fun _ => f1)).
    2:{ intros j _. apply fpow_one; lia. }
    rewrite fsum_const, seq_length. replace (ni * (FrZ (Z.of_nat n) * f1)) with (FrZ (Z.of_nat n) * ni) by fring. exact Hni.
  - pose proof (lag_formula i (pt r)) as F. rewrite pt_pow_n in F.
    assert (X : (pt r - pt i) * lag i (pt r) = f0) by (rewrite F; fring).
    apply Fr_mul_eq_0 in X. destruct X as [X|X]; [|exact X]. exfalso. apply fsub_eq in X. apply N, pt_inj; assumption.
Qed.
(** rows outside the first [n] repeat *)
Lemma lag_mod i x : lag (i mod n) x = lag i x.
Proof.
  unfold lag. f_equal. f_equal. apply map_ext. intros j. f_equal. f_equal. pose proof n_pos.
  rewrite !wi_is by lia. f_equal. f_equal. rewrite Nat2Z.inj_mod.
  rewrite <- (Z.sub_0_l (Z.of_nat i mod _)), <- (Z.sub_0_l (Z.of_nat i)). rewrite Zminus_mod_idemp_r. reflexivity.
Qed.
(** every column of values has a polynomial *)
Definition interp (vals : nat -> Fr) (x : Fr) : Fr := fsum (map (fun i => vals i * lag i x) (seq 0 n)).
Lemma interp_poly vals : polyfun n (interp vals).
Proof. apply polyfun_fsum. intros i _. apply polyfun_scale, lag_poly. Qed.
Lemma interp_at vals r : (r < n)%nat -> interp vals (pt r) = vals r.
Proof.
  intros Hr. unfold interp. rewrite (fsum_single _ n r Hr).
  - rewrite lag_at, Nat.eqb_refl by assumption. fring.
  - intros j Hj N. rewrite lag_at by assumption. destruct (Nat.eqb_spec r j); [congruence|fring].
Qed.
Lemma interp_unique vals f : polyfun n f -> (forall r, (r < n)%nat -> f (pt r) = vals r) -> forall x, f x = interp vals x.
Proof.
  intros Hf H. apply (polyfun_eq n _ _ points Hf (interp_poly vals) points_nodup).
  - rewrite points_length. lia.
  - intros a I. apply points_in in I. destruct I as (r & Hr & ->). rewrite interp_at by exact Hr. apply H, Hr.
Qed.
(** division by X^n - 1 *)
Lemma divide_points d f : polyfun (d + n) f -> (forall r, (r < n)%nat -> f (pt r) = f0) ->
  exists p, (length p <= d)%nat /\ forall x, f x = (fpow x (Z.of_nat n) - f1) * peval p x.
Proof.
  intros Hf H0.
  assert (G : forall l d f, NoDup l -> polyfun (d + length l) f -> (forall a, In a l -> f a = f0) ->
    exists p, (length p <= d)%nat /\ forall x, f x = lprod l x * peval p x).
  { clear. induction l as [|a l IH]; intros d f ND (p & Lp & Ep) H.
    - cbn [length] in Lp. exists p. split; [lia|]. intros x. rewrite Ep. cbn [lprod fold_right]. fring.
    - apply NoDup_cons_iff in ND. destruct ND as [Na ND]. cbn [length] in Lp.
      assert (Ea : peval p a = f0) by (rewrite <- Ep; apply H; left; reflexivity).
      destruct (IH d (peval (pdiv a p)) ND) as (q & Lq & Eq).
      + exists (pdiv a p). split; [rewrite pdiv_length; lia|reflexivity].
      + intros b Ib. pose proof (H b (or_intror Ib)) as Hb. rewrite Ep, (pdiv_eq a), Ea in Hb.
        assert (X : (b - a) * peval (pdiv a p) b = f0) by (rewrite <- Hb; fring).
        apply Fr_mul_eq_0 in X. destruct X as [X|X]; [|exact X]. exfalso. apply Na. apply fsub_eq in X. congruence.
      + exists q. split; [exact Lq|]. intros x. rewrite Ep, (pdiv_eq a), Ea, Eq. cbn [lprod fold_right]. fold (lprod l x). fring. }
  destruct (G points d f points_nodup) as (p & Lp & Ep).
  { rewrite points_length. exact Hf. }
  { intros a I. apply points_in in I. destruct I as (r & Hr & ->). apply H0, Hr. }
  exists p. split; [exact Lp|]. intros x. rewrite Ep. f_equal.
  (* lprod points x = x^n - 1 *)
  assert (PM : forall l, exists q, length q = length l /\ forall x, lprod l x = peval (q ++ [f1]) x).
  { clear. induction l as [|a l (q & Lq & Eq)]; [exists []; split; [reflexivity|]; intros x; cbn [lprod fold_right app peval]; fring|].
    exists (firstn (S (length l)) (padd (f0 :: (q ++ [f1])) (map (fmul (fopp a)) (q ++ [f1])))).
    assert (PL : length (padd (f0 :: (q ++ [f1])) (map (fmul (fopp a)) (q ++ [f1]))) = S (S (length l))).
    { rewrite padd_length, map_length. cbn [length]. rewrite !app_length. cbn [length]. change (fe r_pos) with Fr in *. rewrite Lq. lia. }
    split. { rewrite firstn_length. cbn [length]. change (fe r_pos) with Fr in *. lia. }
    assert (LASTP : skipn (S (length l)) (padd (f0 :: (q ++ [f1])) (map (fmul (fopp a)) (q ++ [f1]))) = [f1]).
    { clear - Lq. rewrite <- Lq. clear Lq l. revert a. generalize (@f0 r_pos) as z. induction q as [|c q IH]; intros z a; [reflexivity|].
      change (padd (z :: (c :: q) ++ [f1]) (map (fmul (fopp a)) ((c :: q) ++ [f1])))
        with ((z + fopp a * c) :: padd (c :: q ++ [f1]) (map (fmul (fopp a)) (q ++ [f1]))).
      cbn [length skipn]. cbn [length] in IH. apply IH. }
    intros x. match goal with |- _ = peval (firstn ?k ?P ++ _) x => transitivity (peval (firstn k P ++ skipn k P) x);
      [rewrite (firstn_skipn k P)|f_equal; f_equal; exact LASTP] end.
    rewrite padd_eval, pscale_eval. cbn [lprod fold_right peval]. fold (lprod l x). rewrite Eq. fring. }
  destruct (PM points) as (q & Lq & Eq).
  assert (M : forall l x, peval (l ++ [f1]) x = peval l x + fpow x (Z.of_nat (length l))).
  { clear. induction l as [|c l IH]; intros x; [cbn [app peval length]; change (fpow x (Z.of_nat 0)) with (@f1 r_pos); fring|].
    cbn [app peval length]. rewrite IH, fpow_S'. fring. }
  assert (Lq' : length q = n) by (pose proof points_length; change (fe r_pos) with Fr in *; lia).
  apply fsub_eq. rewrite Eq, M. change (fe r_pos) with Fr in *. rewrite Lq'.
  replace (peval q x + fpow x (Z.of_nat n) - (fpow x (Z.of_nat n) - f1)) with (peval q x + f1) by fring.
  apply (polyfun_zero n (fun x => peval q x + f1) points).
  - pose proof n_pos. apply polyfun_add; [|apply polyfun_const; lia]. exists q. split; [|reflexivity]. pose proof points_length. change (fe r_pos) with Fr in *. lia.
  - apply points_nodup.
  - rewrite points_length. lia.
  - intros a I. assert (Ez : lprod points a = f0) by (apply lprod_zero, I).
    rewrite Eq, M in Ez. change (fe r_pos) with Fr in *. rewrite Lq' in Ez. apply points_in in I. destruct I as (r & _ & ->).
    rewrite pt_pow_n in Ez. exact Ez.
Qed.
End Subgroup.
