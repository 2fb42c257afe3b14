(** The changes of basis of an evaluation domain. *)
From Coq Require Import ZArith List Arith Bool Lia.
From Verif Require Import Base Moduli Field FieldFacts LimbSpec LimbField LimbConst ListFacts PolyFacts
  DomainModel DomainSpec DomainFacts IopPoly IopCoeff ArithModel ArithSpec FftFacts.
Import ListNotations.
Local Open Scope nat_scope.

Lemma mapi_length {A B} (f : nat -> A -> B) l : length (mapi f l) = length l.
Proof. unfold mapi. rewrite map_length, combine_length, seq_length. lia. Qed.
Lemma mapi_nth {A B} (f : nat -> A -> B) l i da db : i < length l -> nth i (mapi f l) db = f i (nth i l da).
Proof.
  intros Hi. unfold mapi.
  rewrite (nth_indep _ db (f (fst (0, da)) (snd (0, da)))) by (rewrite map_length, combine_length, seq_length; lia).
  rewrite (map_nth (fun ia => f (fst ia) (snd ia)) _ (0, da)), combine_nth by apply seq_length. cbn [fst snd].
  rewrite seq_nth by exact Hi. reflexivity.
Qed.
Lemma nth_map_seq {A} (f : nat -> A) n i d : i < n -> nth i (map f (seq 0 n)) d = f i.
Proof.
  intros Hi. rewrite (nth_indep _ d (f 0)) by (rewrite map_length, seq_length; exact Hi).
  rewrite map_nth, seq_nth by exact Hi. reflexivity.
Qed.
Lemma order_inv w wi m : order_is w m -> (w * wi)%F = f1 -> order_is wi m.
Proof.
  intros [Pm Ho] E. split; [exact Pm|]. intros i Hi. rewrite <- Ho by exact Hi.
  assert (X : (fpow w i * fpow wi i)%F = f1) by (rewrite <- fpow_fmul, E; apply fpow_one; exact Hi).
  split; intros Y; rewrite Y in X; [replace (fpow w i) with (fpow w i * f1)%F by fring|replace (fpow wi i) with (f1 * fpow wi i)%F by fring]; exact X.
Qed.

Section Module.
Context {G : Type}.
Variables (zero : G) (add sub : G -> G -> G) (scale : Fr -> G -> G).
Hypothesis M : is_module zero add sub scale.
Notation gs f m := (gsum zero add (map f (seq 0 m))).
Notation comb := (combination zero add scale).

Lemma gs_add f g m : gs (fun t => add (f t) (g t)) m = add (gs f m) (gs g m).
Proof.
  induction m as [|m IH]; [symmetry; apply (mod_zero _ _ _ _ M)|].
  rewrite !(gs_S _ _ _ _ M), IH. apply (mod_swap4 _ _ _ _ M).
Qed.
Lemma gs_zero f m : (forall t, t < m -> f t = zero) -> gs f m = zero.
Proof.
  induction m as [|m IH]; intros H; [reflexivity|].
  rewrite (gs_S _ _ _ _ M), IH, H by (intros; try apply H; lia). apply (mod_zero _ _ _ _ M).
Qed.
Lemma gs_swap f m k : gs (fun i => gs (f i) k) m = gs (fun j => gs (fun i => f i j) m) k.
Proof.
  induction m as [|m IH].
  - symmetry. apply gs_zero. reflexivity.
  - rewrite (gs_S _ _ _ _ M), IH, <- gs_add. apply (gs_ext zero add). intros t _.
    symmetry. exact (gs_S zero add sub scale M (fun i => f i t) m).
Qed.
Lemma gs_scalars c g m : gs (fun j => scale (c j) g) m = scale (fsum (map c (seq 0 m))) g.
Proof.
  induction m as [|m IH]; [symmetry; apply (mod_zero_scale _ _ _ _ M)|].
  rewrite (gs_S _ _ _ _ M), IH, seq_S, map_app, fsum_app, (mod_add_scale _ _ _ _ M). cbn [map fsum Nat.add].
  f_equal. f_equal. fring.
Qed.
Lemma gs_single f m i : i < m -> (forall t, t < m -> t <> i -> f t = zero) -> gs f m = f i.
Proof.
  induction m as [|m IH]; intros Hi H; [lia|]. rewrite (gs_S _ _ _ _ M). destruct (Nat.eq_dec i m) as [->|N].
  - rewrite gs_zero by (intros; apply H; lia). apply (mod_zero _ _ _ _ M).
  - rewrite IH by (intros; try apply H; lia). rewrite (H m) by lia. apply (mod_zero_r _ _ _ _ M).
Qed.
Lemma comb_seq f n x : comb (map f (seq 0 n)) x = gs (fun j => scale (fpow x (Z.of_nat j)) (f j)) n.
Proof.
  unfold combination. rewrite map_length, seq_length. apply (gs_ext zero add). intros t Ht. rewrite nth_map_seq by exact Ht. reflexivity.
Qed.

(** transforming twice *)
Lemma dft_inv n w wi ni (a : list G) i : order_is w (Z.of_nat n) -> (w * wi)%F = f1 -> (FrZ (Z.of_nat n) * ni)%F = f1 ->
  length a = n -> i < n ->
  scale ni (comb (map (fun j => comb a (fpow w (Z.of_nat j))) (seq 0 n)) (fpow wi (Z.of_nat i))) = nth i a zero.
Proof.
  intros Hw Hwi Hni La Hi. rewrite comb_seq. rewrite (scale_gs _ _ _ _ M).
  transitivity (gs (fun t => scale (lag n wi ni i (fpow w (Z.of_nat t))) (nth t a zero)) n).
  - unfold combination. rewrite La.
    transitivity (gs (fun j => gs (fun t => scale (ni * fpow (fpow wi (Z.of_nat i) * fpow w (Z.of_nat t)) (Z.of_nat j))%F (nth t a zero)) n) n).
    + apply (gs_ext zero add). intros j Hj. rewrite !(scale_gs _ _ _ _ M). apply (gs_ext zero add). intros t Ht.
      rewrite <- !(mod_mul_scale _ _ _ _ M). f_equal. rewrite fpow_fmul, (fpow_swap w) by lia. fring.
    + rewrite gs_swap. apply (gs_ext zero add). intros t Ht. rewrite gs_scalars. f_equal. unfold lag.
      rewrite fsum_scale, map_map. reflexivity.
  - rewrite (gs_single _ n i Hi).
    + pose proof (lag_at n w wi Hw Hwi ni Hni i i Hi Hi) as E. unfold pt in E. rewrite E, Nat.eqb_refl. apply (mod_one_scale _ _ _ _ M).
    + intros t Ht N. pose proof (lag_at n w wi Hw Hwi ni Hni i t Hi Ht) as E. unfold pt in E. rewrite E.
      destruct (Nat.eqb_spec t i); [contradiction|]. apply (mod_zero_scale _ _ _ _ M).
Qed.

Lemma list_is_map (a : list G) : a = map (fun i => nth i a zero) (seq 0 (length a)).
Proof.
  apply (list_eq_nth zero); [rewrite map_length, seq_length; reflexivity|]. intros i Hi.
  rewrite nth_map_seq by exact Hi. reflexivity.
Qed.
Lemma fft_is omega L (x : list G) : order_is omega (2 ^ Z.of_nat L) -> length x = 2 ^ L ->
  fft add sub scale x omega L = Ok (map (fun j => comb x (fpow omega (Z.of_nat j))) (seq 0 (2 ^ L))).
Proof.
  intros Ho Lx. destruct (fft_ok zero add sub scale M omega L x Ho Lx) as (a & E & La & Na). rewrite E. f_equal.
  apply (list_eq_nth zero); [rewrite map_length, seq_length; exact La|]. intros i Hi. rewrite La in Hi.
  rewrite nth_map_seq by exact Hi. apply Na, Hi.
Qed.
Lemma ifft_is w wi ni L (x : list G) : order_is w (2 ^ Z.of_nat L) -> (w * wi)%F = f1 -> (FrZ (2 ^ Z.of_nat L) * ni)%F = f1 ->
  length x = 2 ^ L -> exists a, ifft add sub scale x wi L ni = Ok a /\ length a = 2 ^ L /\
    (forall i, i < 2 ^ L -> nth i a zero = scale ni (comb x (fpow wi (Z.of_nat i)))) /\
    forall i, i < 2 ^ L -> comb a (fpow w (Z.of_nat i)) = nth i x zero.
Proof.
  intros Hw Hwi Hni Lx. pose proof (order_inv _ _ _ Hw Hwi) as Hi. unfold ifft.
  rewrite (fft_is wi L x Hi Lx). cbn [bind]. eexists. split; [reflexivity|]. rewrite map_map.
  split; [rewrite map_length, seq_length; reflexivity|]. split.
  - intros i Li. rewrite nth_map_seq by exact Li. reflexivity.
  - intros i Li. rewrite comb_seq.
    assert (En : (2 ^ Z.of_nat L)%Z = Z.of_nat (2 ^ L)) by (rewrite Nat2Z.inj_pow; reflexivity). rewrite En in *.
    rewrite <- (dft_inv (2 ^ L) wi w ni x i Hi ltac:(rewrite <- Hwi; fring) Hni Lx Li).
    rewrite comb_seq, (scale_gs _ _ _ _ M). apply (gs_ext zero add). intros t Ht.
    rewrite <- !(mod_mul_scale _ _ _ _ M). f_equal. fring.
Qed.

(** *** The basis changes of a domain *)
Variables (j k : Z) (d : domain).
Hypothesis Hd : domain_for j k d.
Hypothesis Hk : (0 <= k)%Z.
Notation n := (2 ^ Z.to_nat k).
Lemma n_eq : (2 ^ k)%Z = Z.of_nat n.
Proof. rewrite Nat2Z.inj_pow, Z2Nat.id by exact Hk. reflexivity. Qed.
Lemma ek_ge : (k <= d_extended_k d)%Z.
Proof. apply (df_extended _ _ _ Hd). Qed.
Notation en := (2 ^ Z.to_nat (d_extended_k d)).
Lemma en_eq : (2 ^ d_extended_k d)%Z = Z.of_nat en.
Proof. pose proof ek_ge. rewrite Nat2Z.inj_pow, Z2Nat.id by lia. reflexivity. Qed.
Lemma len_check (a : list G) m : length a = m -> (lenZ a =? Z.of_nat m)%Z = true.
Proof. intros <-. apply Z.eqb_refl. Qed.

Lemma lagrange_to_coeff_ok (v : list G) : length v = n ->
  exists a, lagrange_to_coeff add sub scale d v = Ok a /\ length a = n /\
    forall r, r < n -> comb a (fpow (d_omega d) (Z.of_nat r)) = nth r v zero.
Proof.
  intros Lv. destruct (df_size _ _ _ Hd) as (_ & Ek & _). unfold lagrange_to_coeff. rewrite Ek, n_eq, (len_check v n Lv).
  destruct (df_inverses _ _ _ Hd) as (I1 & _ & _ & I4 & _).
  destruct (ifft_is (d_omega d) (d_omega_inv d) (d_ifft_divisor d) (Z.to_nat k) v) as (a & E & La & _ & Na); rewrite ?Z2Nat.id by exact Hk.
  - apply (df_omega _ _ _ Hd).
  - exact I1.
  - exact I4.
  - exact Lv.
  - exists a. auto.
Qed.
Lemma comb_distribute (a : list G) c x : comb (distribute_powers scale a c) x = comb a (c * x)%F.
Proof.
  unfold combination, distribute_powers. rewrite mapi_length. apply (gs_ext zero add). intros t Ht.
  rewrite (mapi_nth _ _ _ zero) by exact Ht. rewrite <- (mod_mul_scale _ _ _ _ M), pow_vartime_is, fpow_fmul by lia. f_equal. fring.
Qed.
Lemma coeff_to_extended_part_ok (a : list G) factor : length a = n ->
  coeff_to_extended_part add sub scale d a factor =
    Ok (map (fun r => comb a (d_g_coset d * factor * fpow (d_omega d) (Z.of_nat r))%F) (seq 0 n)).
Proof.
  intros La. destruct (df_size _ _ _ Hd) as (_ & Ek & _). unfold coeff_to_extended_part. rewrite Ek, n_eq, (len_check a n La).
  rewrite fft_is.
  - f_equal. apply map_ext. intros r. apply comb_distribute.
  - rewrite Z2Nat.id by exact Hk. apply (df_omega _ _ _ Hd).
  - unfold distribute_powers. rewrite mapi_length. exact La.
Qed.

(** zeta has order three *)
Definition zpow (t : nat) : Fr := match t mod 3 with O => f1 | S O => d_g_coset d | _ => d_g_coset_inv d end.
Definition zpow_inv (t : nat) : Fr := match t mod 3 with O => f1 | S O => d_g_coset_inv d | _ => d_g_coset d end.
Lemma zpow_is t : zpow t = fpow (d_g_coset d) (Z.of_nat t).
Proof.
  destruct (df_coset _ _ _ Hd) as [_ Ho]. destruct (df_inverses _ _ _ Hd) as (_ & _ & I3 & _).
  assert (C3 : fpow (d_g_coset d) 3 = f1) by (apply Ho; [lia|exists 1%Z; lia]).
  unfold zpow. rewrite (Nat.div_mod t 3) at 2 by lia. set (q := t / 3).
  assert (E : fpow (d_g_coset d) (Z.of_nat (3 * q + t mod 3)) = fpow (d_g_coset d) (Z.of_nat (t mod 3))).
  { rewrite Nat2Z.inj_add, Nat2Z.inj_mul, fpow_add, <- fpow_mul by lia. change (Z.of_nat 3) with 3%Z. rewrite C3.
    rewrite fpow_one by lia. fring. }
  rewrite E. pose proof (Nat.mod_upper_bound t 3 ltac:(lia)) as B. destruct (t mod 3) as [|[|[|m]]]; [reflexivity|..|lia].
  - change (Z.of_nat 1) with 1%Z. symmetry. apply fpow_1.
  - change (Z.of_nat 2) with (1 + 1)%Z. rewrite fpow_add, fpow_1 by lia.
    assert (C3' : (d_g_coset d * d_g_coset d * d_g_coset d)%F = f1).
    { rewrite <- C3. change 3%Z with (1 + 1 + 1)%Z. rewrite !fpow_add, !fpow_1 by lia. fring. }
    transitivity (d_g_coset d * d_g_coset d * d_g_coset d * d_g_coset_inv d)%F; [rewrite C3'; fring|].
    transitivity (d_g_coset d * d_g_coset d * (d_g_coset d * d_g_coset_inv d))%F; [fring|]. rewrite I3. fring.
Qed.
Lemma zpow_inv_is t : (zpow_inv t * zpow t)%F = f1.
Proof.
  destruct (df_inverses _ _ _ Hd) as (_ & _ & I3 & _). unfold zpow, zpow_inv.
  destruct (t mod 3) as [|[|m]]; [fring| |exact I3].
  rewrite <- I3. fring.
Qed.
Lemma distribute_zeta_nth (a : list G) b i : i < length a ->
  nth i (distribute_powers_zeta scale d a b) zero = scale (if b then zpow i else zpow_inv i) (nth i a zero).
Proof.
  intros Hi. unfold distribute_powers_zeta. rewrite (mapi_nth _ _ _ zero) by exact Hi. unfold zpow, zpow_inv.
  destruct (i mod 3) as [|[|m]]; destruct b; try reflexivity; symmetry; apply (mod_one_scale _ _ _ _ M).
Qed.
Lemma gs_pad f m p : (forall t, m <= t < m + p -> f t = zero) -> gs f (m + p) = gs f m.
Proof.
  induction p as [|p IH]; intros H; [rewrite Nat.add_0_r; reflexivity|].
  rewrite Nat.add_succ_r, (gs_S _ _ _ _ M), IH, H by (intros; try apply H; lia). apply (mod_zero_r _ _ _ _ M).
Qed.
Lemma comb_pad (a : list G) p x : comb (a ++ repeat zero p) x = comb a x.
Proof.
  unfold combination. rewrite app_length, repeat_length, gs_pad.
  - apply (gs_ext zero add). intros t Ht. rewrite app_nth1 by exact Ht. reflexivity.
  - intros t Ht. rewrite app_nth2 by lia. rewrite nth_repeat. apply (scale_zero _ _ _ _ M).
Qed.
Lemma n_le_en : n <= en.
Proof. apply Nat.pow_le_mono_r; [lia|]. pose proof ek_ge. lia. Qed.
Lemma coeff_to_extended_ok (a : list G) : length a = n ->
  coeff_to_extended add sub scale zero d a =
    Ok (map (fun i => comb a (d_g_coset d * fpow (d_extended_omega d) (Z.of_nat i))%F) (seq 0 en)).
Proof.
  intros La. destruct (df_size _ _ _ Hd) as (_ & Ek & _). unfold coeff_to_extended. rewrite Ek, n_eq, (len_check a n La).
  pose proof ek_ge. pose proof n_le_en. rewrite fft_is.
  - f_equal. apply map_ext. intros i. rewrite comb_pad. unfold combination, distribute_powers_zeta. rewrite mapi_length.
    fold (distribute_powers_zeta scale d a true). apply (gs_ext zero add). intros t Ht.
    rewrite distribute_zeta_nth by exact Ht. rewrite <- (mod_mul_scale _ _ _ _ M), zpow_is, fpow_fmul. f_equal. fring.
  - rewrite Z2Nat.id by lia. apply (df_extended_omega _ _ _ Hd).
  - rewrite app_length, repeat_length. unfold distribute_powers_zeta. rewrite mapi_length, La, en_eq. lia.
Qed.

(** the coefficients come back from the values on the coset *)
Lemma extended_to_coeff_ok (h : list G) : length h = Z.to_nat (2 ^ k * (j - 1)) -> (1 <= j)%Z ->
  extended_to_coeff add sub scale d (map (fun i => comb h (d_g_coset d * fpow (d_extended_omega d) (Z.of_nat i))%F) (seq 0 en)) = Ok h.
Proof.
  intros Lh Hj. destruct (df_size _ _ _ Hd) as (En & Ek & Eq). pose proof ek_ge as EK.
  destruct (df_extended _ _ _ Hd) as (_ & Le & _).
  assert (LE : length h <= en) by (rewrite en_eq in Le; lia).
  set (p := h ++ repeat zero (en - length h)).
  assert (Lp : length p = en) by (unfold p; rewrite app_length, repeat_length; lia).
  unfold extended_to_coeff. rewrite en_eq, (len_check _ en) by (rewrite map_length, seq_length; reflexivity).
  set (q := map (fun i => scale (fpow (d_g_coset d) (Z.of_nat i)) (nth i p zero)) (seq 0 en)).
  assert (Lq : length q = en) by (unfold q; rewrite map_length, seq_length; reflexivity).
  assert (Ev : map (fun i => comb h (d_g_coset d * fpow (d_extended_omega d) (Z.of_nat i))%F) (seq 0 en) =
               map (fun i => comb q (fpow (d_extended_omega d) (Z.of_nat i))) (seq 0 en)).
  { apply map_ext. intros i. rewrite <- (comb_pad h (en - length h)). fold p. unfold q. rewrite comb_seq. unfold combination.
    rewrite Lp. apply (gs_ext zero add). intros t Ht. rewrite <- (mod_mul_scale _ _ _ _ M), fpow_fmul. f_equal. fring. }
  rewrite Ev. destruct (df_extended_omega _ _ _ Hd) as (Oo & _). destruct (df_inverses _ _ _ Hd) as (_ & I2 & _ & _ & I5 & _).
  destruct (ifft_is (d_extended_omega d) (d_extended_omega_inv d) (d_extended_ifft_divisor d) (Z.to_nat (d_extended_k d))
    (map (fun i => comb q (fpow (d_extended_omega d) (Z.of_nat i))) (seq 0 en))) as (b & Eb & Lb & Nb & _); rewrite ?Z2Nat.id by lia.
  - exact Oo.
  - exact I2.
  - exact I5.
  - rewrite map_length, seq_length. reflexivity.
  - rewrite Eb. cbn [bind]. f_equal.
    assert (Ed : distribute_powers_zeta scale d b false = p).
    { apply (list_eq_nth zero); [unfold distribute_powers_zeta; rewrite mapi_length; congruence|].
      unfold distribute_powers_zeta. rewrite mapi_length. fold (distribute_powers_zeta scale d b false). intros i Hi.
      rewrite distribute_zeta_nth by exact Hi. rewrite Lb in Hi. rewrite Nb by exact Hi.
      rewrite en_eq in Oo, I5. rewrite (dft_inv en _ _ _ q i Oo I2 I5 Lq Hi). unfold q. rewrite nth_map_seq by exact Hi.
      rewrite <- (mod_mul_scale _ _ _ _ M), <- zpow_is, zpow_inv_is. apply (mod_one_scale _ _ _ _ M). }
    rewrite Ed, En, Eq, <- Lh. unfold p. rewrite firstn_app, Nat.sub_diag, firstn_all. apply app_nil_r.
Qed.

Lemma blocks_seq {A} (f : nat -> A) c m : map f (seq 0 (m * c)) = flat_map (fun r => map (fun p => f (r * c + p)) (seq 0 c)) (seq 0 m).
Proof.
  induction m as [|m IH]; [reflexivity|]. rewrite seq_S, flat_map_app, <- IH. cbn [flat_map]. rewrite app_nil_r.
  replace (S m * c) with (m * c + c) by lia. rewrite seq_app, map_app. f_equal. rewrite !Nat.add_0_l.
  generalize (m * c) as a. clear. intros a. revert a. induction c as [|c IH]; intros a; [reflexivity|].
  rewrite seq_S, seq_S, !map_app, IH. reflexivity.
Qed.
Notation pn := (2 ^ Z.to_nat (d_extended_k d - k)).
Lemma pn_eq : (2 ^ (d_extended_k d - k))%Z = Z.of_nat pn.
Proof. pose proof ek_ge. rewrite Nat2Z.inj_pow, Z2Nat.id by lia. reflexivity. Qed.
Lemma en_split : en = n * pn.
Proof.
  pose proof ek_ge. rewrite <- Nat.pow_add_r. f_equal. lia.
Qed.
(** the values of the parts are the values on the coset *)
Lemma from_parts_ok (f : Fr -> G) :
  extended_from_lagrange_vec zero d
    (map (fun p => map (fun r => f (d_g_coset d * fpow (d_extended_omega d) (Z.of_nat p) * fpow (d_omega d) (Z.of_nat r))%F) (seq 0 n)) (seq 0 pn)) =
  Ok (map (fun i => f (d_g_coset d * fpow (d_extended_omega d) (Z.of_nat i))%F) (seq 0 en)).
Proof.
  destruct (df_size _ _ _ Hd) as (En & Ek & _). unfold extended_from_lagrange_vec. rewrite Ek, En, pn_eq, n_eq, Nat2Z.id.
  set (part p := map (fun r => f (d_g_coset d * fpow (d_extended_omega d) (Z.of_nat p) * fpow (d_omega d) (Z.of_nat r))%F) (seq 0 n)).
  assert (Lp : forall p, length (part p) = n) by (intros p; unfold part; rewrite map_length, seq_length; reflexivity).
  unfold lenZ at 1. rewrite map_length, seq_length, Z.eqb_refl.
  assert (Pp : pn <> 0) by (apply Nat.pow_nonzero; lia).
  destruct (map part (seq 0 pn)) as [|v l] eqn:Ev.
  { apply (f_equal (@length _)) in Ev. rewrite map_length, seq_length in Ev. contradiction. }
  rewrite <- Ev.
  assert (Lv : length v = n).
  { apply (f_equal (fun l => nth 0 l [])) in Ev. cbn [nth] in Ev. rewrite nth_map_seq in Ev by lia. rewrite <- Ev. apply Lp. }
  unfold lenZ at 1. rewrite Lv, Z.eqb_refl.
  assert (Fa : forallb (fun p => (Z.of_nat n - 1 <=? lenZ p)%Z) (map part (seq 0 pn)) = true).
  { apply forallb_forall. intros x Hx. apply in_map_iff in Hx. destruct Hx as (p & <- & _). unfold lenZ. rewrite Lp. apply Z.leb_le. lia. }
  rewrite Fa. cbn [andb]. f_equal. rewrite en_split, blocks_seq.
  assert (Q : forall l, (forall r, In r l -> r < n) -> flat_map (fun r => map (fun p => nth r p zero) (map part (seq 0 pn))) l =
    flat_map (fun r => map (fun p => f (d_g_coset d * fpow (d_extended_omega d) (Z.of_nat (r * pn + p)))%F) (seq 0 pn)) l).
  { induction l0 as [|r l0 IH]; intros H; [reflexivity|]. cbn [flat_map]. rewrite IH by (intros; apply H; right; assumption). f_equal.
    rewrite map_map. apply map_ext. intros p. unfold part. rewrite nth_map_seq by (apply H; left; reflexivity).
    destruct (df_extended_omega _ _ _ Hd) as (_ & ->). rewrite pn_eq, fpow_mul by lia. f_equal.
    rewrite Nat2Z.inj_add, Nat2Z.inj_mul, fpow_add by lia. rewrite (Z.mul_comm (Z.of_nat r)). fring. }
  apply Q. intros r Hr. apply in_seq in Hr. lia.
Qed.
(** dividing the values by those of X^n - 1 *)
Lemma divide_ok (f : Fr -> G) :
  divide_by_vanishing_poly scale d
    (map (fun i => let x := (d_g_coset d * fpow (d_extended_omega d) (Z.of_nat i))%F in scale (fpow x (2 ^ k) - f1)%F (f x)) (seq 0 en)) =
  Ok (map (fun i => f (d_g_coset d * fpow (d_extended_omega d) (Z.of_nat i))%F) (seq 0 en)).
Proof.
  unfold divide_by_vanishing_poly. rewrite en_eq, (len_check _ en) by (rewrite map_length, seq_length; reflexivity). f_equal.
  destruct (df_vanishing _ _ _ Hd) as (Lt & Vt).
  apply (list_eq_nth zero); [rewrite mapi_length, !map_length, !seq_length; reflexivity|].
  rewrite mapi_length, map_length, seq_length. intros i Hi. rewrite (mapi_nth _ _ _ zero) by (rewrite map_length, seq_length; exact Hi).
  rewrite !nth_map_seq by exact Hi. cbv zeta. rewrite <- (mod_mul_scale _ _ _ _ M).
  specialize (Vt (Z.of_nat i) ltac:(lia)). rewrite pn_eq in Lt, Vt. apply Nat2Z.inj in Lt.
  rewrite <- Nat2Z.inj_mod, Nat2Z.id in Vt. unfold Fr in *. rewrite Lt, Vt. apply (mod_one_scale _ _ _ _ M).
Qed.
Lemma quotient_ok (h : list G) : length h = Z.to_nat (2 ^ k * (j - 1)) -> (1 <= j)%Z ->
  (let! e := extended_from_lagrange_vec zero d
     (map (fun p => map (fun r =>
        let x := (d_g_coset d * fpow (d_extended_omega d) (Z.of_nat p) * fpow (d_omega d) (Z.of_nat r))%F in
        scale (fpow x (2 ^ k) - f1)%F (comb h x)) (seq 0 n)) (seq 0 pn)) in
   let! e := divide_by_vanishing_poly scale d e in extended_to_coeff add sub scale d e) = Ok h.
Proof.
  intros Lh Hj. pose proof (from_parts_ok (fun x => scale (fpow x (2 ^ k) - f1)%F (comb h x))) as P.
  pose proof (divide_ok (fun x => comb h x)) as Q. cbv beta zeta in P, Q. cbv zeta. rewrite P. cbn [bind]. rewrite Q. cbn [bind]. apply extended_to_coeff_ok; assumption.
Qed.
End Module.

(** The field as a module. *)
Lemma fr_module : is_module (@f0 r_pos) fadd fsub fmul.
Proof. split; intros; fring. Qed.
Lemma comb_peval (a : list Fr) x : combination f0 fadd fmul a x = peval a x.
Proof.
  unfold combination. transitivity (peval (map (fun j => nth j a f0) (seq 0 (length a))) x).
  - rewrite peval_seq0. unfold gsum.
    assert (Q : forall (f g : nat -> Fr) l, (forall i, f i = g i) -> fold_right fadd f0 (map f l) = fsum (map g l)).
    { clear. intros f g l H. induction l as [|i l IH]; [reflexivity|]. cbn [map fold_right fsum]. rewrite IH, H. reflexivity. }
    apply Q. intros i. assert (C : forall a b : Fr, (a * b)%F = (b * a)%F) by (intros; fring). apply C.
  - f_equal. symmetry. apply list_is_map.
Qed.
