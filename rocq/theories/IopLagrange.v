(** The Lagrange values and the public-input evaluations the verifier computes. *)
From Coq Require Import ZArith List Arith Lia Bool.
From Verif Require Import Base Moduli Field FieldFacts LimbSpec LimbField LimbConst PolyFacts Halo2Model SelectorModel
  SelectorClaims DomainModel DomainSpec DomainFacts VkModel IopModel IopPoly.
Import ListNotations.

Lemma combine_map_r {A B} (f : A -> B) l : combine l (map f l) = map (fun a => (a, f a)) l.
Proof. induction l as [|a l IH]; [reflexivity|]. cbn [map combine]. rewrite IH. reflexivity. Qed.
Lemma rmap_map {A B} (f : A -> res B) (g : A -> B) l : (forall a, In a l -> f a = Ok (g a)) -> rmap f l = Ok (map g l).
Proof.
  induction l as [|a l IH]; intros H; [reflexivity|]. cbn [rmap map]. rewrite (H a (or_introl eq_refl)). cbn [bind].
  rewrite IH by (intros; apply H; right; assumption). reflexivity.
Qed.

Lemma shuffle (a b c e g : Fr) : (a * (b * (c * (e * g))) = a * c * (e * (b * g)))%F.
Proof. fring. Qed.
Lemma one_l (a : Fr) : (f1 * a = a)%F.
Proof. fring. Qed.

Section Lagrange.
Variables (d : domain) (j k : Z) (n : nat).
Hypothesis Hk : (0 <= k)%Z.
Hypothesis Hn : Z.of_nat n = (2 ^ k)%Z.
Hypothesis Hd : domain_for j k d.
Local Notation w := (d_omega d).
Local Notation wi := (d_omega_inv d).
Local Notation ni := (d_barycentric_weight d).
Local Notation point := (pt w).
Local Notation lg := (lag n wi ni).
Local Open Scope F_scope.

Lemma Hw : order_is w (Z.of_nat n). Proof. rewrite Hn. apply (df_omega _ _ _ Hd). Qed.
Lemma Hwi : w * wi = f1. Proof. apply (df_inverses _ _ _ Hd). Qed.
Lemma Hni : FrZ (Z.of_nat n) * ni = f1. Proof. rewrite Hn. apply (df_inverses _ _ _ Hd). Qed.
Lemma Hpos : (0 < n)%nat. Proof. exact (n_pos n w Hw). Qed.

Lemma rotate_lt r t : (rotate n r t < n)%nat.
Proof using Hk Hn Hd. unfold rotate. pose proof Hpos. pose proof (Z.mod_pos_bound (Z.of_nat r + t) (Z.of_nat n)). lia. Qed.
Lemma rotate_omega_lin x t : rotate_omega d x t = point (rotate n 0 t) * x.
Proof using Hk Hn Hd.
  unfold rotate_omega, rotate. destruct (Z.leb_spec 0 t) as [L|L].
  - rewrite pow_vartime_is, (pt_mod n w Hw) by exact L. rewrite Z.add_0_l. fring.
  - rewrite pow_vartime_is, (wi_is n w wi Hw Hwi) by lia. replace (- Z.abs t)%Z with (Z.of_nat 0 + t)%Z by lia. fring.
Qed.
Lemma point_rotate r t : point (rotate n 0 t) * point r = point (rotate n r t).
Proof using Hk Hn Hd.
  pose proof Hpos. rewrite <- (pt_add w). transitivity (fpow w (Z.of_nat (rotate n 0 t + r))); [reflexivity|].
  rewrite (pt_mod n w Hw) by lia. f_equal. unfold rotate. f_equal.
  rewrite Nat2Z.inj_add, Z2Nat.id by (apply Z.mod_pos_bound; lia).
  rewrite Zplus_mod_idemp_l. f_equal. lia.
Qed.
Lemma rotate_omega_pt r t : rotate_omega d (point r) t = point (rotate n r t).
Proof using Hk Hn Hd. rewrite rotate_omega_lin. apply point_rotate. Qed.
Lemma not_point x r : fpow x (2 ^ k)%Z <> f1 -> x - point r <> f0.
Proof.
  intros N E. apply fsub_eq in E. apply N. rewrite E, <- Hn. apply (pt_pow_n n w Hw).
Qed.

(** l_i_range computes Lagrange polynomials *)
Lemma l_i_range_is x rots : fpow x (2 ^ k)%Z <> f1 ->
  l_i_range d x (fpow x (2 ^ k)%Z) rots = map (fun t => lg (rotate n 0 t) x) rots.
Proof.
  intros N. unfold l_i_range, batch_invert. rewrite map_map, combine_map_r, map_map. apply map_ext. intros t. cbn [fst snd].
  rewrite !rotate_omega_lin. set (q := rotate n 0 t).
  replace (point q * f1) with (point q) by fring.
  pose proof (lag_formula n w wi Hw Hwi ni q x) as E. rewrite Hn in E.
  apply (fmul_cancel (x - point q)); [apply not_point, N|]. rewrite E.
  rewrite shuffle, fmul_finv by (apply not_point, N). rewrite one_l. reflexivity.
Qed.
(** rotating the point is rotating the row *)
Lemma lag_rotate i t x : lg (rotate n 0 (Z.of_nat i - t)) x = lg i (rotate_omega d x t).
Proof using Hk Hn Hd.
  rewrite rotate_omega_lin. unfold lag. f_equal. f_equal. apply map_ext. intros e. f_equal.
  pose proof Hpos. rewrite !(wi_is n w wi Hw Hwi) by lia.
  replace (point (Z.to_nat (- Z.of_nat i mod Z.of_nat n)) * (point (rotate n 0 t) * x))
    with ((point (rotate n 0 t) * point (Z.to_nat (- Z.of_nat i mod Z.of_nat n))) * x) by fring.
  rewrite point_rotate. f_equal. f_equal. unfold rotate. f_equal.
  rewrite !Z2Nat.id by (apply Z.mod_pos_bound; lia).
  rewrite Zplus_mod_idemp_l. rewrite <- (Z.sub_0_l (_ mod _)), Zminus_mod_idemp_r. f_equal. lia.
Qed.

(** ** The three values of the argument *)
Variable v : vkey.
Hypothesis Hv : vk_domain v = d.
Local Notation c := (vk_cs v).
Local Notation u := (usable_rows n c).
Local Notation bf := (blinding_factors c).
Hypothesis Hrows : (minimum_rows c <= n)%nat.
Lemma rows_split : n = (u + bf + 1)%nat /\ (2 <= u)%nat.
Proof using Hrows. clear - Hrows. unfold usable_rows, minimum_rows in *. lia. Qed.
Definition lblind (x : Fr) : Fr := fsum (map (fun i => lg i x) (seq (S u) bf)).
Lemma zrange_lag x : map (fun t => lg (rotate n 0 t) x) (zrange (- (Z.of_nat bf + 1)) 1) =
  map (fun i => lg i x) (seq u (S bf)) ++ [lg 0 x].
Proof using Hrows.
  clear - Hrows.
  unfold zrange. replace (Z.to_nat (1 - - (Z.of_nat bf + 1))) with (S bf + 1)%nat by lia.
  rewrite map_map, seq_app, map_app. f_equal.
  - rewrite <- (Nat.add_0_r u). change (seq (u + 0) (S bf)) with (seq (u + 0) (S bf)).
    assert (G : forall m a, (a + m <= S bf)%nat -> map (fun i => lg (rotate n 0 (- (Z.of_nat bf + 1) + Z.of_nat i)) x) (seq a m) =
      map (fun i => lg i x) (seq (u + a) m)).
    { induction m as [|m IH]; intros a Ha; [reflexivity|]. cbn [seq map]. rewrite IH by lia. f_equal; [|f_equal; f_equal; lia].
      f_equal. unfold rotate. pose proof rows_split. rewrite <- (Z_mod_plus_full _ 1), Z.mod_small by lia. lia. }
    apply G. lia.
  - cbn [seq map]. f_equal. f_equal. unfold rotate. replace (Z.of_nat 0 + _)%Z with 0%Z by lia. reflexivity.
Qed.
Lemma l_values_are x : fpow x (2 ^ k)%Z <> f1 ->
  l_values v x (fpow x (2 ^ k)%Z) = Ok (lg 0 x, lg u x, lblind x).
Proof using Hk Hn Hd Hv Hrows.
  intros N. unfold l_values. rewrite Hv, l_i_range_is by exact N. rewrite zrange_lag.
  assert (L : length (map (fun i => lg i x) (seq u (S bf)) ++ [lg 0 x]) = (2 + bf)%nat).
  { rewrite app_length, map_length, seq_length. cbn [length]. lia. }
  change (fe r_pos) with Fr in *. rewrite L, Nat.eqb_refl.
  cbn [seq map app at_ nth_error bind tl].
  rewrite firstn_app, map_length, seq_length, Nat.sub_diag, firstn_O, app_nil_r.
  rewrite firstn_all2 by (rewrite map_length, seq_length; lia).
  unfold at_. cbn [Nat.add nth_error]. rewrite nth_error_app2 by (rewrite map_length, seq_length; lia).
  rewrite map_length, seq_length, Nat.sub_diag. cbn [nth_error bind]. unfold lblind.
  rewrite fsum_left. f_equal. f_equal. fring.
Qed.
Definition activef (x : Fr) : Fr := f1 - (lg u x + lblind x).
Lemma lblind_poly : polyfun n lblind.
Proof. apply polyfun_fsum. intros i _. apply lag_poly. Qed.
Lemma activef_poly : polyfun n activef.
Proof.
  apply polyfun_sub; [apply polyfun_const; exact Hpos|]. apply polyfun_add; [apply lag_poly|apply lblind_poly].
Qed.
Lemma lag_row i r : (i < n)%nat -> (r < n)%nat -> lg i (point r) = if (r =? i)%nat then f1 else f0.
Proof. apply (lag_at n w wi Hw Hwi ni Hni). Qed.
Lemma activef_at r : (r < n)%nat -> activef (point r) = if (r <? u)%nat then f1 else f0.
Proof using Hk Hn Hd Hrows.
  intros Hr. pose proof rows_split as [Hs _]. unfold activef, lblind. rewrite lag_row by lia.
  destruct (Nat.ltb_spec r u) as [L|L].
  - destruct (Nat.eqb_spec r u); [lia|]. rewrite fsum_zero.
    + fring.
    + intros i Hi. apply in_seq in Hi. rewrite lag_row by lia. destruct (Nat.eqb_spec r i); [lia|reflexivity].
  - destruct (Nat.eqb_spec r u) as [->|Nu].
    + rewrite fsum_zero; [fring|]. intros i Hi. apply in_seq in Hi. rewrite lag_row by lia.
      destruct (Nat.eqb_spec u i); [lia|reflexivity].
    + replace (seq (S u) bf) with (seq (S u) (r - S u) ++ [r] ++ seq (S r) (bf - (r - u))).
      2:{ change ([r] ++ seq (S r) (bf - (r - u))) with (seq r (S (bf - (r - u)))).
          replace r with (S u + (r - S u))%nat at 2 by lia. rewrite <- seq_app. f_equal. lia. }
      rewrite !map_app, !fsum_app. cbn [map fsum]. rewrite lag_row, Nat.eqb_refl by lia.
      rewrite !fsum_zero.
      * fring.
      * intros i Hi. apply in_seq in Hi. rewrite lag_row by lia. destruct (Nat.eqb_spec r i); [lia|reflexivity].
      * intros i Hi. apply in_seq in Hi. rewrite lag_row by lia. destruct (Nat.eqb_spec r i); [lia|reflexivity].
Qed.

(** ** Public inputs *)
Definition ipoly (inst : list Fr) (x : Fr) : Fr := fsum (map (fun i => nth i inst f0 * lg i x) (seq 0 (length inst))).
Lemma ipoly_poly inst : polyfun n (ipoly inst).
Proof. apply polyfun_fsum. intros i _. apply polyfun_scale, lag_poly. Qed.
(** the value on a row: entries beyond the last row come round again *)
Definition wrapped (inst : list Fr) (r : nat) : Fr :=
  fsum (map (fun i => if (i mod n =? r)%nat then nth i inst f0 else f0) (seq 0 (length inst))).
Lemma ipoly_at inst r : (r < n)%nat -> ipoly inst (point r) = wrapped inst r.
Proof using Hk Hn Hd.
  clear v Hv Hrows.
  intros Hr. pose proof Hpos. unfold ipoly, wrapped. f_equal. apply map_ext. intros i.
  rewrite <- (lag_mod n w wi Hw Hwi ni i), lag_row by (try apply Nat.mod_upper_bound; lia).
  rewrite Nat.eqb_sym. destruct (i mod n =? r)%nat; fring.
Qed.
Lemma wrapped_short inst r : (length inst <= n)%nat -> (r < n)%nat -> wrapped inst r = nth r inst f0.
Proof using.
  clear.
  intros L Hr. unfold wrapped. destruct (Nat.lt_ge_cases r (length inst)) as [Hl|Hl].
  - rewrite (fsum_single _ (length inst) r Hl).
    + rewrite Nat.mod_small, Nat.eqb_refl by lia. reflexivity.
    + intros i Hi Ni. rewrite Nat.mod_small by lia. destruct (Nat.eqb_spec i r); [congruence|reflexivity].
  - rewrite nth_overflow by exact Hl. apply fsum_zero. intros i Hi. apply in_seq in Hi.
    rewrite Nat.mod_small by lia. destruct (Nat.eqb_spec i r); [lia|reflexivity].
Qed.
Lemma bounds_mono (qs : list (nat * Z)) : forall m0 M0, (m0 <= 0 <= M0)%Z ->
  let b := fold_left (fun mm q => if (snd q <? fst mm)%Z then (snd q, snd mm)
                         else if (snd mm <? snd q)%Z then (fst mm, snd q) else mm) qs (m0, M0) in
  (fst b <= m0)%Z /\ (M0 <= snd b)%Z /\ forall q, In q qs -> (fst b <= snd q <= snd b)%Z.
Proof using.
  clear.
  induction qs as [|[i t] qs IH]; intros m0 M0 H; [cbn; split; [lia|split; [lia|contradiction]]|].
  cbn [fold_left fst snd]. destruct (Z.ltb_spec t m0) as [L|L]; [|destruct (Z.ltb_spec M0 t) as [L2|L2]].
  - destruct (IH t M0 ltac:(lia)) as (A & B & C). split; [lia|]. split; [lia|].
    intros q [<-|I]; [cbn [snd]; lia|apply C, I].
  - destruct (IH m0 t ltac:(lia)) as (A & B & C). split; [lia|]. split; [lia|].
    intros q [<-|I]; [cbn [snd]; lia|apply C, I].
  - destruct (IH m0 M0 ltac:(lia)) as (A & B & C). split; [lia|]. split; [lia|].
    intros q [<-|I]; [cbn [snd]; lia|apply C, I].
Qed.
Lemma max_fold l : forall m, (m <= fold_left Z.max l m)%Z /\ forall a, In a l -> (a <= fold_left Z.max l m)%Z.
Proof using.
  clear.
  induction l as [|a l IH]; intros m; [cbn; split; [lia|contradiction]|]. cbn [fold_left].
  destruct (IH (Z.max m a)) as [A B]. split; [lia|]. intros b [<-|I]; [lia|apply B, I].
Qed.
Lemma inner_fold (a b : list Fr) : forall acc, length a = length b ->
  fold_left (fun acc ab => acc + fst ab * snd ab) (combine a b) acc =
  acc + fsum (map (fun i => nth i a f0 * nth i b f0) (seq 0 (length a))).
Proof using.
  clear.
  revert b. induction a as [|x a IH]; intros [|y b] acc L; try discriminate; cbn [combine fold_left length seq map fsum fst snd nth].
  - fring.
  - rewrite IH by (cbn [length] in L; lia). rewrite <- seq_shift, map_map. cbn [nth]. fring.
Qed.
Lemma instance_evals_are insts x : fpow x (2 ^ k)%Z <> f1 ->
  (forall q, In q (instance_queries c) -> (fst q < length insts)%nat) ->
  instance_evals v (2 ^ k) insts x =
  Ok (map (fun q => ipoly (nth (fst q) insts []) (rotate_omega d x (snd q))) (instance_queries c)).
Proof using Hk Hn Hd Hv.
  clear Hrows.
  intros N Hq. unfold instance_evals. rewrite pow_vartime_is by (apply Z.pow_nonneg; lia).
  pose proof (bounds_mono (instance_queries c) 0 0 ltac:(lia)) as B. fold (rotation_bounds (instance_queries c)) in B.
  destruct (rotation_bounds (instance_queries c)) as [mn mx]. cbn [fst snd] in B. destruct B as (B1 & B2 & B3).
  rewrite Hv, l_i_range_is by exact N.
  apply rmap_map. intros [i t] I. cbn [fst snd]. specialize (Hq _ I). cbn [fst] in Hq. specialize (B3 _ I). cbn [snd] in B3.
  rewrite (nth_error_nth' insts [] Hq). set (inst := nth i insts []).
  set (mlen := fold_left Z.max (map lenZ insts) 0%Z).
  assert (Hlen : (lenZ inst <= mlen)%Z).
  { apply max_fold, in_map, nth_In, Hq. }
  pose proof (proj1 (max_fold (map lenZ insts) 0)) as M0. fold mlen in M0.
  set (ls := map _ (zrange _ _)).
  assert (Lls : length ls = Z.to_nat (mlen + Z.abs mn + mx)).
  { unfold ls, zrange. rewrite !map_length, seq_length. f_equal. lia. }
  assert (Nls : forall p, (p < length ls)%nat -> nth p ls f0 = lg (rotate n 0 (- mx + Z.of_nat p)) x).
  { intros p Hp. apply nth_error_nth with (d := @f0 r_pos). unfold ls, zrange. rewrite map_map.
    erewrite map_nth_error; [reflexivity|]. rewrite Lls in Hp.
    rewrite (nth_error_nth' _ 0%nat) by (rewrite seq_length; lia). f_equal. rewrite seq_nth by lia. lia. }
  unfold lenZ in *. unfold slice, lenZ. change (fe r_pos) with Fr in *.
  assert (Hc : ((0 <=? mx - t)%Z && (mx - t <=? mx - t + Z.of_nat (length inst))%Z &&
    (mx - t + Z.of_nat (length inst) <=? Z.of_nat (length ls))%Z)%bool = true).
  { rewrite !andb_true_iff, !Z.leb_le. rewrite Lls. lia. }
  rewrite Hc. cbn [bind]. unfold inner_product.
  assert (Lp : length (firstn (Z.to_nat (mx - t + Z.of_nat (length inst) - (mx - t))) (skipn (Z.to_nat (mx - t)) ls)) = length inst).
  { rewrite firstn_length, skipn_length, Lls. lia. }
  change (fe r_pos) with Fr in *. rewrite Lp, Nat.eqb_refl. rewrite inner_fold by (symmetry; exact Lp).
  f_equal. replace (f0 + fsum _) with (fsum (map (fun i0 => nth i0 inst f0 * nth i0 (firstn (Z.to_nat (mx - t + Z.of_nat (length inst) - (mx - t)))
    (skipn (Z.to_nat (mx - t)) ls)) f0) (seq 0 (length inst)))) by fring.
  unfold ipoly. f_equal. apply map_ext_in. intros p Hp. apply in_seq in Hp. f_equal.
  assert (FS : forall (l : list Fr) a b p, (p < b)%nat -> nth p (firstn b (skipn a l)) f0 = nth (a + p) l f0).
  { clear. intros l a. revert l. induction a as [|a IH]; intros l b p Hp.
    - cbn [skipn Nat.add]. revert b p Hp. induction l as [|x l IH]; intros b p Hp; [rewrite firstn_nil; destruct p; reflexivity|].
      destruct b; [lia|]. cbn [firstn]. destruct p; [reflexivity|]. cbn [nth]. apply IH. lia.
    - destruct l as [|x l]; [cbn [skipn]; rewrite firstn_nil; destruct p; destruct a; reflexivity|]. cbn [skipn Nat.add nth]. apply IH, Hp. }
  rewrite FS by lia. rewrite Nls by (rewrite Lls; lia). rewrite <- lag_rotate. f_equal. f_equal. lia.
Qed.
End Lagrange.
