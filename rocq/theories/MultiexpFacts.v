(** Multi-exponentiation computes the linear combination. *)
From Coq Require Import ZArith List Arith Bool Lia.
From Verif Require Import Base Moduli Field FieldFacts LimbSpec LimbField LimbModel LimbConst ListFacts
  SerdeFacts DomainModel ArithModel ArithSpec FftFacts.
Import ListNotations.
Local Open Scope Z_scope.

(** ** Digits *)
Lemma le_bytes_skipn n : forall m x, (m <= n)%nat -> skipn m (le_bytes n x) = le_bytes (n - m) (x / 256 ^ Z.of_nat m).
Proof.
  induction n as [|n IH]; intros m x H.
  - assert (m = O) by lia. subst m. cbn [skipn Nat.sub]. rewrite Z.pow_0_r, Z.div_1_r. reflexivity.
  - destruct m as [|m]; [cbn [skipn Nat.sub]; rewrite Z.pow_0_r, Z.div_1_r; reflexivity|].
    cbn [le_bytes skipn Nat.sub]. rewrite IH by lia. f_equal. rewrite Z.shiftr_div_pow2 by lia. change (2 ^ 8) with 256.
    rewrite Z.div_div by (try apply Z.pow_pos_nonneg; lia). f_equal. rewrite Nat2Z.inj_succ, Z.pow_succ_r by lia. reflexivity.
Qed.
Lemma le_bytes_firstn n : forall m x, firstn m (le_bytes n x) = le_bytes (Nat.min m n) x.
Proof.
  induction n as [|n IH]; intros [|m] x; try reflexivity. cbn [le_bytes firstn Nat.min]. rewrite IH. reflexivity.
Qed.
Lemma mod_mod_pow x a b : 0 <= a <= b -> (x mod 2 ^ b) mod 2 ^ a = x mod 2 ^ a.
Proof.
  intros H. rewrite <- (Z.land_ones _ a), <- (Z.land_ones x b), <- (Z.land_ones x a) by lia.
  rewrite <- Z.land_assoc. f_equal. apply Z.bits_inj'. intros n Hn. rewrite Z.land_spec, !Z.testbit_ones_nonneg by lia.
  destruct (Z.ltb_spec n a), (Z.ltb_spec n b); try reflexivity; lia.
Qed.
Lemma get_at_is seg c x : 0 <= seg -> 0 < c <= 4 -> 0 <= x < 2 ^ 256 ->
  get_at seg c (le_bytes 32 x) = (x / 2 ^ (seg * c)) mod 2 ^ c.
Proof.
  intros Hs Hc Hx. unfold get_at. set (bits := seg * c). set (q := bits / 8).
  assert (Hb : 0 <= bits) by (unfold bits; nia).
  pose proof (Z.div_mod bits 8 ltac:(lia)) as D. pose proof (Z.mod_pos_bound bits 8 ltac:(lia)) as B. fold q in D.
  assert (Hq : 0 <= q) by (apply Z.div_pos; lia).
  destruct (Z.leb_spec 32 q) as [L|L].
  - rewrite Z.div_small; [symmetry; apply Z.mod_0_l, Z.pow_nonzero; lia|]. split; [lia|].
    eapply Z.lt_le_trans; [apply Hx|]. apply Z.pow_le_mono_r; lia.
  - rewrite le_bytes_skipn by lia. rewrite le_bytes_firstn, le_value_bytes. rewrite Z2Nat.id by lia.
    set (m := Nat.min 8 (32 - Z.to_nat q)). assert (Hm : (1 <= m <= 8)%nat) by lia.
    change 256 with (2 ^ 8). rewrite <- !Z.pow_mul_r by lia. rewrite Z.shiftr_div_pow2 by lia.
    set (y := x / 2 ^ (8 * q)).
    assert (Y : (y mod 2 ^ (8 * Z.of_nat m)) / 2 ^ (bits - q * 8) mod 2 ^ c = y / 2 ^ (bits - q * 8) mod 2 ^ c).
    { destruct (Nat.eq_dec m 8) as [E|N].
      - rewrite E. change (8 * Z.of_nat 8) with 64. set (s := bits - q * 8). assert (Hs' : 0 <= s < 8) by lia.
        replace 64 with (s + (64 - s)) by lia. rewrite Z.pow_add_r by lia.
        rewrite Z.rem_mul_r by (apply Z.pow_nonzero || apply Z.pow_pos_nonneg; lia).
        rewrite Z.mul_comm, Z.div_add by (apply Z.pow_nonzero; lia).
        rewrite (Z.div_small (y mod 2 ^ s)) by (apply Z.mod_pos_bound, Z.pow_pos_nonneg; lia).
        rewrite Z.add_0_l. apply mod_mod_pow. lia.
      - assert (Em : Z.of_nat m = 32 - q) by lia. rewrite Em. rewrite (Z.mod_small y); [reflexivity|]. split.
        + apply Z.div_pos; [lia|apply Z.pow_pos_nonneg; lia].
        + apply Z.div_lt_upper_bound; [apply Z.pow_pos_nonneg; lia|]. rewrite <- Z.pow_add_r by lia.
          replace (8 * q + 8 * (32 - q)) with 256 by lia. apply Hx. }
    etransitivity; [exact Y|]. f_equal. unfold y. rewrite Z.div_div by (try apply Z.pow_nonzero; try apply Z.pow_pos_nonneg; lia).
    f_equal. rewrite <- Z.pow_add_r by lia. f_equal. lia.
Qed.

Lemma FrZ_plus a b : FrZ (a + b) = (FrZ a + FrZ b)%F.
Proof. apply of_Z_add. Qed.
Lemma FrZ_times a b : FrZ (a * b) = (FrZ a * FrZ b)%F.
Proof. apply of_Z_mul. Qed.

Section Multiexp.
Context {G : Type}.
Variables (zero : G) (add sub : G -> G -> G) (scale : Fr -> G -> G).
Hypothesis M : is_module zero add sub scale.
Local Notation "a ++. b" := (add a b) (at level 40, left associativity).
Definition zscale (n : Z) (g : G) : G := scale (FrZ n) g.
Lemma z_add a b g : zscale (a + b) g = zscale a g ++. zscale b g.
Proof. unfold zscale. rewrite FrZ_plus. apply (mod_add_scale _ _ _ _ M). Qed.
Lemma z_mul a b g : zscale (a * b) g = zscale a (zscale b g).
Proof. unfold zscale. rewrite FrZ_times. apply (mod_mul_scale _ _ _ _ M). Qed.
Lemma z_1 g : zscale 1 g = g.
Proof. unfold zscale. replace (FrZ 1) with (@f1 r_pos) by reflexivity. apply (mod_one_scale _ _ _ _ M). Qed.
Lemma z_0 g : zscale 0 g = zero.
Proof. unfold zscale. replace (FrZ 0) with (@f0 r_pos) by reflexivity. apply (mod_zero_scale _ _ _ _ M). Qed.
Lemma z_dist n a b : zscale n (a ++. b) = zscale n a ++. zscale n b.
Proof. apply (mod_scale_add _ _ _ _ M). Qed.
Lemma z_zero n : zscale n zero = zero.
Proof. apply (scale_zero _ _ _ _ M). Qed.
Let asc := mod_assoc _ _ _ _ M.
Let com := mod_comm _ _ _ _ M.
Let zl := mod_zero _ _ _ _ M.
Let zr := mod_zero_r _ _ _ _ M.
Let sw4 := mod_swap4 _ _ _ _ M.

(** the sum over points *)
Definition lin (f : Z -> Z) (vs : list Z) (bases : list G) : G :=
  gsum zero add (map (fun vb => zscale (f (fst vb)) (snd vb)) (combine vs bases)).
Lemma lin_add f g vs : forall bases, lin (fun v => f v + g v) vs bases = lin f vs bases ++. lin g vs bases.
Proof.
  unfold lin. induction vs as [|v vs IH]; intros [|b bases]; cbn [combine map gsum fold_right]; try (symmetry; apply zl).
  unfold gsum in IH. rewrite IH. cbn [fst snd]. rewrite z_add. apply sw4.
Qed.
Lemma lin_scale c f vs : forall bases, lin (fun v => c * f v) vs bases = zscale c (lin f vs bases).
Proof.
  unfold lin. induction vs as [|v vs IH]; intros [|b bases]; cbn [combine map gsum fold_right]; try (symmetry; apply z_zero).
  unfold gsum in IH. rewrite IH. cbn [fst snd]. rewrite z_mul, z_dist. reflexivity.
Qed.
Lemma lin_ext f g vs : forall bases, (forall v, In v vs -> f v = g v) -> lin f vs bases = lin g vs bases.
Proof.
  unfold lin. induction vs as [|v vs IH]; intros [|b bases] H; try reflexivity. cbn [combine map gsum fold_right fst snd].
  unfold gsum in IH. rewrite IH by (intros; apply H; right; assumption). rewrite H by (left; reflexivity). reflexivity.
Qed.
Lemma lin_0 vs : forall bases, lin (fun _ => 0) vs bases = zero.
Proof.
  unfold lin. induction vs as [|v vs IH]; intros [|b bases]; try reflexivity. cbn [combine map gsum fold_right fst snd].
  unfold gsum in IH. rewrite IH, z_0. apply zl.
Qed.

(** ** Buckets *)
Definition bval (b : option G) : G := match b with None => zero | Some g => g end.
Lemma bucket_add_val b p : bval (bucket_add add b p) = bval b ++. p.
Proof. destruct b; cbn [bucket_add bval]; [reflexivity|symmetry; apply zl]. Qed.
Lemma bucket_sum_val b o : bucket_sum add b o = o ++. bval b.
Proof. destruct b; cbn [bucket_sum bval]; [reflexivity|symmetry; apply zr]. Qed.
Fixpoint btot (bs : list (option G)) : G := match bs with [] => zero | b :: bs => btot bs ++. bval b end.
(** bucket i weighs i + 1 *)
Fixpoint bweight (bs : list (option G)) : G :=
  match bs with [] => zero | b :: bs => bweight bs ++. (btot bs ++. bval b) end.
Lemma sum_buckets_is bs acc : sum_buckets add zero bs acc = acc ++. bweight bs.
Proof.
  unfold sum_buckets.
  assert (Q : fold_left (fun ra b => (bucket_sum add b (fst ra), snd ra ++. bucket_sum add b (fst ra))) (rev bs) (zero, acc) =
              (btot bs, acc ++. bweight bs)).
  { induction bs as [|b bs IH]; cbn [rev btot bweight fold_left]; [rewrite zr; reflexivity|].
    rewrite fold_left_app, IH. cbn [fold_left fst snd]. rewrite bucket_sum_val, !asc. reflexivity. }
  exact (f_equal snd Q).
Qed.
Lemma upd_tot p : forall i bs, (i < length bs)%nat -> btot (upd bs i (bucket_add add (nth i bs None) p)) = btot bs ++. p.
Proof.
  induction i as [|i IH]; intros [|b bs] H; cbn [length] in H; try lia; cbn [upd nth btot].
  - rewrite bucket_add_val. apply asc.
  - rewrite IH by lia. rewrite <- !asc. f_equal. apply com.
Qed.
Lemma upd_weight p : forall i bs, (i < length bs)%nat ->
  bweight (upd bs i (bucket_add add (nth i bs None) p)) = bweight bs ++. zscale (Z.of_nat i + 1) p.
Proof.
  induction i as [|i IH]; intros [|b bs] H; cbn [length] in H; try lia; cbn [upd nth bweight].
  - rewrite bucket_add_val. change (Z.of_nat 0 + 1) with 1. rewrite z_1. rewrite !asc. reflexivity.
  - rewrite IH, upd_tot by lia. replace (Z.of_nat (S i) + 1) with (Z.of_nat i + 1 + 1) by lia. rewrite (z_add (Z.of_nat i + 1) 1), z_1.
    rewrite <- !asc. f_equal. rewrite !asc. rewrite (com (zscale _ p) (btot bs)). rewrite <- !asc. f_equal.
    rewrite (com p (bval b)), !asc. f_equal. apply com.
Qed.
Lemma fill_buckets_is c (f : Z -> Z) : forall vs bases bs, length bs = Z.to_nat (2 ^ c - 1) ->
  (forall v, In v vs -> 0 <= f v < 2 ^ c) ->
  exists bs', fill_buckets add (map f vs) bases bs = Ok bs' /\ length bs' = length bs /\
    bweight bs' = bweight bs ++. lin f vs bases.
Proof.
  induction vs as [|v vs IH]; intros bases bs L H.
  - exists bs. split; [destruct bases; reflexivity|]. split; [reflexivity|]. symmetry. apply zr.
  - destruct bases as [|p bases].
    { exists bs. split; [reflexivity|]. split; [reflexivity|]. symmetry. apply zr. }
    cbn [map fill_buckets]. assert (Hv := H v (or_introl eq_refl)). unfold lin. cbn [combine map gsum fold_right fst snd].
    fold (gsum zero add (map (fun vb : Z * G => zscale (f (fst vb)) (snd vb)) (combine vs bases))).
    fold (lin f vs bases).
    destruct (Z.eqb_spec (f v) 0) as [E|N].
    + destruct (IH bases bs L) as (bs' & E1 & L1 & W1); [intros; apply H; right; assumption|].
      exists bs'. split; [exact E1|]. split; [exact L1|]. rewrite W1, E, z_0, zl. reflexivity.
    + assert (Hi : (Z.to_nat (f v - 1) < length bs)%nat) by lia.
      rewrite (aget_ok None) by exact Hi. cbn [bind]. rewrite aset_ok by exact Hi. cbn [bind].
      edestruct (IH bases) as (bs' & E1 & L1 & W1); [|intros; apply H; right; assumption|].
      2:{ exists bs'. split; [exact E1|]. split; [rewrite L1; apply upd_length|]. rewrite W1, upd_weight by exact Hi.
          rewrite <- asc. do 2 f_equal. f_equal. lia. }
      rewrite upd_length. exact L.
Qed.
Lemma doublings_is n : forall acc, doublings add n acc = zscale (2 ^ Z.of_nat n) acc.
Proof.
  induction n as [|n IH]; intros acc; cbn [doublings].
  - change (2 ^ Z.of_nat 0) with 1. symmetry. apply z_1.
  - rewrite IH. rewrite Nat2Z.inj_succ, Z.pow_succ_r, Z.mul_comm, z_mul by lia. f_equal.
    change 2 with (1 + 1). rewrite z_add, z_1. reflexivity.
Qed.
Lemma repeat_weight n : bweight (repeat None n) = zero /\ btot (repeat None n) = zero.
Proof.
  induction n as [|n [A B]]; [split; reflexivity|]. cbn [repeat bweight btot bval]. rewrite A, B, !zr. split; reflexivity.
Qed.
Lemma segments_is c vs bases : 0 < c <= 4 -> (forall v, In v vs -> 0 <= v < 2 ^ 256) -> forall count acc,
  segments_down add zero c count (map (le_bytes 32) vs) bases acc =
  Ok (zscale (2 ^ (c * Z.of_nat count)) acc ++. lin (fun v => v mod 2 ^ (c * Z.of_nat count)) vs bases).
Proof.
  intros Hc Hv. induction count as [|count IH]; intros acc; cbn [segments_down].
  - f_equal. rewrite Z.mul_0_r. change (2 ^ 0) with 1. rewrite z_1, (lin_ext _ (fun _ => 0)), lin_0 by (intros; apply Z.mod_1_r).
    symmetry. apply zr.
  - rewrite map_map.
    destruct (fill_buckets_is c (fun v => get_at (Z.of_nat count) c (le_bytes 32 v)) vs bases (repeat None (Z.to_nat (2 ^ c - 1)))) as (bs & E & L & W).
    + apply repeat_length.
    + intros v Iv. rewrite (get_at_is (Z.of_nat count) c v ltac:(lia) Hc (Hv v Iv)). apply Z.mod_pos_bound, Z.pow_pos_nonneg; lia.
    + rewrite E. cbn [bind]. rewrite IH, sum_buckets_is, W, (proj1 (repeat_weight _)), zl, doublings_is, Z2Nat.id by lia. f_equal.
      rewrite z_dist, <- z_mul, <- Z.pow_add_r by lia. rewrite <- asc. f_equal; [f_equal; f_equal; lia|].
      rewrite <- lin_scale, <- lin_add. apply lin_ext. intros v Iv. rewrite (get_at_is (Z.of_nat count) c v ltac:(lia) Hc (Hv v Iv)).
      rewrite Nat2Z.inj_succ. replace (c * Z.succ (Z.of_nat count)) with (c * Z.of_nat count + c) by lia.
      rewrite Z.pow_add_r by lia. rewrite Z.rem_mul_r by (try apply Z.pow_nonzero; try apply Z.pow_pos_nonneg; lia).
      rewrite (Z.mul_comm (Z.of_nat count)). lia.
Qed.
Theorem multiexp_ok coeffs bases : length coeffs = length bases ->
  best_multiexp add zero coeffs bases = Ok (linear zero add scale coeffs bases).
Proof.
  intros L. unfold best_multiexp. rewrite (proj2 (Nat.eqb_eq _ _) L).
  set (c := if (length bases <? 4)%nat then 1 else if (length bases <? 32)%nat then 3 else 4).
  assert (Hc : 0 < c <= 4 /\ 256 <= c * (256 / c + 1)).
  { unfold c. destruct (length bases <? 4)%nat; [|destruct (length bases <? 32)%nat]; vm_compute; intuition discriminate. }
  destruct Hc as [Hc Hn].
  assert (R : forall v, In v (map fval coeffs) -> 0 <= v < 2 ^ 256).
  { intros v I. apply in_map_iff in I. destruct I as (a & <- & _). pose proof (fval_range a) as B.
    split; [lia|]. eapply Z.lt_trans; [apply B|]. reflexivity. }
  rewrite <- (map_map fval (le_bytes 32)). rewrite (segments_is c _ _ Hc R). f_equal. rewrite z_zero, zl.
  rewrite Z2Nat.id by (pose proof (Z.div_pos 256 c); lia).
  rewrite (lin_ext _ (fun v => v)).
  - unfold lin, linear. clear L R Hn Hc c. revert bases. induction coeffs as [|a coeffs IH]; intros [|b bases]; try reflexivity.
    cbn [map combine gsum fold_right fst snd]. unfold gsum in IH. rewrite IH. f_equal. unfold zscale, FrZ. f_equal. apply of_Z_fval.
  - intros v I. apply Z.mod_small. split; [apply R, I|]. eapply Z.lt_le_trans; [apply R, I|]. apply Z.pow_le_mono_r; lia.
Qed.
End Multiexp.
