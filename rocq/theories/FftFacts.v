(** The Fourier transform computes the values of a polynomial at the powers of
    a root of unity. *)
From Coq Require Import ZArith List Arith Bool Lia.
From Verif Require Import Base Moduli Field FieldFacts LimbSpec LimbField LimbConst ListFacts
  DomainModel DomainSpec DomainFacts ArithModel ArithSpec.
Import ListNotations.
Local Open Scope nat_scope.

(** ** Arrays *)
Section Arrays.
Context {G : Type}.
Variable z : G.
Lemma nth_upd (l : list G) i j x : i < length l -> nth j (upd l i x) z = if j =? i then x else nth j l z.
Proof.
  revert i j. induction l as [|a l IH]; intros i j H; [cbn in H; lia|].
  destruct i as [|i], j as [|j]; cbn [upd nth Nat.eqb]; try reflexivity. apply IH. cbn [length] in H. lia.
Qed.
Lemma aget_ok (l : list G) i : i < length l -> aget l i = Ok (nth i l z).
Proof. intros H. unfold aget. rewrite (nth_error_nth' l z H). reflexivity. Qed.
Lemma aset_ok (l : list G) i x : i < length l -> aset l i x = Ok (upd l i x).
Proof. intros H. unfold aset. apply Nat.ltb_lt in H. rewrite H. reflexivity. Qed.
Lemma list_eq_nth (l k : list G) : length l = length k -> (forall i, i < length l -> nth i l z = nth i k z) -> l = k.
Proof.
  revert k. induction l as [|a l IH]; intros [|b k] E H; try discriminate; [reflexivity|]. f_equal.
  - apply (H 0). cbn [length]. lia.
  - apply IH; [injection E; auto|]. intros i Hi. apply (H (S i)). cbn [length]. lia.
Qed.
End Arrays.

(** ** Bit reversal *)
Lemma bitreverse_go_acc l : forall n r, bitreverse_go l n r = r * 2 ^ l + bitreverse_go l n 0.
Proof.
  induction l as [|l IH]; intros n r; cbn [bitreverse_go Nat.pow]; [lia|].
  rewrite (IH _ (2 * r + n mod 2)), (IH _ (2 * 0 + n mod 2)). nia.
Qed.
Lemma bitreverse_S l n : bitreverse n (S l) = (n mod 2) * 2 ^ l + bitreverse (n / 2) l.
Proof. unfold bitreverse. cbn [bitreverse_go]. rewrite bitreverse_go_acc. nia. Qed.
Lemma bitreverse_bit l b e : e < 2 -> bitreverse (2 * b + e) (S l) = e * 2 ^ l + bitreverse b l.
Proof.
  intros H. rewrite bitreverse_S.
  assert (E1 : (2 * b + e) mod 2 = e) by (rewrite Nat.add_comm, Nat.mul_comm, Nat.mod_add by lia; apply Nat.mod_small; lia).
  assert (E2 : (2 * b + e) / 2 = b) by (rewrite Nat.add_comm, Nat.mul_comm, Nat.div_add by lia; rewrite Nat.div_small by lia; lia).
  rewrite E1, E2. reflexivity.
Qed.
Lemma bitreverse_lt l : forall n, bitreverse n l < 2 ^ l.
Proof.
  induction l as [|l IH]; intros n; [cbn; lia|]. rewrite bitreverse_S. specialize (IH (n / 2)).
  pose proof (Nat.mod_upper_bound n 2). cbn [Nat.pow]. nia.
Qed.
Lemma bitreverse_top l : forall m e, m < 2 ^ l -> e < 2 -> bitreverse (e * 2 ^ l + m) (S l) = 2 * bitreverse m l + e.
Proof.
  induction l as [|l IH]; intros m e Hm He.
  - cbn in Hm. assert (m = 0) by lia. subst m. cbn [Nat.pow]. rewrite bitreverse_S.
    replace (e * 1 + 0) with e by lia. rewrite Nat.mod_small by lia. cbn. lia.
  - rewrite bitreverse_S. pose proof (Nat.div_mod m 2). pose proof (Nat.mod_upper_bound m 2).
    assert (E1 : (e * 2 ^ S l + m) mod 2 = m mod 2).
    { cbn [Nat.pow]. replace (e * (2 * 2 ^ l) + m) with (m + (e * 2 ^ l) * 2) by lia. apply Nat.mod_add. lia. }
    assert (E2 : (e * 2 ^ S l + m) / 2 = e * 2 ^ l + m / 2).
    { cbn [Nat.pow]. replace (e * (2 * 2 ^ l) + m) with (m + (e * 2 ^ l) * 2) by lia. rewrite Nat.div_add by lia. lia. }
    rewrite E1, E2, IH; [|cbn [Nat.pow] in Hm; lia|exact He].
    rewrite (bitreverse_S l m). cbn [Nat.pow]. lia.
Qed.
Lemma bitreverse_inv l : forall n, n < 2 ^ l -> bitreverse (bitreverse n l) l = n.
Proof.
  induction l as [|l IH]; intros n H; [cbn in *; lia|]. pose proof (Nat.mod_upper_bound n 2).
  rewrite (bitreverse_S l n), bitreverse_top by (try apply bitreverse_lt; lia).
  rewrite IH; [pose proof (Nat.div_mod n 2); lia|]. cbn [Nat.pow] in H. apply Nat.div_lt_upper_bound; lia.
Qed.

Section Fft.
Context {G : Type}.
Variables (zero : G) (add sub : G -> G -> G) (scale : Fr -> G -> G).
Notation get := (fun i l => nth i l zero).

Lemma swap_ok (a : list G) i j : i < length a -> j < length a -> i <> j ->
  exists a', swap a i j = Ok a' /\ length a' = length a /\
    forall s, nth s a' zero = if s =? j then nth i a zero else if s =? i then nth j a zero else nth s a zero.
Proof.
  intros Hi Hj Hne. unfold swap. rewrite !(aget_ok zero) by assumption. cbn [bind].
  rewrite aset_ok by assumption. cbn [bind]. rewrite aset_ok by (rewrite upd_length; assumption).
  eexists. split; [reflexivity|]. rewrite !upd_length. split; [reflexivity|]. intros s.
  rewrite !nth_upd by (rewrite ?upd_length; assumption). reflexivity.
Qed.

Lemma reorder_ok L : forall c K (a0 a : list G), K + c = 2 ^ L -> length a = 2 ^ L -> length a0 = 2 ^ L ->
  (forall i, i < 2 ^ L -> nth i a zero = if Nat.min i (bitreverse i L) <? K then nth (bitreverse i L) a0 zero else nth i a0 zero) ->
  exists a', reorder L (seq K c) a = Ok a' /\ length a' = 2 ^ L /\ forall i, i < 2 ^ L -> nth i a' zero = nth (bitreverse i L) a0 zero.
Proof.
  induction c as [|c IH]; intros K a0 a HK La La0 H.
  - exists a. split; [reflexivity|]. split; [exact La|]. intros i Hi. rewrite (H i Hi).
    assert (E : Nat.min i (bitreverse i L) <? K = true) by (apply Nat.ltb_lt; pose proof (bitreverse_lt L i); lia).
    rewrite E. reflexivity.
  - cbn [seq reorder]. pose proof (bitreverse_lt L K) as Bk.
    assert (HKL : K < 2 ^ L) by lia. pose proof (bitreverse_inv L K HKL) as Ik.
    destruct (Nat.ltb_spec K (bitreverse K L)) as [Lt|Ge].
    + destruct (swap_ok a (bitreverse K L) K) as (a1 & E1 & L1 & N1); [lia..|]. rewrite E1. cbn [bind].
      apply IH; [lia|lia|exact La0|]. intros i Hi. rewrite N1.
      pose proof (bitreverse_inv L i Hi) as Ii.
      destruct (Nat.eqb_spec i K) as [->|Ni].
      * rewrite H by lia. rewrite Ik.
        assert (E : Nat.min (bitreverse K L) K <? K = false) by (apply Nat.ltb_ge; lia). rewrite E.
        assert (E' : Nat.min K (bitreverse K L) <? S K = true) by (apply Nat.ltb_lt; lia). rewrite E'. reflexivity.
      * destruct (Nat.eqb_spec i (bitreverse K L)) as [->|Nr].
        -- rewrite H by lia. assert (E : Nat.min K (bitreverse K L) <? K = false) by (apply Nat.ltb_ge; lia). rewrite E, Ik.
           assert (E' : Nat.min (bitreverse K L) K <? S K = true) by (apply Nat.ltb_lt; lia). rewrite E'. reflexivity.
        -- rewrite H by lia. assert (Nb : bitreverse i L <> K) by (intros E; apply Nr; rewrite <- E, Ii; reflexivity).
           destruct (Nat.ltb_spec (Nat.min i (bitreverse i L)) K), (Nat.ltb_spec (Nat.min i (bitreverse i L)) (S K)); try reflexivity; lia.
    + cbn [bind]. apply IH; [lia|exact La|exact La0|]. intros i Hi. rewrite H by lia.
      pose proof (bitreverse_inv L i Hi) as Ii.
      destruct (Nat.ltb_spec (Nat.min i (bitreverse i L)) K), (Nat.ltb_spec (Nat.min i (bitreverse i L)) (S K)); try reflexivity; [lia|].
      assert (D : i = K \/ bitreverse i L = K) by lia. destruct D as [->|D].
      * assert (E : bitreverse K L = K) by lia. rewrite E. reflexivity.
      * assert (i = bitreverse K L) by (rewrite <- D, Ii; reflexivity). assert (EK : i = K) by lia. rewrite D, EK. reflexivity.
Qed.

Lemma butterflies_ok m k w_m : forall count j w (a : list G), j + count = m -> k + 2 * m <= length a ->
  exists a', butterflies add sub scale m k w_m count j w a = Ok a' /\ length a' = length a /\
    forall i, nth i a' zero =
      if (k + j <=? i) && (i <? k + m) then
        add (nth i a zero) (scale (w * fpow w_m (Z.of_nat (i - (k + j))))%F (nth (i + m) a zero))
      else if (k + j + m <=? i) && (i <? k + 2 * m) then
        sub (nth (i - m) a zero) (scale (w * fpow w_m (Z.of_nat (i - (k + j + m))))%F (nth i a zero))
      else nth i a zero.
Proof.
  induction count as [|count IH]; intros j w a Hj Hl.
  - exists a. split; [reflexivity|]. split; [reflexivity|]. intros i.
    destruct (Nat.leb_spec (k + j) i), (Nat.ltb_spec i (k + m)), (Nat.leb_spec (k + j + m) i), (Nat.ltb_spec i (k + 2 * m));
      cbn [andb]; try reflexivity; lia.
  - cbn [butterflies]. rewrite (aget_ok zero) by lia. cbn [bind]. rewrite (aget_ok zero) by lia. cbn [bind].
    rewrite aset_ok by lia. cbn [bind]. rewrite aset_ok by (rewrite upd_length; lia). cbn [bind].
    set (u := nth (k + j) a zero). set (t := scale w (nth (k + j + m) a zero)).
    destruct (IH (S j) (w * w_m)%F (upd (upd a (k + j + m) (sub u t)) (k + j) (add u t))) as (a' & E & La & N);
      [lia|rewrite !upd_length; lia|].
    exists a'. split; [exact E|]. split; [rewrite La, !upd_length; reflexivity|]. intros i. rewrite N. clear N E.
    rewrite !nth_upd by (rewrite ?upd_length; lia).
    destruct (Nat.leb_spec (k + S j) i), (Nat.ltb_spec i (k + m)), (Nat.leb_spec (k + S j + m) i), (Nat.ltb_spec i (k + 2 * m)),
      (Nat.leb_spec (k + j) i), (Nat.leb_spec (k + j + m) i); cbn [andb]; try lia;
      repeat match goal with |- context [?x =? ?y] => destruct (Nat.eqb_spec x y); try lia end; try reflexivity.
    + replace (i - (k + j)) with (S (i - (k + S j))) by lia. rewrite Nat2Z.inj_succ, <- Z.add_1_r, fpow_S by (try exact r_prime; lia).
      f_equal. f_equal. fring.
    + replace (i - (k + j + m)) with (S (i - (k + S j + m))) by lia. rewrite Nat2Z.inj_succ, <- Z.add_1_r, fpow_S by (try exact r_prime; lia).
      f_equal. f_equal. fring.
    + subst i. rewrite Nat.sub_diag. unfold t, u. change (fpow w_m (Z.of_nat 0)) with (@f1 r_pos).
      replace (w * f1)%F with w by fring. replace (k + j + m - m) with (k + j) by lia. reflexivity.
    + subst i. rewrite Nat.sub_diag. unfold t, u. change (fpow w_m (Z.of_nat 0)) with (@f1 r_pos).
      replace (w * f1)%F with w by fring. reflexivity.
Qed.

Lemma blocks_ok m w_m : 0 < m -> forall c fuel k n (a : list G), length a = n -> n = k + c * (2 * m) -> c <= fuel ->
  exists a', blocks add sub scale m w_m fuel k n a = Ok a' /\ length a' = length a /\
    (forall i, i < k -> nth i a' zero = nth i a zero) /\
    forall b j, b < c -> j < m ->
      nth (k + b * (2 * m) + j) a' zero =
        add (nth (k + b * (2 * m) + j) a zero) (scale (fpow w_m (Z.of_nat j)) (nth (k + b * (2 * m) + j + m) a zero)) /\
      nth (k + b * (2 * m) + j + m) a' zero =
        sub (nth (k + b * (2 * m) + j) a zero) (scale (fpow w_m (Z.of_nat j)) (nth (k + b * (2 * m) + j + m) a zero)).
Proof.
  intros Hm. induction c as [|c IH]; intros fuel k n a La En Hf.
  - exists a. split; [|repeat split; intros; lia]. destruct fuel as [|fuel]; [reflexivity|]. cbn [blocks].
    assert (E : k <? n = false) by (apply Nat.ltb_ge; lia). rewrite E. reflexivity.
  - destruct fuel as [|fuel]; [lia|]. cbn [blocks].
    assert (E : k <? n = true) by (apply Nat.ltb_lt; nia). rewrite E. clear E.
    destruct (butterflies_ok m k w_m m 0 f1 a) as (a1 & E1 & L1 & N1); [lia|nia|]. rewrite E1. cbn [bind].
    destruct (IH fuel (k + 2 * m) n a1) as (a' & E' & L' & Nk & Nb); [lia|nia|lia|].
    exists a'. split; [exact E'|]. split; [lia|]. split.
    + intros i Hi. rewrite Nk by lia. rewrite N1.
      destruct (Nat.leb_spec (k + 0) i); [lia|]. destruct (Nat.leb_spec (k + 0 + m) i); [lia|]. reflexivity.
    + intros b j Hb Hj. destruct b as [|b].
      * rewrite !Nat.mul_0_l, !Nat.add_0_r. rewrite !Nk by lia. rewrite !N1.
        destruct (Nat.leb_spec (k + 0) (k + j)); [|lia]. destruct (Nat.ltb_spec (k + j) (k + m)); [|lia].
        destruct (Nat.leb_spec (k + 0) (k + j + m)); [|lia]. destruct (Nat.ltb_spec (k + j + m) (k + m)); [lia|].
        destruct (Nat.leb_spec (k + 0 + m) (k + j + m)); [|lia]. destruct (Nat.ltb_spec (k + j + m) (k + 2 * m)); [|lia].
        cbn [andb]. replace (k + j + m - m) with (k + j) by lia.
        replace (k + j - (k + 0)) with j by lia. replace (k + j + m - (k + 0 + m)) with j by lia.
        replace (f1 * fpow w_m (Z.of_nat j))%F with (fpow w_m (Z.of_nat j)) by fring. split; reflexivity.
      * destruct (Nb b j) as [A B]; [lia|exact Hj|].
        replace (k + S b * (2 * m)) with (k + 2 * m + b * (2 * m)) by lia. rewrite A, B.
        assert (Q : forall i, k + 2 * m <= i -> nth i a1 zero = nth i a zero).
        { intros i Hi. rewrite N1. destruct (Nat.ltb_spec i (k + m)); [lia|]. destruct (Nat.ltb_spec i (k + 2 * m)); [lia|].
          rewrite !andb_false_r. reflexivity. }
        rewrite !Q by lia. split; reflexivity.
Qed.

Hypothesis M : is_module zero add sub scale.
Notation gs f m := (gsum zero add (map f (seq 0 m))).
Lemma mod_zero_r a : add a zero = a.
Proof. rewrite (mod_comm _ _ _ _ M). apply (mod_zero _ _ _ _ M). Qed.
Lemma gsum_app l k : gsum zero add (l ++ k) = add (gsum zero add l) (gsum zero add k).
Proof.
  induction l as [|a l IH]; cbn [app gsum fold_right]; [symmetry; apply (mod_zero _ _ _ _ M)|].
  unfold gsum in IH. rewrite IH. apply (mod_assoc _ _ _ _ M).
Qed.
Lemma gs_S f m : gs f (S m) = add (gs f m) (f m).
Proof.
  rewrite seq_S, map_app, gsum_app. cbn [map gsum fold_right Nat.add]. rewrite mod_zero_r. reflexivity.
Qed.
Lemma gs_ext f g m : (forall t, t < m -> f t = g t) -> gs f m = gs g m.
Proof. intros H. f_equal. apply map_ext_in. intros t Ht. apply in_seq in Ht. apply H. lia. Qed.
Lemma mod_swap4 a b c d : add (add a b) (add c d) = add (add a c) (add b d).
Proof.
  rewrite <- (mod_assoc _ _ _ _ M a b), (mod_assoc _ _ _ _ M b c d), (mod_comm _ _ _ _ M b c), <- (mod_assoc _ _ _ _ M c b d).
  apply (mod_assoc _ _ _ _ M).
Qed.
Lemma gs_even_odd f m : gs f (2 * m) = add (gs (fun t => f (2 * t)) m) (gs (fun t => f (2 * t + 1)) m).
Proof.
  induction m as [|m IH]; [cbn [Nat.mul seq map gsum fold_right]; symmetry; apply (mod_zero _ _ _ _ M)|].
  replace (2 * S m) with (S (S (2 * m))) by lia. rewrite !gs_S, IH. rewrite <- (mod_assoc _ _ _ _ M (add _ _)).
  replace (S (2 * m)) with (2 * m + 1) by lia. apply mod_swap4.
Qed.
Lemma scale_zero k : scale k zero = zero.
Proof.
  rewrite <- (mod_zero_scale _ _ _ _ M zero) at 1. rewrite <- (mod_mul_scale _ _ _ _ M).
  replace (k * f0)%F with (@f0 r_pos) by fring. apply (mod_zero_scale _ _ _ _ M).
Qed.
Lemma scale_gs k f m : scale k (gs f m) = gs (fun t => scale k (f t)) m.
Proof.
  induction m as [|m IH]; [cbn [seq map gsum fold_right]; apply scale_zero|].
  rewrite !gs_S, (mod_scale_add _ _ _ _ M), IH. reflexivity.
Qed.

Lemma minus_even t : fpow (- f1 : Fr) (Z.of_nat (2 * t)) = f1.
Proof.
  rewrite Nat2Z.inj_mul, <- fpow_mul by lia. replace (fpow (- f1 : Fr) (Z.of_nat 2)) with (f1 : Fr).
  - apply fpow_one. lia.
  - change (Z.of_nat 2) with (1 + 1)%Z. rewrite fpow_add, !fpow_1 by lia. fring.
Qed.
Lemma minus_odd t : fpow (- f1 : Fr) (Z.of_nat (2 * t + 1)) = (- f1)%F.
Proof. rewrite Nat2Z.inj_add, fpow_add, minus_even, fpow_1 by lia. fring. Qed.

Lemma levels_ok omega L (x : list G) : (0 < L -> fpow omega (Z.of_nat (2 ^ (L - 1))) = (- f1)%F) ->
  forall count s (a : list G), L = s + count -> length a = 2 ^ L ->
  (forall b j, b < 2 ^ count -> j < 2 ^ s ->
     nth (b * 2 ^ s + j) a zero =
     gs (fun t => scale (fpow omega (Z.of_nat (2 ^ count * (j * t)))) (nth (bitreverse b count + t * 2 ^ count) x zero)) (2 ^ s)) ->
  exists a', levels add sub scale omega (2 ^ L) count (2 ^ s) a = Ok a' /\ length a' = 2 ^ L /\
    forall j, j < 2 ^ L -> nth j a' zero = gs (fun t => scale (fpow omega (Z.of_nat (j * t))) (nth t x zero)) (2 ^ L).
Proof.
  intros Hom. induction count as [|count IH]; intros s a EL La Hinv.
  - exists a. assert (s = L) by lia. subst s. split; [reflexivity|]. split; [exact La|]. intros j Hj.
    specialize (Hinv 0 j). rewrite Nat.mul_0_l, Nat.add_0_l in Hinv. rewrite Hinv by (cbn [Nat.pow]; lia).
    apply gs_ext. intros t Ht. cbn [Nat.pow]. rewrite Nat.mul_1_l, Nat.mul_1_r. reflexivity.
  - cbn [levels].
    assert (Pm : 0 < 2 ^ s) by (apply Nat.neq_0_lt_0, Nat.pow_nonzero; lia).
    assert (Pc : 0 < 2 ^ count) by (apply Nat.neq_0_lt_0, Nat.pow_nonzero; lia).
    assert (En : 2 ^ L = 2 ^ count * (2 * 2 ^ s)).
    { rewrite EL, Nat.pow_add_r. cbn [Nat.pow]. lia. }
    assert (Ew : 2 ^ L / (2 * 2 ^ s) = 2 ^ count) by (rewrite En; apply Nat.div_mul; lia).
    rewrite Ew, pow_vartime_is by lia. set (w_m := fpow omega (Z.of_nat (2 ^ count))).
    destruct (blocks_ok (2 ^ s) w_m Pm (2 ^ count) (2 ^ L) 0 (2 ^ L) a) as (a1 & E1 & L1 & _ & N1);
      [exact La|lia|nia|]. rewrite E1. cbn [bind].
    change (2 * 2 ^ s) with (2 ^ S s). apply IH; [lia|lia|]. clear IH E1.
    intros b j Hb Hj.
    assert (Wm : fpow w_m (Z.of_nat (2 ^ s)) = (- f1)%F).
    { unfold w_m. rewrite fpow_mul by lia. rewrite <- Nat2Z.inj_mul, <- Nat.pow_add_r. rewrite <- Hom by lia.
      do 3 f_equal. lia. }
    (* the value of the two halves *)
    assert (Even : forall j', j' < 2 ^ s -> nth (b * (2 * 2 ^ s) + j') a zero =
      gs (fun t => scale (fpow omega (Z.of_nat (2 ^ count * (j' * (2 * t))))) (nth (bitreverse b count + (2 * t) * 2 ^ count) x zero)) (2 ^ s)).
    { intros j' Hj'. specialize (Hinv (2 * b) j').
      replace (b * (2 * 2 ^ s)) with (2 * b * 2 ^ s) by lia. rewrite Hinv; [|cbn [Nat.pow]; lia|exact Hj'].
      apply gs_ext. intros t Ht. replace (2 * b) with (2 * b + 0) by lia. rewrite bitreverse_bit by lia.
      f_equal; [do 2 f_equal; cbn [Nat.pow]; lia|]. f_equal. cbn [Nat.pow]. lia. }
    assert (Odd : forall j', j' < 2 ^ s -> scale (fpow w_m (Z.of_nat j')) (nth (b * (2 * 2 ^ s) + j' + 2 ^ s) a zero) =
      gs (fun t => scale (fpow omega (Z.of_nat (2 ^ count * (j' * (2 * t + 1))))) (nth (bitreverse b count + (2 * t + 1) * 2 ^ count) x zero)) (2 ^ s)).
    { intros j' Hj'. specialize (Hinv (2 * b + 1) j').
      replace (b * (2 * 2 ^ s) + j' + 2 ^ s) with ((2 * b + 1) * 2 ^ s + j') by lia. rewrite Hinv; [|cbn [Nat.pow]; lia|exact Hj'].
      rewrite scale_gs. apply gs_ext. intros t Ht. rewrite <- (mod_mul_scale _ _ _ _ M).
      rewrite bitreverse_bit by lia. unfold w_m. rewrite fpow_mul by lia. rewrite <- fpow_add by lia.
      f_equal; [f_equal; rewrite <- Nat2Z.inj_mul, <- Nat2Z.inj_add; f_equal; cbn [Nat.pow]; lia|]. f_equal. cbn [Nat.pow]. lia. }
    destruct (le_lt_dec (2 ^ s) j) as [Ge|Lt].
    + assert (Hj' : j - 2 ^ s < 2 ^ s) by (cbn [Nat.pow] in Hj; lia).
      destruct (N1 b (j - 2 ^ s) Hb Hj') as [_ N]. rewrite Nat.add_0_l in N.
      replace (b * 2 ^ S s + j) with (b * (2 * 2 ^ s) + (j - 2 ^ s) + 2 ^ s) by (cbn [Nat.pow]; lia).
      assert (Shift : forall t, fpow omega (Z.of_nat (2 ^ count * (j * t))) =
                (fpow omega (Z.of_nat (2 ^ count * ((j - 2 ^ s) * t))) * fpow (- f1) (Z.of_nat t))%F).
      { intros t. rewrite <- Wm. unfold w_m. replace (fpow (fpow (fpow omega (Z.of_nat (2 ^ count))) (Z.of_nat (2 ^ s))) (Z.of_nat t))
          with (fpow omega (Z.of_nat (2 ^ count * (2 ^ s * t)))) by (rewrite !fpow_mul by lia; f_equal; lia).
        rewrite <- fpow_add by apply Nat2Z.is_nonneg. f_equal. rewrite <- Nat2Z.inj_add. f_equal. assert (Ej : j = j - 2 ^ s + 2 ^ s) by lia.
        rewrite Ej at 1. rewrite Nat.mul_add_distr_r, Nat.mul_add_distr_l. lia. }
      rewrite N, (mod_sub _ _ _ _ M), (Even _ Hj'), (Odd _ Hj'). cbn [Nat.pow]. rewrite gs_even_odd. rewrite scale_gs. f_equal.
      * apply gs_ext. intros t Ht. f_equal. rewrite (Shift (2 * t)), minus_even. fring.
      * apply gs_ext. intros t Ht. rewrite <- (mod_mul_scale _ _ _ _ M). f_equal.
        rewrite (Shift (2 * t + 1)), minus_odd. fring.
    + destruct (N1 b j Hb Lt) as [N _]. rewrite Nat.add_0_l in N. change (2 ^ S s) with (2 * 2 ^ s).
      rewrite N, (Even _ Lt), (Odd _ Lt), gs_even_odd. reflexivity.
Qed.

Lemma half_order omega L : order_is omega (2 ^ Z.of_nat L) -> 0 < L -> fpow omega (Z.of_nat (2 ^ (L - 1))) = (- f1)%F.
Proof.
  intros [_ Ho] HL. set (h := fpow omega (Z.of_nat (2 ^ (L - 1)))).
  assert (E : (2 ^ Z.of_nat L = Z.of_nat (2 ^ (L - 1)) * 2)%Z).
  { rewrite Nat2Z.inj_pow. replace (Z.of_nat L) with (Z.of_nat (L - 1) + 1)%Z by lia. rewrite Z.pow_add_r by lia.
    change (Z.of_nat 2) with 2%Z. lia. }
  assert (Hs : (h * h)%F = f1).
  { unfold h. rewrite <- fpow_add by lia. apply Ho; [lia|]. rewrite E. exists 1%Z. lia. }
  assert (Hn : h <> f1).
  { intros C. apply Ho in C; [|lia]. apply Z.divide_pos_le in C; [|rewrite Nat2Z.inj_pow; apply Z.pow_pos_nonneg; lia].
    assert (0 < Z.of_nat (2 ^ (L - 1)))%Z by (rewrite Nat2Z.inj_pow; apply Z.pow_pos_nonneg; lia). lia. }
  assert (Z0 : ((h - f1) * (h + f1))%F = f0).
  { transitivity (h * h - f1)%F; [fring|]. rewrite Hs. fring. }
  apply Fr_mul_eq_0 in Z0. destruct Z0 as [Z0|Z0].
  - exfalso. apply Hn. transitivity (h - f1 + f1)%F; [fring|]. rewrite Z0. fring.
  - transitivity (h + f1 - f1)%F; [fring|]. rewrite Z0. fring.
Qed.

Theorem fft_ok omega L (x : list G) : order_is omega (2 ^ Z.of_nat L) -> length x = 2 ^ L ->
  exists a', fft add sub scale x omega L = Ok a' /\ length a' = 2 ^ L /\
    forall j, j < 2 ^ L -> nth j a' zero = combination zero add scale x (fpow omega (Z.of_nat j)).
Proof.
  intros Ho Lx. unfold fft. rewrite Lx, Nat.eqb_refl.
  destruct (reorder_ok L (2 ^ L) 0 x x) as (a & Ea & La & Na); [lia|exact Lx|exact Lx|intros i Hi; reflexivity|]. rewrite Ea. cbn [bind].
  destruct (levels_ok omega L x (half_order omega L Ho) L 0 a) as (a' & E' & L' & N'); [lia|lia| |].
  - intros b j Hb Hj. assert (j = 0) by (cbn [Nat.pow] in Hj; lia). subst j. change (2 ^ 0) with 1.
    rewrite Nat.mul_1_r, Nat.add_0_r, Na by exact Hb. cbn [seq map gsum fold_right].
    rewrite mod_zero_r, !Nat.mul_0_l, Nat.mul_0_r, Nat.add_0_r. change (fpow omega (Z.of_nat 0)) with (@f1 r_pos).
    symmetry. apply (mod_one_scale _ _ _ _ M).
  - exists a'. split; [exact E'|]. split; [exact L'|]. intros j Hj. rewrite N' by exact Hj. unfold combination. rewrite Lx.
    apply gs_ext. intros t Ht. rewrite fpow_mul by lia. rewrite Nat2Z.inj_mul. reflexivity.
Qed.
End Fft.
