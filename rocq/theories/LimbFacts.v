(** Carry chains of the limb arithmetic compute the integers they should. *)
From Coq Require Import ZArith List Lia Bool Znumtheory.
From Verif Require Import Field FieldFacts LimbModel LimbSpec.
Import ListNotations.
Local Open Scope Z_scope.

Lemma W_gt : 1 < W. Proof. reflexivity. Qed.
Lemma lo64_mod x : lo64 x = x mod W.
Proof. unfold lo64. change 0xffffffffffffffff with (Z.ones 64). now rewrite Z.land_ones by lia. Qed.
Lemma lo128_mod x : lo128 x = x mod (W * W).
Proof.
  unfold lo128. change 0xffffffffffffffffffffffffffffffff with (Z.ones 128).
  now rewrite Z.land_ones by lia.
Qed.
Lemma shr64_div x : Z.shiftr x 64 = x / W.
Proof. now rewrite Z.shiftr_div_pow2 by lia. Qed.
Lemma half_W : W = 2 * 2 ^ 63. Proof. reflexivity. Qed.
Lemma shr63_div x : Z.shiftr x 63 = x / 2 ^ 63.
Proof. now rewrite Z.shiftr_div_pow2 by lia. Qed.
Lemma ones_W : W - 1 = Z.ones 64. Proof. reflexivity. Qed.

Lemma land_full x : word x -> Z.land x (W - 1) = x.
Proof. intros H. rewrite ones_W, Z.land_ones by lia. change (2 ^ 64) with W. apply Z.mod_small. exact H. Qed.
Lemma land_0 x : Z.land x 0 = 0. Proof. apply Z.land_0_r. Qed.

Global Opaque W.

Lemma split_ret ret lo hi : 0 <= ret < W * W -> (lo64 ret, Z.shiftr ret 64) = (lo, hi) ->
  lo + W * hi = ret /\ word lo /\ word hi.
Proof.
  intros R H. apply pair_equal_spec in H as [<- <-]. rewrite lo64_mod, shr64_div.
  pose proof W_gt. pose proof (Z.mod_pos_bound ret W ltac:(lia)).
  pose proof (Z.div_mod ret W ltac:(lia)).
  assert (0 <= ret / W) by (apply Z.div_pos; lia).
  assert (ret / W < W) by (apply Z.div_lt_upper_bound; lia).
  unfold word. lia.
Qed.

(** u128 arithmetic does not wrap *)
Lemma adc_room a b c : word a -> word b -> word c -> 0 <= a + b + c < W * W.
Proof. unfold word. intros. assert (3 < W) by reflexivity. nia. Qed.
Lemma mac_room a b c d : word a -> word b -> word c -> word d -> 0 <= a + b * c + d < W * W.
Proof.
  unfold word. intros. assert (0 <= b * c <= (W - 1) * (W - 1)) by nia. nia.
Qed.

Lemma adc_spec a b c lo hi : adc a b c = (lo, hi) -> word a -> word b -> word c ->
  lo = a + b + c - W * hi /\ word lo /\ word hi.
Proof.
  unfold adc. intros H Ha Hb Hc. pose proof (adc_room _ _ _ Ha Hb Hc).
  cbv zeta in H. rewrite lo128_mod, Z.mod_small in H by assumption. eapply split_ret in H as (E & ? & ?); [|eassumption]. split; [lia|split; assumption].
Qed.
Lemma mac_spec a b c d lo hi : mac a b c d = (lo, hi) -> word a -> word b -> word c -> word d ->
  lo = a + b * c + d - W * hi /\ word lo /\ word hi.
Proof.
  unfold mac. intros H Ha Hb Hc Hd. pose proof (mac_room _ _ _ _ Ha Hb Hc Hd).
  cbv zeta in H. rewrite lo128_mod, Z.mod_small in H by assumption. eapply split_ret in H as (E & ? & ?); [|eassumption]. split; [lia|split; assumption].
Qed.

(** borrows are 0 or 2^64 - 1 *)
Definition borrow_of (t : bool) : Z := if t then W - 1 else 0.
Lemma borrow_shr t : Z.shiftr (borrow_of t) 63 = Z.b2z t.
Proof. destruct t; reflexivity. Qed.
Lemma borrow_word t : word (borrow_of t).
Proof. pose proof W_gt. destruct t; unfold borrow_of, word; lia. Qed.
Lemma sbb_spec a b t lo hi : sbb a b (borrow_of t) = (lo, hi) -> word a -> word b ->
  exists u, hi = borrow_of u /\ lo = a - b - Z.b2z t + W * Z.b2z u /\ word lo.
Proof.
  unfold sbb. rewrite borrow_shr. cbv zeta. rewrite lo128_mod. intros H Ha Hb.
  pose proof W_gt. unfold word in *.
  assert (Ht : 0 <= Z.b2z t <= 1) by (destruct t; cbn; lia).
  destruct (Z_lt_ge_dec (a - (b + Z.b2z t)) 0) as [L|G].
  - exists true.
    assert (M : (a - (b + Z.b2z t)) mod (W * W) = a - (b + Z.b2z t) + 1 * (W * W)).
    { symmetry. apply Z.mod_unique with (-1); [left; nia|ring]. }
    rewrite M in H.
    apply pair_equal_spec in H as [<- <-]. rewrite lo64_mod, shr64_div.
    replace (a - (b + Z.b2z t) + 1 * (W * W)) with ((a - (b + Z.b2z t) + W) + (W - 1) * W) by ring.
    rewrite Z.mod_add, Z.div_add by lia.
    assert (0 <= a - (b + Z.b2z t) + W < W) by lia.
    rewrite Z.mod_small, Z.div_small by assumption. cbn [borrow_of Z.b2z]. lia.
  - exists false. rewrite Z.mod_small in H by nia.
    apply pair_equal_spec in H as [<- <-]. rewrite lo64_mod, shr64_div.
    rewrite Z.mod_small, Z.div_small by lia. cbn [borrow_of Z.b2z]. lia.
Qed.

Lemma word_0 : word 0. Proof. pose proof W_gt. unfold word; lia. Qed.
Global Hint Resolve word_0 borrow_word : limb.

Ltac adc1 :=
  match goal with
  | |- context [adc ?a ?b ?c] =>
      let lo := fresh "d" in let hi := fresh "c" in let E := fresh "E" in
      destruct (adc a b c) as [lo hi] eqn:E;
      apply adc_spec in E; [destruct E as (?E & ?H & ?H)|auto with limb..]
  end.
Ltac mac1 :=
  match goal with
  | |- context [mac ?a ?b ?c ?d] =>
      let lo := fresh "d" in let hi := fresh "c" in let E := fresh "E" in
      destruct (mac a b c d) as [lo hi] eqn:E;
      apply mac_spec in E; [destruct E as (?E & ?H & ?H)|auto with limb..]
  end.
Ltac sbb1 :=
  match goal with
  | |- context [sbb ?a ?b ?c] =>
      let lo := fresh "d" in let hi := fresh "c" in let E := fresh "E" in
      destruct (sbb a b c) as [lo hi] eqn:E;
      apply sbb_spec in E; [destruct E as (?t & -> & ?E & ?H)|auto with limb..]
  end.

Lemma v4_range x : words4 x -> 0 <= v4 x < W * W * W * W.
Proof.
  intros (A & B & C & D). unfold v4, word in *. pose proof W_gt.
  assert (0 <= l2 x + W * l3 x < W * W) by nia.
  assert (0 <= l1 x + W * (l2 x + W * l3 x) < W * W * W) by nia.
  nia.
Qed.

Definition lower (x : limbs8) : limbs := L4 (w0 x) (w1 x) (w2 x) (w3 x).
Definition upper (x : limbs8) : limbs := L4 (w4 x) (w5 x) (w6 x) (w7 x).
Lemma v8_split x : v8 x = v4 (lower x) + W * W * W * W * v4 (upper x).
Proof. unfold v8, v4, lower, upper. cbn [l0 l1 l2 l3]. ring. Qed.
Lemma v8_range x : words8 x -> 0 <= v8 x < W * W * W * W * (W * W * W * W).
Proof.
  intros [A B]. rewrite v8_split. pose proof (v4_range (lower x) A). pose proof (v4_range (upper x) B). nia.
Qed.

(** a borrow chain *)
Definition sub_chain (x y : limbs) : limbs * Z :=
  let '(d0, borrow) := sbb (l0 x) (l0 y) 0 in
  let '(d1, borrow) := sbb (l1 x) (l1 y) borrow in
  let '(d2, borrow) := sbb (l2 x) (l2 y) borrow in
  let '(d3, borrow) := sbb (l3 x) (l3 y) borrow in
  (L4 d0 d1 d2 d3, borrow).
Lemma sub_chain_spec x y : words4 x -> words4 y ->
  exists d, sub_chain x y = (d, borrow_of (v4 x <? v4 y)) /\ words4 d /\
    v4 d = v4 x - v4 y + (if v4 x <? v4 y then W * W * W * W else 0).
Proof.
  intros Hx Hy. pose proof Hx as (Hx0 & Hx1 & Hx2 & Hx3). pose proof Hy as (Hy0 & Hy1 & Hy2 & Hy3).
  unfold sub_chain. change 0 with (borrow_of false) at 1.
  sbb1. sbb1. sbb1. sbb1. cbn [Z.b2z] in *.
  assert (V : v4 (L4 d d0 d1 d2) = v4 x - v4 y + W * W * W * W * Z.b2z t2).
  { unfold v4; cbn [l0 l1 l2 l3]. subst. ring. }
  assert (Hd : words4 (L4 d d0 d1 d2)) by (repeat split; cbn [l0 l1 l2 l3]; apply H || apply H0 || apply H1 || apply H2).
  pose proof (v4_range _ Hd) as R. pose proof (v4_range _ Hx) as Rx. pose proof (v4_range _ Hy) as Ry.
  assert (T : t2 = (v4 x <? v4 y)).
  { destruct t2; cbn [Z.b2z] in V; symmetry; [apply Z.ltb_lt|apply Z.ltb_ge]; lia. }
  exists (L4 d d0 d1 d2). rewrite T in *. split; [reflexivity|]. split; [assumption|].
  rewrite V. destruct (v4 x <? v4 y); cbn [Z.b2z]; lia.
Qed.

(** a carry chain *)
Definition add_chain (x y : limbs) : limbs * Z :=
  let '(d0, carry) := adc (l0 x) (l0 y) 0 in
  let '(d1, carry) := adc (l1 x) (l1 y) carry in
  let '(d2, carry) := adc (l2 x) (l2 y) carry in
  let '(d3, carry) := adc (l3 x) (l3 y) carry in
  (L4 d0 d1 d2 d3, carry).
Lemma add_chain_spec x y : words4 x -> words4 y ->
  exists d c, add_chain x y = (d, c) /\ words4 d /\ 0 <= c /\ v4 d + W * W * W * W * c = v4 x + v4 y.
Proof.
  intros (Hx0 & Hx1 & Hx2 & Hx3) (Hy0 & Hy1 & Hy2 & Hy3).
  unfold add_chain. adc1. adc1. adc1. adc1.
  eexists _, _. split; [reflexivity|]. split; [repeat split; cbn [l0 l1 l2 l3]; apply H || apply H1 || apply H3 || apply H5|].
  split; [apply H6|]. unfold v4; cbn [l0 l1 l2 l3].
  subst. ring.
Qed.

Definition mask4 (m : limbs) (b : Z) : limbs :=
  L4 (Z.land (l0 m) b) (Z.land (l1 m) b) (Z.land (l2 m) b) (Z.land (l3 m) b).
Lemma mask4_spec m t : words4 m -> mask4 m (borrow_of t) = if t then m else L4 0 0 0 0.
Proof.
  destruct m as [a b c d]. intros (A & B & C & D). cbn [l0 l1 l2 l3] in *.
  destruct t; unfold mask4, borrow_of; cbn [l0 l1 l2 l3];
    rewrite ?land_full, ?land_0 by assumption; reflexivity.
Qed.

(** the wide products *)
Ltac words8_tac := unfold words8; cbn [w0 w1 w2 w3 w4 w5 w6 w7]; repeat split; assumption || (eapply proj1; eassumption) || (eapply proj2; eassumption).
Lemma mul_wide_spec x y : words4 x -> words4 y ->
  words8 (mul_wide x y) /\ v8 (mul_wide x y) = v4 x * v4 y.
Proof.
  intros (Hx0 & Hx1 & Hx2 & Hx3) (Hy0 & Hy1 & Hy2 & Hy3). unfold mul_wide.
  do 16 mac1. split.
  - unfold words8; cbn [w0 w1 w2 w3 w4 w5 w6 w7]; auto 20.
  - unfold v8, v4; cbn [w0 w1 w2 w3 w4 w5 w6 w7 l0 l1 l2 l3]. subst. ring.
Qed.

(** x << 1 | y >> 63 *)
Lemma shift_in a b : word a -> word b ->
  Z.lor (shl1 a) (shr63 b) = 2 * a - W * (a / 2 ^ 63) + b / 2 ^ 63 /\
  word (Z.lor (shl1 a) (shr63 b)) /\ 0 <= b / 2 ^ 63 <= 1.
Proof.
  intros Ha Hb. unfold word, shl1, shr63 in *. pose proof half_W as HW.
  assert (Qb : 0 <= b / 2 ^ 63 <= 1).
  { split; [apply Z.div_pos; lia|]. apply Z.lt_succ_r. apply Z.div_lt_upper_bound; lia. }
  assert (Qa : 0 <= a / 2 ^ 63 <= 1).
  { split; [apply Z.div_pos; lia|]. apply Z.lt_succ_r. apply Z.div_lt_upper_bound; lia. }
  rewrite lo64_mod, shr63_div, Z.shiftl_mul_pow2 by lia. change (2 ^ 1) with 2.
  assert (E : (a * 2) mod W = 2 * a - W * (a / 2 ^ 63)).
  { symmetry. apply Z.mod_unique with (a / 2 ^ 63); [left|ring].
    pose proof (Z.div_mod a (2 ^ 63) ltac:(lia)). pose proof (Z.mod_pos_bound a (2 ^ 63) ltac:(lia)).
    rewrite HW. lia. }
  assert (L : Z.lor ((a * 2) mod W) (b / 2 ^ 63) = (a * 2) mod W + b / 2 ^ 63).
  { rewrite <- Z.lxor_lor, Z.add_nocarry_lxor; try reflexivity.
    - rewrite E. set (h := 2 * a - W * (a / 2 ^ 63)).
      assert (Ev : Z.testbit h 0 = false).
      { rewrite Z.bit0_odd. unfold h. rewrite HW.
        replace (2 * a - 2 * 2 ^ 63 * (a / 2 ^ 63)) with (0 + 2 * (a - 2 ^ 63 * (a / 2 ^ 63))) by ring.
        rewrite Z.odd_add_mul_2. reflexivity. }
      apply Z.bits_inj'. intros n Hn. rewrite Z.land_spec, Z.bits_0.
      destruct (Z.eq_dec n 0) as [->|]; [now rewrite Ev|].
      replace (Z.testbit (b / 2 ^ 63) n) with false; [apply andb_false_r|].
      symmetry. assert (Hb' : b / 2 ^ 63 = 0 \/ b / 2 ^ 63 = 1) by lia.
      destruct Hb' as [->| ->]; [apply Z.bits_0|]. apply Z.bits_above_log2; cbn; lia.
    - rewrite E. set (h := 2 * a - W * (a / 2 ^ 63)).
      assert (Ev : Z.testbit h 0 = false).
      { rewrite Z.bit0_odd. unfold h. rewrite HW.
        replace (2 * a - 2 * 2 ^ 63 * (a / 2 ^ 63)) with (0 + 2 * (a - 2 ^ 63 * (a / 2 ^ 63))) by ring.
        rewrite Z.odd_add_mul_2. reflexivity. }
      apply Z.bits_inj'. intros n Hn. rewrite Z.land_spec, Z.bits_0.
      destruct (Z.eq_dec n 0) as [->|]; [now rewrite Ev|].
      replace (Z.testbit (b / 2 ^ 63) n) with false; [apply andb_false_r|].
      symmetry. assert (Hb' : b / 2 ^ 63 = 0 \/ b / 2 ^ 63 = 1) by lia.
      destruct Hb' as [->| ->]; [apply Z.bits_0|]. apply Z.bits_above_log2; cbn; lia. }
  rewrite L, E. split; [ring|]. split; [|assumption].
  pose proof (Z.div_mod a (2 ^ 63) ltac:(lia)). pose proof (Z.mod_pos_bound a (2 ^ 63) ltac:(lia)).
  rewrite HW. lia.
Qed.
Lemma shl1_spec a : word a -> shl1 a = 2 * a - W * (a / 2 ^ 63) /\ word (shl1 a).
Proof.
  intros Ha. destruct (shift_in a 0 Ha word_0) as (A & B & _).
  unfold shr63 in *. rewrite Z.shiftr_0_l, Z.lor_0_r in *. rewrite Z.div_0_l in A by lia.
  split; [lia|assumption].
Qed.
Ltac shift1 :=
  match goal with
  | |- context [Z.lor (shl1 ?a) (shr63 ?b)] =>
      let E := fresh "E" in let H := fresh "H" in let s := fresh "s" in
      destruct (shift_in a b ltac:(assumption) ltac:(assumption)) as (E & H & _);
      generalize dependent (Z.lor (shl1 a) (shr63 b)); intros s E H
  end.

Lemma square_wide_spec x : words4 x ->
  words8 (square_wide x) /\ v8 (square_wide x) = v4 x * v4 x.
Proof.
  intros Hx. pose proof Hx as (Hx0 & Hx1 & Hx2 & Hx3). unfold square_wide.
  do 6 mac1. repeat shift1.
  match goal with |- context [shl1 ?a] =>
    let E := fresh "E" in let H := fresh "H" in let s := fresh "s" in
    destruct (shl1_spec a ltac:(assumption)) as (E & H);
    generalize dependent (shl1 a); intros s E H end.
  match goal with |- context [shr63 ?a] =>
    assert (Hs : word (shr63 a)) by (unfold shr63; rewrite shr63_div; unfold word in *;
      pose proof half_W; split; [apply Z.div_pos; lia|apply Z.div_lt_upper_bound; lia]);
    assert (Es : shr63 a = a / 2 ^ 63) by apply shr63_div;
    generalize dependent (shr63 a); intros s7 Hs Es end.
  mac1. adc1. mac1. adc1. mac1. adc1. mac1.
  match goal with |- context [adc ?a ?b ?c] =>
    destruct (adc a b c) as [r7 top] eqn:ET end.
  apply adc_spec in ET; [destruct ET as (ET & Hr7 & Htop)|auto with limb..].
  match goal with |- words8 ?t /\ _ => set (res := t) end.
  assert (Hres : words8 res) by (unfold words8, res; cbn [w0 w1 w2 w3 w4 w5 w6 w7]; auto 20).
  split; [assumption|].
  assert (V : v8 res + W * W * W * W * (W * W * W * W) * top = v4 x * v4 x).
  { unfold res, v8, v4; cbn [w0 w1 w2 w3 w4 w5 w6 w7 l0 l1 l2 l3]. clear res Hres. subst. ring. }
  pose proof (v8_range _ Hres) as R. pose proof (v4_range _ Hx) as Rx.
  set (B := W * W * W * W) in *. unfold word in Htop.
  assert (top = 0) by nia. subst top. lia.
Qed.

Section P.
Variable P : params.
Let m := modulus P.
Hypothesis Hm : words4 m.

Lemma lsub_chain x y : lsub P x y =
  let '(d, borrow) := sub_chain x y in fst (add_chain d (mask4 m borrow)).
Proof.
  unfold lsub, sub_chain, add_chain.
  destruct (sbb (l0 x) (l0 y) 0) as [d0 b0]. destruct (sbb (l1 x) (l1 y) b0) as [d1 b1].
  destruct (sbb (l2 x) (l2 y) b1) as [d2 b2]. destruct (sbb (l3 x) (l3 y) b2) as [d3 b3].
  cbn [l0 l1 l2 l3 mask4]. fold m.
  destruct (adc d0 _ 0) as [e0 c0]. destruct (adc d1 _ c0) as [e1 c1].
  destruct (adc d2 _ c1) as [e2 c2]. destruct (adc d3 _ c2) as [e3 c3]. reflexivity.
Qed.

Lemma lsub_spec x y : words4 x -> words4 y -> words4 (lsub P x y) /\
  (v4 x < v4 y -> v4 y <= v4 x + v4 m -> v4 (lsub P x y) = v4 x - v4 y + v4 m) /\
  (v4 y <= v4 x -> v4 (lsub P x y) = v4 x - v4 y).
Proof.
  intros Hx Hy. rewrite lsub_chain.
  destruct (sub_chain_spec x y Hx Hy) as (d & -> & Hd & V).
  rewrite mask4_spec by assumption.
  set (mm := if v4 x <? v4 y then m else L4 0 0 0 0).
  assert (Hmm : words4 mm) by (unfold mm; destruct (_ <? _); [assumption|repeat split; cbn; try lia; apply W_gt || reflexivity]).
  destruct (add_chain_spec d mm Hd Hmm) as (e & c & -> & He & Hc & V2). cbn [fst].
  split; [assumption|].
  pose proof (v4_range _ He). pose proof (v4_range _ Hd). pose proof (v4_range _ Hm).
  pose proof (v4_range _ Hx). pose proof (v4_range _ Hy).
  assert (E0 : v4 (L4 0 0 0 0) = 0) by (unfold v4; cbn [l0 l1 l2 l3]; ring).
  set (B := W * W * W * W) in *. unfold mm in *. split; intros.
  - assert (E : v4 x <? v4 y = true) by (apply Z.ltb_lt; lia). rewrite E in *.
    assert (F : v4 e + B * (c - 1) = v4 x - v4 y + v4 m) by lia.
    assert (c = 1) by nia. subst c. lia.
  - assert (E : v4 x <? v4 y = false) by (apply Z.ltb_ge; lia). rewrite E in *.
    rewrite E0, Z.add_0_r in V2. assert (c = 0) by nia. subst c. lia.
Qed.

Hypothesis Hinv1 : (l0 m * inv P + 1) mod W = 0.

Lemma wmul_word a b : word (wmul a b).
Proof. unfold wmul, word. rewrite lo64_mod. apply Z.mod_pos_bound. apply W_gt. Qed.
Lemma low_zero r lo hi : word r -> mac r (wmul r (inv P)) (l0 m) 0 = (lo, hi) ->
  r + wmul r (inv P) * l0 m = W * hi /\ word hi.
Proof.
  intros Hr E. apply mac_spec in E; [|auto using wmul_word with limb; apply Hm..].
  destruct E as (E & Hlo & Hhi). split; [|assumption].
  assert (L : lo mod W = 0).
  { rewrite E. unfold wmul. rewrite lo64_mod. pose proof W_gt.
    replace (r + (r * inv P) mod W * l0 m + 0 - W * hi)
      with (r + (r * inv P) mod W * l0 m + (- hi) * W) by ring.
    rewrite Z.mod_add by lia.
    rewrite Z.add_mod, Z.mul_mod, Z.mod_mod, <- Z.mul_mod, <- Z.add_mod by lia.
    replace (r + r * inv P * l0 m) with (r * (l0 m * inv P + 1)) by ring.
    rewrite Z.mul_mod, Hinv1, Z.mul_0_r by lia. apply Z.mod_0_l. lia. }
  rewrite Z.mod_small in L by exact Hlo. lia.
Qed.

Ltac low1 k c E :=
  match goal with
  | |- context [wmul ?r (inv P)] =>
      let Hk := fresh "Hk" in let lo := fresh "lo" in
      pose proof (wmul_word r (inv P)) as Hk;
      destruct (mac r (wmul r (inv P)) (l0 m) 0) as [lo c] eqn:E;
      apply low_zero in E; [|auto with limb];
      destruct E as (E & ?H); clear lo;
      generalize dependent (wmul r (inv P)); intros k Hk E
  end.
Hypothesis Hm2 : 2 * v4 m <= W * W * W * W.
Hypothesis Hm0 : 0 < v4 m.

Lemma montgomery_reduce_spec r : words8 r -> v8 r < W * W * W * W * v4 m ->
  words4 (montgomery_reduce P r) /\ v4 (montgomery_reduce P r) < v4 m /\
  exists q, W * W * W * W * v4 (montgomery_reduce P r) = v8 r + q * v4 m.
Proof.
  intros Hr Hlt. pose proof Hr as ((? & ? & ? & ?) & (? & ? & ? & ?)).
  pose proof Hm as (? & ? & ? & ?).
  unfold montgomery_reduce. fold m. cbv zeta.
  low1 k0 e0 L0. mac1. mac1. mac1. adc1.
  low1 k1 e1 L1. mac1. mac1. mac1. adc1.
  low1 k2 e2 L2. mac1. mac1. mac1. adc1.
  low1 k3 e3 L3. mac1. mac1. mac1.
  match goal with |- context [adc ?a ?b ?c] =>
    destruct (adc a b c) as [r7 top] eqn:ET end.
  apply adc_spec in ET; [destruct ET as (ET & Hr7 & Htop)|auto with limb..].
  match goal with |- words4 (lsub P ?t _) /\ _ => set (res := t) end.
  assert (Hres : words4 res) by (unfold words4, res; cbn [l0 l1 l2 l3]; auto 20).
  set (K := k0 + W * (k1 + W * (k2 + W * k3))).
  assert (HK : 0 <= K < W * W * W * W).
  { apply (v4_range (L4 k0 k1 k2 k3)). unfold words4; cbn [l0 l1 l2 l3]; auto 20. }
  assert (V : W * W * W * W * (v4 res + W * W * W * W * top) = v8 r + K * v4 m).
  { match type of L0 with ?x = ?y => assert (D0 : x - y = 0) by lia end.
    match type of L1 with ?x = ?y => assert (D1 : x - y = 0) by lia end.
    match type of L2 with ?x = ?y => assert (D2 : x - y = 0) by lia end.
    match type of L3 with ?x = ?y => assert (D3 : x - y = 0) by lia end.
    clear L0 L1 L2 L3.
    enough (v8 r + K * v4 m - W * W * W * W * (v4 res + W * W * W * W * top) = 0) by lia.
    match type of D0 with ?x0 = 0 => match type of D1 with ?x1 = 0 =>
    match type of D2 with ?x2 = 0 => match type of D3 with ?x3 = 0 =>
      transitivity (x0 + W * x1 + W * W * x2 + W * W * W * x3); [|rewrite D0, D1, D2, D3; ring];
      clear D0 D1 D2 D3 end end end end.
    unfold res, K, v8, v4; cbn [l0 l1 l2 l3]. clear res Hres K HK. subst. ring. }
  clear L0 L1 L2 L3.
  pose proof (v4_range _ Hres) as R. pose proof (v8_range _ Hr) as R8.
  set (B := W * W * W * W) in *. unfold word in Htop.
  assert (HB : 0 < B) by lia.
  assert (U : v4 res + B * top < 2 * v4 m) by nia.
  assert (top = 0) by nia. subst top. rewrite Z.mul_0_r, Z.add_0_r in *.
  destruct (lsub_spec res m Hres Hm) as (Hs & S1 & S2).
  split; [assumption|].
  destruct (Z_lt_ge_dec (v4 res) (v4 m)) as [C|C].
  - rewrite S1 by lia. split; [lia|]. exists K. rewrite <- V. ring.
  - rewrite S2 by lia. split; [lia|]. exists (K - B).
    replace (v8 r + (K - B) * v4 m) with (v8 r + K * v4 m - B * v4 m) by ring. rewrite <- V. ring.
Qed.
End P.
