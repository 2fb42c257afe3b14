(** Byte encodings, comparison, conversions and square roots of limb vectors. *)
From Coq Require Import ZArith List Lia Bool Znumtheory Zpow_facts Ring Field.
From Verif Require Import PocklingtonZ Moduli Field FieldFacts LimbModel LimbSpec LimbFacts LimbField.
Import ListNotations.
Local Open Scope Z_scope.

Lemma le_value_int l : le_value l = le_int l.
Proof. induction l as [|b l IH]; cbn [le_value le_int]; [reflexivity|]. rewrite IH. reflexivity. Qed.
Lemma le_int_app l k : le_int (l ++ k) = le_int l + 256 ^ Z.of_nat (length l) * le_int k.
Proof.
  induction l as [|b l IH]; cbn [app le_int length]; [change (256 ^ Z.of_nat 0) with 1; lia|].
  rewrite IH, Nat2Z.inj_succ, Z.pow_succ_r by lia. ring.
Qed.
Lemma le_int_range l : Forall byte l -> 0 <= le_int l < 256 ^ Z.of_nat (length l).
Proof.
  induction 1 as [|b l Hb _ IH]; cbn [le_int length]; [change (256 ^ Z.of_nat 0) with 1; lia|].
  rewrite Nat2Z.inj_succ, Z.pow_succ_r by lia. unfold byte in Hb. lia.
Qed.
Lemma le_bytes_length n x : length (le_bytes n x) = n.
Proof. revert x; induction n; intros; cbn [le_bytes length]; auto. Qed.
Lemma le_bytes_byte n x : Forall byte (le_bytes n x).
Proof.
  revert x; induction n; intros; cbn [le_bytes]; constructor; auto.
  change 0xff with (Z.ones 8). rewrite Z.land_ones by lia. apply Z.mod_pos_bound. reflexivity.
Qed.
Lemma le_bytes_int n x : 0 <= x -> le_int (le_bytes n x) = x mod 256 ^ Z.of_nat n.
Proof.
  revert x; induction n; intros x Hx; cbn [le_bytes le_int]; [now rewrite Z.mod_1_r|].
  change 0xff with (Z.ones 8). rewrite Z.land_ones, Z.shiftr_div_pow2 by lia.
  change (2 ^ 8) with 256. rewrite IHn by (apply Z.div_pos; lia).
  rewrite Nat2Z.inj_succ, Z.pow_succ_r by lia. rewrite Z.rem_mul_r by lia. reflexivity.
Qed.
Lemma le_bytes_of_int l : Forall byte l -> le_bytes (length l) (le_int l) = l.
Proof.
  induction 1 as [|b l Hb _ IH]; cbn [le_bytes le_int length]; [reflexivity|].
  unfold byte in Hb. change 0xff with (Z.ones 8). rewrite Z.land_ones, Z.shiftr_div_pow2 by lia.
  change (2 ^ 8) with 256. rewrite (Z.mul_comm 256), Z.mod_add, Z.div_add by lia.
  rewrite Z.mod_small, Z.div_small, Z.add_0_l, IH by lia. reflexivity.
Qed.
Lemma le_int_inj l k : Forall byte l -> Forall byte k -> length l = length k ->
  le_int l = le_int k -> l = k.
Proof.
  intros Hl Hk E V. rewrite <- (le_bytes_of_int l Hl), <- (le_bytes_of_int k Hk), E, V. reflexivity.
Qed.

Transparent W.
Lemma W_256 : W = 256 ^ Z.of_nat 8. Proof. reflexivity. Qed.
Opaque W.
Lemma le_bytes_word x : word x -> le_int (le_bytes 8 x) = x.
Proof. intros H. rewrite le_bytes_int by apply H. rewrite <- W_256. apply Z.mod_small, H. Qed.
Lemma chunk_word l : Forall byte l -> (length l <= 8)%nat -> word (le_int l).
Proof.
  intros H L. pose proof (le_int_range l H). unfold word. rewrite W_256.
  assert (256 ^ Z.of_nat (length l) <= 256 ^ Z.of_nat 8) by (apply Z.pow_le_mono_r; lia). lia.
Qed.

Lemma bytes_of_limbs_ok x : words4 x -> length (bytes_of_limbs x) = 32%nat /\
  Forall byte (bytes_of_limbs x) /\ le_int (bytes_of_limbs x) = v4 x.
Proof.
  intros (A & B & C & D). unfold bytes_of_limbs. rewrite !app_length, !le_bytes_length.
  split; [reflexivity|]. split; [rewrite !Forall_app; auto using le_bytes_byte|].
  rewrite !le_int_app, !le_bytes_length, !le_bytes_word by assumption. rewrite <- W_256.
  reflexivity.
Qed.
Lemma Forall_firstn {A} (Q : A -> Prop) n l : Forall Q l -> Forall Q (firstn n l).
Proof. revert n. induction l; intros [|n] H; cbn; inversion H; auto. Qed.
Lemma Forall_skipn {A} (Q : A -> Prop) n l : Forall Q l -> Forall Q (skipn n l).
Proof. revert n. induction l; intros [|n] H; cbn; inversion H; auto. Qed.
Lemma le_int_chunk l : (8 <= length l)%nat ->
  le_int l = le_int (firstn 8 l) + W * le_int (skipn 8 l).
Proof.
  intros H. rewrite <- (firstn_skipn 8 l) at 1. rewrite le_int_app, firstn_length, Nat.min_l by exact H.
  rewrite <- W_256. reflexivity.
Qed.
Lemma skipn_skipn8 {A} n (l : list A) : skipn 8 (skipn n l) = skipn (n + 8) l.
Proof. revert l. induction n; intros l; [reflexivity|]. destruct l; [now rewrite !skipn_nil|]. exact (IHn l). Qed.
Lemma chunk_ok l n : Forall byte l -> word (le_value (firstn 8 (skipn n l))).
Proof.
  intros H. rewrite le_value_int. apply chunk_word; [apply Forall_firstn, Forall_skipn, H|].
  rewrite firstn_length. lia.
Qed.
Lemma limbs_of_bytes_ok b : Forall byte b -> length b = 32%nat ->
  words4 (limbs_of_bytes b) /\ v4 (limbs_of_bytes b) = le_int b.
Proof.
  intros H L. unfold limbs_of_bytes. split.
  - split; [exact (chunk_ok b 0 H)|]. repeat split; cbn [l0 l1 l2 l3]; apply (chunk_ok b _ H).
  - unfold v4; cbn [l0 l1 l2 l3]. repeat match goal with |- context [le_value ?l] => rewrite (le_value_int l) end.
    rewrite (le_int_chunk b) by lia.
    rewrite (le_int_chunk (skipn 8 b)) by (rewrite skipn_length; lia). rewrite skipn_skipn8.
    rewrite (le_int_chunk (skipn (8 + 8) b)) by (rewrite skipn_length; lia). rewrite skipn_skipn8.
    rewrite (le_int_chunk (skipn (8 + 8 + 8) b)) by (rewrite skipn_length; lia). rewrite skipn_skipn8.
    cbn [Nat.add]. rewrite (skipn_all2 b (n := 32)) by (rewrite L; lia). cbn [le_int]. ring.
Qed.
Lemma bytes_limbs b : Forall byte b -> length b = 32%nat -> bytes_of_limbs (limbs_of_bytes b) = b.
Proof.
  intros H L. destruct (limbs_of_bytes_ok b H L) as (A & V).
  destruct (bytes_of_limbs_ok _ A) as (L' & F & V').
  apply le_int_inj; try assumption; [lia|]. rewrite V', V. reflexivity.
Qed.
Lemma limbs_bytes x : words4 x -> limbs_of_bytes (bytes_of_limbs x) = x.
Proof.
  intros H. destruct (bytes_of_limbs_ok _ H) as (L & F & V).
  destruct (limbs_of_bytes_ok _ F L) as (A & V'). apply v4_inj; try assumption. lia.
Qed.

Lemma is_less_than_spec x y : words4 x -> words4 y -> is_less_than x y = (v4 x <? v4 y).
Proof.
  intros Hx Hy. destruct (sub_chain_spec x y Hx Hy) as (d & E & _). unfold is_less_than, sub_chain in *.
  destruct (sbb (l0 x) (l0 y) 0) as [d0 b0]. destruct (sbb (l1 x) (l1 y) b0) as [d1 b1].
  destruct (sbb (l2 x) (l2 y) b1) as [d2 b2]. destruct (sbb (l3 x) (l3 y) b2) as [d3 b3].
  injection E as _ ->. rewrite borrow_shr. destruct (v4 x <? v4 y); reflexivity.
Qed.

(** byte-wise comparison from the top *)
Lemma find_diff_spec l k : Forall byte l -> Forall byte k -> length l = length k ->
  find_diff (rev (combine l k)) = (le_int l ?= le_int k).
Proof.
  revert k. induction l as [|b l IH] using rev_ind; intros k Hl Hk L.
  - destruct k; [reflexivity|discriminate].
  - rewrite app_length in L; cbn in L.
    destruct (exists_last (l := k)) as (k' & c & ->); [intros ->; cbn in L; lia|].
    rewrite app_length in L; cbn in L. apply Forall_app in Hl as [Hl Hb]. apply Forall_app in Hk as [Hk Hc].
    assert (L' : length l = length k') by lia.
    inversion Hb as [|? ? Hb' _]; subst. inversion Hc as [|? ? Hc' _]; subst.
    assert (EC : combine (l ++ [b]) (k' ++ [c]) = combine l k' ++ [(b, c)]).
    { clear - L'. revert k' L'. induction l; destruct k'; intros; try discriminate; [reflexivity|].
      cbn. f_equal. apply IHl. now injection L'. }
    rewrite EC, rev_app_distr. cbn [rev app find_diff].
    rewrite IH by assumption. rewrite !le_int_app, <- L'. cbn [le_int].
    pose proof (le_int_range _ Hl). pose proof (le_int_range _ Hk) as R. rewrite <- L' in R.
    set (M := 256 ^ Z.of_nat (length l)) in *. unfold byte in *.
    destruct (Z.compare_spec b c) as [E|E|E].
    + subst. symmetry. destruct (Z.compare_spec (le_int l) (le_int k')); [apply Z.compare_eq_iff|apply Z.compare_lt_iff|apply Z.compare_gt_iff]; lia.
    + symmetry. apply Z.compare_lt_iff. nia.
    + symmetry. apply Z.compare_gt_iff. nia.
Qed.

Local Opaque lmul lsquare montgomery_reduce lsub ladd.
Section G.
Variables (P : params) (p : positive).
Hypothesis G : good P p.
Let Hp : prime (Zpos p) := g_prime _ _ G.
Add Field F_inst : (@fe_field_theory p Hp).
Implicit Types a b : fe p.
Notation rep := (rep p).

Lemma to_repr_ok x a : rep x a -> length (to_repr P x) = 32%nat /\ Forall byte (to_repr P x) /\
  le_int (to_repr P x) = fval a.
Proof.
  intros H. destruct (to_canonical P p G x a H) as (A & V).
  unfold to_repr. rewrite <- V. apply bytes_of_limbs_ok. exact A.
Qed.
Lemma from_repr_ok (b : list Z) : Forall byte b -> length b = 32%nat ->
  match from_repr P b with
  | Some x => le_int b < Zpos p /\ rep x (of_Z p (le_int b))
  | None => Zpos p <= le_int b
  end.
Proof.
  intros H L. destruct (limbs_of_bytes_ok b H L) as (A & V).
  destruct (sub_chain_spec _ (modulus P) A (g_words _ _ G)) as (d & E & _).
  unfold from_repr, sub_chain in *. cbv zeta.
  set (t := limbs_of_bytes b) in *.
  destruct (sbb (l0 t) _ 0) as [d0 b0]. destruct (sbb (l1 t) _ b0) as [d1 b1].
  destruct (sbb (l2 t) _ b1) as [d2 b2]. destruct (sbb (l3 t) _ b2) as [d3 b3].
  injection E as _ ->. rewrite (g_val _ _ G), V.
  destruct (Z.ltb_spec (le_int b) (Zpos p)).
  - replace (Z.land (Z.land (borrow_of true) 255) 1) with 1 by reflexivity. cbn [Z.eqb].
    split; [assumption|]. rewrite <- V. apply (from_raw_rep P p G). exact A.
  - exact H0.
Qed.
Lemma to_from x a : rep x a -> from_repr P (to_repr P x) = Some x.
Proof.
  intros H. destruct (to_repr_ok _ _ H) as (L & F & V). pose proof (from_repr_ok _ F L) as K.
  pose proof (fval_range a). destruct (from_repr P (to_repr P x)); [|lia]. f_equal.
  destruct K as (_ & K). rewrite V, of_Z_fval in K. eapply rep_inj; eassumption.
Qed.
Lemma from_to (b : list Z) x : Forall byte b -> length b = 32%nat -> from_repr P b = Some x -> to_repr P x = b.
Proof.
  intros H L E. pose proof (from_repr_ok b H L) as K. rewrite E in K. destruct K as (K & R).
  destruct (to_repr_ok _ _ R) as (L' & F & V). apply le_int_inj; try assumption; [lia|].
  rewrite V, fval_of_Z. apply Z.mod_small. pose proof (le_int_range _ H). lia.
Qed.
Lemma lcmp_ok x y a b : rep x a -> rep y b -> lcmp P x y = (fval a ?= fval b).
Proof.
  intros Hx Hy. destruct (to_repr_ok _ _ Hx) as (L & F & V). destruct (to_repr_ok _ _ Hy) as (L' & F' & V').
  unfold lcmp. rewrite find_diff_spec by (try assumption; lia). rewrite V, V'. reflexivity.
Qed.

Lemma from_bytes_wide_ok (b : list Z) : Forall byte b -> length b = 64%nat ->
  rep (from_bytes_wide P b) (of_Z p (le_int b)).
Proof.
  intros H L. unfold from_bytes_wide. cbv zeta.
  match goal with |- rep (from_u512 P ?w) _ => set (ww := w) end.
  assert (A : words8 ww).
  { unfold ww, words8; cbn [w0 w1 w2 w3 w4 w5 w6 w7]. repeat split; apply (chunk_ok b _ H). }
  replace (le_int b) with (v8 ww); [apply from_u512_rep; assumption|].
  unfold ww, v8; cbn [w0 w1 w2 w3 w4 w5 w6 w7]. repeat match goal with |- context [le_value ?l] => rewrite (le_value_int l) end. cbn [Nat.mul Nat.add].
  change (skipn 0 b) with b. symmetry.
  rewrite (le_int_chunk b) at 1 by lia.
  do 7 (match goal with |- context [W * le_int (skipn ?n b)] =>
    rewrite (le_int_chunk (skipn n b)) at 1 by (rewrite skipn_length; lia); rewrite skipn_skipn8 end; cbn [Nat.add]).
  rewrite (skipn_all2 b (n := 64)) by lia. cbn [le_int]. ring.
Qed.

Lemma from_u64_ok v : word v -> rep (from_u64 P v) (of_Z p v).
Proof.
  intros H. unfold from_u64. fold (from_raw P (L4 v 0 0 0)).
  assert (V : v4 (L4 v 0 0 0) = v) by (unfold v4; cbn [l0 l1 l2 l3]; ring).
  rewrite <- V at 2. apply from_raw_rep; [exact G|]. split; [exact H|]. repeat split; apply word_0.
Qed.
Lemma from_u128_ok v : 0 <= v < 2 ^ 128 -> rep (from_u128 P v) (of_Z p v).
Proof.
  intros H. unfold from_u128. set (x := L4 _ _ 0 0).
  assert (HW : W * W = 2 ^ 128) by (rewrite W_pow; reflexivity). pose proof W_gt.
  assert (D : 0 <= v / W < W).
  { split; [apply Z.div_pos; lia|apply Z.div_lt_upper_bound; lia]. }
  assert (E : lo64 (Z.shiftr v 64) = v / W).
  { rewrite lo64_mod, shr64_div. apply Z.mod_small. exact D. }
  assert (Hx : words4 x).
  { split; [|split; [|split; apply word_0]]; unfold x; cbn [l0 l1].
    - rewrite lo64_mod. apply Z.mod_pos_bound. lia.
    - rewrite E. exact D. }
  assert (V : v4 x = v).
  { unfold v4, x; cbn [l0 l1 l2 l3]. rewrite E, lo64_mod. pose proof (Z.div_mod v W ltac:(lia)). lia. }
  clearbody x. rewrite <- V. apply from_raw_rep; assumption.
Qed.
Lemma get_lower_128_ok x a : rep x a -> get_lower_128 P x = fval a mod 2 ^ 128.
Proof.
  intros H. destruct (to_canonical P p G x a H) as ((A & B & C & D) & V).
  unfold get_lower_128. cbv zeta. set (t := montgomery_reduce P (widen x)) in *.
  rewrite <- V.
  assert (HW : W * W = 2 ^ 128) by (rewrite W_pow; reflexivity). unfold word in *.
  rewrite Z.shiftl_mul_pow2 by lia. rewrite <- W_pow.
  assert (L : Z.lor (l0 t) (l1 t * W) = l0 t + l1 t * W).
  { rewrite <- Z.lxor_lor, Z.add_nocarry_lxor; try reflexivity;
    (apply Z.bits_inj'; intros n Hn; rewrite Z.land_spec, Z.bits_0;
     rewrite W_pow; destruct (Z_lt_ge_dec n 64);
     [rewrite (Z.mul_pow2_bits_low _ 64 n) by lia; apply andb_false_r
     |replace (Z.testbit (l0 t) n) with false; [reflexivity|];
      symmetry; rewrite <- (Z.mod_small (l0 t) (2 ^ 64)) by (rewrite <- W_pow; exact A);
      apply Z.mod_pow2_bits_high; lia]). }
  rewrite L. rewrite <- HW. unfold v4. pose proof W_gt.
  apply Z.mod_unique with (l2 t + W * l3 t); [left; nia|ring].
Qed.
Lemma is_odd_ok x a : rep x a -> is_odd P x = Z.odd (fval a).
Proof.
  intros H. destruct (to_repr_ok _ _ H) as (L & F & V). unfold is_odd. rewrite <- V.
  destruct (to_repr P x) as [|b l]; [discriminate|]. cbn [nth le_int].
  replace (b + 256 * le_int l) with (b + 2 * (128 * le_int l)) by ring. rewrite Z.odd_add_mul_2.
  change 1 with (Z.ones 1) at 1. rewrite Z.land_ones by lia. change (2 ^ 1) with 2.
  rewrite Zmod_odd. destruct (Z.odd b); reflexivity.
Qed.
Lemma from_raw_bytes_ok (b : list Z) : Forall byte b ->
  match from_raw_bytes P b with
  | Some x => length b = 32%nat /\ le_int b < Zpos p /\ canonical p x /\ to_raw_bytes x = b
  | None => length b <> 32%nat \/ Zpos p <= le_int b
  end.
Proof.
  intros H. unfold from_raw_bytes. destruct (Nat.eqb_spec (length b) 32) as [L|L]; cbn [negb]; [|left; exact L].
  destruct (limbs_of_bytes_ok b H L) as (A & V). cbv zeta.
  rewrite is_less_than_spec by (try assumption; apply (g_words _ _ G)). rewrite (g_val _ _ G), V.
  destruct (Z.ltb_spec (le_int b) (Zpos p)); [|right; assumption].
  repeat split; try apply A; try assumption; [lia|]. apply bytes_limbs; assumption.
Qed.
Lemma raw_bytes_round x : canonical p x -> from_raw_bytes P (to_raw_bytes x) = Some x.
Proof.
  intros (A & L). unfold from_raw_bytes, to_raw_bytes.
  destruct (bytes_of_limbs_ok x A) as (E & F & V). rewrite E. cbn [negb Nat.eqb]. cbv zeta.
  rewrite limbs_bytes by exact A.
  rewrite is_less_than_spec by (try assumption; apply (g_words _ _ G)). rewrite (g_val _ _ G).
  destruct (Z.ltb_spec (v4 x) (Zpos p)); [reflexivity|lia].
Qed.
End G.
