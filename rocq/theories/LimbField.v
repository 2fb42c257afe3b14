(** The limb operations implement the prime field. *)
From Coq Require Import ZArith List Lia Bool Znumtheory Zpow_facts Ring Field.
From Verif Require Import Moduli Field FieldFacts LimbModel LimbSpec LimbFacts.
Import ListNotations.
Local Open Scope Z_scope.

(** what the constants of a field instance must satisfy *)
Record good (P : params) (p : positive) : Prop := Good {
  g_prime : prime (Zpos p);
  g_words : words4 (modulus P);
  g_val : v4 (modulus P) = Zpos p;
  g_small : 2 * Zpos p <= 2 ^ 256;
  g_odd : Zpos p mod 2 = 1;
  g_inv : word (inv P);
  g_inv1 : (l0 (modulus P) * inv P + 1) mod W = 0;
  g_rw : words4 (pr_r P);
  g_r : v4 (pr_r P) = 2 ^ 256 mod Zpos p;
  g_r2w : words4 (pr_r2 P);
  g_r2 : v4 (pr_r2 P) = 2 ^ 512 mod Zpos p;
  g_r3w : words4 (pr_r3 P);
  g_r3 : v4 (pr_r3 P) = 2 ^ 768 mod Zpos p;
  g_expw : words4 (inv_exp P);
  g_exp : v4 (inv_exp P) = Zpos p - 2
}.
Transparent W.
Lemma words4_b x :
  forallb (fun w => (0 <=? w) && (w <? 2 ^ 64)) [l0 x; l1 x; l2 x; l3 x] = true -> words4 x.
Proof.
  cbn [forallb]. rewrite !andb_true_iff, !Z.leb_le, !Z.ltb_lt. unfold words4, word. rewrite W_pow. tauto.
Qed.
Lemma good_fr : good fr_params r_pos.
Proof.
  constructor; try (apply words4_b); try (vm_compute; reflexivity); try (vm_compute; discriminate).
  - exact r_prime.
  - split; vm_compute; congruence.
Qed.
Lemma good_fq : good fq_params q_pos.
Proof.
  constructor; try (apply words4_b); try (vm_compute; reflexivity); try (vm_compute; discriminate).
  - exact q_prime.
  - split; vm_compute; congruence.
Qed.
Lemma W4 : W * W * W * W = 2 ^ 256. Proof. reflexivity. Qed.
Opaque W.

Section G.
Variables (P : params) (p : positive).
Hypothesis G : good P p.
Let B : Z := 2 ^ 256.
Let Hp : prime (Zpos p) := g_prime _ _ G.
Let BF : fe p := of_Z p B.
Add Field F_inst : (@fe_field_theory p Hp).
Implicit Types a b c : fe p.

Lemma B_eq : W * W * W * W = B. Proof. exact W4. Qed.
Lemma B_pos : 0 < B. Proof. unfold B. apply Z.pow_pos_nonneg; lia. Qed.
Lemma m_range : 0 < Zpos p /\ 2 * v4 (modulus P) <= W * W * W * W /\ 0 < v4 (modulus P).
Proof. rewrite B_eq, (g_val _ _ G). pose proof (g_small _ _ G). unfold B. lia. Qed.

Lemma BF_nz : BF <> f0.
Proof.
  intros H. apply (f_equal fval) in H. unfold BF, f0 in H. rewrite !fval_of_Z, Z.mod_0_l in H by lia.
  apply Z.mod_divide in H; [|lia]. unfold B in H.
  apply prime_power_prime in H; [|lia|exact Hp|exact prime_2].
  pose proof (g_odd _ _ G) as O. rewrite H in O. discriminate.
Qed.
Lemma fmul_cancel a b : (BF * a = BF * b)%F -> a = b.
Proof. intros H. transitivity (finv BF * (BF * a))%F; [field; apply BF_nz|]. rewrite H. field. apply BF_nz. Qed.

(** representation in field terms *)
Definition rep (x : limbs) a : Prop := words4 x /\ v4 x < Zpos p /\ of_Z p (v4 x) = (a * BF)%F.
Lemma rep_iff x a : represents x a <-> rep x a.
Proof.
  unfold represents, rep. fold B.
  assert (E : forall v, of_Z p v = (a * BF)%F <-> v mod Zpos p = (fval a * B) mod Zpos p).
  { intros v. unfold fmul, BF. rewrite <- of_Z_eq_mod, fval_of_Z, Zmult_mod_idemp_r. reflexivity. }
  rewrite E. split; intros (A & H); (split; [exact A|]).
  - pose proof (Z.mod_pos_bound (fval a * B) (Zpos p) ltac:(lia)).
    split; [lia|]. rewrite H at 1. apply Z.mod_mod. lia.
  - destruct H as (H1 & H2). rewrite <- H2. symmetry. apply Z.mod_small.
    pose proof (v4_range _ A). lia.
Qed.
Lemma rep_val x a : rep x a -> 0 <= v4 x < Zpos p.
Proof. intros (A & H & _). pose proof (v4_range _ A). lia. Qed.

Lemma canonical_rep x : canonical p x -> exists a, rep x a.
Proof.
  intros (A & H). exists (of_Z p (v4 x) * finv BF)%F. split; [exact A|]. split; [exact H|].
  field. apply BF_nz.
Qed.
Lemma rep_fun x a b : rep x a -> rep x b -> a = b.
Proof.
  intros (_ & _ & E) (_ & _ & F). apply fmul_cancel. rewrite E in F.
  transitivity (a * BF)%F; [ring|]. rewrite F. ring.
Qed.
Lemma v4_inj x y : words4 x -> words4 y -> v4 x = v4 y -> x = y.
Proof.
  destruct x as [a0 a1 a2 a3], y as [b0 b1 b2 b3]. unfold words4, v4, word; cbn [l0 l1 l2 l3]. intros H K E.
  pose proof W_gt.
  assert (D : forall u v c d : Z, 0 <= u < W -> 0 <= v < W -> u + W * c = v + W * d -> u = v /\ c = d).
  { clear. intros u v c d Hu Hv E. destruct (Z.lt_trichotomy c d) as [L|[L|L]]; [nia|subst; lia|nia]. }
  apply D in E as [-> E]; [|lia..]. apply D in E as [-> E]; [|lia..]. apply D in E as [-> ->]; [|lia..]. reflexivity.
Qed.
Lemma rep_inj x y a : rep x a -> rep y a -> x = y.
Proof.
  intros Hx Hy. pose proof (rep_val _ _ Hx). pose proof (rep_val _ _ Hy).
  apply v4_inj; [apply Hx|apply Hy|].
  destruct Hx as (_ & _ & E), Hy as (_ & _ & F). rewrite <- F in E.
  apply of_Z_eq_mod in E. rewrite !Z.mod_small in E by lia. exact E.
Qed.

(** Montgomery reduction divides by 2^256 *)
Lemma reduce_val r c : words8 r -> v8 r < B * Zpos p -> of_Z p (v8 r) = (c * BF)%F ->
  words4 (montgomery_reduce P r) /\ 0 <= v4 (montgomery_reduce P r) < Zpos p /\
  of_Z p (v4 (montgomery_reduce P r)) = c.
Proof.
  intros Hr Hlt E. destruct m_range as (Hp0 & Hm2 & Hm0).
  destruct (montgomery_reduce_spec P (g_words _ _ G) (g_inv1 _ _ G) Hm2 Hm0 r Hr) as (A & C & q & Q).
  { rewrite B_eq, (g_val _ _ G). exact Hlt. }
  rewrite B_eq, (g_val _ _ G) in *. split; [exact A|]. pose proof (v4_range _ A). split; [lia|].
  apply fmul_cancel.
  transitivity (of_Z p (B * v4 (montgomery_reduce P r))); [unfold BF; rewrite of_Z_mul; reflexivity|].
  rewrite Q. rewrite of_Z_add, of_Z_mul, E.
  assert (Z0 : of_Z p (Zpos p) = f0). { apply of_Z_eq_mod. rewrite Z.mod_same, Z.mod_0_l by lia. reflexivity. }
  rewrite Z0. ring.
Qed.

Lemma lmul_wide x y c : words4 x -> words4 y -> v4 y < Zpos p ->
  (of_Z p (v4 x) * of_Z p (v4 y) = c * BF * BF)%F -> rep (lmul P x y) c.
Proof.
  intros Hx Hy Hlt E. destruct (mul_wide_spec x y Hx Hy) as (A & V).
  pose proof (v4_range _ Hx). pose proof (v4_range _ Hy). rewrite B_eq in *.
  unfold lmul. destruct (reduce_val (mul_wide x y) (c * BF)%F A) as (S & R & T).
  - rewrite V. nia.
  - rewrite V, of_Z_mul. exact E.
  - split; [exact S|]. split; [lia|exact T].
Qed.
Lemma lmul_rep x y a b : rep x a -> rep y b -> rep (lmul P x y) (a * b)%F.
Proof.
  intros (A & L & E) (A' & L' & E'). apply lmul_wide; try assumption. rewrite E, E'. ring.
Qed.
Lemma lsquare_rep x a : rep x a -> rep (lsquare P x) (a * a)%F.
Proof.
  intros (Hx & Hlt & E). destruct (square_wide_spec x Hx) as (A & V). pose proof (v4_range _ Hx).
  unfold lsquare. destruct (reduce_val (square_wide x) (a * a * BF)%F A) as (S & R & T).
  - rewrite V. rewrite B_eq in *. nia.
  - rewrite V, of_Z_mul, E. ring.
  - split; [exact S|]. split; [lia|exact T].
Qed.

Lemma of_p : of_Z p (Zpos p) = f0.
Proof. apply of_Z_eq_mod. rewrite Z.mod_same, Z.mod_0_l by lia. reflexivity. Qed.
Lemma lsub_rep x y a b : rep x a -> rep y b -> rep (lsub P x y) (a - b)%F.
Proof.
  intros (A & L & E) (A' & L' & E'). pose proof (v4_range _ A). pose proof (v4_range _ A').
  destruct (lsub_spec P (g_words _ _ G) x y A A') as (S & S1 & S2). rewrite (g_val _ _ G) in *.
  split; [exact S|]. destruct (Z_lt_ge_dec (v4 x) (v4 y)) as [C|C].
  - rewrite S1 by lia. split; [lia|]. rewrite of_Z_add, of_Z_sub, of_p, E, E'. ring.
  - rewrite S2 by lia. split; [lia|]. rewrite of_Z_sub, E, E'. ring.
Qed.
Lemma ladd_rep x y a b : rep x a -> rep y b -> rep (ladd P x y) (a + b)%F.
Proof.
  intros (A & L & E) (A' & L' & E'). pose proof (v4_range _ A). pose proof (v4_range _ A').
  assert (EQ : ladd P x y = lsub P (fst (add_chain x y)) (modulus P)).
  { unfold ladd, add_chain. destruct (adc (l0 x) (l0 y) 0) as [d0 c0].
    destruct (adc (l1 x) (l1 y) c0) as [d1 c1]. destruct (adc (l2 x) (l2 y) c1) as [d2 c2].
    destruct (adc (l3 x) (l3 y) c2) as [d3 c3]. reflexivity. }
  rewrite EQ. destruct (add_chain_spec x y A A') as (d & c & -> & Hd & Hc & V). cbn [fst].
  pose proof (v4_range _ Hd). pose proof (g_small _ _ G) as SM. fold B in SM. rewrite B_eq in *. pose proof B_pos.
  assert (c = 0) by nia. subst c. rewrite Z.mul_0_r, Z.add_0_r in V.
  destruct (lsub_spec P (g_words _ _ G) d (modulus P) Hd (g_words _ _ G)) as (S & S1 & S2). rewrite (g_val _ _ G) in *.
  split; [exact S|]. destruct (Z_lt_ge_dec (v4 d) (Zpos p)) as [C|C].
  - rewrite S1 by lia. split; [lia|].
    replace (v4 d - Zpos p + Zpos p) with (v4 x + v4 y) by lia. rewrite of_Z_add, E, E'. ring.
  - rewrite S2 by lia. split; [lia|]. rewrite V, of_Z_sub, of_Z_add, of_p, E, E'. ring.
Qed.
Lemma ldouble_rep x a : rep x a -> rep (ldouble P x) (a + a)%F.
Proof. intros H. apply ladd_rep; exact H. Qed.

Lemma v4_zero : v4 lzero = 0.
Proof. unfold v4, lzero; cbn [l0 l1 l2 l3]. rewrite !Z.mul_0_r. reflexivity. Qed.
Lemma or_zero x : words4 x ->
  (Z.lor (Z.lor (Z.lor (l0 x) (l1 x)) (l2 x)) (l3 x) =? 0) = (v4 x =? 0).
Proof.
  intros (H0 & H1 & H2 & H3). apply eq_true_iff_eq. rewrite !Z.eqb_eq, !Z.lor_eq_0_iff.
  unfold v4, word in *. pose proof W_gt. split.
  - intros (((-> & ->) & ->) & ->). ring.
  - intros E. assert (0 <= l1 x + W * (l2 x + W * l3 x)) by nia. assert (0 <= l2 x + W * l3 x) by nia. nia.
Qed.
Lemma lneg_rep x a : rep x a -> rep (lneg P x) (- a)%F.
Proof.
  intros (A & L & E). pose proof (v4_range _ A).
  assert (EQ : lneg P x = mask4 (fst (sub_chain (modulus P) x)) (borrow_of (negb (v4 x =? 0)))).
  { unfold lneg, sub_chain. rewrite or_zero by exact A.
    destruct (sbb (l0 (modulus P)) (l0 x) 0) as [d0 c0]. destruct (sbb (l1 (modulus P)) (l1 x) c0) as [d1 c1].
    destruct (sbb (l2 (modulus P)) (l2 x) c1) as [d2 c2]. destruct (sbb (l3 (modulus P)) (l3 x) c2) as [d3 c3].
    destruct (v4 x =? 0); reflexivity. }
  rewrite EQ. destruct (sub_chain_spec (modulus P) x (g_words _ _ G) A) as (d & -> & Hd & V). cbn [fst].
  rewrite mask4_spec by exact Hd. rewrite (g_val _ _ G) in V.
  destruct (Z.ltb_spec (Zpos p) (v4 x)); [lia|]. rewrite Z.add_0_r in V.
  destruct (Z.eqb_spec (v4 x) 0) as [Z0|NZ]; cbn [negb].
  - split; [repeat split; try apply W_gt; cbn; try lia; apply word_0|].
    fold lzero. rewrite v4_zero. split; [lia|].
    rewrite Z0 in E. replace (- a * BF)%F with (- (a * BF))%F by ring. rewrite <- E.
    change (of_Z p 0) with (@f0 p). ring.
  - split; [exact Hd|]. split; [lia|]. rewrite V, of_Z_sub, of_p, E. ring.
Qed.

Lemma lzero_rep : rep lzero f0.
Proof.
  split; [repeat split; apply word_0|]. rewrite v4_zero. split; [lia|].
  change (of_Z p 0) with (@f0 p). ring.
Qed.
Lemma lone_rep : rep (lone P) f1.
Proof.
  split; [apply (g_rw _ _ G)|]. unfold lone. rewrite (g_r _ _ G). fold B.
  pose proof (Z.mod_pos_bound B (Zpos p) ltac:(lia)). split; [lia|].
  transitivity BF; [apply of_Z_eq_mod; apply Z.mod_mod; lia|ring].
Qed.

Lemma of_B2 : of_Z p (2 ^ 512) = (BF * BF)%F.
Proof. unfold BF. rewrite <- of_Z_mul. reflexivity. Qed.
Lemma of_B3 : of_Z p (2 ^ 768) = (BF * BF * BF)%F.
Proof. unfold BF. rewrite <- !of_Z_mul. reflexivity. Qed.
Lemma of_mod x : of_Z p (x mod Zpos p) = of_Z p x.
Proof. apply of_Z_eq_mod. apply Z.mod_mod. lia. Qed.
Lemma r2_ok : words4 (pr_r2 P) /\ v4 (pr_r2 P) < Zpos p /\ of_Z p (v4 (pr_r2 P)) = (BF * BF)%F.
Proof.
  split; [apply (g_r2w _ _ G)|]. rewrite (g_r2 _ _ G).
  pose proof (Z.mod_pos_bound (2 ^ 512) (Zpos p) ltac:(lia)). split; [lia|]. rewrite of_mod. apply of_B2.
Qed.
Lemma r3_ok : words4 (pr_r3 P) /\ v4 (pr_r3 P) < Zpos p /\ of_Z p (v4 (pr_r3 P)) = (BF * BF * BF)%F.
Proof.
  split; [apply (g_r3w _ _ G)|]. rewrite (g_r3 _ _ G).
  pose proof (Z.mod_pos_bound (2 ^ 768) (Zpos p) ltac:(lia)). split; [lia|]. rewrite of_mod. apply of_B3.
Qed.
Lemma from_raw_rep v : words4 v -> rep (from_raw P v) (of_Z p (v4 v)).
Proof.
  intros H. destruct r2_ok as (A & L & E). apply lmul_wide; try assumption. rewrite E. ring.
Qed.
Lemma from_u512_rep w : words8 w -> rep (from_u512 P w) (of_Z p (v8 w)).
Proof.
  intros (H & K). unfold from_u512.
  change (L4 (w0 w) (w1 w) (w2 w) (w3 w)) with (lower w). change (L4 (w4 w) (w5 w) (w6 w) (w7 w)) with (upper w).
  destruct r2_ok as (A & L & E). destruct r3_ok as (A3 & L3 & E3).
  rewrite v8_split, B_eq, of_Z_add, of_Z_mul. fold BF.
  apply ladd_rep; apply lmul_wide; try assumption; rewrite ?E, ?E3; ring.
Qed.

(** equality test *)
Lemma leqb_eq x y : leqb x y = true <-> x = y.
Proof.
  destruct x as [a0 a1 a2 a3], y as [b0 b1 b2 b3]. unfold leqb; cbn [l0 l1 l2 l3].
  rewrite !andb_true_iff, !Z.eqb_eq. split; [intros (((-> & ->) & ->) & ->); reflexivity|].
  intros H; injection H; auto.
Qed.
Lemma leqb_rep x y a b : rep x a -> rep y b -> leqb x y = feqb a b.
Proof.
  intros Hx Hy. apply eq_true_iff_eq. rewrite leqb_eq, feqb_eq. split; intros E.
  - subst y. eapply rep_fun; eassumption.
  - subst b. eapply rep_inj; eassumption.
Qed.

(** powers *)
Lemma fpow_0 a : fpow a 0 = f1. Proof. reflexivity. Qed.
Lemma fpow_add a m n : 0 <= m -> 0 <= n -> fpow a (m + n) = (fpow a m * fpow a n)%F.
Proof. intros. unfold fpow. rewrite Z.pow_add_r by lia. apply of_Z_mul. Qed.
Lemma fpow_1 a : fpow a 1 = a.
Proof. unfold fpow. rewrite Z.pow_1_r. apply of_Z_fval. Qed.
Lemma fpow_mul a m n : 0 <= m -> 0 <= n -> fpow (fpow a m) n = fpow a (m * n).
Proof.
  intros. unfold fpow. rewrite Z.pow_mul_r by lia. apply of_Z_eq_mod. rewrite fval_of_Z.
  symmetry. apply Zpower_mod. lia.
Qed.
Lemma pow_bits_rep x a : rep x a -> forall n e res b, rep res b ->
  rep (pow_bits P n e x res) (fpow b (2 ^ Z.of_nat n) * fpow a (e mod 2 ^ Z.of_nat n))%F.
Proof.
  intros Hx. induction n as [|n IH]; intros e res b Hres.
  - cbn [pow_bits]. change (2 ^ Z.of_nat 0) with 1. rewrite Z.mod_1_r, fpow_0, fpow_1.
    replace (b * f1)%F with b by ring. exact Hres.
  - cbn [pow_bits]. cbv zeta. pose proof (lsquare_rep _ _ Hres) as Hs.
    set (bit := Z.testbit e (Z.of_nat n)).
    assert (Hn : rep (if bit then lmul P (lsquare P res) x else lsquare P res)
                     (b * b * fpow a (Z.b2z bit))%F).
    { destruct bit; cbn [Z.b2z].
      - rewrite fpow_1. apply lmul_rep; assumption.
      - rewrite fpow_0. replace (b * b * f1)%F with (b * b)%F by ring. exact Hs. }
    specialize (IH e _ _ Hn).
    replace (fpow b (2 ^ Z.of_nat (S n)) * fpow a (e mod 2 ^ Z.of_nat (S n)))%F
      with (fpow (b * b * fpow a (Z.b2z bit)) (2 ^ Z.of_nat n) * fpow a (e mod 2 ^ Z.of_nat n))%F; [exact IH|].
    rewrite Nat2Z.inj_succ, Z.pow_succ_r by lia. set (N := 2 ^ Z.of_nat n).
    assert (HN : 0 < N) by (apply Z.pow_pos_nonneg; lia).
    assert (Em : e mod (2 * N) = e mod N + N * Z.b2z bit).
    { rewrite (Z.mul_comm 2 N). rewrite Z.rem_mul_r by lia. f_equal. f_equal. unfold bit.
      unfold N. rewrite <- Z.bit0_mod, <- Z.shiftr_div_pow2 by lia. rewrite Z.shiftr_spec by lia.
      rewrite Z.add_0_l. reflexivity. }
    pose proof (Z.mod_pos_bound e N HN).
    assert (Hb : 0 <= Z.b2z bit) by (destruct bit; cbn; lia).
    rewrite Em. rewrite (fpow_add a (e mod N) (N * Z.b2z bit)) by nia.
    rewrite (Z.mul_comm N (Z.b2z bit)), <- (fpow_mul a (Z.b2z bit) N) by lia.
    replace (b * b * fpow a (Z.b2z bit))%F with (fpow b 2 * fpow a (Z.b2z bit))%F.
    2:{ change 2 with (1 + 1). rewrite (fpow_add b 1 1), !fpow_1 by lia. ring. }
    rewrite <- (fpow_mul b 2 N) by lia.
    assert (M : forall u v : fe p, fpow (u * v)%F N = (fpow u N * fpow v N)%F).
    { intros u v. unfold fpow. rewrite <- of_Z_mul, <- Z.pow_mul_l. unfold fmul.
      apply of_Z_eq_mod. rewrite fval_of_Z. symmetry. apply Zpower_mod. lia. }
    rewrite M. ring.
Qed.
Lemma lpow_rep x e a : rep x a -> words4 e -> rep (lpow P x e) (fpow a (v4 e)).
Proof.
  intros Hx (E0 & E1 & E2 & E3). unfold lpow. cbv zeta.
  pose proof (pow_bits_rep x a Hx 64 (l3 e) _ _ lone_rep) as H3.
  pose proof (pow_bits_rep x a Hx 64 (l2 e) _ _ H3) as H2.
  pose proof (pow_bits_rep x a Hx 64 (l1 e) _ _ H2) as H1.
  pose proof (pow_bits_rep x a Hx 64 (l0 e) _ _ H1) as H0.
  clear H3 H2 H1. change (2 ^ Z.of_nat 64) with (2 ^ 64) in H0. rewrite <- W_pow in H0.
  rewrite !Z.mod_small in H0 by assumption. unfold word in *. pose proof W_gt.
  replace (fpow a (v4 e)) with
    (fpow (fpow (fpow (fpow f1 W * fpow a (l3 e)) W * fpow a (l2 e)) W * fpow a (l1 e)) W * fpow a (l0 e))%F; [exact H0|].
  assert (O : fpow (@f1 p) W = f1).
  { unfold fpow. transitivity (of_Z p (1 ^ W)); [|rewrite Z.pow_1_l by lia; reflexivity].
    apply of_Z_eq_mod. unfold f1. rewrite fval_of_Z. symmetry. apply Zpower_mod. lia. }
  rewrite O. replace (f1 * fpow a (l3 e))%F with (fpow a (l3 e)) by ring.
  rewrite fpow_mul, <- fpow_add, fpow_mul, <- fpow_add, fpow_mul, <- fpow_add by nia.
  f_equal. unfold v4. ring.
Qed.

Lemma linvert_rep x a : rep x a ->
  match linvert P x with
  | Some y => a <> f0 /\ rep y (finv a)
  | None => a = f0
  end.
Proof.
  intros Hx. unfold linvert. rewrite (leqb_rep _ _ _ _ Hx lzero_rep).
  destruct (feqb_spec a f0) as [E|E]; [exact E|]. split; [exact E|].
  rewrite (finv_pow_eq Hp). unfold finv_pow. rewrite Zpow_mod_correct by lia. rewrite of_mod.
  pose proof (lpow_rep x (inv_exp P) a Hx (g_expw _ _ G)) as H. rewrite (g_exp _ _ G) in H. exact H.
Qed.

(** canonical integer *)
Lemma to_canonical x a : rep x a ->
  words4 (montgomery_reduce P (widen x)) /\ v4 (montgomery_reduce P (widen x)) = fval a.
Proof.
  intros (A & L & E). pose proof (v4_range _ A). pose proof B_pos.
  assert (V : v8 (widen x) = v4 x).
  { rewrite v8_split. unfold lower, upper, widen; cbn [w0 w1 w2 w3 w4 w5 w6 w7]. fold lzero.
    rewrite v4_zero, Z.mul_0_r, Z.add_0_r. destruct x; reflexivity. }
  destruct (reduce_val (widen x) a) as (S & R & T).
  - split; [exact A|]. repeat split; apply word_0.
  - rewrite V. nia.
  - rewrite V. exact E.
  - split; [exact S|]. rewrite <- T, fval_of_Z. symmetry. apply Z.mod_small. lia.
Qed.
End G.
