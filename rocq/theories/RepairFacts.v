(** Consequences of the repaired memory and instruction tables. *)
From Coq Require Import ZArith List Arith Lia Permutation Bool.
From Verif Require Import Base Field FieldFacts AlgebraSpec PolyFacts AccFacts VMModel VMSim CircuitModel CircuitFacts LocalSound.
Import ListNotations.
Local Open Scope F_scope.

Lemma FrZ_nat_inj a b : (Z.of_nat a < 2 ^ 64)%Z -> (Z.of_nat b < 2 ^ 64)%Z ->
  FrZ (Z.of_nat a) = FrZ (Z.of_nat b) -> a = b.
Proof. intros Ha Hb H. apply FrZ_inj in H; lia. Qed.
Lemma FrZ_S a : FrZ (Z.of_nat (S a)) = FrZ (Z.of_nat a) + f1.
Proof. rewrite f1_FrZ, FrZ_add. f_equal. lia. Qed.

(** ** A column that stays or goes up by one *)
Section Climb.
Variables (K : nat) (f : nat -> Fr).
Hypothesis HK : (Z.of_nat K < 2 ^ 64)%Z.
Hypothesis H0 : f 0%nat = f0.
Hypothesis Hs : forall r, (S r < K)%nat -> f (S r) = f r \/ f (S r) = f r + f1.
Fixpoint level (r : nat) : nat :=
  match r with O => O | S r => if feqb (f (S r)) (f r) then level r else S (level r) end.
Lemma level_le r : (level r <= r)%nat.
Proof. clear. induction r as [|r IH]; [apply le_n|]. cbn [level]. destruct (feqb _ _); lia. Qed.
Lemma level_f r : (r < K)%nat -> f r = FrZ (Z.of_nat (level r)).
Proof.
  induction r as [|r IH]; intros Hr; [exact H0|]. cbn [level]. destruct (feqb (f (S r)) (f r)) eqn:E.
  - apply feqb_eq in E. rewrite E. apply IH. lia.
  - apply feqb_neq in E. destruct (Hs r Hr) as [E'|E']; [contradiction|].
    rewrite E', IH by lia. symmetry. apply FrZ_S.
Qed.
Lemma level_S r : level (S r) = level r \/ level (S r) = S (level r).
Proof. cbn [level]. destruct (feqb _ _); auto. Qed.
Lemma level_mono u v : (u <= v)%nat -> (level u <= level v)%nat.
Proof.
  clear. induction 1 as [|v _ IH]; [apply le_n|]. destruct (level_S v) as [E|E]; rewrite E; lia.
Qed.
Lemma level_inj u v : (u < K)%nat -> (v < K)%nat -> f u = f v -> level u = level v.
Proof.
  intros Hu Hv E. rewrite !level_f in E by assumption. pose proof (level_le u). pose proof (level_le v).
  apply FrZ_nat_inj in E; lia.
Qed.
Lemma level_same r : (S r < K)%nat -> level (S r) = level r -> f (S r) = f r.
Proof. intros Hr E. rewrite !level_f by lia. rewrite E. reflexivity. Qed.
Lemma level_up r : (S r < K)%nat -> level (S r) = S (level r) -> f (S r) <> f r.
Proof. intros Hr E E'. apply level_inj in E'; lia. Qed.
End Climb.

Lemma mul0_cases (a b : Fr) : a * b = f0 -> a = f0 \/ b = f0.
Proof. apply Fr_mul_eq_0. Qed.

(** ** Memory *)
Section Mem.
Variables (N K : nat) (pc pm pv mc mm mv : nat -> Fr).
Hypothesis HN : (Z.of_nat N < 2 ^ 64)%Z.
Hypothesis Hclk : forall r, (r < N)%nat -> pc r = FrZ (Z.of_nat r).
Hypothesis Hfirst : pm 0%nat = f0 /\ pv 0%nat = f0.
Hypothesis Hperm : Permutation (map (fun r => (pc r, pm r, pv r)) (seq 0 N)) (map (fun r => (mc r, mm r, mv r)) (seq 0 K)).
Hypothesis Hm0 : mm 0%nat = f0.
Hypothesis M0 : forall r, (S r < K)%nat -> (mm (S r) - mm r - f1) * (mm (S r) - mm r) = f0.
Hypothesis M1 : forall r, (S r < K)%nat -> (mm (S r) - mm r - f1) * (mv r - mv (S r)) * (mc (S r) - mc r - f1) = f0.
Hypothesis M2 : forall r, (S r < K)%nat -> (mm (S r) - mm r) * mv (S r) = f0.
Hypothesis Mo : forall r, (S r < K)%nat -> mm (S r) = mm r -> (fval (mc r) < fval (mc (S r)))%Z.

Lemma sizes_equal : N = K.
Proof. apply Permutation_length in Hperm. rewrite !map_length, !seq_length in Hperm. exact Hperm. Qed.
Lemma HK : (Z.of_nat K < 2 ^ 64)%Z. Proof. rewrite <- sizes_equal. exact HN. Qed.

Lemma mm_step r : (S r < K)%nat -> mm (S r) = mm r \/ mm (S r) = mm r + f1.
Proof.
  intros Hr. destruct (mul0_cases _ _ (M0 r Hr)) as [E|E]; [right|left]; apply Fr_sub_eq; rewrite <- E; fring.
Qed.
Let a := level mm.
Lemma mm_a r : (r < K)%nat -> mm r = FrZ (Z.of_nat (a r)).
Proof. apply level_f; [exact Hm0|apply mm_step]. Qed.

Lemma to_mem r : (r < N)%nat -> exists j, (j < K)%nat /\ mc j = FrZ (Z.of_nat r) /\ mm j = pm r /\ mv j = pv r.
Proof.
  intros Hr. assert (I : In (pc r, pm r, pv r) (map (fun r => (mc r, mm r, mv r)) (seq 0 K))).
  { eapply Permutation_in; [exact Hperm|]. apply in_map_iff. exists r. split; [reflexivity|apply in_seq; lia]. }
  apply in_map_iff in I. destruct I as (j & E & Hj). apply in_seq in Hj. injection E as E1 E2 E3.
  exists j. split; [lia|]. rewrite E1, (Hclk r Hr). auto.
Qed.
Lemma of_mem j : (j < K)%nat -> exists r, (r < N)%nat /\ mc j = FrZ (Z.of_nat r) /\ mm j = pm r /\ mv j = pv r.
Proof.
  intros Hj. assert (I : In (mc j, mm j, mv j) (map (fun r => (pc r, pm r, pv r)) (seq 0 N))).
  { eapply Permutation_in; [apply Permutation_sym; exact Hperm|]. apply in_map_iff. exists j. split; [reflexivity|apply in_seq; lia]. }
  apply in_map_iff in I. destruct I as (r & E & Hr). apply in_seq in Hr. injection E as E1 E2 E3.
  exists r. split; [lia|]. rewrite <- E1, Hclk by lia. auto.
Qed.
Lemma fval_nat r : (r < N)%nat -> fval (FrZ (Z.of_nat r)) = Z.of_nat r.
Proof. intros H. apply fval_FrZ. lia. Qed.

Lemma clk_up u v : (u < v)%nat -> (v < K)%nat -> a u = a v -> (fval (mc u) < fval (mc v))%Z.
Proof.
  induction v as [|v IH]; intros Huv Hv E; [lia|].
  assert (Ev : a v = a (S v)).
  { pose proof (level_mono mm u v ltac:(lia)). pose proof (level_mono mm v (S v) ltac:(lia)). unfold a in *. lia. }
  assert (L : (fval (mc v) < fval (mc (S v)))%Z).
  { apply Mo; [lia|]. rewrite !mm_a by lia. rewrite Ev. reflexivity. }
  destruct (Nat.eq_dec u v) as [->|Ne]; [exact L|].
  assert ((fval (mc u) < fval (mc v))%Z) by (apply IH; lia). lia.
Qed.

Lemma small_pos r : (r < N)%nat -> exists b, (b < N)%nat /\ pm r = FrZ (Z.of_nat b).
Proof.
  intros Hr. destruct (to_mem r Hr) as (j & Hj & _ & E & _). exists (a j).
  pose proof (level_le mm j). rewrite sizes_equal. unfold a. split; [lia|]. rewrite <- E. apply mm_a. exact Hj.
Qed.

Lemma same_level u v : (u < K)%nat -> (v < K)%nat -> mm u = mm v -> a u = a v.
Proof. intros Hu Hv E. exact (level_inj K mm HK Hm0 mm_step u v Hu Hv E). Qed.

Lemma visits j : (j < N)%nat ->
  (forall i, (S i < j)%nat -> pm i = pm j -> (forall k, (i < k)%nat -> (k < j)%nat -> pm k <> pm j) -> pv j = pv i) /\
  ((forall k, (k < j)%nat -> pm k <> pm j) -> pv j = f0).
Proof.
  intros Hj. destruct (to_mem j Hj) as (v & Hv & Ec & Em & Ev). split.
  - intros i Hi Eij Hno. destruct (to_mem i ltac:(lia)) as (u & Hu & Ec' & Em' & Ev').
    assert (Ea : a u = a v) by (apply same_level; [assumption..|congruence]).
    assert (Huv : (u < v)%nat).
    { destruct (lt_eq_lt_dec u v) as [[L|L]|L]; [exact L| |].
      - subst v. rewrite Ec in Ec'. apply FrZ_nat_inj in Ec'; lia.
      - pose proof (clk_up v u L Hu (eq_sym Ea)) as C. rewrite Ec, Ec', !fval_nat in C by lia. lia. }
    assert (Hs : v = S u).
    { destruct (Nat.eq_dec v (S u)) as [E|Ne]; [exact E|]. exfalso.
      assert (Ea1 : a u = a (S u)).
      { pose proof (level_mono mm u (S u) ltac:(lia)). pose proof (level_mono mm (S u) v ltac:(lia)). unfold a in *. lia. }
      pose proof (clk_up u (S u) ltac:(lia) ltac:(lia) Ea1) as C1.
      pose proof (clk_up (S u) v ltac:(lia) ltac:(lia) ltac:(congruence)) as C2.
      destruct (of_mem (S u) ltac:(lia)) as (k & Hk & Ek & Ekm & _).
      rewrite Ek, Ec, ?Ec', !fval_nat in * by lia.
      apply (Hno k); [lia..|]. rewrite <- Ekm, <- Em, !mm_a by lia. congruence. }
    subst v. pose proof (M1 u Hv) as E. rewrite Ec, Ec' in E.
    assert (Emm : mm (S u) = mm u) by congruence. rewrite Emm in E.
    destruct (mul0_cases _ _ E) as [E1|E1].
    + destruct (mul0_cases _ _ E1) as [E2|E2].
      * exfalso. apply Fr_1_neq_0. replace (f1 : Fr) with (fopp (mm u - mm u - f1)) by fring. rewrite E2. fring.
      * rewrite <- Ev, <- Ev'. symmetry. apply Fr_sub_eq. exact E2.
    + exfalso. rewrite f1_FrZ, !FrZ_sub in E1. rewrite f0_FrZ in E1. apply FrZ_inj in E1; lia.
  - intros Hno. destruct v as [|u].
    + destruct (Nat.eq_dec j 0) as [->|Ne]; [apply Hfirst|]. exfalso.
      apply (Hno 0%nat); [lia|]. rewrite (proj1 Hfirst), <- Em, Hm0. reflexivity.
    + destruct (level_S mm u) as [E|E].
      * exfalso. pose proof (clk_up u (S u) ltac:(lia) Hv (eq_sym E)) as C.
        destruct (of_mem u ltac:(lia)) as (k & Hk & Ek & Ekm & _).
        rewrite Ek, Ec, !fval_nat in C by lia. apply (Hno k); [lia|].
        rewrite <- Ekm, <- Em, !mm_a by lia. unfold a. rewrite E. reflexivity.
      * pose proof (M2 u Hv) as E2. destruct (mul0_cases _ _ E2) as [E3|E3]; [|congruence].
        exfalso. apply Fr_sub_eq in E3. revert E3. apply (level_up K mm HK Hm0 mm_step u Hv E).
Qed.
End Mem.

Lemma seq_S' r : seq 0 (S r) = seq 0 r ++ [r].
Proof. rewrite seq_S. reflexivity. Qed.
Lemma horner_app g l k s : horner g (l ++ k) s = horner g k (horner g l s).
Proof. apply fold_left_app. Qed.

(** ** The instruction table *)
Section Inst.
Variables (L : nat) (ti tc tn : nat -> Fr).
Hypothesis HL : (Z.of_nat L < 2 ^ 64)%Z.
Hypothesis Hi0 : ti 0%nat = f0.
Hypothesis I0 : forall r, (S r < L)%nat -> (ti (S r) - ti r) * (ti (S r) - ti r - f1) = f0.
Hypothesis I1 : forall r, (S r < L)%nat -> (ti (S r) - ti r - f1) * (tc (S r) - tc r) = f0.
Hypothesis I2 : forall r, (S r < L)%nat -> (ti (S r) - ti r - f1) * (tn (S r) - tn r) = f0.

Lemma ti_step r : (S r < L)%nat -> ti (S r) = ti r \/ ti (S r) = ti r + f1.
Proof.
  intros Hr. destruct (mul0_cases _ _ (I0 r Hr)) as [E|E]; [left|right]; apply Fr_sub_eq; rewrite <- E; fring.
Qed.
Definition up (r : nat) : bool := negb (feqb (ti (S r)) (ti r)).
Definition starts (r : nat) : list Fr := map tc (filter up (seq 0 r)).
Definition inner (r : nat) : list trip := map (fun r => (ti r, tc r, tn r)) (filter (fun r => negb (up r)) (seq 0 r)).

Lemma starts_S r : starts (S r) = if up r then starts r ++ [tc r] else starts r.
Proof.
  unfold starts. rewrite seq_S', filter_app, map_app. cbn [filter]. destruct (up r); [reflexivity|]. apply app_nil_r.
Qed.
Lemma inner_S r : inner (S r) = if up r then inner r else inner r ++ [(ti r, tc r, tn r)].
Proof.
  unfold inner. rewrite seq_S', filter_app, map_app. cbn [filter]. destruct (up r); [apply app_nil_r|reflexivity].
Qed.
Lemma starts_length r : length (starts r) = level ti r.
Proof.
  clear. induction r as [|r IH]; [reflexivity|]. rewrite starts_S. cbn [level]. unfold up at 1.
  destruct (feqb _ _); cbn [negb]; [exact IH|]. rewrite app_length, IH. cbn [length]. lia.
Qed.
Lemma same_row r : (S r < L)%nat -> up r = false -> ti (S r) = ti r /\ tc (S r) = tc r /\ tn (S r) = tn r.
Proof.
  intros Hr Hu. apply negb_false_iff, feqb_eq in Hu. split; [exact Hu|].
  assert (X : forall x, (ti (S r) - ti r - f1) * x = f0 -> x = f0).
  { intros x E. rewrite Hu in E. destruct (mul0_cases _ _ E) as [E1|E1]; [|exact E1]. exfalso. apply Fr_1_neq_0.
    replace (f1 : Fr) with (fopp (ti r - ti r - f1)) by fring. rewrite E1. fring. }
  split; apply Fr_sub_eq, X; [apply I1|apply I2]; exact Hr.
Qed.
Lemma up_row r : (S r < L)%nat -> up r = true -> ti (S r) = ti r + f1.
Proof.
  intros Hr Hu. apply negb_true_iff, feqb_neq in Hu. destruct (ti_step r Hr) as [E|E]; [contradiction|exact E].
Qed.

Lemma sum_starts g rs : rs 0%nat = f0 ->
  (forall r, (S r < L)%nat -> (ti (S r) - ti r) * (rs (S r) - (rs r * g + tc r)) + (ti (S r) - ti r - f1) * (rs (S r) - rs r) = f0) ->
  forall r, (r < L)%nat -> rs r = horner g (starts r) f0.
Proof.
  intros H0 Hs. induction r as [|r IH]; intros Hr; [exact H0|]. specialize (IH ltac:(lia)).
  pose proof (Hs r Hr) as E. rewrite starts_S. destruct (up r) eqn:U.
  - rewrite (up_row r Hr U) in E. rewrite horner_app. unfold horner at 1. cbn [fold_left]. rewrite <- IH.
    apply Fr_sub_eq. rewrite <- E. fring.
  - destruct (same_row r Hr U) as (-> & _ & _) in E. rewrite <- IH. symmetry. apply Fr_sub_eq. rewrite <- E. fring.
Qed.
Lemma product_inner al a b c prp :
  (forall r, (S r < L)%nat -> (ti (S r) - ti r - f1) * (prp (S r) - prp r * (al - a * ti r - b * tc r - c * tn r))
    + (ti r - ti (S r)) * (prp r - prp (S r)) = f0) ->
  forall r, (r < L)%nat -> prp r = prp 0%nat * row_product al a b c (inner r).
Proof.
  intros Hs. induction r as [|r IH]; intros Hr.
  - unfold row_product, inner. cbn [seq filter map fold_right]. fring.
  - specialize (IH ltac:(lia)). pose proof (Hs r Hr) as E. rewrite inner_S. destruct (up r) eqn:U.
    + rewrite (up_row r Hr U) in E. rewrite <- IH. apply Fr_sub_eq. rewrite <- E. fring.
    + destruct (same_row r Hr U) as (-> & _ & _) in E. rewrite row_product_app.
      change (row_product al a b c [(ti r, tc r, tn r)]) with ((al - a * ti r - b * tc r - c * tn r) * f1).
      replace (prp 0%nat * (row_product al a b c (inner r) * ((al - a * ti r - b * tc r - c * tn r) * f1)))
        with (prp 0%nat * row_product al a b c (inner r) * (al - a * ti r - b * tc r - c * tn r)) by fring.
      rewrite <- IH. symmetry. apply Fr_sub_eq. rewrite <- E. fring.
Qed.

Variable W : list Fr.
Hypothesis HL0 : (0 < L)%nat.
Hypothesis Hlink : forall r, (S r < L)%nat -> ti (S r) <> ti r -> tn r = tc (S r).
Hypothesis Hlast : ti (L - 1)%nat = FrZ (Z.of_nat (length W)) /\ tc (L - 1)%nat = f0 /\ tn (L - 1)%nat = f0.
Hypothesis HWl : (Z.of_nat (length W) < 2 ^ 64)%Z.

Lemma last_level : level ti (L - 1) = length W.
Proof.
  destruct Hlast as (E & _). rewrite (level_f L ti Hi0 ti_step) in E by lia.
  pose proof (level_le ti (L - 1)). apply FrZ_nat_inj in E; lia.
Qed.
Lemma starts_last_length : length (starts (L - 1)) = length W.
Proof. rewrite starts_length. apply last_level. Qed.

Hypothesis HW : starts (L - 1) = W.
Lemma starts_prefix u v : (u <= v)%nat -> exists t, starts v = starts u ++ t.
Proof.
  clear. induction 1 as [|v _ [t IH]]; [exists []; symmetry; apply app_nil_r|].
  rewrite starts_S. destruct (up v); [|exists t; exact IH]. exists (t ++ [tc v]). rewrite IH, app_assoc. reflexivity.
Qed.
Lemma up_word r : (S r < L)%nat -> up r = true -> tc r = nth (level ti r) W f0.
Proof.
  intros Hr Hu. destruct (starts_prefix (S r) (L - 1) ltac:(lia)) as [t Et]. rewrite HW, starts_S, Hu in Et.
  rewrite Et, <- app_assoc, app_nth2; rewrite starts_length; [|apply le_n]. rewrite Nat.sub_diag. reflexivity.
Qed.
Lemma row_words k : forall r, (r + k = L - 1)%nat ->
  tc r = nth (level ti r) W f0 /\ tn r = nth (S (level ti r)) W f0.
Proof.
  induction k as [|k IH]; intros r Hr.
  - assert (r = L - 1)%nat as -> by lia. rewrite last_level. destruct Hlast as (_ & -> & ->).
    rewrite !nth_overflow by lia. auto.
  - destruct (IH (S r) ltac:(lia)) as [E1 E2]. destruct (up r) eqn:U.
    + assert (El : level ti (S r) = S (level ti r)).
      { cbn [level]. unfold up in U. destruct (feqb _ _); [discriminate U|reflexivity]. }
      split; [apply up_word; [lia|exact U]|]. rewrite <- El, <- E1. apply Hlink; [lia|].
      apply feqb_neq. apply negb_true_iff. exact U.
    + destruct (same_row r ltac:(lia) U) as (E3 & E4 & E5).
      assert (El : level ti (S r) = level ti r).
      { cbn [level]. unfold up in U. destruct (feqb _ _); [reflexivity|discriminate U]. }
      rewrite <- E4, <- E5, E1, E2, El. auto.
Qed.
Lemma row_bound r : (r < L)%nat -> exists a, (a <= length W)%nat /\
  ti r = FrZ (Z.of_nat a) /\ tc r = nth a W f0 /\ tn r = nth (S a) W f0.
Proof.
  intros Hr. exists (level ti r). split.
  - rewrite <- last_level. apply level_mono. lia.
  - split; [apply (level_f L ti Hi0 ti_step); exact Hr|]. apply (row_words (L - 1 - r)). lia.
Qed.
Lemma inner_in x r : In x (inner r) -> exists j, (j < r)%nat /\ x = (ti j, tc j, tn j).
Proof.
  clear.
  intros H. apply in_map_iff in H. destruct H as (j & <- & Hj). apply filter_In in Hj. destruct Hj as [Hj _].
  apply in_seq in Hj. exists j. split; [lia|reflexivity].
Qed.
End Inst.


(** ** No step from the row after the program *)
(** At such a row the current instruction is 0 and the deselectors are all
    non-zero constants; the memory pointer gate then needs a step that is not an
    integer of reasonable size. *)
Lemma FrZ_mul x y : FrZ x * FrZ y = FrZ (x * y).
Proof. symmetry. apply of_Z_mul. Qed.
Lemma desel_zero o v : fval (desel f0 o) = fval (FrZ v) -> desel f0 o = FrZ v.
Proof. apply fe_eq. Qed.
Lemma no_step_at_zero (x : Z) : (- 2 ^ 30 <= x <= 2 ^ 30)%Z ->
  (desel f0 ADD + desel f0 SUB + desel f0 LB + desel f0 RB + desel f0 GETCHAR + desel f0 PUTCHAR) * FrZ x
    + desel f0 SHL * (FrZ x + f1) + desel f0 SHR * (FrZ x - f1) <> f0.
Proof.
  intros Hx.
  rewrite (desel_zero SHL (-2054979566640)), (desel_zero SHR (-1988689903200)), (desel_zero ADD (-2867413348800)),
    (desel_zero SUB (-2739972755520)), (desel_zero GETCHAR (-2802244863600)), (desel_zero PUTCHAR (-2680408130400)),
    (desel_zero LB (-1354931582400)), (desel_zero RB (-1325793268800)) by (vm_compute; reflexivity).
  rewrite f1_FrZ, !FrZ_add, FrZ_sub, !FrZ_mul, !FrZ_add.
  match goal with |- FrZ ?y <> _ => replace y with (- (17814433419360 * x + 66289663440))%Z by ring end.
  intros E. apply (f_equal fval) in E.
  assert (M : ((- (17814433419360 * x + 66289663440)) mod Zpos r_pos = 0)%Z).
  { unfold FrZ in E. cbn [fval] in E. exact E. }
  apply Z.mod_divide in M; [|discriminate]. destruct M as [k M].
  assert (R : (2 ^ 100 < Zpos r_pos)%Z) by reflexivity. set (R0 := Zpos r_pos) in *. clearbody R0.
  change (2 ^ 30)%Z with 1073741824%Z in Hx. change (2 ^ 100)%Z with 1267650600228229401496703205376%Z in R.
  assert (k = 0 \/ 1 <= k \/ k <= -1)%Z as [->|[K|K]] by lia.
  - lia.
  - assert (R0 <= k * R0)%Z by (clear - K R; nia). lia.
  - assert (k * R0 <= - R0)%Z by (clear - K R; nia). lia.
Qed.
