(** The points of G1 are a vector space over Fr. *)
From Coq Require Import List Bool Field_theory Field ZArith Znumtheory Lia.
From Verif Require Import Base Moduli Field FieldFacts LimbSpec CurveModel CurveSpec CurveLaw CurveFacts CurveTimes CurveOrder G1Chain ArithSpec.
Import ListNotations.
Local Open Scope Z_scope.

(** the base field of G1 on values; bn256/curve.rs:66-68 *)
Definition fq_base : base Fq := Base f0 f1 fadd fsub fmul fopp (fun x => (x * x)%F) finvert feqb.
Definition b1 : Fq := FqZ 3.
Definition gen1 : point Fq := Point (FqZ 1) (FqZ 2).

Lemma fq_small x y : 0 <= x < q_modulus -> 0 <= y < q_modulus -> x <> y -> FqZ x <> FqZ y.
Proof. intros X Y N E. apply N. apply (f_equal fval) in E. unfold FqZ in E. rewrite !fval_small in E by (rewrite q_pos_eq; assumption). exact E. Qed.
Lemma q_big : 100 < q_modulus. Proof. reflexivity. Qed.
Lemma fq_is_base : is_base fq_base b1.
Proof.
  pose proof q_big. constructor.
  - pose proof Fq_field as H0. constructor; [exact (F_R H0)|exact (F_1_neq_0 H0)|reflexivity|].
    intros x N. unfold binv, fq_base. cbn [binvert bmul bone]. unfold finvert. rewrite (proj2 (feqb_neq x f0) N). exact (Finv_l H0 x N).
  - reflexivity.
  - intros x. cbn [fq_base binvert bzero]. unfold finvert. destruct (feqb x f0) eqn:E; [apply feqb_eq in E; split; auto|apply feqb_neq in E; split; [intros X; discriminate X|contradiction]].
  - intros x y. apply feqb_eq.
  - unfold two. cbn [fq_base badd bone bzero]. change (fadd f1 f1) with (FqZ 1 + FqZ 1)%F. unfold FqZ. rewrite <- of_Z_add. apply (fq_small 2 0); lia.
  - unfold three, two. cbn [fq_base badd bone bzero]. change (fadd (fadd f1 f1) f1) with (FqZ 1 + FqZ 1 + FqZ 1)%F. unfold FqZ. rewrite <- !of_Z_add. apply (fq_small 3 0); lia.
  - apply (fq_small 3 0); lia.
Qed.
Local Notation K := fq_base.
Local Notation HK := fq_is_base.
Local Notation oc := (on_curve K b1).
Add Field Fqf : Fq_field.
Lemma Fq_field' : @field_theory Fq f0 f1 fadd fmul fsub fopp fdiv finv eq.
Proof. exact Fq_field. Qed.
Add Field Fqf' : Fq_field'.
Ltac qring := lazymatch goal with |- @eq _ ?a ?b => first [change (@eq (fe q_pos) a b); ring | change (@eq Fq a b); ring] end.

(** the chain *)
Lemma red_is a : FqZ (red a) = FqZ a.
Proof.
  assert (W : forall k, FqZ (a - k * q_modulus) = FqZ a).
  { intros k. apply of_Z_eq_mod. rewrite q_pos_eq. apply (Z_mod_plus_full a (- k)) in k as X || idtac. replace (a - k * q_modulus) with (a + (- k) * q_modulus) by ring. apply Z_mod_plus_full. }
  unfold red. set (s := approx a). assert (S : exists k, s = a - k * q_modulus) by (eexists; reflexivity). destruct S as [k S]. clearbody s. subst s. cbv zeta.
  destruct (a - k * q_modulus <? q_modulus); [apply W|]. destruct (a - k * q_modulus - q_modulus <? q_modulus).
  - replace (a - k * q_modulus - q_modulus) with (a - (k + 1) * q_modulus) by ring. apply W.
  - replace (a - k * q_modulus - 2 * q_modulus) with (a - (k + 2) * q_modulus) by ring. apply W.
Qed.
Lemma vanishes_is a : vanishes a = true -> FqZ a = f0.
Proof. unfold vanishes. intros E. apply Z.eqb_eq in E. rewrite <- red_is, E. reflexivity. Qed.
Lemma FqZ_add x y : FqZ (x + y) = (FqZ x + FqZ y)%F. Proof. apply of_Z_add. Qed.
Lemma FqZ_sub x y : FqZ (x - y) = (FqZ x - FqZ y)%F. Proof. apply of_Z_sub. Qed.
Lemma FqZ_mul x y : FqZ (x * y) = (FqZ x * FqZ y)%F. Proof. apply of_Z_mul. Qed.
Lemma FqZ_q : FqZ q_modulus = f0. Proof. unfold FqZ, f0. apply of_Z_eq_mod. rewrite q_pos_eq. rewrite Z_mod_same_full. reflexivity. Qed.
Lemma FqZ_1 : FqZ 1 = f1. Proof. reflexivity. Qed.
Lemma FqZ_2 : FqZ 2 = (f1 + f1)%F. Proof. change 2 with (1 + 1). rewrite FqZ_add. reflexivity. Qed.
Lemma FqZ_3 : FqZ 3 = (f1 + f1 + f1)%F. Proof. change 3 with (1 + 1 + 1). rewrite !FqZ_add. reflexivity. Qed.
Lemma next_is l x0 x y : next l x0 x y = (red (l * l + (q_modulus - x) + (q_modulus - x0)), red (l * (x + (q_modulus - red (l * l + (q_modulus - x) + (q_modulus - x0)))) + (q_modulus - y))).
Proof. reflexivity. Qed.
Lemma next_point l x0 y0 x y x' y' : oc (Point (FqZ x) (FqZ y)) -> oc (Point (FqZ x0) (FqZ y0)) -> apart K (FqZ x) (FqZ y) (FqZ x0) (FqZ y0) -> line K (FqZ x) (FqZ y) (FqZ x0) (FqZ y0) (FqZ l) ->
  next l x0 x y = (x', y') -> pplus K (Point (FqZ x) (FqZ y)) (Point (FqZ x0) (FqZ y0)) = Point (FqZ x') (FqZ y').
Proof.
  intros H H0 A L E. rewrite (pplus_line K b1 HK _ _ _ _ _ H H0 A L). rewrite next_is in E. pose proof (f_equal fst E) as E1. pose proof (f_equal snd E) as E2. cbn [fst snd] in E1, E2. rewrite E1 in E2.
  assert (X : FqZ x' = (FqZ l * FqZ l - FqZ x - FqZ x0)%F). { rewrite <- E1, red_is, !FqZ_add, !FqZ_sub, FqZ_mul, FqZ_q. qring. }
  cbn [bsub bmul K]. change (@fsub q_pos) with (@fsub q_pos). rewrite <- X. f_equal. rewrite <- E2, red_is, FqZ_add, FqZ_mul, FqZ_add, !FqZ_sub, FqZ_q. qring.
Qed.
Lemma gen1_on : oc gen1.
Proof. cbn [gen1 on_curve]. change (bmul K) with (@fmul q_pos). change (badd K) with (@fadd q_pos). unfold b1. rewrite FqZ_1, FqZ_2, FqZ_3. qring. Qed.
Definition bits_step (a : nat) (c : bool) : nat := if c then S (a + a) else (a + a)%nat.
Lemma chain_sound bits : forall ls n x y x' y', ptimes K n gen1 = Point (FqZ x) (FqZ y) -> chain bits ls x y = Some (x', y') ->
  ptimes K (fold_left bits_step bits n) gen1 = Point (FqZ x') (FqZ y').
Proof.
  induction bits as [|c bits IH]; intros ls n x y x' y' P E; cbn [chain fold_left] in *; [injection E as <- <-; exact P|].
  destruct ls as [|l ls]; [discriminate E|]. destruct (double_ok l x y) eqn:D; [|discriminate E]. destruct (next l x x y) as [x1 y1] eqn:N.
  assert (H : oc (Point (FqZ x) (FqZ y))) by (rewrite <- P; apply (times_on K b1 HK); exact gen1_on).
  assert (P1 : ptimes K (n + n) gen1 = Point (FqZ x1) (FqZ y1)).
  { rewrite (times_add K b1 HK), P by exact gen1_on. apply andb_true_iff in D. destruct D as [D D2]. apply andb_true_iff in D. destruct D as [D0 D1].
    apply andb_true_iff in D0. destruct D0 as [D3 D4]. apply Z.leb_le in D3. apply Z.ltb_lt in D4. apply negb_true_iff, Z.eqb_neq in D1. apply vanishes_is in D2.
    assert (Y : FqZ y <> f0) by (apply (fq_small y 0); [lia|pose proof q_big; lia|exact D1]).
    apply (next_point l x y); try assumption.
    - intros [_ X]. destruct (prod_zero K b1 HK (two K) (FqZ y)) as [Q|Q]; [|exact (base_two _ _ HK Q)|exact (Y Q)]. unfold two. cbn [K bmul badd bone bzero] in *. rewrite <- X. qring.
    - split; cbn [K bmul badd bsub]; [qring|]. apply (minus_zero K b1 HK). cbn [K bsub bzero]. rewrite <- D2, FqZ_add, !FqZ_mul, !FqZ_add, !FqZ_sub, FqZ_q, FqZ_2, FqZ_3. qring. }
  destruct c; [|exact (IH ls _ _ _ _ _ P1 E)]. destruct ls as [|l' ls]; [discriminate E|]. destruct (add_ok l' x1 y1) eqn:D'; [|discriminate E]. destruct (next l' 1 x1 y1) as [x2 y2] eqn:N'.
  apply (IH ls _ x2 y2 x' y'); [|exact E]. assert (H1 : oc (Point (FqZ x1) (FqZ y1))) by (rewrite <- P1; apply (times_on K b1 HK); exact gen1_on).
  cbn [bits_step ptimes]. rewrite P1, (pplus_comm K b1 HK) by (exact gen1_on || exact H1).
  apply andb_true_iff in D'. destruct D' as [D' D2]. apply andb_true_iff in D'. destruct D' as [D0 D1].
  apply andb_true_iff in D0. destruct D0 as [D3 D4]. apply Z.leb_le in D3. apply Z.ltb_lt in D4. apply negb_true_iff, Z.eqb_neq in D1. apply vanishes_is in D2.
  assert (X : FqZ x1 <> FqZ 1) by (apply fq_small; [lia|pose proof q_big; lia|exact D1]).
  assert (A : apart K (FqZ x1) (FqZ y1) (FqZ 1) (FqZ 2)) by (intros [Q _]; contradiction).
  apply (next_point l' 1 2 x1 y1); [exact H1|exact gen1_on|exact A| |exact N'].
  pose proof (line_slope K b1 HK _ _ _ _ H1 gen1_on A) as L. replace (FqZ l') with (slope K (FqZ x1) (FqZ y1) (FqZ 1) (FqZ 2)); [exact L|].
  destruct L as [L _]. apply (cancel K b1 HK (FqZ 1 - FqZ x1)%F); [intros Q; apply X; symmetry; apply (minus_zero K b1 HK); exact Q|].
  cbn [K bmul bsub] in *. rewrite (Rmul_comm (F_R Fq_field)), L. apply (minus_zero K b1 HK). cbn [K bsub bzero].
  transitivity (- FqZ (l' * (q_modulus + 1 - x1) + (y1 + q_modulus - 2)))%F; [|rewrite D2; qring].
  rewrite FqZ_add, !FqZ_mul, !FqZ_sub, !FqZ_add, FqZ_q, FqZ_2, FqZ_1. qring.
Qed.

Lemma bits_step_Z l : forall n, Z.of_nat (fold_left bits_step l n) = bitsZ (Z.of_nat n) l.
Proof. induction l as [|c l IH]; intros n; [reflexivity|]. cbn [fold_left]. rewrite IH. unfold bitsZ. cbn [fold_left]. f_equal. unfold bits_step. destruct c; lia. Qed.
Lemma r_bits_value : bitsZ 1 r_bits = r_modulus - 1.
Proof. vm_compute. reflexivity. Qed.
Definition r_nat : nat := Z.to_nat r_modulus.
Lemma r_nat_Z : Z.of_nat r_nat = r_modulus.
Proof. apply Z2Nat.id. discriminate. Qed.
Lemma last_step n : ptimes K n gen1 = Point (FqZ 1) (FqZ (q_modulus - 2)) -> ptimes K (S n) gen1 = Infinity.
Proof.
  intros H. cbn [ptimes]. rewrite H. apply (pplus_not_apart K b1 HK); [reflexivity|].
  change (badd K) with (@fadd q_pos). rewrite <- FqZ_add. replace (2 + (q_modulus - 2)) with q_modulus by ring. exact FqZ_q.
Qed.
Lemma steps_nat n m (l : list bool) : Z.of_nat m = n -> bitsZ 1 l = n - 1 -> m = S (fold_left bits_step l 1%nat).
Proof. intros M B. apply Nat2Z.inj. rewrite Nat2Z.inj_succ, bits_step_Z, M. change (Z.of_nat 1) with 1. rewrite B. lia. Qed.
Lemma gen1_order : ptimes K r_nat gen1 = Infinity.
Proof.
  rewrite (steps_nat r_modulus r_nat r_bits r_nat_Z r_bits_value). apply last_step. exact (chain_sound r_bits slopes 1 1 2 1 (q_modulus - 2) (times_one K gen1) chain_ends).
Qed.
(** bn256/fq.rs:86-92 *)
Definition zeta : Z := 0x59e26bcea0d48bacd4f263f1acdb5c4f5763473177fffffe.
Definition all_fq (n : nat) : list Fq := map (fun i => FqZ (Z.of_nat i)) (seq 0 n).
Lemma all_fq_in n : Z.of_nat n = q_modulus -> forall x : Fq, In x (all_fq n).
Proof.
  intros E x. apply in_map_iff. exists (Z.to_nat (fval x)). pose proof (fval_range x) as R. rewrite q_pos_eq in R.
  rewrite Z2Nat.id by lia. split; [apply of_Z_fval|]. apply in_seq. split; [apply Nat.le_0_l|]. apply Nat2Z.inj_lt. rewrite Z2Nat.id by lia. cbn [Nat.add]. rewrite E. lia.
Qed.
Lemma room n m : Z.of_nat n = q_modulus -> Z.of_nat m = r_modulus -> (2 * length (all_fq n) + 1 < 3 * m)%nat.
Proof.
  intros N M. unfold all_fq. rewrite map_length, seq_length. apply Nat2Z.inj_lt. rewrite Nat2Z.inj_add, !Nat2Z.inj_mul, N, M. reflexivity.
Qed.
Lemma r_prime_nat m : Z.of_nat m = r_modulus -> prime (Z.of_nat m).
Proof. intros ->. exact prime_r. Qed.
Lemma zeta_cube : (FqZ zeta * FqZ zeta * FqZ zeta)%F = f1.
Proof. rewrite <- !FqZ_mul. unfold FqZ, f1. apply of_Z_eq_mod. vm_compute. reflexivity. Qed.
Lemma zeta_not_one : FqZ zeta <> f1.
Proof. apply (fq_small zeta 1); [split; [discriminate|reflexivity]|split; [discriminate|reflexivity]|discriminate]. Qed.
Lemma q_nat : exists n, Z.of_nat n = q_modulus.
Proof. exists (Z.to_nat q_modulus). apply Z2Nat.id. discriminate. Qed.

(** Every point of the curve is a multiple of the generator. *)
Theorem g1_cyclic P : oc P -> exists i, P = ptimes K i gen1.
Proof.
  destruct q_nat as [n E]. intros HP. apply (all_multiples K b1 HK gen1 r_nat (all_fq n) (FqZ zeta)); try assumption.
  - exact gen1_on.
  - intros X. discriminate X.
  - exact gen1_order.
  - apply r_prime_nat. exact r_nat_Z.
  - rewrite r_nat_Z. reflexivity.
  - exact (all_fq_in n E).
  - exact (room n r_nat E r_nat_Z).
  - exact zeta_cube.
  - exact zeta_not_one.
Qed.
Theorem g1_order P : oc P -> ptimes K r_nat P = Infinity.
Proof.
  intros HP. destruct (g1_cyclic P HP) as [i E]. subst P. rewrite <- (times_mul K b1 HK) by exact gen1_on. rewrite Nat.mul_comm, (times_mul K b1 HK) by exact gen1_on.
  rewrite gen1_order. apply times_infinity.
Qed.

(** The group G1 *)
Definition on_curveb (P : point Fq) : bool := match P with Infinity => true | Point x y => feqb (y * y)%F (x * x * x + b1)%F end.
Lemma on_curveb_iff P : on_curveb P = true <-> oc P.
Proof. destruct P as [|x y]; cbn [on_curveb on_curve]; [split; auto|]. apply feqb_eq. Qed.
Record g1_group := G1pt { pt1 : point Fq; pt1_ok : on_curveb pt1 = true }.
Lemma g1_eq a c : pt1 a = pt1 c -> a = c.
Proof. destruct a as [P HP], c as [Q HQ]. cbn [pt1]. intros ->. f_equal. apply Eqdep_dec.UIP_dec. decide equality. Qed.
Lemma g1_on a : oc (pt1 a). Proof. apply on_curveb_iff. exact (pt1_ok a). Qed.
Definition put1 (P : point Fq) (H : oc P) : g1_group := G1pt P (proj2 (on_curveb_iff P) H).
Definition zero1 : g1_group := put1 Infinity Logic.I.
Definition add1 (a c : g1_group) : g1_group := put1 _ (pplus_on_curve K b1 HK _ _ (g1_on a) (g1_on c)).
Definition neg1 (a : g1_group) : g1_group := put1 _ (pneg_on_curve K b1 HK _ (g1_on a)).
Definition sub1 (a c : g1_group) : g1_group := add1 a (neg1 c).
Definition scale1_nat (n : nat) (a : g1_group) : g1_group := put1 _ (times_on K b1 HK n _ (g1_on a)).
Definition scale_g1 (k : Fr) (a : g1_group) : g1_group := scale1_nat (Z.to_nat (fval k)) a.
Definition gen_g1 : g1_group := put1 gen1 gen1_on.

Lemma times_mod n P : oc P -> ptimes K (n mod r_nat) P = ptimes K n P.
Proof.
  intros HP. assert (N : r_nat <> 0%nat) by (intros X; pose proof r_nat_Z as Y; rewrite X in Y; discriminate Y).
  rewrite (Nat.div_mod n r_nat N) at 2. rewrite (times_add K b1 HK) by exact HP. rewrite (Nat.mul_comm r_nat), (times_mul K b1 HK), (g1_order P HP), times_infinity by exact HP. rewrite pplus_zero_l. reflexivity.
Qed.
Lemma to_nat_mod x : 0 <= x -> Z.to_nat (x mod r_modulus) = (Z.to_nat x mod r_nat)%nat.
Proof. intros X. apply Nat2Z.inj. rewrite mod_Zmod, r_nat_Z by (intros Y; pose proof r_nat_Z as Z; rewrite Y in Z; discriminate Z). rewrite !Z2Nat.id; [reflexivity|exact X|]. apply Z.mod_pos_bound. reflexivity. Qed.
Lemma fval_r (k : Fr) : 0 <= fval k < r_modulus.
Proof. pose proof (fval_range k) as R. rewrite r_pos_eq in R. exact R. Qed.
Theorem g1_module : is_module zero1 add1 sub1 scale_g1.
Proof.
  constructor.
  - intros a c d. apply g1_eq. cbn [add1 put1 pt1]. symmetry. apply (pplus_assoc K b1 HK); apply g1_on.
  - intros a c. apply g1_eq. cbn [add1 put1 pt1]. apply (pplus_comm K b1 HK); apply g1_on.
  - intros a. apply g1_eq. cbn [add1 zero1 put1 pt1]. apply pplus_zero_l.
  - intros k a c. apply g1_eq. cbn [add1 scale_g1 scale1_nat put1 pt1]. apply (times_plus K b1 HK); apply g1_on.
  - intros k l a. apply g1_eq. cbn [add1 scale_g1 scale1_nat put1 pt1]. pose proof (fval_r k). pose proof (fval_r l).
    unfold fadd. rewrite fval_of_Z, r_pos_eq, to_nat_mod by lia. rewrite times_mod by apply g1_on. rewrite Z2Nat.inj_add by lia. apply (times_add K b1 HK). apply g1_on.
  - intros k l a. apply g1_eq. cbn [add1 scale_g1 scale1_nat put1 pt1]. pose proof (fval_r k). pose proof (fval_r l).
    unfold fmul. rewrite fval_of_Z, r_pos_eq, to_nat_mod by lia. rewrite times_mod by apply g1_on. rewrite Z2Nat.inj_mul by lia. apply (times_mul K b1 HK). apply g1_on.
  - intros a. apply g1_eq. cbn [scale_g1 scale1_nat put1 pt1]. replace (Z.to_nat (fval (f1 : Fr))) with 1%nat by reflexivity. apply times_one.
  - intros a. apply g1_eq. cbn [scale_g1 scale1_nat put1 pt1]. replace (Z.to_nat (fval (f0 : Fr))) with 0%nat by reflexivity. reflexivity.
  - intros a c. apply g1_eq. cbn [sub1 neg1 add1 scale_g1 scale1_nat put1 pt1]. f_equal. set (P := pt1 c). assert (HP : oc P) by apply g1_on. clearbody P.
    assert (E : fval (- f1 : Fr)%F = r_modulus - 1) by reflexivity. rewrite E. remember (Z.to_nat (r_modulus - 1)) as n eqn:En.
    assert (R : r_nat = S n). { apply Nat2Z.inj. rewrite r_nat_Z, Nat2Z.inj_succ, En, Z2Nat.id by discriminate. ring. }
    pose proof (g1_order P HP) as O. rewrite R in O. cbn [ptimes] in O. assert (HN := times_on K b1 HK n P HP).
    rewrite <- (minus_plus K b1 HK P (ptimes K n P) HP HN), O. symmetry. apply pplus_zero_r.
Qed.
