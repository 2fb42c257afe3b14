(** The twist: (x, y) goes to (x w^2, y w^3), a homomorphism; lines. *)
From Coq Require Import List Bool Field_theory Field Ring ZArith Lia.
From Verif Require Import Base Moduli Field FieldFacts LimbModel CurveModel CurveSpec CurveLaw CurveFacts G1Group TowerModel TowerSpec TowerFacts PowerFacts TowerFq TowerFrob PairingModel FinalExp MillerFacts G2Group AteSpec AteSteps.
Import ListNotations.
Add Field fq12ate : f12_field.
Local Notation Fq2 := (ext2 Fq).
Local Notation Fq12 := (ext2 (ext3 (ext2 Fq))).
Local Notation "x + y" := (f12_add K1 x y).
Local Notation "x - y" := (f12_sub K1 x y).
Local Notation "x * y" := (f12_mul K1 x y).
Local Notation "x / y" := (bdiv K12 x y).
Local Notation O := (f12_zero K1).
Local Notation I := (f12_one K1).
Definition io (a : Fq2) : Fq12 := embed K1 a.
Definition w : Fq12 := root_w K1.

Lemma io_hom : hom K2 K12 io.
Proof.
  pose proof i6_hom as A. pose proof i12_hom as B. constructor.
  - reflexivity.
  - reflexivity.
  - intros x y. change (i12 (i6 (badd K2 x y)) = badd K12 (i12 (i6 x)) (i12 (i6 y))). rewrite (hom_add _ _ _ A), (hom_add _ _ _ B). reflexivity.
  - intros x y. change (i12 (i6 (bmul K2 x y)) = bmul K12 (i12 (i6 x)) (i12 (i6 y))). rewrite (hom_mul _ _ _ A), (hom_mul _ _ _ B). reflexivity.
Qed.
Lemma io_add x y : io (f2_add K1 x y) = io x + io y. Proof. exact (hom_add _ _ _ io_hom x y). Qed.
Lemma io_mul x y : io (f2_mul K1 x y) = io x * io y. Proof. exact (hom_mul _ _ _ io_hom x y). Qed.
Lemma io_1 : io (f2_one K1) = I. Proof. reflexivity. Qed.
Lemma io_0 : io (f2_zero K1) = O. Proof. reflexivity. Qed.
Lemma io_sub x y : io (f2_sub K1 x y) = io x - io y.
Proof. assert (E : io x = io (f2_sub K1 x y) + io y). { rewrite <- io_add. apply f_equal. ring. } rewrite E. ring. Qed.
Lemma io_neg x : io (f2_neg K1 x) = f12_neg K1 (io x).
Proof. replace (f2_neg K1 x) with (f2_sub K1 (f2_zero K1) x) by ring. rewrite io_sub, io_0. ring. Qed.
Lemma io_inj x y : io x = io y -> x = y.
Proof. intros E. exact (f_equal (fun s : Fq12 => h0 (e0 s)) E). Qed.
Lemma io_nz x : x <> f2_zero K1 -> io x <> O. Proof. intros N E. apply N, io_inj. exact E. Qed.
Lemma io_div x y : y <> f2_zero K1 -> io (bdiv K2 x y) = io x / io y.
Proof. intros N. assert (E : io x = io (bdiv K2 x y) * io y). { rewrite <- io_mul. apply f_equal. field. exact N. } rewrite E. field. apply io_nz. exact N. Qed.
Lemma w_nz : w <> O.
Proof. intros E. apply (f_equal (fun s : Fq12 => fval (e0 (h0 (e1 s))))) in E. vm_compute in E. discriminate E. Qed.
Lemma mul_inj x y z : z <> O -> x * z = y * z -> x = y.
Proof. intros N E. transitivity ((x * z) / z); [field; exact N|]. rewrite E. field. exact N. Qed.
Lemma w_pow n : power K12 w n <> O. Proof. exact (pw_nz K12 fq12_fld w n w_nz). Qed.
Lemma w2 : power K12 w 2 = w * w. Proof. exact (pw_2 K12 fq12_fld w). Qed.
Lemma w3 : power K12 w 3 = w * w * w. Proof. transitivity (w * power K12 w 2); [reflexivity|]. rewrite w2. ring. Qed.
Definition ut (Q : point Fq2) : point Fq12 := untwist K1 Q.
Lemma ut_point x y : ut (Point x y) = Point (io x * (w * w)) (io y * (w * w * w)).
Proof. unfold ut, untwist. change (root_w K1) with w. rewrite w2, w3. reflexivity. Qed.
Lemma ut_x_eqb x y n : n <> O -> beqb K12 (io x * n) (io y * n) = beqb K2 x y.
Proof.
  intros N. apply eq_true_iff_eq. split; intros E.
  - apply (fd_eq _ fq12_fld) in E. apply (fd_eq _ fq2_fld). apply io_inj. exact (mul_inj _ _ _ N E).
  - apply (fd_eq _ fq2_fld) in E. subst y. apply (fd_eq _ fq12_fld). reflexivity.
Qed.
Lemma ww_nz : w * w <> O. Proof. rewrite <- w2. apply w_pow. Qed.
Lemma www_nz : w * w * w <> O. Proof. rewrite <- w3. apply w_pow. Qed.
Lemma two12 : I + I <> O. Proof. rewrite <- io_1, <- io_add, <- io_0. intros E. apply two2, io_inj. exact E. Qed.
Lemma binv_zero12 : binv K12 O = O.
Proof. unfold binv. rewrite (proj2 (fd_invert _ fq12_fld O) eq_refl). reflexivity. Qed.
Lemma binv_zero2 : binv K2 (f2_zero K1) = f2_zero K1.
Proof. unfold binv. rewrite (proj2 (fd_invert _ fq2_fld (f2_zero K1)) eq_refl). reflexivity. Qed.
Lemma slope_ut x1 y1 x2 y2 : slope K12 (io x1 * (w * w)) (io y1 * (w * w * w)) (io x2 * (w * w)) (io y2 * (w * w * w)) = io (slope K2 x1 y1 x2 y2) * w.
Proof.
  pose proof w_nz as N. pose proof two12 as T. unfold slope. rewrite (ut_x_eqb x1 x2 _ ww_nz). destruct (beqb K2 x1 x2) eqn:E.
  - unfold two, three, two. change (badd K12) with (f12_add K1). change (bmul K12) with (f12_mul K1). change (badd K2) with (f2_add K1). change (bmul K2) with (f2_mul K1). change (bone K12) with I. change (bone K2) with (f2_one K1).
    destruct (a_eq_dec K2 fq2_fld y1 (f2_zero K1)) as [->|Y].
    + rewrite io_0. unfold bdiv. replace ((I + I) * (O * (w * w * w))) with O by ring. replace (f2_mul K1 (f2_add K1 (f2_one K1) (f2_one K1)) (f2_zero K1)) with (f2_zero K1) by ring. rewrite binv_zero12, binv_zero2.
      change (bmul K12) with (f12_mul K1). change (bmul K2) with (f2_mul K1). rewrite !io_mul, io_0. ring.
    + pose proof (io_nz _ Y) as Y'. rewrite io_div by (apply nz_mul; [exact two2|exact Y]). rewrite !io_mul, !io_add, io_1. field. auto.
  - change (bsub K12) with (f12_sub K1). change (bsub K2) with (f2_sub K1). assert (X : x1 <> x2). { intros ->. rewrite (proj2 (fd_eq _ fq2_fld x2 x2) eq_refl) in E. discriminate E. }
    assert (D : f2_sub K1 x2 x1 <> f2_zero K1) by (apply nz_sub; intros C; apply X; symmetry; exact C). rewrite io_div by exact D. pose proof (io_nz _ D) as D'. rewrite !io_sub in *. field. repeat split; try exact N; try exact D'.
    all: intros C; apply D'; apply (mul_inj _ _ (w * w) ww_nz); transitivity (io x2 * (w * w) - io x1 * (w * w)); [ring|]; rewrite C; ring.
Qed.
Lemma ut_plus A B : ut (pplus K2 A B) = pplus K12 (ut A) (ut B).
Proof.
  destruct A as [|x1 y1]; [reflexivity|]. destruct B as [|x2 y2]; [reflexivity|]. rewrite !ut_point. unfold pplus. rewrite (ut_x_eqb x1 x2 _ ww_nz).
  assert (E : beqb K12 (badd K12 (io y1 * (w * w * w)) (io y2 * (w * w * w))) (bzero K12) = beqb K2 (badd K2 y1 y2) (bzero K2)).
  { rewrite <- (ut_x_eqb (badd K2 y1 y2) (bzero K2) _ www_nz). change (badd K2 y1 y2) with (f2_add K1 y1 y2). rewrite io_add. change (io (bzero K2)) with O. apply (f_equal2 (beqb K12)); [change (badd K12) with (f12_add K1); ring|change (bzero K12) with O; ring]. }
  rewrite E. destruct (beqb K2 x1 x2 && _); [reflexivity|]. cbv zeta. rewrite slope_ut, ut_point. generalize (slope K2 x1 y1 x2 y2). intros l.
  change (bsub K12) with (f12_sub K1). change (bmul K12) with (f12_mul K1). change (bsub K2) with (f2_sub K1). change (bmul K2) with (f2_mul K1). rewrite !io_sub, !io_mul, !io_sub, !io_mul. f_equal; ring.
Qed.
Lemma ut_neg A : ut (pneg K2 A) = pneg K12 (ut A).
Proof. destruct A as [|x y]; [reflexivity|]. cbn [pneg]. rewrite !ut_point. cbn [pneg]. change (bopp K2 y) with (f2_neg K1 y). rewrite io_neg. f_equal. change (bopp K12) with (f12_neg K1). ring. Qed.
Lemma ut_times n A : ut (ptimes K2 n A) = ptimes K12 n (ut A).
Proof. induction n as [|n IH]; [reflexivity|]. cbn [ptimes]. rewrite ut_plus, IH. reflexivity. Qed.
Definition px (P : point Fq12) : Fq12 := match P with Infinity => O | Point x _ => x end.
Definition py (P : point Fq12) : Fq12 := match P with Infinity => O | Point _ y => y end.
Definition finite (P : point Fq12) : bool := match P with Infinity => false | Point _ _ => true end.
Lemma ut_finite x y : finite (ut (Point x y)) = true. Proof. rewrite ut_point. reflexivity. Qed.
Lemma ut_inj A B : ut A = ut B -> A = B.
Proof.
  destruct A as [|x y], B as [|x' y']; intros E.
  - reflexivity.
  - apply (f_equal finite) in E. rewrite ut_finite in E. discriminate E.
  - apply (f_equal finite) in E. rewrite ut_finite in E. discriminate E.
  - rewrite !ut_point in E. pose proof (f_equal px E) as E1. pose proof (f_equal py E) as E2. cbn [px py] in E1, E2.
    apply (mul_inj _ _ _ ww_nz) in E1. apply (mul_inj _ _ _ www_nz) in E2. rewrite (io_inj _ _ E1), (io_inj _ _ E2). reflexivity.
Qed.

(** the line of the code is a multiple of the line *)
Lemma line_at_is c x1 y1 x2 y2 (p : aff Fq) : line_is c x1 y1 (slope K2 x1 y1 x2 y2) ->
  exists k, k <> f2_zero K1 /\ line_at c p = io k * line_value K12 (ut (Point x1 y1)) (ut (Point x2 y2)) (on_g1 K1 (Point (ax p) (ay p))).
Proof.
  intros (k & N & A & B & C). exists k. split; [exact N|]. rewrite !ut_point. cbn [on_g1 line_value]. rewrite slope_ut. generalize dependent (slope K2 x1 y1 x2 y2). intros l B C.
  change (embed1 K1 (ax p)) with (io (i2 (ax p))). change (embed1 K1 (ay p)) with (io (i2 (ay p))).
  assert (L : line_at c p = io (f2_mul K1 (l0 c) (i2 (ay p))) + io (f2_mul K1 (l1 c) (i2 (ax p))) * w + io (l2 c) * (w * w * w)).
  { assert (S : forall u v z, Ext2 (Ext3 u (f2_zero K1) (f2_zero K1)) (Ext3 v z (f2_zero K1)) = io u + io v * w + io z * (w * w * w)).
    { intros u v z. rewrite (split12 (Ext2 _ _)). cbn [e0 e1]. change (i12 (Ext3 u (f2_zero K1) (f2_zero K1))) with (io u). rewrite (split6 (Ext3 v z (f2_zero K1))). cbn [h0 h1 h2].
      rewrite !(hom_add _ _ _ i12_hom), !(hom_mul _ _ _ i12_hom), <- ww_square. change (i12 (i6 v)) with (io v). change (i12 (i6 z)) with (io z). change (i12 (i6 (f2_zero K1))) with O. change ww with w.
      change (badd K12) with (f12_add K1). change (bmul K12) with (f12_mul K1). ring. }
    unfold line_at. rewrite S. f_equal. f_equal; [|f_equal]; f_equal; apply f2_eq; rewrite (f2_mul_is K1 fq_fld); unfold times2, i2; cbn [e0 e1]; change (bzero K1) with (@f0 q_pos); cbn [K1 badd bmul bopp bone bzero]; qring. }
  rewrite L, A, B, C. rewrite !io_mul, !io_neg, !io_sub, !io_mul. change (bsub K12) with (f12_sub K1). change (bmul K12) with (f12_mul K1). ring.
Qed.
(** and not zero off the x axis *)
Lemma line_at_nz c x y l (p : aff Fq) : line_is c x y l -> ay p <> bzero K1 -> line_at c p <> O.
Proof.
  intros (k & N & A & _) Y E. apply (f_equal (fun s : Fq12 => h0 (e0 s))) in E. cbn [line_at e0 h0] in E. rewrite A in E. change (h0 (e0 O)) with (f2_zero K1) in E.
  pose proof (f_equal e0 E) as E0. pose proof (f_equal e1 E) as E1. cbn [e0 e1] in E0, E1. apply N. apply f2_eq; [destruct (a_prod K1 fq_fld _ _ E0) as [H|H]|destruct (a_prod K1 fq_fld _ _ E1) as [H|H]]; try contradiction; exact H.
Qed.
