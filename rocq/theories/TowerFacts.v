(** The extension fields are fields. *)
From Coq Require Import List Bool Field_theory Field Ring ZArith Lia.
From Verif Require Import CurveModel CurveSpec TowerModel TowerSpec.

Lemma base_is_field {F} (K : base F) b : is_base K b -> is_field K.
Proof. intros []. constructor; assumption. Qed.

(** facts of any field *)
Section Any.
Context {F : Type} (K : base F) (H : is_field K).
Add Field anyf : (fd_field K H).
Local Notation "0" := (bzero K). Local Notation "1" := (bone K).
Local Notation "x + y" := (badd K x y). Local Notation "x - y" := (bsub K x y). Local Notation "x * y" := (bmul K x y). Local Notation "- x" := (bopp K x).
Lemma a_eq_dec (x y : F) : {x = y} + {x <> y}.
Proof. destruct (beqb K x y) eqn:E; [left; apply (fd_eq K H); exact E|right; intros X; apply (fd_eq K H) in X; congruence]. Qed.
Lemma a_one : 1 <> 0. Proof. exact (F_1_neq_0 (fd_field K H)). Qed.
Lemma a_inv x : x <> 0 -> binv K x * x = 1. Proof. exact (Finv_l (fd_field K H) x). Qed.
Lemma a_prod x y : x * y = 0 -> x = 0 \/ y = 0.
Proof.
  intros P. destruct (a_eq_dec x 0) as [|N]; [left; assumption|right]. transitivity (binv K x * (x * y)); [|rewrite P; ring].
  transitivity (binv K x * x * y); [rewrite (a_inv x N)|]; ring.
Qed.
Lemma a_cancel x y z : x <> 0 -> x * y = x * z -> y = z.
Proof. intros N P. destruct (a_prod x (y - z)) as [|Q]; [transitivity (x * y - x * z); [ring|rewrite P; ring]|contradiction|]. transitivity (y - z + z); [ring|rewrite Q; ring]. Qed.
Lemma a_some x y : binvert K x = Some y -> y * x = 1.
Proof.
  intros E. assert (N : x <> 0) by (intros X; apply (fd_invert K H) in X; congruence). pose proof (a_inv x N) as I. unfold binv in I. rewrite E in I. exact I.
Qed.
Lemma a_none x : binvert K x = None -> x = 0. Proof. apply (fd_invert K H). Qed.
Lemma a_ex x : x <> 0 -> exists y, binvert K x = Some y /\ y * x = 1.
Proof. intros N. destruct (binvert K x) as [y|] eqn:E; [exists y; split; [reflexivity|apply a_some; exact E]|apply a_none in E; contradiction]. Qed.
End Any.
(** the way to show that operations make a field *)
Lemma make_field {F} (K : base F) : ring_theory (bzero K) (bone K) (badd K) (bmul K) (bsub K) (bopp K) eq -> bone K <> bzero K ->
  (forall x, bsquare K x = bmul K x x) -> (forall x y, binvert K x = Some y -> bmul K y x = bone K) -> (forall x, binvert K x = None <-> x = bzero K) ->
  (forall x y, beqb K x y = true <-> x = y) -> is_field K.
Proof.
  intros R O S I N E. constructor; [|exact S|exact N|exact E]. constructor; [exact R|exact O|reflexivity|].
  intros x X. unfold binv. destruct (binvert K x) as [y|] eqn:J; [exact (I x y J)|]. apply N in J. contradiction.
Qed.

Section Two.
Context {F : Type} (K : base F) (H : is_field K).
Add Field twof : (fd_field K H).
Local Notation "0" := (bzero K). Local Notation "1" := (bone K).
Local Notation "x + y" := (badd K x y). Local Notation "x - y" := (bsub K x y). Local Notation "x * y" := (bmul K x y). Local Notation "- x" := (bopp K x).
Ltac e2 := repeat match goal with x : ext2 F |- _ => destruct x as [?x ?y] end; cbn [e0 e1].
Lemma f2_mul_assign_is s o : f2_mul_assign K s o = times2 K (bopp K (bone K)) s o.
Proof. unfold f2_mul_assign, times2. cbv zeta. e2. f_equal; ring. Qed.
Lemma times2_comm b s o : times2 K b s o = times2 K b o s.
Proof. unfold times2. e2. f_equal; ring. Qed.
Lemma f2_mul_is s o : f2_mul K s o = times2 K (bopp K (bone K)) s o.
Proof. unfold f2_mul. rewrite f2_mul_assign_is. apply times2_comm. Qed.
Lemma f2_mul_assign_mul s o : f2_mul_assign K s o = f2_mul K s o.
Proof. rewrite f2_mul_is. apply f2_mul_assign_is. Qed.
Lemma f2_square_is s : f2_square_assign K s = f2_mul K s s.
Proof. rewrite f2_mul_is. unfold f2_square_assign, times2, bdouble. cbv zeta. e2. f_equal; ring. Qed.
Lemma f2_double_is s : f2_double K s = f2_add K s s. Proof. reflexivity. Qed.
Lemma f2_nonresidue_is s : f2_nonresidue K s = f2_mul K (xi K) s.
Proof. rewrite f2_mul_is. unfold f2_nonresidue, f2_double, bdouble, times2, xi. cbn [ones]. cbv zeta. e2. f_equal; ring. Qed.
Lemma f2_eq (s o : ext2 F) : e0 s = e0 o -> e1 s = e1 o -> s = o.
Proof. e2. intros -> ->. reflexivity. Qed.
Lemma f2_ring : ring_theory (f2_zero K) (f2_one K) (f2_add K) (f2_mul K) (f2_sub K) (f2_neg K) eq.
Proof.
  constructor; intros; try rewrite !f2_mul_is; unfold f2_zero, f2_one, f2_add, f2_sub, f2_neg, times2; e2; f_equal; ring.
Qed.
Lemma f2_eqb_iff s o : f2_eqb K s o = true <-> s = o.
Proof.
  unfold f2_eqb. rewrite andb_true_iff, !(fd_eq K H). e2. split; [intros [-> ->]; reflexivity|intros X; split; [exact (f_equal e0 X)|exact (f_equal e1 X)]].
Qed.
Lemma f2_is_zero_iff s : f2_is_zero K s = true <-> s = f2_zero K.
Proof. unfold f2_is_zero, bis_zero. exact (f2_eqb_iff s (f2_zero K)). Qed.
Hypothesis N : forall x, x * x <> bopp K (bone K).
Lemma norm_zero x y : x * x + y * y = 0 -> x = 0 /\ y = 0.
Proof.
  intros E. destruct (a_eq_dec K H y 0) as [->|Y].
  - split; [|reflexivity]. destruct (a_prod K H x x) as [X|X]; try exact X. transitivity (x * x + 0 * 0); [ring|exact E].
  - exfalso. apply (N (binv K y * x)). pose proof (a_inv K H y Y) as I.
    transitivity (binv K y * binv K y * (x * x + y * y) - (binv K y * y) * (binv K y * y)); [ring|]. rewrite E, I. ring.
Qed.
Lemma f2_is_field : is_field (f2_base K).
Proof.
  apply make_field; cbn [f2_base bzero bone badd bmul bsub bopp bsquare binvert beqb].
  - exact f2_ring.
  - intros X. apply (f_equal e0) in X. cbn [f2_one f2_zero e0] in X. exact (a_one K H X).
  - intros x. apply f2_square_is.
  - intros x y E. unfold f2_invert in E. cbv zeta in E. rewrite !(fd_square K H) in E. destruct (binvert K (e0 x * e0 x + e1 x * e1 x)) as [t|] eqn:I; [|discriminate E].
    injection E as <-. apply (a_some K H) in I. rewrite f2_mul_is. unfold times2, f2_one. cbn [e0 e1]. f_equal; [|ring].
    transitivity (t * (e0 x * e0 x + e1 x * e1 x)); [ring|exact I].
  - intros x. unfold f2_invert. cbv zeta. rewrite !(fd_square K H). split.
    + destruct (binvert K _) as [t|] eqn:I; [intros X; discriminate X|]. intros _. apply (a_none K H) in I. apply norm_zero in I. apply f2_eq; apply I.
    + intros ->. cbn [f2_zero e0 e1]. replace (0 * 0 + 0 * 0) with 0 by ring. replace (binvert K 0) with (@None F); [reflexivity|]. symmetry. apply (fd_invert K H). reflexivity.
  - exact f2_eqb_iff.
Qed.
End Two.

Section Three.
Context {F : Type} (K : base F) (HF : is_field K) (H : is_field (f2_base K)).
Local Notation E := (ext2 F).
Definition f2_field : field_theory (f2_zero K) (f2_one K) (f2_add K) (f2_mul K) (f2_sub K) (f2_neg K) (bdiv (f2_base K)) (binv (f2_base K)) eq := fd_field _ H.
Add Field threef : f2_field.
Local Notation "0" := (f2_zero K). Local Notation "1" := (f2_one K).
Local Notation "x + y" := (f2_add K x y). Local Notation "x - y" := (f2_sub K x y). Local Notation "x * y" := (f2_mul K x y). Local Notation "- x" := (f2_neg K x).
Local Notation b := (xi K).
Ltac e3 := repeat match goal with x : ext3 E |- _ => destruct x as [?x ?y ?z] end; cbn [h0 h1 h2].
Ltac code := cbv zeta; repeat rewrite !(f2_square_is K HF); repeat rewrite !(f2_nonresidue_is K HF); repeat rewrite !(f2_mul_assign_mul K HF); rewrite ?f2_double_is.
Notation t3 := (times3 (f2_base K) b).
Lemma t3_def x y : t3 x y = Ext3 (h0 x * h0 y + b * (h1 x * h2 y + h2 x * h1 y)) (h0 x * h1 y + h1 x * h0 y + b * (h2 x * h2 y)) (h0 x * h2 y + h1 x * h1 y + h2 x * h0 y).
Proof. reflexivity. Qed.
Lemma f6_mul_assign_is s o : f6_mul_assign K s o = t3 s o.
Proof. rewrite t3_def. unfold f6_mul_assign. code. e3. f_equal; ring. Qed.
Lemma times3_comm s o : t3 s o = t3 o s.
Proof. rewrite !t3_def. e3. f_equal; ring. Qed.
Lemma f6_mul_is s o : f6_mul K s o = t3 s o.
Proof. unfold f6_mul. rewrite f6_mul_assign_is. apply times3_comm. Qed.
Lemma f6_mul_assign_mul s o : f6_mul_assign K s o = f6_mul K s o.
Proof. rewrite f6_mul_is. apply f6_mul_assign_is. Qed.
Lemma f6_square_is s : f6_square_assign K s = f6_mul K s s.
Proof. rewrite f6_mul_is, t3_def. unfold f6_square_assign. code. e3. f_equal; ring. Qed.
Lemma f6_double_is s : f6_double K s = f6_add K s s. Proof. reflexivity. Qed.
Lemma f6_nonresidue_is s : f6_nonresidue K s = f6_mul K (vv K) s.
Proof. rewrite f6_mul_is, t3_def. unfold f6_nonresidue, vv. code. e3. f_equal; ring. Qed.
Lemma f6_mul_by_1_is s c1 : f6_mul_by_1 K s c1 = f6_mul K s (Ext3 0 c1 0).
Proof. rewrite f6_mul_is, t3_def. unfold f6_mul_by_1. code. e3. f_equal; ring. Qed.
Lemma f6_mul_by_01_is s c0 c1 : f6_mul_by_01 K s c0 c1 = f6_mul K s (Ext3 c0 c1 0).
Proof. rewrite f6_mul_is, t3_def. unfold f6_mul_by_01. code. e3. f_equal; ring. Qed.
Lemma f6_eq (s o : ext3 E) : h0 s = h0 o -> h1 s = h1 o -> h2 s = h2 o -> s = o.
Proof. e3. intros -> -> ->. reflexivity. Qed.
Lemma f6_ring : ring_theory (f6_zero K) (f6_one K) (f6_add K) (f6_mul K) (f6_sub K) (f6_neg K) eq.
Proof.
  constructor; intros; try rewrite !f6_mul_is, ?t3_def; rewrite ?t3_def; unfold f6_zero, f6_one, f6_add, f6_sub, f6_neg; e3; f_equal; ring.
Qed.
Lemma f6_eqb_iff s o : f6_eqb K s o = true <-> s = o.
Proof.
  unfold f6_eqb. rewrite !andb_true_iff, !(f2_eqb_iff K HF). e3. split; [intros [[-> ->] ->]; reflexivity|intros X; repeat split; [exact (f_equal h0 X)|exact (f_equal h1 X)|exact (f_equal h2 X)]].
Qed.
Hypothesis N : forall x, x * x * x <> b.
(** no element whose adjugate vanishes, but zero *)
Lemma adj_zero x y z : x * x = b * (y * z) -> b * (z * z) = x * y -> y * y = x * z -> x = 0 /\ y = 0 /\ z = 0.
Proof.
  intros A B C. destruct (a_eq_dec _ H z 0) as [->|Z].
  - assert (Y : y = 0). { destruct (a_prod _ H y y) as [Y|Y]; try exact Y. cbn [f2_base bzero bmul]. rewrite C. ring. }
    subst y. split; [|split; reflexivity]. destruct (a_prod _ H x x) as [X|X]; try exact X. cbn [f2_base bzero bmul]. rewrite A. ring.
  - exfalso. pose proof (a_inv _ H z Z) as I. cbn [f2_base bmul bone] in I. set (i := binv (f2_base K) z) in *. apply (N (i * y)).
    transitivity (i * i * i * (y * y) * y); [ring|]. rewrite C. transitivity (i * i * i * z * (x * y)); [ring|]. rewrite <- B.
    transitivity (b * (i * z) * (i * z) * (i * z)); [ring|]. rewrite I. ring.
Qed.
Definition adj (s : ext3 E) : ext3 E := Ext3 (h0 s * h0 s - b * (h1 s * h2 s)) (b * (h2 s * h2 s) - h0 s * h1 s) (h1 s * h1 s - h0 s * h2 s).
Definition norm3 (s : ext3 E) : E := h0 s * h0 (adj s) + b * (h1 s * h2 (adj s) + h2 s * h1 (adj s)).
Lemma norm3_zero s : norm3 s = 0 -> s = f6_zero K.
Proof.
  intros Z. destruct (adj_zero (h0 (adj s)) (h1 (adj s)) (h2 (adj s))) as (A & B & C).
  - transitivity (norm3 s * h0 s + b * (h1 (adj s) * h2 (adj s))); [unfold norm3, adj; cbn [h0 h1 h2]; ring|]. rewrite Z. ring.
  - transitivity (norm3 s * h1 s + h0 (adj s) * h1 (adj s)); [unfold norm3, adj; cbn [h0 h1 h2]; ring|]. rewrite Z. ring.
  - transitivity (norm3 s * h2 s + h0 (adj s) * h2 (adj s)); [unfold norm3, adj; cbn [h0 h1 h2]; ring|]. rewrite Z. ring.
  - destruct (adj_zero (h0 s) (h1 s) (h2 s)) as (A' & B' & C').
    + transitivity (h0 (adj s) + b * (h1 s * h2 s)); [cbn [adj h0]; ring|]. rewrite A. ring.
    + transitivity (h1 (adj s) + h0 s * h1 s); [cbn [adj h1]; ring|]. rewrite B. ring.
    + transitivity (h2 (adj s) + h0 s * h2 s); [cbn [adj h2]; ring|]. rewrite C. ring.
    + apply f6_eq; assumption.
Qed.
Lemma f6_invert_is s : f6_invert K s = match f2_invert K (norm3 s) with None => None | Some t => Some (Ext3 (t * h0 (adj s)) (t * h1 (adj s)) (t * h2 (adj s))) end.
Proof.
  unfold f6_invert. code.
  replace (b * h2 s * h1 s) with (b * (h1 s * h2 s)) by ring.
  replace (- (b * (h1 s * h2 s)) + h0 s * h0 s) with (h0 (adj s)) by (cbn [adj h0]; ring).
  change (b * (h2 s * h2 s) - h0 s * h1 s) with (h1 (adj s)). change (h1 s * h1 s - h0 s * h2 s) with (h2 (adj s)).
  replace (b * (h2 s * h1 (adj s) + h1 s * h2 (adj s)) + h0 s * h0 (adj s)) with (norm3 s) by (unfold norm3; ring). reflexivity.
Qed.
Lemma norm3_mul s o : norm3 (f6_mul K s o) = norm3 s * norm3 o.
Proof. rewrite f6_mul_is, t3_def. unfold norm3, adj. cbn [h0 h1 h2]. e3. ring. Qed.
Lemma f6_is_field : is_field (f6_base K).
Proof.
  apply make_field; cbn [f6_base bzero bone badd bmul bsub bopp bsquare binvert beqb].
  - exact f6_ring.
  - intros X. apply (f_equal h0) in X. cbn [f6_one f6_zero h0] in X. exact (a_one _ H X).
  - intros x. apply f6_square_is.
  - intros x y I. rewrite f6_invert_is in I. destruct (f2_invert K (norm3 x)) as [t|] eqn:J; [|discriminate I]. injection I as <-. apply (a_some _ H) in J. cbn [f2_base bmul bone] in J.
    rewrite f6_mul_is, t3_def. unfold f6_one. f_equal.
    + rewrite <- J. unfold norm3, adj. cbn [h0 h1 h2]. ring.
    + unfold adj. cbn [h0 h1 h2]. ring.
    + unfold adj. cbn [h0 h1 h2]. ring.
  - intros x. rewrite f6_invert_is. split.
    + destruct (f2_invert K (norm3 x)) as [t|] eqn:I; [intros X; discriminate X|]. intros _. apply (a_none _ H) in I. apply norm3_zero. exact I.
    + intros ->. replace (norm3 (f6_zero K)) with 0 by (unfold norm3, adj, f6_zero; cbn [h0 h1 h2]; ring).
      replace (f2_invert K 0) with (@None E); [reflexivity|]. symmetry. apply (fd_invert _ H). reflexivity.
  - exact f6_eqb_iff.
Qed.
End Three.

Section Twelve.
Context {F : Type} (K : base F) (HF : is_field K) (H2 : is_field (f2_base K)) (H : is_field (f6_base K)).
Local Notation E := (ext3 (ext2 F)).
Definition f6_field : field_theory (f6_zero K) (f6_one K) (f6_add K) (f6_mul K) (f6_sub K) (f6_neg K) (bdiv (f6_base K)) (binv (f6_base K)) eq := fd_field _ H.
Add Field twelvef : f6_field.
Local Notation "0" := (f6_zero K). Local Notation "1" := (f6_one K).
Local Notation "x + y" := (f6_add K x y). Local Notation "x - y" := (f6_sub K x y). Local Notation "x * y" := (f6_mul K x y). Local Notation "- x" := (f6_neg K x).
Local Notation b := (vv K).
Ltac e2 := repeat match goal with x : ext2 E |- _ => destruct x as [?x ?y] end; cbn [e0 e1].
Ltac code := cbv zeta; repeat rewrite !(f6_square_is K HF H2); repeat rewrite !(f6_nonresidue_is K HF H2); repeat rewrite !(f6_mul_assign_mul K HF H2); rewrite ?f6_double_is.
Notation t2 := (times2 (f6_base K) b).
Lemma t2_def x y : t2 x y = Ext2 (e0 x * e0 y + b * (e1 x * e1 y)) (e0 x * e1 y + e1 x * e0 y).
Proof. reflexivity. Qed.
Lemma f12_mul_assign_is s o : f12_mul_assign K s o = t2 s o.
Proof. rewrite t2_def. unfold f12_mul_assign. code. e2. f_equal; ring. Qed.
Lemma times12_comm s o : t2 s o = t2 o s.
Proof. rewrite !t2_def. e2. f_equal; ring. Qed.
Lemma f12_mul_is s o : f12_mul K s o = t2 s o.
Proof. unfold f12_mul. rewrite f12_mul_assign_is. apply times12_comm. Qed.
Lemma f12_mul_assign_mul s o : f12_mul_assign K s o = f12_mul K s o.
Proof. rewrite f12_mul_is. apply f12_mul_assign_is. Qed.
Lemma f12_square_is s : f12_square_assign K s = f12_mul K s s.
Proof. rewrite f12_mul_is, t2_def. unfold f12_square_assign. code. e2. f_equal; ring. Qed.
Lemma f12_eq (s o : ext2 E) : e0 s = e0 o -> e1 s = e1 o -> s = o.
Proof. e2. intros -> ->. reflexivity. Qed.
Lemma f12_ring : ring_theory (f12_zero K) (f12_one K) (f12_add K) (f12_mul K) (f12_sub K) (f12_neg K) eq.
Proof.
  constructor; intros; try rewrite !f12_mul_is, ?t2_def; rewrite ?t2_def; unfold f12_zero, f12_one, f12_add, f12_sub, f12_neg; e2; f_equal; ring.
Qed.
Lemma f12_eqb_iff s o : f12_eqb K s o = true <-> s = o.
Proof.
  unfold f12_eqb. rewrite !andb_true_iff, !(f6_eqb_iff K HF). e2. split; [intros [-> ->]; reflexivity|intros X; split; [exact (f_equal e0 X)|exact (f_equal e1 X)]].
Qed.
Lemma f12_mul_by_014_is s c0 c1 c4 : f12_mul_by_014 K s c0 c1 c4 = f12_mul K s (Ext2 (Ext3 c0 c1 (f2_zero K)) (Ext3 (f2_zero K) c4 (f2_zero K))).
Proof.
  rewrite f12_mul_is, t2_def. unfold f12_mul_by_014. cbv zeta. rewrite (f6_mul_by_1_is K HF H2), !(f6_mul_by_01_is K HF H2), (f6_nonresidue_is K HF H2).
  replace (Ext3 c0 (f2_add K c1 c4) (f2_zero K)) with (Ext3 c0 c1 (f2_zero K) + Ext3 (f2_zero K) c4 (f2_zero K)).
  - e2. f_equal; ring.
  - pose proof (f2_ring K HF) as R. unfold f6_add. cbn [h0 h1 h2]. rewrite (Radd_0_l R), (Radd_comm R), (Radd_0_l R). reflexivity.
Qed.
Lemma scale6 s c : f6_mul K s (Ext3 c (f2_zero K) (f2_zero K)) = Ext3 (f2_mul K (h0 s) c) (f2_mul K (h1 s) c) (f2_mul K (h2 s) c).
Proof.
  pose proof (f2_ring K HF) as R. rewrite (f6_mul_is K HF H2), t3_def. destruct s as [x y z]. cbn [h0 h1 h2].
  assert (M : forall x, f2_mul K x (f2_zero K) = f2_zero K) by (intros w; rewrite (Rmul_comm R); apply (ARmul_0_l (Rth_ARth (Eqsth _) (Eq_ext _ _ _) R))).
  assert (A : forall x, f2_add K x (f2_zero K) = x) by (intros w; rewrite (Radd_comm R); apply (Radd_0_l R)).
  repeat rewrite ?M, ?A, ?(Radd_0_l R). reflexivity.
Qed.
Lemma f12_mul_by_034_is s c0 c3 c4 : f12_mul_by_034 K s c0 c3 c4 = f12_mul K s (Ext2 (Ext3 c0 (f2_zero K) (f2_zero K)) (Ext3 c3 c4 (f2_zero K))).
Proof.
  rewrite f12_mul_is, t2_def. unfold f12_mul_by_034. cbv zeta. rewrite <- scale6, !(f6_mul_by_01_is K HF H2), (f6_nonresidue_is K HF H2).
  replace (Ext3 (f2_add K c0 c3) c4 (f2_zero K)) with (Ext3 c0 (f2_zero K) (f2_zero K) + Ext3 c3 c4 (f2_zero K)).
  - e2. f_equal; ring.
  - pose proof (f2_ring K HF) as R. unfold f6_add. cbn [h0 h1 h2]. rewrite !(Radd_0_l R). reflexivity.
Qed.
Hypothesis N : forall x, x * x <> b.
Lemma f12_is_field : is_field (f12_base K).
Proof.
  assert (Z : forall x y, x * x - b * (y * y) = 0 -> x = 0 /\ y = 0).
  { intros x y E. destruct (a_eq_dec _ H y 0) as [->|Y].
    - split; [|reflexivity]. destruct (a_prod _ H x x) as [X|X]; try exact X. cbn [f6_base bmul bzero]. rewrite <- E. ring.
    - exfalso. apply (N (binv (f6_base K) y * x)). pose proof (a_inv _ H y Y) as I. cbn [f6_base bmul bone] in I. set (i := binv (f6_base K) y) in *. 
      transitivity (i * i * (x * x - b * (y * y)) + b * (i * y) * (i * y)); [ring|]. rewrite E, I. ring. }
  apply make_field; cbn [f12_base bzero bone badd bmul bsub bopp bsquare binvert beqb].
  - exact f12_ring.
  - intros X. apply (f_equal e0) in X. cbn [f12_one f12_zero e0] in X. exact (a_one _ H X).
  - intros x. apply f12_square_is.
  - intros x y I. unfold f12_invert in I. revert I. code. destruct (f6_invert K _) as [t|] eqn:J; intros I; [|discriminate I]. injection I as <-. apply (a_some _ H) in J. cbn [f6_base bmul bone] in J.
    rewrite f12_mul_is, t2_def. unfold f12_one. rewrite !(f6_mul_assign_mul K HF H2). cbn [e0 e1]. f_equal; [rewrite <- J|]; ring.
  - intros x. unfold f12_invert. code. split.
    + destruct (f6_invert K _) as [t|] eqn:I; [intros X; discriminate X|]. intros _. apply (a_none _ H) in I. apply Z in I. apply f12_eq; apply I.
    + intros ->. cbn [f12_zero e0 e1]. replace (0 * 0 - b * (0 * 0)) with 0 by ring. replace (f6_invert K 0) with (@None E); [reflexivity|]. symmetry. apply (fd_invert _ H). reflexivity.
  - exact f12_eqb_iff.
Qed.
End Twelve.
