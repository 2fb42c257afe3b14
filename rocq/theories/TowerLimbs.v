(** The extension fields and the pairing on limb vectors follow those on field
    values, as CurveLimbs shows for the curve arithmetic. *)
From Coq Require Import ZArith List Bool Lia.
From Verif Require Import Base LimbModel CurveModel CurveLimbs TowerModel PairingModel.
Import ListNotations.

Definition rel2 {A B} (R : A -> B -> Prop) (x : ext2 A) (y : ext2 B) : Prop := R (e0 x) (e0 y) /\ R (e1 x) (e1 y).
Definition rel3 {A B} (R : A -> B -> Prop) (x : ext3 A) (y : ext3 B) : Prop := R (h0 x) (h0 y) /\ R (h1 x) (h1 y) /\ R (h2 x) (h2 y).
Lemma nth_rel {A B} (R : A -> B -> Prop) l m d d' n : Forall2 R l m -> R d d' -> R (nth n l d) (nth n m d').
Proof. intros H D. revert n. induction H as [|x y l m X _ IH]; intros [|n]; cbn [nth]; auto. Qed.

Section Simulation.
Context {A B : Type}.
Variables (K : base A) (L : base B) (R : A -> B -> Prop).
Hypothesis H : follows K L R.
Ltac rel := repeat first [assumption | apply (f_zero _ _ _ H) | apply (f_one _ _ _ H) | apply (f_add _ _ _ H) | apply (f_sub _ _ _ H) | apply (f_mul _ _ _ H) | apply (f_opp _ _ _ H) | apply (f_square _ _ _ H)].
Local Notation R2 := (rel2 R).
Local Notation R6 := (rel3 (rel2 R)).
Local Notation R12 := (rel2 (rel3 (rel2 R))).
Local Notation K2 := (f2_base K). Local Notation L2 := (f2_base L).

(** Fq2 *)
Ltac go2 := intros; repeat match goal with X : R2 _ _ |- _ => destruct X as (? & ?) end; split; cbn [e0 e1]; unfold bdouble; rel.
Lemma zero2 : R2 (f2_zero K) (f2_zero L). Proof. unfold f2_zero. go2. Qed.
Lemma one2 : R2 (f2_one K) (f2_one L). Proof. unfold f2_one. go2. Qed.
Lemma mul_assign2 x y a c : R2 x a -> R2 y c -> R2 (f2_mul_assign K x y) (f2_mul_assign L a c). Proof. unfold f2_mul_assign. cbv zeta. go2. Qed.
Lemma mul2 x y a c : R2 x a -> R2 y c -> R2 (f2_mul K x y) (f2_mul L a c). Proof. intros X Y. apply mul_assign2; assumption. Qed.
Lemma square2 x a : R2 x a -> R2 (f2_square_assign K x) (f2_square_assign L a). Proof. unfold f2_square_assign. cbv zeta. go2. Qed.
Lemma double2 x a : R2 x a -> R2 (f2_double K x) (f2_double L a). Proof. unfold f2_double. go2. Qed.
Lemma add2 x y a c : R2 x a -> R2 y c -> R2 (f2_add K x y) (f2_add L a c). Proof. unfold f2_add. go2. Qed.
Lemma sub2 x y a c : R2 x a -> R2 y c -> R2 (f2_sub K x y) (f2_sub L a c). Proof. unfold f2_sub. go2. Qed.
Lemma neg2 x a : R2 x a -> R2 (f2_neg K x) (f2_neg L a). Proof. unfold f2_neg. go2. Qed.
Lemma conjugate2 x a : R2 x a -> R2 (f2_conjugate K x) (f2_conjugate L a). Proof. unfold f2_conjugate. go2. Qed.
Lemma nonresidue2 x a : R2 x a -> R2 (f2_nonresidue K x) (f2_nonresidue L a). Proof. unfold f2_nonresidue, f2_double. cbv zeta. cbn [e0 e1]. go2. Qed.
Lemma frobenius2 t t' i x a : Forall2 R t t' -> R2 x a -> R2 (f2_frobenius K t i x) (f2_frobenius L t' i a).
Proof. intros T [X Y]. split; cbn [e0 e1 f2_frobenius]; rel. apply nth_rel; [exact T|rel]. Qed.
Lemma invert2 x a : R2 x a -> orel R2 (f2_invert K x) (f2_invert L a).
Proof.
  intros [X Y]. unfold f2_invert. cbv zeta. pose proof (f_invert _ _ _ H (badd K (bsquare K (e0 x)) (bsquare K (e1 x))) (badd L (bsquare L (e0 a)) (bsquare L (e1 a)))) as I.
  unfold orel in *. destruct (binvert K _), (binvert L _); try (exfalso; apply I; rel; fail); [|exact Logic.I]. assert (V : R a0 b) by (apply I; rel). split; cbn [e0 e1]; rel.
Qed.
Lemma eqb2 x y a c : R2 x a -> R2 y c -> f2_eqb K x y = f2_eqb L a c.
Proof. intros [X X'] [Y Y']. unfold f2_eqb. rewrite (f_eqb _ _ _ H _ _ _ _ X Y), (f_eqb _ _ _ H _ _ _ _ X' Y'). reflexivity. Qed.
Lemma is_zero2 x a : R2 x a -> f2_is_zero K x = f2_is_zero L a.
Proof. intros [X Y]. unfold f2_is_zero. rewrite (zero_rel _ _ _ H _ _ X), (zero_rel _ _ _ H _ _ Y). reflexivity. Qed.
Theorem follows2 : follows K2 L2 R2.
Proof. constructor; [exact zero2|exact one2|exact add2|exact sub2|exact mul2|exact neg2|exact square2|exact invert2|exact eqb2]. Qed.
Lemma pow_bits2 n e : forall x res a c, R2 x a -> R2 res c -> R2 (f2_pow_bits K n e x res) (f2_pow_bits L n e a c).
Proof.
  induction n as [|n IH]; intros x res a c X Y; cbn [f2_pow_bits]; [exact Y|]. cbv zeta. apply IH; [exact X|]. destruct (Z.testbit e (Z.of_nat n)); [apply mul2; [apply square2; exact Y|exact X]|apply square2; exact Y].
Qed.
Lemma pow2 x a e : R2 x a -> R2 (f2_pow K x e) (f2_pow L a e).
Proof. intros X. unfold f2_pow. cbv zeta. repeat (apply pow_bits2; [exact X|]). exact one2. Qed.
Lemma sqrt2 t t' m m' x a : Forall2 R t t' -> R m m' -> R2 x a -> orel R2 (f2_sqrt K t m x) (f2_sqrt L t' m' a).
Proof.
  intros T M X. unfold f2_sqrt. rewrite (is_zero2 _ _ X). destruct (f2_is_zero L a); [exact zero2|]. cbv zeta.
  set (e := L4 0x4f082305b61f3f51 0x65e05aa45a1c72a3 0x6e14116da0605617 0x0c19139cb84c680a). set (e' := L4 0x9e10460b6c3e7ea3 0xcbc0b548b438e546 0xdc2822db40c0ac2e 0x183227397098d014).
  pose proof (pow2 x a e X) as P. set (y := f2_pow K x e) in *. set (c := f2_pow L a e) in *.
  pose proof (mul_assign2 _ _ _ _ (square2 _ _ P) X) as Q. set (z := f2_mul_assign K (f2_square_assign K y) x) in *. set (d := f2_mul_assign L (f2_square_assign L c) a) in *.
  assert (N : R2 (Ext2 m (bzero K)) (Ext2 m' (bzero L))) by (split; cbn [e0 e1]; rel).
  rewrite (eqb2 _ _ _ _ (mul_assign2 _ _ _ _ (frobenius2 t t' 1 _ _ T Q) Q) N). destruct (f2_eqb L (f2_mul_assign L (f2_frobenius L t' 1 d) d) (Ext2 m' (bzero L))); [exact Logic.I|].
  rewrite (eqb2 _ _ _ _ Q N). destruct (f2_eqb L d (Ext2 m' (bzero L))); cbn [orel].
  - apply mul_assign2; [apply mul_assign2; assumption|]. split; cbn [e0 e1]; rel.
  - apply mul_assign2; [apply mul_assign2; assumption|]. apply pow2. apply add2; [exact Q|exact one2].
Qed.

(** Fq6 *)
Ltac rel2t := repeat match goal with
  | X : ?G |- ?G => exact X
  | |- rel2 R (f2_zero _) _ => apply zero2
  | |- rel2 R (f2_one _) _ => apply one2
  | |- rel2 R (f2_add _ _ _) _ => apply add2
  | |- rel2 R (f2_sub _ _ _) _ => apply sub2
  | |- rel2 R (f2_mul _ _ _) _ => apply mul2
  | |- rel2 R (f2_mul_assign _ _ _) _ => apply mul_assign2
  | |- rel2 R (f2_neg _ _) _ => apply neg2
  | |- rel2 R (f2_square_assign _ _) _ => apply square2
  | |- rel2 R (f2_nonresidue _ _) _ => apply nonresidue2
  | |- rel2 R (f2_double _ _) _ => apply double2
  end.
Ltac go6 := intros; repeat match goal with X : R6 _ _ |- _ => destruct X as (? & ? & ?) end; split; [|split]; cbn [h0 h1 h2]; rel2t.
Lemma zero6 : R6 (f6_zero K) (f6_zero L). Proof. unfold f6_zero. go6. Qed.
Lemma one6 : R6 (f6_one K) (f6_one L). Proof. unfold f6_one. go6. Qed.
Lemma mul_assign6 x y a c : R6 x a -> R6 y c -> R6 (f6_mul_assign K x y) (f6_mul_assign L a c). Proof. unfold f6_mul_assign. cbv zeta. go6. Qed.
Lemma mul6 x y a c : R6 x a -> R6 y c -> R6 (f6_mul K x y) (f6_mul L a c). Proof. intros X Y. apply mul_assign6; assumption. Qed.
Lemma square6 x a : R6 x a -> R6 (f6_square_assign K x) (f6_square_assign L a). Proof. unfold f6_square_assign. cbv zeta. go6. Qed.
Lemma double6 x a : R6 x a -> R6 (f6_double K x) (f6_double L a). Proof. unfold f6_double. go6. Qed.
Lemma add6 x y a c : R6 x a -> R6 y c -> R6 (f6_add K x y) (f6_add L a c). Proof. unfold f6_add. go6. Qed.
Lemma sub6 x y a c : R6 x a -> R6 y c -> R6 (f6_sub K x y) (f6_sub L a c). Proof. unfold f6_sub. go6. Qed.
Lemma neg6 x a : R6 x a -> R6 (f6_neg K x) (f6_neg L a). Proof. unfold f6_neg. go6. Qed.
Lemma nonresidue6 x a : R6 x a -> R6 (f6_nonresidue K x) (f6_nonresidue L a). Proof. unfold f6_nonresidue. go6. Qed.
Lemma mul_by_1_6 x c a d : R6 x a -> R2 c d -> R6 (f6_mul_by_1 K x c) (f6_mul_by_1 L a d). Proof. unfold f6_mul_by_1. cbv zeta. go6. Qed.
Lemma mul_by_01_6 x c c' a d d' : R6 x a -> R2 c d -> R2 c' d' -> R6 (f6_mul_by_01 K x c c') (f6_mul_by_01 L a d d'). Proof. unfold f6_mul_by_01. cbv zeta. go6. Qed.
Lemma frobenius6 t t' u u' v v' i x a : Forall2 R t t' -> Forall2 R2 u u' -> Forall2 R2 v v' -> R6 x a -> R6 (f6_frobenius K t u v i x) (f6_frobenius L t' u' v' i a).
Proof.
  intros T U V (X & Y & Z). unfold f6_frobenius. cbv zeta. split; [|split]; cbn [h0 h1 h2]; rel2t; try (apply frobenius2; assumption); (apply nth_rel; [assumption|exact zero2]).
Qed.
Lemma invert6 x a : R6 x a -> orel R6 (f6_invert K x) (f6_invert L a).
Proof.
  intros (X & Y & Z). unfold f6_invert. cbv zeta.
  match goal with |- orel _ (match f2_invert K ?s with _ => _ end) (match f2_invert L ?s' with _ => _ end) => assert (S : R2 s s') by rel2t; pose proof (invert2 _ _ S) as I; destruct (f2_invert K s), (f2_invert L s') end;
    cbn [orel] in *; try contradiction; [|exact Logic.I]. split; [|split]; cbn [h0 h1 h2]; rel2t.
Qed.
Lemma eqb6 x y a c : R6 x a -> R6 y c -> f6_eqb K x y = f6_eqb L a c.
Proof. intros (X & X' & X'') (Y & Y' & Y''). unfold f6_eqb. rewrite (eqb2 _ _ _ _ X Y), (eqb2 _ _ _ _ X' Y'), (eqb2 _ _ _ _ X'' Y''). reflexivity. Qed.
Lemma is_zero6 x a : R6 x a -> f6_is_zero K x = f6_is_zero L a.
Proof. intros (X & Y & _). unfold f6_is_zero. rewrite (is_zero2 _ _ X), (is_zero2 _ _ Y). reflexivity. Qed.
Theorem follows6 : follows (f6_base K) (f6_base L) R6.
Proof. constructor; [exact zero6|exact one6|exact add6|exact sub6|exact mul6|exact neg6|exact square6|exact invert6|exact eqb6]. Qed.

(** Fq12 *)
Ltac rel6t := repeat match goal with
  | X : ?G |- ?G => exact X
  | |- rel3 (rel2 R) (f6_zero _) _ => apply zero6
  | |- rel3 (rel2 R) (f6_one _) _ => apply one6
  | |- rel3 (rel2 R) (f6_add _ _ _) _ => apply add6
  | |- rel3 (rel2 R) (f6_sub _ _ _) _ => apply sub6
  | |- rel3 (rel2 R) (f6_mul _ _ _) _ => apply mul6
  | |- rel3 (rel2 R) (f6_mul_assign _ _ _) _ => apply mul_assign6
  | |- rel3 (rel2 R) (f6_neg _ _) _ => apply neg6
  | |- rel3 (rel2 R) (f6_square_assign _ _) _ => apply square6
  | |- rel3 (rel2 R) (f6_nonresidue _ _) _ => apply nonresidue6
  | |- rel3 (rel2 R) (f6_double _ _) _ => apply double6
  | |- rel3 (rel2 R) (f6_mul_by_1 _ _ _) _ => apply mul_by_1_6
  | |- rel3 (rel2 R) (f6_mul_by_01 _ _ _ _) _ => apply mul_by_01_6
  | |- rel2 R (f2_add _ _ _) _ => apply add2
  end.
Ltac go12 := intros; repeat match goal with X : R12 _ _ |- _ => destruct X as (? & ?) end; split; cbn [e0 e1]; rel6t.
Lemma zero12 : R12 (f12_zero K) (f12_zero L). Proof. unfold f12_zero. go12. Qed.
Lemma one12 : R12 (f12_one K) (f12_one L). Proof. unfold f12_one. go12. Qed.
Lemma mul_assign12 x y a c : R12 x a -> R12 y c -> R12 (f12_mul_assign K x y) (f12_mul_assign L a c). Proof. unfold f12_mul_assign. cbv zeta. go12. Qed.
Lemma mul12 x y a c : R12 x a -> R12 y c -> R12 (f12_mul K x y) (f12_mul L a c). Proof. intros X Y. apply mul_assign12; assumption. Qed.
Lemma square12 x a : R12 x a -> R12 (f12_square_assign K x) (f12_square_assign L a). Proof. unfold f12_square_assign. cbv zeta. go12. Qed.
Lemma add12 x y a c : R12 x a -> R12 y c -> R12 (f12_add K x y) (f12_add L a c). Proof. unfold f12_add. go12. Qed.
Lemma sub12 x y a c : R12 x a -> R12 y c -> R12 (f12_sub K x y) (f12_sub L a c). Proof. unfold f12_sub. go12. Qed.
Lemma neg12 x a : R12 x a -> R12 (f12_neg K x) (f12_neg L a). Proof. unfold f12_neg. go12. Qed.
Lemma conjugate12 x a : R12 x a -> R12 (f12_conjugate K x) (f12_conjugate L a). Proof. unfold f12_conjugate. go12. Qed.
Lemma mul_by_014_12 x c c' c'' a d d' d'' : R12 x a -> R2 c d -> R2 c' d' -> R2 c'' d'' -> R12 (f12_mul_by_014 K x c c' c'') (f12_mul_by_014 L a d d' d'').
Proof. unfold f12_mul_by_014. cbv zeta. go12. Qed.
Lemma mul_by_034_12 x c c' c'' a d d' d'' : R12 x a -> R2 c d -> R2 c' d' -> R2 c'' d'' -> R12 (f12_mul_by_034 K x c c' c'') (f12_mul_by_034 L a d d' d'').
Proof.
  intros (X & Y) C D E. pose proof X as (X0 & X1 & X2). unfold f12_mul_by_034. cbv zeta.
  assert (T : R6 (Ext3 (f2_mul K (h0 (e0 x)) c) (f2_mul K (h1 (e0 x)) c) (f2_mul K (h2 (e0 x)) c)) (Ext3 (f2_mul L (h0 (e0 a)) d) (f2_mul L (h1 (e0 a)) d) (f2_mul L (h2 (e0 a)) d))) by (split; [|split]; cbn [h0 h1 h2]; rel2t).
  split; cbn [e0 e1]; rel6t.
Qed.
Lemma frobenius12 t t' u u' v v' w w' i x a : Forall2 R t t' -> Forall2 R2 u u' -> Forall2 R2 v v' -> Forall2 R2 w w' -> R12 x a -> R12 (f12_frobenius K t u v w i x) (f12_frobenius L t' u' v' w' i a).
Proof.
  intros T U V W [X Y]. unfold f12_frobenius. cbv zeta. pose proof (frobenius6 _ _ _ _ _ _ i _ _ T U V X) as P. destruct (frobenius6 _ _ _ _ _ _ i _ _ T U V Y) as (P0 & P1 & P2).
  assert (N : R2 (nth (i mod 12) w (f2_zero K)) (nth (i mod 12) w' (f2_zero L))) by (apply nth_rel; [exact W|exact zero2]).
  split; cbn [e0 e1]; [exact P|]. split; [|split]; cbn [h0 h1 h2]; rel2t.
Qed.
Lemma invert12 x a : R12 x a -> orel R12 (f12_invert K x) (f12_invert L a).
Proof.
  intros (X & Y). unfold f12_invert. cbv zeta.
  match goal with |- orel _ (match f6_invert K ?s with _ => _ end) (match f6_invert L ?s' with _ => _ end) => assert (S : R6 s s') by rel6t; pose proof (invert6 _ _ S) as I; destruct (f6_invert K s) as [i1|], (f6_invert L s') as [i2|] end;
    cbn [orel] in *; try contradiction; [|exact Logic.I]. split; cbn [e0 e1]; rel6t.
Qed.
Lemma fp4_rel x y a c : R2 x a -> R2 y c -> R2 (fst (fp4_square K x y)) (fst (fp4_square L a c)) /\ R2 (snd (fp4_square K x y)) (snd (fp4_square L a c)).
Proof. intros X Y. unfold fp4_square. cbv zeta. cbn [fst snd]. split; rel2t. Qed.
Lemma cyclotomic_square12 x a : R12 x a -> R12 (f12_cyclotomic_square K x) (f12_cyclotomic_square L a).
Proof.
  intros ((X0 & X1 & X2) & (Y0 & Y1 & Y2)). unfold f12_cyclotomic_square. cbv zeta.
  destruct (fp4_rel _ _ _ _ X0 Y1) as [P0 P1]. destruct (fp4_rel _ _ _ _ Y0 X2) as [Q0 Q1]. destruct (fp4_rel _ _ _ _ X1 Y2) as [S0 S1].
  destruct (fp4_square K (h0 (e0 x)) (h1 (e1 x))) as [p1 p2], (fp4_square L (h0 (e0 a)) (h1 (e1 a))) as [p3 p4], (fp4_square K (h0 (e1 x)) (h2 (e0 x))) as [p5 p6], (fp4_square L (h0 (e1 a)) (h2 (e0 a))) as [p7 p8], (fp4_square K (h1 (e0 x)) (h2 (e1 x))) as [p9 p10], (fp4_square L (h1 (e0 a)) (h2 (e1 a))) as [p11 p12].
  cbn [fst snd] in *. split; cbn [e0 e1]; (split; [|split]); cbn [h0 h1 h2]; rel2t.
Qed.
Lemma eqb12 x y a c : R12 x a -> R12 y c -> f12_eqb K x y = f12_eqb L a c.
Proof. intros (X & X') (Y & Y'). unfold f12_eqb. rewrite (eqb6 _ _ _ _ X Y), (eqb6 _ _ _ _ X' Y'). reflexivity. Qed.
Lemma is_zero12 x a : R12 x a -> f12_is_zero K x = f12_is_zero L a.
Proof. intros (X & Y). unfold f12_is_zero. rewrite (is_zero6 _ _ X), (is_zero6 _ _ Y). reflexivity. Qed.
Theorem follows12 : follows (f12_base K) (f12_base L) R12.
Proof. constructor; [exact zero12|exact one12|exact add12|exact sub12|exact mul12|exact neg12|exact square12|exact invert12|exact eqb12]. Qed.

(** The pairing *)
Record trel (t : tables A) (t' : tables B) : Prop := {
  tr_2 : Forall2 R (t_2 t) (t_2 t'); tr_6a : Forall2 R2 (t_6a t) (t_6a t'); tr_6b : Forall2 R2 (t_6b t) (t_6b t'); tr_12 : Forall2 R2 (t_12 t) (t_12 t'); tr_half : R2 (t_half t) (t_half t') }.
Variables (t : tables A) (t' : tables B).
Hypothesis T : trel t t'.
Lemma frob_rel i x a : R12 x a -> R12 (frob12 K t i x) (frob12 L t' i a).
Proof. intros X. apply frobenius12; apply T || exact X. Qed.
Lemma exp_rel x a : R12 x a -> R12 (exp_by_x K x) (exp_by_x L a).
Proof.
  intros X. unfold exp_by_x. assert (G : forall l y c, R12 y c -> R12 (fold_left (fun res i => let res := f12_cyclotomic_square K res in if Z.testbit bn_x (Z.of_nat i) then f12_mul_assign K res x else res) l y) (fold_left (fun res i => let res := f12_cyclotomic_square L res in if Z.testbit bn_x (Z.of_nat i) then f12_mul_assign L res a else res) l c)).
  { induction l as [|i l IH]; intros y c Y; [exact Y|]. cbn [fold_left]. apply IH. cbv zeta. destruct (Z.testbit bn_x (Z.of_nat i)); [apply mul_assign12; [|exact X]|]; apply cyclotomic_square12; exact Y. }
  apply G. exact one12.
Qed.
Definition rrel {X Y} (P : X -> Y -> Prop) (x : res X) (y : res Y) : Prop := match x, y with Ok x, Ok y => P x y | Panic, Panic => True | _, _ => False end.
Ltac rel12t := repeat match goal with
  | X : ?G |- ?G => exact X
  | |- rel2 (rel3 (rel2 R)) (f12_mul_assign _ _ _) _ => apply mul_assign12
  | |- rel2 (rel3 (rel2 R)) (f12_conjugate _ _) _ => apply conjugate12
  | |- rel2 (rel3 (rel2 R)) (f12_cyclotomic_square _ _) _ => apply cyclotomic_square12
  | |- rel2 (rel3 (rel2 R)) (frob12 _ _ _ _) _ => apply frob_rel
  | |- rel2 (rel3 (rel2 R)) (exp_by_x _ _) _ => apply exp_rel
  end.
Theorem final_rel x a : R12 x a -> rrel R12 (final_exponentiation K t x) (final_exponentiation L t' a).
Proof.
  intros X. unfold final_exponentiation. pose proof (invert12 _ _ X) as I. destruct (f12_invert K x) as [y|], (f12_invert L a) as [c|]; cbn [orel] in I; try contradiction; [|exact Logic.I]. cbv zeta. cbn [rrel].
  set (r := f12_mul_assign K (frob12 K t 2 (f12_mul_assign K (f12_conjugate K x) y)) (f12_mul_assign K (f12_conjugate K x) y)).
  set (s := f12_mul_assign L (frob12 L t' 2 (f12_mul_assign L (f12_conjugate L a) c)) (f12_mul_assign L (f12_conjugate L a) c)).
  assert (Rr : R12 r s) by (unfold r, s; rel12t). clearbody r s.
  pose proof (exp_rel _ _ Rr) as E1. set (u := exp_by_x K r) in *. set (v := exp_by_x L s) in *. pose proof (exp_rel _ _ E1) as E2. set (u2 := exp_by_x K u) in *. set (v2 := exp_by_x L v) in *.
  pose proof (exp_rel _ _ E2) as E3. set (u3 := exp_by_x K u2) in *. set (v3 := exp_by_x L v2) in *. clearbody u v u2 v2 u3 v3. rel12t.
Qed.
Definition lrel (c : line A) (d : line B) : Prop := R2 (l0 c) (l0 d) /\ R2 (l1 c) (l1 d) /\ R2 (l2 c) (l2 d).
Definition steprel (x : jac (ext2 A) * line A) (y : jac (ext2 B) * line B) : Prop := jrel R2 (fst x) (fst y) /\ lrel (snd x) (snd y).
Lemma doubling_rel r s : jrel R2 r s -> steprel (doubling_step K r) (doubling_step L s).
Proof.
  intros (X & Y & Z). unfold doubling_step, steprel, lrel, jrel. cbv zeta. cbn [fst snd jx jy jz l0 l1 l2]. refine (conj (conj _ (conj _ _)) (conj _ (conj _ _))); rel2t.
Qed.
Lemma addition_rel r s q p : jrel R2 r s -> arel R2 q p -> steprel (addition_step K r q) (addition_step L s p).
Proof.
  intros (X & Y & Z) (V & W). unfold addition_step, steprel, lrel, jrel. cbv zeta. cbn [fst snd jx jy jz l0 l1 l2]. refine (conj (conj _ (conj _ _)) (conj _ (conj _ _))); rel2t.
Qed.
Lemma prepare_rel q p q' p' digits : arel R2 q p -> arel R2 q' p' -> forall r s, jrel R2 r s ->
  Forall2 lrel (fst (prepare_loop K q q' digits r)) (fst (prepare_loop L p p' digits s)) /\ jrel R2 (snd (prepare_loop K q q' digits r)) (snd (prepare_loop L p p' digits s)).
Proof.
  intros X X'. induction digits as [|x digits IH]; intros r s J; cbn [prepare_loop]; [split; [constructor|exact J]|].
  destruct (doubling_rel _ _ J) as [D1 D2]. destruct (doubling_step K r) as [r1 l], (doubling_step L s) as [s1 m]. cbn [fst snd] in D1, D2.
  destruct (Z.eqb x 1); [|destruct (Z.eqb x (-1))].
  - destruct (addition_rel _ _ _ _ D1 X) as [E1 E2]. destruct (addition_step K r1 q) as [r2 l'], (addition_step L s1 p) as [s2 m']. cbn [fst snd] in E1, E2.
    destruct (IH _ _ E1) as [F1 F2]. destruct (prepare_loop K q q' digits r2), (prepare_loop L p p' digits s2). cbn [fst snd] in *. split; [constructor; [exact D2|constructor; [exact E2|exact F1]]|exact F2].
  - destruct (addition_rel _ _ _ _ D1 X') as [E1 E2]. destruct (addition_step K r1 q') as [r2 l'], (addition_step L s1 p') as [s2 m']. cbn [fst snd] in E1, E2.
    destruct (IH _ _ E1) as [F1 F2]. destruct (prepare_loop K q q' digits r2), (prepare_loop L p p' digits s2). cbn [fst snd] in *. split; [constructor; [exact D2|constructor; [exact E2|exact F1]]|exact F2].
  - destruct (IH _ _ D1) as [F1 F2]. destruct (prepare_loop K q q' digits r1), (prepare_loop L p p' digits s1). cbn [fst snd] in *. split; [constructor; [exact D2|exact F1]|exact F2].
Qed.
Definition prel (x : prepared A) (y : prepared B) : Prop := Forall2 lrel (coeffs x) (coeffs y) /\ infinity x = infinity y.
Lemma from_affine_rel q p : arel R2 q p -> prel (from_affine K t q) (from_affine L t' p).
Proof.
  intros X. unfold from_affine. rewrite (aff_identity_rel _ _ _ follows2 _ _ X). destruct (aff_is_identity L2 p); [split; [constructor|reflexivity]|].
  destruct (prepare_rel _ _ _ _ loop_digits X (aff_neg_rel _ _ _ follows2 _ _ X) _ _ (to_curve_rel _ _ _ follows2 _ _ X)) as [F1 F2].
  destruct (prepare_loop K q _ loop_digits _) as [ls r], (prepare_loop L p _ loop_digits _) as [ms s]. cbn [fst snd] in F1, F2. destruct X as [X Y].
  match goal with |- context [addition_step K r ?q1] => match goal with |- context [addition_step L s ?p1] => assert (E : arel R2 q1 p1) end end.
  { split; cbn [ax ay]; apply mul_assign2; try (apply conjugate2; assumption); [apply nth_rel; [apply T|exact zero2]|apply T]. }
  destruct (addition_rel _ _ _ _ F2 E) as [E1 E2]. destruct (addition_step K r _) as [r1 l], (addition_step L s _) as [s1 m]. cbn [fst snd] in E1, E2. clear E.
  match goal with |- context [addition_step K r1 ?q1] => match goal with |- context [addition_step L s1 ?p1] => assert (E : arel R2 q1 p1) end end.
  { split; cbn [ax ay]; [|exact Y]. apply mul_assign2; [exact X|]. apply nth_rel; [apply T|exact zero2]. }
  destruct (addition_rel _ _ _ _ E1 E) as [G1 G2]. destruct (addition_step K r1 _) as [r2 l'], (addition_step L s1 _) as [s2 m']. cbn [fst snd] in G1, G2.
  split; cbn [coeffs infinity]; [|reflexivity]. apply Forall2_app; [exact F1|constructor; [exact E2|constructor; [exact G2|constructor]]].
Qed.
Lemma ell_rel f g c d p q : R12 f g -> lrel c d -> arel R p q -> R12 (ell K f c p) (ell L g d q).
Proof.
  intros X ((C0 & C0') & (C1 & C1') & C2) (P & Q). unfold ell. cbv zeta. apply mul_by_034_12; [exact X| | |exact C2]; split; cbn [e0 e1]; rel.
Qed.
Definition pcrel (x : aff A * list (line A)) (y : aff B * list (line B)) : Prop := arel R (fst x) (fst y) /\ Forall2 lrel (snd x) (snd y).
Definition srel (x : ext2 (ext3 (ext2 A)) * list (aff A * list (line A))) (y : ext2 (ext3 (ext2 B)) * list (aff B * list (line B))) : Prop := R12 (fst x) (fst y) /\ Forall2 pcrel (snd x) (snd y).
Lemma ell_all_rel ps qs : Forall2 pcrel ps qs -> forall f g, R12 f g -> rrel srel (ell_all K f ps) (ell_all L g qs).
Proof.
  induction 1 as [|[p cs] [q ds] ps qs [P C] _ IH]; intros f g X; [split; [exact X|constructor]|]. cbn [fst snd] in P, C. cbn [ell_all].
  destruct C as [|c d cs ds Y C]; [exact Logic.I|]. specialize (IH _ _ (ell_rel _ _ _ _ _ _ X Y P)). destruct (ell_all K (ell K f c p) ps) as [[f' ps']|], (ell_all L (ell L g d q) qs) as [[g' qs']|]; cbn [rrel] in *; try contradiction; [|exact Logic.I].
  destruct IH as [I1 I2]. split; cbn [fst snd] in *; [exact I1|]. constructor; [split; assumption|exact I2].
Qed.
Lemma miller_rel digits : forall first f g ps qs, R12 f g -> Forall2 pcrel ps qs -> rrel srel (miller_loop K digits first f ps) (miller_loop L digits first g qs).
Proof.
  induction digits as [|x digits IH]; intros first f g ps qs X P; cbn [miller_loop]; [split; assumption|].
  assert (X' : R12 (if first then f else f12_square_assign K f) (if first then g else f12_square_assign L g)) by (destruct first; [exact X|apply square12; exact X]).
  pose proof (ell_all_rel _ _ P _ _ X') as E. destruct (ell_all K _ ps) as [[f1 ps1]|], (ell_all L _ qs) as [[g1 qs1]|]; cbn [rrel] in E; try contradiction; [|exact Logic.I]. destruct E as [E1 E2]. cbn [fst snd] in E1, E2.
  destruct (Z.eqb x 1 || Z.eqb x (-1)); [|apply IH; assumption].
  pose proof (ell_all_rel _ _ E2 _ _ E1) as F. destruct (ell_all K f1 ps1) as [[f2 ps2]|], (ell_all L g1 qs1) as [[g2 qs2]|]; cbn [rrel] in F; try contradiction; [|exact Logic.I]. destruct F as [F1 F2]. apply IH; assumption.
Qed.
Theorem multi_rel ps qs : Forall2 (fun x y => arel R (fst x) (fst y) /\ prel (snd x) (snd y)) ps qs -> rrel R12 (multi_miller_loop K ps) (multi_miller_loop L qs).
Proof.
  intros H0. unfold multi_miller_loop.
  assert (P : Forall2 pcrel (map (fun pq => (fst pq, coeffs (snd pq))) (filter (fun pq => negb (aff_is_identity K (fst pq)) && negb (infinity (snd pq))) ps))
    (map (fun pq => (fst pq, coeffs (snd pq))) (filter (fun pq => negb (aff_is_identity L (fst pq)) && negb (infinity (snd pq))) qs))).
  { induction H0 as [|x y ps qs (X & C & I) _ IH]; [constructor|]. cbn [filter]. rewrite (aff_identity_rel _ _ _ H _ _ X), I. destruct (negb _ && negb _); [|exact IH]. cbn [map]. constructor; [split; assumption|exact IH]. }
  pose proof (miller_rel loop_digits true _ _ _ _ one12 P) as E. destruct (miller_loop K _ _ _ _) as [[f1 ps1]|], (miller_loop L _ _ _ _) as [[g1 qs1]|]; cbn [rrel] in E; try contradiction; [|exact Logic.I]. destruct E as [E1 E2]. cbn [fst snd] in E1, E2.
  pose proof (ell_all_rel _ _ E2 _ _ E1) as F. destruct (ell_all K f1 ps1) as [[f2 ps2]|], (ell_all L g1 qs1) as [[g2 qs2]|]; cbn [rrel] in F; try contradiction; [|exact Logic.I]. destruct F as [F1 F2]. cbn [fst snd] in F1, F2.
  pose proof (ell_all_rel _ _ F2 _ _ F1) as G. destruct (ell_all K f2 ps2) as [[f3 ps3]|], (ell_all L g2 qs2) as [[g3 qs3]|]; cbn [rrel] in G; try contradiction; [|exact Logic.I]. destruct G as [G1 G2]. cbn [fst snd] in G1, G2.
  replace (forallb (fun pc : aff A * list (line A) => match snd pc with [] => true | _ => false end) ps3) with (forallb (fun pc : aff B * list (line B) => match snd pc with [] => true | _ => false end) qs3).
  - destruct (forallb _ qs3); [exact G1|exact Logic.I].
  - clear - G2. induction G2 as [|x y ps qs [_ X] _ IH]; [reflexivity|]. cbn [forallb]. rewrite IH. destruct X; reflexivity.
Qed.
Theorem pairing_rel p q p' q' : arel R p q -> arel R2 p' q' -> rrel R12 (pairing K t p p') (pairing L t' q q').
Proof.
  intros P Q. unfold pairing. pose proof (multi_rel [(p, from_affine K t p')] [(q, from_affine L t' q')]) as M.
  destruct (multi_miller_loop K _), (multi_miller_loop L _); cbn [rrel] in M; try (exfalso; apply M; constructor; [split; cbn [fst snd]; [exact P|apply from_affine_rel; exact Q]|constructor]); [|exact Logic.I].
  apply final_rel. apply M. constructor; [|constructor]. split; cbn [fst snd]; [exact P|apply from_affine_rel; exact Q].
Qed.
End Simulation.
