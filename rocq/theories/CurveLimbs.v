(** The curve arithmetic on limb vectors follows the arithmetic on field values:
    the macro's functions over two base fields whose operations correspond give
    corresponding results. *)
From Coq Require Import ZArith List Bool Lia.
From Verif Require Import Base CurveModel.
Import ListNotations.

Section Simulation.
Context {A B : Type}.
Variables (K : base A) (L : base B) (R : A -> B -> Prop).
Definition orel (x : option A) (y : option B) : Prop := match x, y with Some x, Some y => R x y | None, None => True | _, _ => False end.
Record follows : Prop := {
  f_zero : R (bzero K) (bzero L); f_one : R (bone K) (bone L);
  f_add : forall x y a c, R x a -> R y c -> R (badd K x y) (badd L a c);
  f_sub : forall x y a c, R x a -> R y c -> R (bsub K x y) (bsub L a c);
  f_mul : forall x y a c, R x a -> R y c -> R (bmul K x y) (bmul L a c);
  f_opp : forall x a, R x a -> R (bopp K x) (bopp L a);
  f_square : forall x a, R x a -> R (bsquare K x) (bsquare L a);
  f_invert : forall x a, R x a -> orel (binvert K x) (binvert L a);
  f_eqb : forall x y a c, R x a -> R y c -> beqb K x y = beqb L a c
}.
Hypothesis H : follows.
Definition jrel (p : jac A) (q : jac B) : Prop := R (jx p) (jx q) /\ R (jy p) (jy q) /\ R (jz p) (jz q).
Definition arel (p : aff A) (q : aff B) : Prop := R (ax p) (ax q) /\ R (ay p) (ay q).
Variables (b : A) (b' : B).
Hypothesis Hb : R b b'.

Ltac rel := repeat first [assumption | apply (f_zero H) | apply (f_one H) | apply (f_add H) | apply (f_sub H) | apply (f_mul H) | apply (f_opp H) | apply (f_square H)].
Ltac test := repeat match goal with |- orb _ _ = orb _ _ => apply f_equal2 | |- andb _ _ = andb _ _ => apply f_equal2 end; try reflexivity; apply (f_eqb H); rel.
Ltac cases := match goal with |- context [if ?c then _ else _] => match c with context [if _ then _ else _] => fail 1 | _ => destruct c end end.
Ltac start := cbn [jx jy jz ax ay]; repeat match goal with
  | p : jac A |- _ => destruct p as [?x ?y ?z] | p : jac B |- _ => destruct p as [?x ?y ?z] | p : aff A |- _ => destruct p as [?x ?y] | p : aff B |- _ => destruct p as [?x ?y] end;
  repeat match goal with X : jrel _ _ |- _ => destruct X as (? & ? & ?) | X : arel _ _ |- _ => destruct X as (? & ?) end; cbn [jx jy jz ax ay] in *.

Lemma zero_rel x a : R x a -> bis_zero K x = bis_zero L a.
Proof. intros X. unfold bis_zero. apply (f_eqb H); rel. Qed.
Lemma identity_rel p q : jrel p q -> jac_is_identity K p = jac_is_identity L q.
Proof. intros (_ & _ & X). apply zero_rel. exact X. Qed.
Lemma aff_identity_rel p q : arel p q -> aff_is_identity K p = aff_is_identity L q.
Proof. intros (X & Y). unfold aff_is_identity. rewrite (zero_rel _ _ X), (zero_rel _ _ Y). reflexivity. Qed.
Lemma jac_identity_rel : jrel (jac_identity K) (jac_identity L).
Proof. repeat split; apply (f_zero H). Qed.
Lemma aff_id_rel : arel (aff_identity K) (aff_identity L).
Proof. repeat split; apply (f_zero H). Qed.
Lemma to_curve_rel p q : arel p q -> jrel (aff_to_curve K p) (aff_to_curve L q).
Proof. intros X. unfold aff_to_curve. rewrite (aff_identity_rel _ _ X). destruct X as [X Y]. repeat split; try assumption. cbn [jz]. destruct (aff_is_identity L q); rel. Qed.
Lemma jac_eq_rel p q p' q' : jrel p p' -> jrel q q' -> jac_eq K p q = jac_eq L p' q'.
Proof.
  intros X Y. unfold jac_eq. cbv zeta. rewrite (identity_rel _ _ X), (identity_rel _ _ Y). start. test.
Qed.
Lemma aff_eq_rel p q p' q' : arel p p' -> arel q q' -> aff_eq K p q = aff_eq L p' q'.
Proof.
  intros X Y. unfold aff_eq. rewrite (aff_identity_rel _ _ X), (aff_identity_rel _ _ Y). start. test.
Qed.
Lemma on_curve_rel p q : jrel p q -> jac_on_curve K b p = jac_on_curve L b' q.
Proof. intros X. unfold jac_on_curve. cbv zeta. start. rewrite (zero_rel z z0) by assumption. test. Qed.
Lemma aff_on_curve_rel p q : arel p q -> aff_on_curve K b p = aff_on_curve L b' q.
Proof. intros X. unfold aff_on_curve. rewrite (aff_identity_rel _ _ X). start. test. Qed.
Lemma neg_rel p q : jrel p q -> jrel (jac_neg K p) (jac_neg L q).
Proof. intros X. start; repeat split; cbn [jac_neg jx jy jz]; rel. Qed.
Lemma aff_neg_rel p q : arel p q -> arel (aff_neg K p) (aff_neg L q).
Proof. intros X. start. repeat split; cbn [aff_neg ax ay]; rel. Qed.
Lemma double_rel p q : jrel p q -> jrel (jac_double K p) (jac_double L q).
Proof.
  intros X. unfold jac_double. rewrite (identity_rel _ _ X). cbv zeta. destruct (jac_is_identity L q); [apply jac_identity_rel|]. start.
  repeat split; cbn [jx jy jz]; rel.
Qed.
Lemma add_rel p q p' q' : jrel p p' -> jrel q q' -> jrel (jac_add K p q) (jac_add L p' q').
Proof.
  intros X Y. pose proof (double_rel _ _ X) as D. unfold jac_add. rewrite (identity_rel _ _ X), (identity_rel _ _ Y).
  destruct (jac_is_identity L p'); [exact Y|]. destruct (jac_is_identity L q'); [exact X|]. cbv zeta.
  rewrite (f_eqb H (bmul K (jx p) (bsquare K (jz q))) (bmul K (jx q) (bsquare K (jz p))) (bmul L (jx p') (bsquare L (jz q'))) (bmul L (jx q') (bsquare L (jz p')))) by (destruct X as (? & ? & ?), Y as (? & ? & ?); rel).
  rewrite (f_eqb H (bmul K (bmul K (jy p) (bsquare K (jz q))) (jz q)) (bmul K (bmul K (jy q) (bsquare K (jz p))) (jz p))
    (bmul L (bmul L (jy p') (bsquare L (jz q'))) (jz q')) (bmul L (bmul L (jy q') (bsquare L (jz p'))) (jz p'))) by (destruct X as (? & ? & ?), Y as (? & ? & ?); rel).
  repeat cases; [exact D|apply jac_identity_rel|]. start. repeat split; cbn [jx jy jz]; rel.
Qed.
Lemma add_mixed_rel p q p' q' : jrel p p' -> arel q q' -> jrel (jac_add_mixed K p q) (jac_add_mixed L p' q').
Proof.
  intros X Y. pose proof (double_rel _ _ X) as D. pose proof (to_curve_rel _ _ Y) as C. unfold jac_add_mixed. rewrite (identity_rel _ _ X), (aff_identity_rel _ _ Y).
  destruct (jac_is_identity L p'); [exact C|]. destruct (aff_is_identity L q'); [exact X|]. cbv zeta.
  rewrite (f_eqb H (jx p) (bmul K (ax q) (bsquare K (jz p))) (jx p') (bmul L (ax q') (bsquare L (jz p')))) by (destruct X as (? & ? & ?), Y as (? & ?); rel).
  rewrite (f_eqb H (jy p) (bmul K (bmul K (ay q) (bsquare K (jz p))) (jz p)) (jy p') (bmul L (bmul L (ay q') (bsquare L (jz p'))) (jz p'))) by (destruct X as (? & ? & ?), Y as (? & ?); rel).
  repeat cases; [exact D|apply jac_identity_rel|]. start. repeat split; cbn [jx jy jz]; rel.
Qed.
Lemma aff_add_rel p q p' q' : arel p p' -> arel q q' -> jrel (aff_add K p q) (aff_add L p' q').
Proof.
  intros X Y. pose proof (to_curve_rel _ _ X) as C. pose proof (to_curve_rel _ _ Y) as C'. pose proof (double_rel _ _ C) as D. unfold aff_add. rewrite (aff_identity_rel _ _ X), (aff_identity_rel _ _ Y).
  destruct (aff_is_identity L p'); [exact C'|]. destruct (aff_is_identity L q'); [exact C|]. cbv zeta.
  rewrite (f_eqb H (ax p) (ax q) (ax p') (ax q')) by (destruct X as (? & ?), Y as (? & ?); rel).
  rewrite (f_eqb H (ay p) (ay q) (ay p') (ay q')) by (destruct X as (? & ?), Y as (? & ?); rel).
  repeat cases; [exact D|apply jac_identity_rel|]. start. repeat split; cbn [jx jy jz]; rel.
Qed.
Lemma to_affine_rel p q : jrel p q -> arel (jac_to_affine K p) (jac_to_affine L q).
Proof.
  intros X. unfold jac_to_affine. cbv zeta.
  assert (Z : R (match binvert K (jz p) with Some z => z | None => bzero K end) (match binvert L (jz q) with Some z => z | None => bzero L end)).
  { pose proof (f_invert H _ _ (proj2 (proj2 X))) as I. unfold orel in I. destruct (binvert K (jz p)), (binvert L (jz q)); try contradiction; rel. }
  revert Z. generalize (match binvert K (jz p) with Some z => z | None => bzero K end) (match binvert L (jz q) with Some z => z | None => bzero L end). intros z z' Z.
  rewrite (zero_rel _ _ Z). destruct (bis_zero L z'); [apply aff_id_rel|]. destruct X as (? & ? & ?). split; cbn [ax ay]; rel.
Qed.
Lemma sum_rel_from l : forall l' p p', Forall2 jrel l l' -> jrel p p' -> jrel (fold_left (jac_add K) l p) (fold_left (jac_add L) l' p').
Proof.
  induction l as [|x l IH]; intros l' p p' X Y; inversion X; subst; cbn [fold_left]; [exact Y|]. apply IH; [assumption|]. apply add_rel; assumption.
Qed.
Lemma sum_rel l l' : Forall2 jrel l l' -> jrel (jac_sum K l) (jac_sum L l').
Proof. intros X. apply sum_rel_from; [exact X|]. apply jac_identity_rel. Qed.
Lemma mul_rel p p' repr : jrel p p' -> jrel (jac_mul K p repr) (jac_mul L p' repr).
Proof.
  intros X. unfold jac_mul. generalize (scalar_bits repr) (jac_identity K) (jac_identity L) jac_identity_rel. intros l. induction l as [|d l IH]; intros a a' Y; cbn [fold_left]; [exact Y|].
  apply IH. cbv zeta. destruct d; [apply add_rel; [|exact X]|]; apply double_rel; exact Y.
Qed.
Lemma aff_mul_rel p p' repr : arel p p' -> jrel (aff_mul K p repr) (aff_mul L p' repr).
Proof.
  intros X. unfold aff_mul. generalize (scalar_bits repr) (jac_identity K) (jac_identity L) jac_identity_rel. intros l. induction l as [|d l IH]; intros a a' Y; cbn [fold_left]; [exact Y|].
  apply IH. cbv zeta. destruct d; [apply add_mixed_rel; [|exact X]|]; apply double_rel; exact Y.
Qed.
Lemma forth_rel l : forall l' a a', Forall2 jrel l l' -> R a a' ->
  Forall2 R (fst (normal_forth K a l)) (fst (normal_forth L a' l')) /\ R (snd (normal_forth K a l)) (snd (normal_forth L a' l')).
Proof.
  induction l as [|p l IH]; intros l' a a' X Y; inversion X as [|? q ? l2 P Q]; subst; cbn [normal_forth fst snd]; [split; [constructor|exact Y]|].
  rewrite (identity_rel _ _ P). cbv zeta.
  assert (Z : R (if jac_is_identity L q then a else bmul K a (jz p)) (if jac_is_identity L q then a' else bmul L a' (jz q))).
  { destruct P as (? & ? & ?). destruct (jac_is_identity L q); rel. }
  destruct (IH l2 _ _ Q Z) as [U V]. destruct (normal_forth K _ l) as [qs s]. destruct (normal_forth L _ l2) as [qs' s']. cbn [fst snd] in *. split; [constructor; assumption|exact V].
Qed.
Lemma back_rel l : forall l' qs qs' a a', Forall2 jrel l l' -> Forall2 R qs qs' -> R a a' -> Forall2 arel (normal_back K a l qs) (normal_back L a' l' qs').
Proof.
  induction l as [|p l IH]; intros l' qs qs' a a' X Y Z; inversion X as [|? q ? l2 P Q]; subst; cbn [normal_back]; [constructor|].
  inversion Y as [|x x' ? ? U V]; subst; [constructor|]. cbv zeta. rewrite (identity_rel _ _ P). destruct P as (? & ? & ?). constructor.
  - destruct (jac_is_identity L q); [apply aff_id_rel|]. split; cbn [ax ay]; rel.
  - apply IH; [assumption|assumption|]. destruct (jac_is_identity L q); rel.
Qed.
Lemma rev_rel {X Y : Type} (S : X -> Y -> Prop) l l' : Forall2 S l l' -> Forall2 S (rev l) (rev l').
Proof. intros F. induction F; cbn [rev]; [constructor|]. apply Forall2_app; [assumption|]. constructor; [assumption|constructor]. Qed.
Lemma rel_length {X Y : Type} (S : X -> Y -> Prop) l l' : Forall2 S l l' -> length l = length l'.
Proof. intros F. induction F; cbn [length]; [reflexivity|f_equal; assumption]. Qed.
Lemma normalize_rel l l' n : Forall2 jrel l l' ->
  match batch_normalize K l n, batch_normalize L l' n with Ok q, Ok q' => Forall2 arel q q' | Panic, Panic => True | _, _ => False end.
Proof.
  intros X. unfold batch_normalize. rewrite (rel_length _ _ _ X). destruct (Nat.eqb (length l') n); [|exact I].
  destruct (forth_rel l l' _ _ X (f_one H)) as [U V]. destruct (normal_forth K (bone K) l) as [qs s]. destruct (normal_forth L (bone L) l') as [qs' s']. cbn [fst snd] in *.
  pose proof (f_invert H _ _ V) as I. unfold orel in I. destruct (binvert K s), (binvert L s'); try contradiction; [|exact Logic.I].
  apply rev_rel, back_rel; [apply rev_rel; exact X|apply rev_rel; exact U|exact I].
Qed.
End Simulation.
