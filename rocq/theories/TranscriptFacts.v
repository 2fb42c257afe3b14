(** Reading and writing transcripts. *)
From Coq Require Import ZArith List Bool Arith Lia.
From Verif Require Import Base Moduli Field FieldFacts LimbModel LimbSpec LimbFacts LimbField LimbBytes LimbConst SerdeModel SerdeSpec SerdeFacts PointFacts
  TranscriptModel.
Import ListNotations.
Local Open Scope Z_scope.

Lemma app_eq_len {A} (a b c d : list A) : length a = length c -> a ++ b = c ++ d -> a = c /\ b = d.
Proof.
  revert c. induction a as [|x a IH]; intros [|y c] L E; try discriminate; [auto|]. cbn [app] in E. injection E as -> E.
  destruct (IH c) as [-> ->]; auto.
Qed.

(** ** Challenges *)
Lemma challenge_value d : Forall byte d -> length d = 64%nat -> challenge_scalar d = Ok (of_Z r_pos (le_int d)).
Proof.
  intros F L. unfold challenge_scalar. pose proof (from_bytes_wide_ok fr_params r_pos good_fr d F L) as R.
  rewrite (to_from fr_params r_pos good_fr _ _ R). f_equal. apply fr_value_rep, R.
Qed.

(** ** Single steps *)
Lemma point_on_curve p (x y : Fq) : g1_point p x y -> is_on_curve p = true.
Proof.
  intros (X & Y & C). apply (rep_iff q_pos) in X. apply (rep_iff q_pos) in Y. apply (is_on_curve_ok p x y X Y). tauto.
Qed.
Lemma point_bytes_length p (x y : Fq) : g1_point p x y -> length (point_bytes p) = 65%nat.
Proof.
  intros (X & Y & _). apply (rep_iff q_pos) in X. apply (rep_iff q_pos) in Y. unfold point_bytes. rewrite !app_length.
  destruct (to_repr_ok fq_params q_pos good_q _ _ X) as (-> & _). destruct (to_repr_ok fq_params q_pos good_q _ _ Y) as (-> & _). reflexivity.
Qed.
Lemma scalar_repr_length s : length (to_repr fr_params (fr_limbs s)) = 32%nat.
Proof. apply (to_repr_ok fr_params r_pos good_fr _ _ (fr_limbs_rep s)). Qed.
Lemma scalar_bytes_length s : length (scalar_bytes s) = 33%nat.
Proof. unfold scalar_bytes. rewrite app_length, scalar_repr_length. reflexivity. Qed.
Lemma repr_inj P p (H : good P p) x y : (exists a, rep p x a) -> (exists a, rep p y a) -> to_repr P x = to_repr P y -> x = y.
Proof.
  intros (a & A) (b & B) E. pose proof (to_from P p H x a A) as X. pose proof (to_from P p H y b B) as Y. rewrite E in X. congruence.
Qed.
Lemma point_bytes_inj p q (x y x' y' : Fq) : g1_point p x y -> g1_point q x' y' -> point_bytes p = point_bytes q -> p = q.
Proof.
  intros (X & Y & _) (X' & Y' & _) E. apply (rep_iff q_pos) in X. apply (rep_iff q_pos) in Y. apply (rep_iff q_pos) in X'. apply (rep_iff q_pos) in Y'.
  unfold point_bytes in E. apply app_eq_len in E; [|reflexivity]. destruct E as [_ E]. apply app_eq_len in E.
  2:{ rewrite (proj1 (to_repr_ok fq_params q_pos good_q _ _ X)), (proj1 (to_repr_ok fq_params q_pos good_q _ _ X')). reflexivity. }
  destruct E as [E1 E2]. destruct p as [px py], q as [qx qy]. cbn [g1_x g1_y] in *. f_equal; eapply (repr_inj fq_params q_pos good_q); eauto.
Qed.
Lemma scalar_bytes_inj s t : scalar_bytes s = scalar_bytes t -> s = t.
Proof.
  intros E. unfold scalar_bytes in E. apply app_eq_len in E; [|reflexivity]. destruct E as [_ E]. apply (repr_inj fr_params r_pos good_fr) in E; [|eauto using fr_limbs_rep..].
  rewrite <- (fr_value_rep _ _ (fr_limbs_rep s)), <- (fr_value_rep _ _ (fr_limbs_rep t)), E. reflexivity.
Qed.

Lemma read_bytes_app n c rest st : length c = n -> read_bytes n st (c ++ rest) = TOk c st rest.
Proof. intros L. unfold read_bytes. rewrite (reads_exact_n n c L rest). reflexivity. Qed.
Lemma read_bytes_inv n st b c st' rest : read_bytes n st b = TOk c st' rest -> st' = st /\ b = c ++ rest /\ length c = n.
Proof.
  unfold read_bytes, read_exact. destruct (length b <? n)%nat eqn:E; [discriminate|]. intros [= <- <- <-].
  apply Nat.ltb_ge in E. repeat split; [symmetry; apply firstn_skipn|apply firstn_length_le, E].
Qed.
Lemma read_point_ok p (x y : Fq) st rest : g1_point p x y ->
  read_point st (g1_to_bytes p ++ rest) = TOk p (st ++ point_bytes p) rest.
Proof.
  intros H. unfold read_point, tbind at 1. rewrite read_bytes_app.
  2:{ destruct H as (X & Y & _). apply (rep_iff q_pos) in X. apply (rep_iff q_pos) in Y. eapply to_bytes_length; eassumption. }
  rewrite (g1_round p x y H). unfold tbind, common_point. rewrite (point_on_curve p x y H). reflexivity.
Qed.
Lemma read_point_inv st b p st' rest : Forall byte b -> read_point st b = TOk p st' rest ->
  exists x y, g1_point p x y /\ b = g1_to_bytes p ++ rest /\ st' = st ++ point_bytes p.
Proof.
  intros F. unfold read_point, tbind at 1. destruct (read_bytes 32 st b) as [c st1 b1| |] eqn:E; try discriminate.
  apply read_bytes_inv in E as (-> & -> & L). apply Forall_app in F as [F _].
  destruct (g1_from_bytes c) as [q|] eqn:Eq; [|discriminate]. destruct (g1_decode_sound c q F L Eq) as (x & y & Hp & Ec).
  unfold tbind, common_point, tret. rewrite (point_on_curve q x y Hp). intros [= <- <- <-].
  exists x, y. rewrite Ec. auto.
Qed.
Lemma read_scalar_ok s st rest : read_scalar st (to_repr fr_params (fr_limbs s) ++ rest) = TOk s (st ++ scalar_bytes s) rest.
Proof.
  unfold read_scalar, tbind at 1. rewrite read_bytes_app by apply scalar_repr_length.
  rewrite (to_from fr_params r_pos good_fr _ _ (fr_limbs_rep s)). cbv zeta. rewrite (fr_value_rep _ _ (fr_limbs_rep s)). reflexivity.
Qed.
Lemma read_scalar_inv st b s st' rest : Forall byte b -> read_scalar st b = TOk s st' rest ->
  b = to_repr fr_params (fr_limbs s) ++ rest /\ st' = st ++ scalar_bytes s.
Proof.
  intros F. unfold read_scalar, tbind at 1. destruct (read_bytes 32 st b) as [c st1 b1| |] eqn:E; try discriminate.
  apply read_bytes_inv in E as (-> & -> & L). apply Forall_app in F as [F _].
  pose proof (from_repr_ok fr_params r_pos good_fr c F L) as K. destruct (from_repr fr_params c) as [x|] eqn:Ex; [|discriminate].
  destruct K as (_ & R). cbv zeta. unfold tbind, common_scalar, tret. rewrite (fr_value_rep _ _ R). intros [= <- <- <-]. split; [|reflexivity].
  f_equal. rewrite (rep_inj r_pos _ _ _ (fr_limbs_rep _) R). symmetry. exact (from_to fr_params r_pos good_fr c x F L Ex).
Qed.

(** ** Whole transcripts: [t] absorbs [n] bytes and reads [m], what it absorbs
    determines what it read, and what follows does not matter *)
Record exactly {A} (t : transcript A) (n m : nat) : Prop := {
  ex_sizes : forall st b a st' rest, Forall byte b -> t st b = TOk a st' rest ->
    exists s c, st' = st ++ s /\ b = c ++ rest /\ length s = n /\ length c = m;
  ex_binds : forall st b1 b2 a1 a2 st' r1 r2, Forall byte b1 -> Forall byte b2 ->
    t st b1 = TOk a1 st' r1 -> t st b2 = TOk a2 st' r2 -> a1 = a2 /\ exists c, b1 = c ++ r1 /\ b2 = c ++ r2 }.
Definition local {A} (t : transcript A) : Prop := forall st b a st' rest, t st b = TOk a st' rest ->
  exists c, b = c ++ rest /\ forall rest', t st (c ++ rest') = TOk a st' rest'.

Lemma exactly_ret {A} (a : A) : exactly (tret a) 0 0.
Proof.
  split; [intros st b a' st' rest _ [= <- <- <-]; exists [], []; rewrite app_nil_r; auto|].
  intros st b1 b2 a1 a2 st' r1 r2 _ _ [= <- <- <-] [= <- <-]. split; [reflexivity|exists []; auto].
Qed.
Lemma exactly_fail {A} n m : exactly (fun _ _ => @TErr A) n m.
Proof. split; discriminate. Qed.
Lemma exactly_panic {A} n m : exactly (fun _ _ => @TPanic A) n m.
Proof. split; discriminate. Qed.
Lemma exactly_lift {A} (r : res A) : exactly (tlift r) 0 0.
Proof. destruct r as [a|]; [exact (exactly_ret a)|apply exactly_panic]. Qed.
Lemma exactly_bind {A B} (t : transcript A) (f : A -> transcript B) n m n' m' :
  exactly t n m -> (forall a, exactly (f a) n' m') -> exactly (tbind t f) (n + n') (m + m').
Proof.
  intros T F. unfold tbind. split.
  - intros st b a st' rest Fb H. destruct (t st b) as [x st1 b1| |] eqn:E; try discriminate.
    destruct (ex_sizes _ _ _ T _ _ _ _ _ Fb E) as (s & c & -> & -> & L1 & L2). apply Forall_app in Fb as [_ Fb].
    destruct (ex_sizes _ _ _ (F x) _ _ _ _ _ Fb H) as (s' & c' & -> & -> & L3 & L4).
    exists (s ++ s'), (c ++ c'). rewrite !app_assoc, !app_length. auto.
  - intros st b1 b2 a1 a2 st' r1 r2 F1 F2 H1 H2.
    destruct (t st b1) as [x1 s1 q1| |] eqn:E1; try discriminate. destruct (t st b2) as [x2 s2 q2| |] eqn:E2; try discriminate.
    destruct (ex_sizes _ _ _ T _ _ _ _ _ F1 E1) as (u1 & c1 & -> & P1 & L1 & _).
    destruct (ex_sizes _ _ _ T _ _ _ _ _ F2 E2) as (u2 & c2 & -> & P2 & L2 & _).
    assert (G1 : Forall byte q1) by (rewrite P1 in F1; apply Forall_app in F1; tauto).
    assert (G2 : Forall byte q2) by (rewrite P2 in F2; apply Forall_app in F2; tauto).
    destruct (ex_sizes _ _ _ (F x1) _ _ _ _ _ G1 H1) as (v1 & d1 & Q1 & _).
    destruct (ex_sizes _ _ _ (F x2) _ _ _ _ _ G2 H2) as (v2 & d2 & Q2 & _).
    rewrite Q1, <- !app_assoc in Q2. apply app_inv_head in Q2. apply app_eq_len in Q2; [|congruence]. destruct Q2 as [-> ->].
    destruct (ex_binds _ _ _ T _ _ _ _ _ _ _ _ F1 F2 E1 E2) as (-> & c & -> & ->).
    destruct (ex_binds _ _ _ (F x2) _ _ _ _ _ _ _ _ G1 G2 H1 H2) as (-> & d & -> & ->). split; [reflexivity|].
    exists (c ++ d). rewrite !app_assoc. auto.
Qed.
Lemma exactly_eq {A} (t : transcript A) n m n' m' : exactly t n m -> n = n' -> m = m' -> exactly t n' m'.
Proof. congruence. Qed.
Lemma exactly_repeat {A} (t : transcript A) n m k : exactly t n m -> exactly (trepeat k t) (k * n) (k * m).
Proof.
  intros T. induction k as [|k IH]; [apply exactly_ret|]. cbn [trepeat Nat.mul]. apply exactly_bind; [exact T|]. intros x.
  eapply exactly_eq; [apply exactly_bind; [exact IH|intros l; apply exactly_ret]|lia|lia].
Qed.
Lemma exactly_point : exactly read_point 65 32.
Proof.
  split.
  - intros st b p st' rest F H. destruct (read_point_inv _ _ _ _ _ F H) as (x & y & Hp & -> & ->).
    exists (point_bytes p), (g1_to_bytes p). split; [reflexivity|]. split; [reflexivity|]. split; [eapply point_bytes_length, Hp|].
    destruct Hp as (X & Y & _). apply (rep_iff q_pos) in X. apply (rep_iff q_pos) in Y. eapply to_bytes_length; eassumption.
  - intros st b1 b2 p1 p2 st' r1 r2 F1 F2 H1 H2.
    destruct (read_point_inv _ _ _ _ _ F1 H1) as (x1 & y1 & P1 & -> & ->).
    destruct (read_point_inv _ _ _ _ _ F2 H2) as (x2 & y2 & P2 & -> & E).
    apply app_inv_head in E. pose proof (point_bytes_inj _ _ _ _ _ _ P1 P2 E) as ->. split; [reflexivity|eauto].
Qed.
Lemma exactly_scalar : exactly read_scalar 33 32.
Proof.
  split.
  - intros st b s st' rest F H. destruct (read_scalar_inv _ _ _ _ _ F H) as (-> & ->).
    exists (scalar_bytes s), (to_repr fr_params (fr_limbs s)). split; [reflexivity|]. split; [reflexivity|]. split; [apply scalar_bytes_length|apply scalar_repr_length].
  - intros st b1 b2 p1 p2 st' r1 r2 F1 F2 H1 H2.
    destruct (read_scalar_inv _ _ _ _ _ F1 H1) as (-> & ->).
    destruct (read_scalar_inv _ _ _ _ _ F2 H2) as (-> & E).
    apply app_inv_head in E. apply scalar_bytes_inj in E. subst. split; [reflexivity|eauto].
Qed.
Lemma exactly_squeeze hash : exactly (squeeze hash) 1 0.
Proof.
  unfold squeeze. split.
  - intros st b c st' rest _. destruct (challenge_scalar _); [|discriminate]. intros [= <- <- <-]. exists [PREFIX_CHALLENGE], []. auto.
  - intros st b1 b2 c1 c2 st' r1 r2 _ _. destruct (challenge_scalar _); [|discriminate]. intros [= <- <- <-] [= <- <-].
    split; [reflexivity|exists []; auto].
Qed.
Lemma exactly_common s : exactly (common_scalar s) 33 0.
Proof.
  unfold common_scalar. split.
  - intros st b u st' rest _ [= <- <- <-]. exists (scalar_bytes s), []. split; [reflexivity|]. split; [reflexivity|]. split; [apply scalar_bytes_length|reflexivity].
  - intros st b1 b2 c1 c2 st' r1 r2 _ _ [= <- <- <-] [= <- <-]. split; [reflexivity|exists []; auto].
Qed.

Lemma local_ret {A} (a : A) : local (tret a).
Proof. intros st b a' st' rest [= <- <- <-]. exists []. auto. Qed.
Lemma local_fail {A} : local (fun _ _ => @TErr A).
Proof. discriminate. Qed.
Lemma local_panic {A} : local (fun _ _ => @TPanic A).
Proof. discriminate. Qed.
Lemma local_lift {A} (r : res A) : local (tlift r).
Proof. destruct r as [a|]; [exact (local_ret a)|apply local_panic]. Qed.
Lemma local_bind {A B} (t : transcript A) (f : A -> transcript B) : local t -> (forall a, local (f a)) -> local (tbind t f).
Proof.
  intros T F st b a st' rest. unfold tbind. destruct (t st b) as [x s1 b1| |] eqn:E; try discriminate. intros H.
  destruct (T _ _ _ _ _ E) as (c & -> & Tc). destruct (F _ _ _ _ _ _ H) as (d & -> & Fd). exists (c ++ d). rewrite app_assoc. split; [reflexivity|].
  intros rest'. rewrite <- app_assoc, Tc. apply Fd.
Qed.
Lemma local_repeat {A} (t : transcript A) k : local t -> local (trepeat k t).
Proof.
  intros T. induction k as [|k IH]; [apply local_ret|]. cbn [trepeat]. apply local_bind; [exact T|]. intros x.
  apply local_bind; [exact IH|]. intros l. apply local_ret.
Qed.
Lemma local_bytes n : local (read_bytes n).
Proof.
  intros st b c st' rest H. apply read_bytes_inv in H as (-> & -> & L). exists c. split; [reflexivity|]. intros. apply read_bytes_app, L.
Qed.
Lemma local_common s : local (common_scalar s).
Proof. intros st b u st' rest [= <- <- <-]. exists []. auto. Qed.
Lemma local_point : local read_point.
Proof.
  unfold read_point. apply local_bind; [apply local_bytes|]. intros b. destruct (g1_from_bytes b) as [p|]; [|apply local_fail].
  apply local_bind; [|intros; apply local_ret]. intros st b' u st' rest. unfold common_point. destruct (is_on_curve p); [|discriminate].
  intros [= <- <- <-]. exists []. auto.
Qed.
Lemma local_scalar : local read_scalar.
Proof.
  unfold read_scalar. apply local_bind; [apply local_bytes|]. intros b. destruct (from_repr fr_params b); [|apply local_fail].
  cbv zeta. apply local_bind; [apply local_common|intros; apply local_ret].
Qed.
Lemma local_squeeze hash : local (squeeze hash).
Proof.
  intros st b c st' rest. unfold squeeze. destruct (challenge_scalar _); [|discriminate]. intros [= <- <- <-]. exists []. auto.
Qed.
