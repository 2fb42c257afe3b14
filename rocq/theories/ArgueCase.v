(** A group in which the whole argument can be run: the scalars themselves.  A
    point of the first group holds its scalar in a limb; a point of the second
    group holds its scalar in a limb of x and its sign in y. *)
From Coq Require Import ZArith List Bool Lia.
From Verif Require Import Base Moduli Field FieldFacts LimbModel LimbSpec PolyFacts SerdeModel VMModel CircuitSpec CircuitModel Halo2Model DomainModel VkModel SoundSpec IopModel IopRows IopKey IopClaims
  ArithSpec KzgModel ShplonkModel ShplonkSpec VerifierModel VerifierCases IopSpec ArgueSpec ArgueThms ArgueProject.
Import ListNotations IopSpec.
Local Open Scope nat_scope.

Definition put (a : Fr) : limbs := L4 (fval a) 0 0 0.
Definition get (x : limbs) : Fr := FrZ (l0 x).
Definition plus : limbs := L4 1 0 0 0.
Definition to_point (a : Fr) : g1 := G1 (put a) lzero.
Definition of_point (a : g1) : Fr := get (g1_x a).
Definition point2 (a : Fr) : g2 := G2 (Fq2 (put a) lzero) (Fq2 plus lzero).
Definition value2 (a : g2) : Fr := if leqb (c0 (g2_y a)) plus then get (c0 (g2_x a)) else (- get (c0 (g2_x a)))%F.
Definition times2 (s : Fr) (a : g2) : g2 := point2 (s * value2 a)%F.
Definition null (a : Fr) : bool := feqb a f0.
Definition sums (ps : list (Fr * g2)) : bool := feqb (fold_right (fun pq a => (fst pq * value2 (snd pq) + a)%F) f0 ps) f0.

Lemma get_put a : get (put a) = a.
Proof. unfold get, put, FrZ. cbn [l0]. apply of_Z_fval. Qed.
Lemma of_to_point a : of_point (to_point a) = a.
Proof. apply get_put. Qed.
Lemma value_point2 a : value2 (point2 a) = a.
Proof. unfold value2, point2. cbn [g2_x g2_y c0]. change (leqb plus plus) with true. cbv iota. apply get_put. Qed.
Lemma value_neg2 a : value2 (g2_neg (point2 a)) = (- a)%F.
Proof. unfold value2, point2, g2_neg, fq2_neg. cbn [g2_x g2_y c0]. change (leqb (lneg fq_params plus) plus) with false. cbv iota. rewrite get_put. reflexivity. Qed.
Lemma sums_pairing : is_pairing (fmul : Fr -> Fr -> Fr) times2 (point2 f1) (pairing_check null sums).
Proof.
  intros s l r. unfold pairing_check. cbn [filter fst snd].
  assert (I1 : forall a, g2_is_identity (point2 a) = false) by (intros a; unfold g2_is_identity; apply andb_false_r).
  assert (I2 : forall a, g2_is_identity (g2_neg (point2 a)) = false) by (intros a; unfold g2_is_identity; apply andb_false_r).
  unfold times2. rewrite value_point2, I1, I2, !andb_true_r.
  assert (W1 : value2 (point2 (s * f1)%F) = (s * f1)%F) by apply value_point2. assert (W2 : value2 (g2_neg (point2 f1)) = (- f1)%F) by apply value_neg2.
  assert (X : sums (filter (fun pq : Fr * g2 => negb (null (fst pq))) [(l, point2 (s * f1)%F); (r, g2_neg (point2 f1))]) = feqb (s * l - r)%F f0).
  { cbn [filter fst]. unfold sums, null. destruct (feqb l f0) eqn:El; destruct (feqb r f0) eqn:Er; cbn [negb fold_right fst snd]; rewrite ?W1, ?W2; f_equal;
      try (apply feqb_eq in El; subst l); try (apply feqb_eq in Er; subst r); fring. }
  cbn [filter fst] in X. destruct (negb (null l)), (negb (null r)); rewrite X, feqb_eq; split; intros H.
  all: try (rewrite H; fring).
  all: transitivity ((s * l - r) + r)%F; [fring|rewrite H; fring].
Qed.
Lemma one_not_zero : (f1 : Fr) <> f0.
Proof. intros E. apply (f_equal fval) in E. discriminate E. Qed.

Lemma small_argument : exists v fixed copies F S insts chs advice,
  insts = public_inputs (map FrZ [44; 43; 46]%Z) [97%Z] /\
  is_module (f0 : Fr) fadd fsub fmul /\ is_pairing (fmul : Fr -> Fr -> Fr) times2 (point2 f1) (pairing_check null sums) /\ (f1 : Fr) <> f0 /\
  (forall g, of_point (to_point g) = g) /\
  key_for v 9 fixed copies F S /\ orderly_queries v 512 /\ length chs = num_challenges (vk_cs v) /\ length insts = num_instance (vk_cs v) /\
  (forall l, In l insts -> (Z.of_nat (length l) <= 2 ^ 9)%Z) /\
  (forall i, length (F i) <= 512 /\ length (S i) <= 512 /\ length (advice i) <= 512) /\
  (Z.of_nat (scalars_count v) < 2 ^ 60)%Z /\ (Z.of_nat (need_y v + lookup_width (vk_cs v)) < 2 ^ 60)%Z /\
  satisfied (vk_cs v) copies (assigned 512 (d_omega (vk_domain v)) fixed advice insts chs) /\
  arguing f0 fadd fmul f1 times2 (point2 f1) of_point null sums v 9 insts chs F S advice.
Proof.
  destruct small_generated as (m & v & fixed & copies & F & S & insts & chs & advice & Ev & Ei & HK & Hc & HB & HL & SM & CV).
  destruct (keys_orderly _ _ _ _ _ Ev) as (OQ & SC & _); [lia|]. destruct (iop_sound v 9 fixed copies F S insts chs advice HK Hc HL CV) as [X Y].
  exists v, fixed, copies, F, S, insts, chs, advice. split; [exact Ei|]. split; [exact scalar_module|]. split; [exact sums_pairing|]. split; [exact one_not_zero|]. split; [exact of_to_point|].
  repeat (split; [assumption|]).
  exact (argue_complete f0 fadd fsub fmul f1 times2 (point2 f1) of_point null sums scalar_module sums_pairing v 9 fixed copies F S HK OQ insts chs to_point of_to_point SC advice Hc Y HL X
      (fun i => proj1 (HB i)) (fun i => proj1 (proj2 (HB i))) (fun i => proj2 (proj2 (HB i))) SM).
Qed.
