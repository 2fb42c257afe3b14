(** What the multi-opening argument does not show: everything can be opened by who
    knows the secret or chooses the parameters, and a second claim about the same
    commitment and point is not looked at. *)
From Coq Require Import ZArith List Arith Bool Lia Permutation.
From Verif Require Import Base Moduli Field FieldFacts AlgebraSpec LimbSpec DomainFacts ListFacts SelectorModel DomainModel IopModel PolyFacts IopPoly IopRows ArithModel ArithSpec ArithFacts MultiexpFacts
  TransformFacts KzgModel KzgFacts ArithThms ShplonkModel ShplonkSets ShplonkVerify.
Import ListNotations.
Local Open Scope F_scope.

Section Forge.
Context {G G2 T : Type}.
Variables (zero : G) (add sub : G -> G -> G) (scale : Fr -> G -> G).
Hypothesis M : is_module zero add sub scale.
Variable same : T -> T -> bool.
Hypothesis same_eq : forall a b, same a b = true <-> a = b.
Variable commitment : T -> reference G.
Variable pairing_check : G -> G2 -> G -> G2 -> bool.
Notation verify := (shplonk_verify same commitment zero add pairing_check).

Lemma inner_no_panic u points cs : NoDup points -> (forall c es, In (c, es) cs -> length es = length points) -> forall powers,
  exists mr, inner_terms commitment u points cs powers = Ok mr.
Proof.
  intros N. induction cs as [|[c es] cs IH]; intros H [|p powers]; cbn [inner_terms]; try (eexists; reflexivity).
  destruct (interpolate_ok points es N) as (q & Eq & _ & _); [symmetry; apply (H c es); left; reflexivity|]. cbn [snd]. rewrite Eq. cbn [bind].
  destruct (IH (fun c es I => H c es (or_intror I)) powers) as ([m r] & ->). cbn [bind]. eauto.
Qed.
Lemma outer_no_panic u y super sets : (forall s, In s sets -> well_formed s) ->
  (forall s, In s sets -> lprod (diffs super s) u <> f0) -> forall powers first, exists mr, outer_terms commitment u y super sets powers first = Ok mr.
Proof.
  induction sets as [|s sets IH]; intros W Z [|p powers] first; cbn [outer_terms]; try (eexists; reflexivity).
  fold (diffs super s). rewrite vanishing_is. destruct (W s (or_introl eq_refl)) as (N & NE & L).
  assert (E : exists zi, match first with
     | Some i => Ok (lprod (diffs super s) u * i, i)
     | None => match finvert (lprod (diffs super s) u) with Some i => Ok (f1, i) | None => Panic end end = Ok zi).
  { destruct first as [i|]; [eauto|]. unfold finvert. rewrite (proj2 (feqb_neq _ _) (Z s (or_introl eq_refl))). eauto. }
  destruct E as ([z i] & ->). cbn [bind].
  destruct (inner_no_panic u (rs_points s) (rs_commitments s) N L (powers_of (length (rs_commitments s)) y)) as ([m r] & ->). cbn [bind].
  destruct (rs_commitments s) as [|c cs]; [congruence|].
  destruct (IH (fun s I => W s (or_intror I)) (fun s I => Z s (or_intror I)) powers (Some i)) as ([m' r'] & ->). cbn [bind]. eauto.
Qed.
(** the decision as a function of the last point of the proof *)
Lemma verify_shape (p : srs G G2) qs y v h1 u : sr_g p <> [] -> ~ In u (map (fun q => snd (fst q)) qs) ->
  exists W, forall h2, verify p qs y v h1 u h2 = Ok (pairing_check h2 (sr_s_g2 p) (add W (scale u h2)) (sr_g2 p)).
Proof.
  intros Hgp Hu. destruct (intermediate_ok same same_eq qs) as (sets & super & Ei & Hg).
  unfold shplonk_verify, shplonk_sides. rewrite Ei. destruct (sr_g p) as [|g0 grest]; [congruence|]. cbn [bind].
  destruct (outer_no_panic u y super sets) with (powers := powers_of (length sets) v) (first := @None Fr) as ([m r] & E).
  - intros s Is. destruct (gs_set _ _ _ Hg s Is) as (N & _ & NE & _ & _ & L). repeat split; [exact N|exact NE|]. intros c es I. apply (L c es I).
  - intros s Is Z. apply lprod_zero, diffs_in in Z. apply Hu, (gs_super _ _ _ Hg), Z.
  - rewrite E. cbn [bind]. unfold dual_check. cbn [fst snd].
    set (z0 := match sets with [] => f0 | s :: _ => evaluate_vanishing_polynomial (rs_points s) u end).
    exists (add (mval zero add scale m) (add (scale (- r) g0) (scale (- z0) h1))). intros h2.
    rewrite !(msm_eval_is zero add sub scale M). cbn [bind]. do 2 f_equal.
    + rewrite mval_cons, (mod_one_scale _ _ _ _ M), (mod_comm _ _ _ _ M). apply (mod_zero _ _ _ _ M).
    + rewrite (mval_app zero add sub scale M), !mval_cons. change (mval zero add scale []) with zero.
      rewrite (mod_comm _ _ _ _ M (scale u h2) zero), (mod_zero _ _ _ _ M), !(mod_assoc _ _ _ _ M). reflexivity.
Qed.
Theorem forge_with_secret (p : srs G G2) s qs y v h1 u : sr_g p <> [] ->
  (forall l r, pairing_check l (sr_s_g2 p) r (sr_g2 p) = true <-> scale s l = r) ->
  ~ In u (map (fun q => snd (fst q)) qs) -> u <> s ->
  exists h2, verify p qs y v h1 u h2 = Ok true.
Proof.
  intros Hgp Hp Hu Hs. destruct (verify_shape p qs y v h1 u Hgp Hu) as (W & E).
  exists (scale (finv (s - u)) W). rewrite E. f_equal. apply Hp.
  assert (Z : s - u <> f0) by (apply fsub_nz; congruence). pose proof (fmul_finv _ Z) as Q. revert Q. generalize (finv (s - u)). intros i Q.
  rewrite <- !(mod_mul_scale _ _ _ _ M).
  transitivity (scale (f1 + u * i) W); [f_equal; rewrite <- Q; fring|].
  rewrite (mod_add_scale _ _ _ _ M), (mod_one_scale _ _ _ _ M). reflexivity.
Qed.
Theorem forge_with_parameters (p : srs G G2) qs y v h1 u h2 : sr_g p <> [] ->
  (forall l r, pairing_check l (sr_s_g2 p) r (sr_g2 p) = true) ->
  ~ In u (map (fun q => snd (fst q)) qs) -> verify p qs y v h1 u h2 = Ok true.
Proof. intros Hgp Hp Hu. destruct (verify_shape p qs y v h1 u Hgp Hu) as (W & E). rewrite E, Hp. reflexivity. Qed.

(** a second claim *)
Fixpoint lookup (c : T) (m : list (T * list Fr)) : list Fr :=
  match m with [] => [] | (c', s) :: m => if same c' c then s else lookup c m end.
Lemma lookup_add c p c' m : forall x, In x (lookup c' (add_point same c p m)) <-> In x (lookup c' m) \/ (c' = c /\ x = p).
Proof.
  intros x. induction m as [|[c1 s] m IH]; cbn [add_point lookup].
  - destruct (same c c') eqn:E.
    + apply same_eq in E. subst. cbn. intuition.
    + cbn. split; [tauto|]. intros [[]|[-> _]]. rewrite (proj2 (same_eq c c) eq_refl) in E. discriminate.
  - destruct (same c1 c) eqn:E; cbn [lookup].
    + apply same_eq in E. subst c1. destruct (same c c') eqn:E2.
      * apply same_eq in E2. subst c'. rewrite set_insert_in. intuition.
      * split; [auto|]. intros [H|[-> _]]; [exact H|]. rewrite (proj2 (same_eq c c) eq_refl) in E2. discriminate.
    + destruct (same c1 c') eqn:E2; [|exact IH]. apply same_eq in E2. subst c1. split; [auto|]. intros [H|[-> _]]; [exact H|].
      rewrite (proj2 (same_eq c c) eq_refl) in E. discriminate.
Qed.
Lemma lookup_sets qs c p : In (c, p) (map fst qs) -> In p (lookup c (commitment_sets same qs)).
Proof.
  unfold commitment_sets. assert (Q : forall m, In (c, p) (map fst qs) \/ In p (lookup c m) ->
    In p (lookup c (fold_left (fun m q => add_point same (fst (fst q)) (snd (fst q)) m) qs m))).
  { induction qs as [|[[c1 p1] e1] l IH]; intros m H; cbn [fold_left]; [destruct H as [[]|H]; exact H|].
    apply IH. cbn [fst snd]. destruct H as [H|H]; [|right; apply lookup_add; auto].
    cbn [map fst] in H. destruct H as [H|H]; [|left; exact H]. injection H as -> ->. right. apply lookup_add. auto. }
  intros H. apply Q. auto.
Qed.
Lemma set_insert_same x s : sorted s -> In x s -> set_insert x s = s.
Proof.
  induction 1 as [|z s H IH F]; intros I; [destruct I|]. cbn [set_insert]. rewrite Forall_forall in F. destruct I as [->|I].
  - rewrite Z.ltb_irrefl, (proj2 (feqb_eq x x) eq_refl). reflexivity.
  - specialize (F x I). destruct (Z.ltb_spec (fval x) (fval z)); [lia|]. destruct (feqb x z) eqn:E; [reflexivity|]. rewrite (IH I). reflexivity.
Qed.
Lemma add_point_same c p m : (forall c s, In (c, s) m -> sorted s) -> In p (lookup c m) -> add_point same c p m = m.
Proof.
  induction m as [|[c1 s] m IH]; intros H I; cbn [lookup] in I; [destruct I|]. cbn [add_point]. destruct (same c1 c).
  - rewrite set_insert_same; [reflexivity|apply (H c1 s); left; reflexivity|exact I].
  - rewrite IH; [reflexivity|intros; eapply H; right; eassumption|exact I].
Qed.
Lemma rmap_ext {A B} (f g : A -> res B) l : (forall a, In a l -> f a = g a) -> rmap f l = rmap g l.
Proof.
  induction l as [|a l IH]; intros H; [reflexivity|]. cbn [rmap]. rewrite (H a (or_introl eq_refl)), IH by (intros; apply H; right; assumption). reflexivity.
Qed.
Lemma intermediate_second qs c p e : In (c, p) (map fst qs) -> intermediate_sets same (qs ++ [(c, p, e)]) = intermediate_sets same qs.
Proof.
  intros I. unfold intermediate_sets. pose proof (commitment_sets_ok same same_eq qs) as (C1 & C2 & C3).
  assert (E1 : commitment_sets same (qs ++ [(c, p, e)]) = commitment_sets same qs).
  { unfold commitment_sets. rewrite fold_left_app. cbn [fold_left fst snd]. apply add_point_same; [|apply lookup_sets, I].
    intros c1 s J. apply (C1 c1 s J). }
  assert (E2 : super_points (qs ++ [(c, p, e)]) = super_points qs).
  { unfold super_points. rewrite fold_left_app. cbn [fold_left fst snd]. destruct (super_points_ok qs) as [A B]. apply set_insert_same; [exact A|].
    apply B. apply in_map_iff in I. destruct I as (q & E3 & I3). apply in_map_iff. exists q. split; [rewrite E3; reflexivity|exact I3]. }
  rewrite E1, E2. f_equal. pose proof (rotation_sets_ok (commitment_sets same qs)) as (G1 & _ & _).
  apply rmap_ext. intros [s cs] Is. cbn [fst snd]. f_equal. apply rmap_ext. intros c1 Ic. f_equal. apply rmap_ext. intros p1 Ip.
  apply G1 in Is. destruct Is as [_ Is]. specialize (Is c1 Ic). apply C1 in Is. destruct Is as (_ & _ & Is). specialize (Is p1 Ip).
  unfold get_eval. destruct (get_eval_ok same same_eq qs c1 p1 Is) as (e1 & E3 & _). unfold get_eval in E3.
  match goal with |- context [find ?f (qs ++ _)] => assert (Fa : forall l, find f (qs ++ l) = match find f qs with Some q => Some q | None => find f l end) end.
  { clear. induction qs as [|q l0 IH]; intros l; [reflexivity|]. cbn [app find].
    match goal with |- (if ?b then _ else _) = _ => destruct b; [reflexivity|apply IH] end. }
  rewrite Fa. match goal with |- context [find ?f qs] => destruct (find f qs) end; [reflexivity|discriminate].
Qed.
Theorem second_claim_ignored (p : srs G G2) qs c pt e y v h1 u h2 : In (c, pt) (map fst qs) ->
  verify p (qs ++ [(c, pt, e)]) y v h1 u h2 = verify p qs y v h1 u h2.
Proof. intros I. unfold shplonk_verify, shplonk_sides. rewrite intermediate_second by exact I. reflexivity. Qed.
End Forge.
