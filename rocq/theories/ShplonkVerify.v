(** What the verifier of the multi-opening argument decides. *)
From Coq Require Import ZArith List Arith Bool Lia Permutation.
From Verif Require Import Base Moduli Field FieldFacts AlgebraSpec LimbSpec DomainFacts ListFacts SelectorModel DomainModel IopModel PolyFacts IopPoly IopRows ArithModel ArithSpec ArithFacts MultiexpFacts
  TransformFacts KzgModel ShplonkModel ShplonkSets.
Import ListNotations.
Local Open Scope F_scope.

Lemma peval_map_scale {A} (k : Fr) (f : A -> Fr) l x : peval (map (fun a => k * f a) l) x = k * peval (map f l) x.
Proof. induction l as [|a l IH]; cbn [map peval]; [fring|]. rewrite IH. fring. Qed.
Lemma peval_map_sub {A} (f g : A -> Fr) l x : peval (map (fun a => f a - g a) l) x = peval (map f l) x - peval (map g l) x.
Proof. induction l as [|a l IH]; cbn [map peval]; [fring|]. rewrite IH. fring. Qed.
Lemma peval_map_ext {A} (f g : A -> Fr) l x : (forall a, In a l -> f a = g a) -> peval (map f l) x = peval (map g l) x.
Proof.
  induction l as [|a l IH]; intros H; cbn [map peval]; [reflexivity|].
  rewrite (H a (or_introl eq_refl)), IH by (intros; apply H; right; assumption). reflexivity.
Qed.
Lemma polyfun_peval_map {A} d (F : A -> Fr -> Fr) l y : (forall a, In a l -> polyfun d (F a)) ->
  polyfun d (fun s => peval (map (fun a => F a s) l) y).
Proof.
  induction l as [|a l IH]; intros H; cbn [map peval]; [apply polyfun_zero_fun|].
  apply polyfun_add; [apply H; left; reflexivity|]. apply polyfun_scale, IH. intros; apply H; right; assumption.
Qed.
Lemma many_eq d (P : Fr -> Prop) f g : polyfun d f -> polyfun d g -> many d P -> (forall a, P a -> f a = g a) -> forall x, f x = g x.
Proof. intros Hf Hg (l & N & L & H) E. apply (polyfun_eq d f g l Hf Hg N L). intros a I. apply E, H, I. Qed.
Lemma many_zeros (P : Fr -> Prop) l : many (length l) P -> (forall a, P a -> peval l a = f0) -> forall c, In c l -> c = f0.
Proof.
  intros (m & N & L & H) E. assert (Z : zeros l) by (apply (many_roots l m N); [intros a I; apply E, H, I|exact L]).
  unfold zeros in Z. rewrite Forall_forall in Z. exact Z.
Qed.

Definition interp_of (points es : list Fr) : list Fr := match lagrange_interpolate points es with Ok p => p | Panic => [] end.
Definition diffs {T} (super : list Fr) (s : rotation_set T) : list Fr := filter (fun p => negb (set_mem p (rs_points s))) super.
Lemma diffs_in {T} super (s : rotation_set T) x : In x (diffs super s) <-> In x super /\ ~ In x (rs_points s).
Proof.
  unfold diffs. rewrite filter_In, negb_true_iff. rewrite <- (set_mem_in x (rs_points s)).
  destruct (set_mem x (rs_points s)); intuition congruence.
Qed.
Lemma lprod_app a b x : lprod (a ++ b) x = lprod a x * lprod b x.
Proof.
  induction a as [|c a IH]; [change (lprod [] x) with (@f1 r_pos); cbn [app]; fring|].
  change ((c :: a) ++ b) with (c :: (a ++ b)). change (lprod (c :: (a ++ b)) x) with ((x - c) * lprod (a ++ b) x).
  change (lprod (c :: a) x) with ((x - c) * lprod a x). rewrite IH. fring.
Qed.
Lemma NoDup_app_intro {A} (l m : list A) : NoDup l -> NoDup m -> (forall x, In x l -> ~ In x m) -> NoDup (l ++ m).
Proof.
  induction 1 as [|x l H N IH]; intros Nm D; [exact Nm|]. cbn [app]. constructor; [|apply IH; [exact Nm|intros; apply D; right; assumption]].
  intros I. apply in_app_or in I. destruct I as [I|I]; [tauto|]. exact (D x (or_introl eq_refl) I).
Qed.
Lemma diffs_perm {T} super (s : rotation_set T) : NoDup super -> NoDup (rs_points s) -> (forall p, In p (rs_points s) -> In p super) ->
  Permutation (diffs super s ++ rs_points s) super.
Proof.
  intros N1 N2 I. apply NoDup_Permutation.
  - apply NoDup_app_intro.
    + apply NoDup_filter, N1.
    + exact N2.
    + intros x H1 H2. apply diffs_in in H1. tauto.
  - exact N1.
  - intros x. rewrite in_app_iff, diffs_in. specialize (I x). destruct (in_dec fe_dec x (rs_points s)); tauto.
Qed.

(** the polynomial behind the verifier's equation *)
Definition opening_sum {T} (com : T -> Fr) (super : list Fr) (sets : list (rotation_set T)) (y v u : Fr) : Fr :=
  peval (map (fun s => lprod (diffs super s) u *
     peval (map (fun c => com (fst c) - peval (interp_of (rs_points s) (snd c)) u) (rs_commitments s)) y) sets) v.

Definition well_formed {T} (s : rotation_set T) : Prop := NoDup (rs_points s) /\ rs_commitments s <> [] /\
  forall c es, In (c, es) (rs_commitments s) -> length es = length (rs_points s).

Section Verify.
Context {G G2 T : Type}.
Variables (zero : G) (add sub : G -> G -> G) (scale : Fr -> G -> G) (gen : G).
Hypothesis M : is_module zero add sub scale.
Notation msm := (msm G).
Definition mval (m : msm) : G := linear zero add scale (map fst m) (map snd m).
Lemma mval_cons k g m : mval ((k, g) :: m) = add (scale k g) (mval m).
Proof. reflexivity. Qed.
Lemma mval_app a b : mval (a ++ b) = add (mval a) (mval b).
Proof.
  induction a as [|[k g] a IH]; cbn [app].
  - symmetry. apply (mod_zero _ _ _ _ M).
  - rewrite !mval_cons, IH. apply (mod_assoc _ _ _ _ M).
Qed.
Lemma scale_zero k : scale k zero = zero.
Proof.
  rewrite <- (mod_zero_scale _ _ _ _ M gen), <- (mod_mul_scale _ _ _ _ M). f_equal. fring.
Qed.
Lemma mval_scale k m : mval (msm_scale k m) = scale k (mval m).
Proof.
  induction m as [|[c g] m IH]; cbn [msm_scale map fst snd].
  - symmetry. apply scale_zero.
  - rewrite !mval_cons. unfold msm_scale in IH. rewrite IH, (mod_scale_add _ _ _ _ M), <- (mod_mul_scale _ _ _ _ M). do 2 f_equal. fring.
Qed.
Lemma msm_eval_is m : msm_eval zero add m = Ok (mval m).
Proof. unfold msm_eval. apply (multiexp_ok _ _ _ _ M). rewrite !map_length. reflexivity. Qed.

Variable commitment : T -> reference G.
Variable com : T -> Fr.
(** the group element a reference stands for *)
Definition ref_value (r : reference G) : G := match r with RPoint c => c | RMsm m => mval m end.
Hypothesis Hcom : forall c, ref_value (commitment c) = scale (com c) gen.
Lemma term_msm_is p c : mval (term_msm commitment p c) = scale (p * com c) gen.
Proof.
  unfold term_msm. specialize (Hcom c). rewrite (mod_mul_scale _ _ _ _ M), <- Hcom. destruct (commitment c) as [g|m]; cbn [ref_value] in *.
  - rewrite mval_cons. unfold mval, linear. cbn [map combine gsum fold_right]. rewrite (mod_comm _ _ _ _ M), (mod_zero _ _ _ _ M). reflexivity.
  - apply mval_scale.
Qed.
Lemma inner_terms_is u points y cs : NoDup points -> (forall c es, In (c, es) cs -> length es = length points) -> forall p,
  exists m, inner_terms commitment u points cs (powers_from (length cs) y p) =
      Ok (m, p * peval (map (fun c => peval (interp_of points (snd c)) u) cs) y) /\
    mval m = scale (p * peval (map (fun c => com (fst c)) cs) y) gen.
Proof.
  intros N. induction cs as [|[c es] cs IH]; intros H p; cbn [length powers_from inner_terms map peval].
  - exists []. split; [do 2 f_equal; fring|]. replace (p * f0) with (@f0 r_pos) by fring. symmetry. apply (mod_zero_scale _ _ _ _ M).
  - destruct (IH (fun c es I => H c es (or_intror I)) (y * p)) as (m & E & V). cbn [fst snd].
    destruct (interpolate_ok points es N) as (q & Eq & _ & _); [symmetry; apply (H c es); left; reflexivity|].
    unfold interp_of at 1. rewrite Eq. cbn [bind]. rewrite E. cbn [bind]. eexists. split; [apply f_equal, f_equal|].
    + rewrite eval_polynomial_is. fring.
    + rewrite mval_app, term_msm_is, V, <- (mod_add_scale _ _ _ _ M). f_equal. fring.
Qed.
Lemma outer_terms_some u y super v i sets : (forall s, In s sets -> well_formed s) -> forall p,
  exists m r, outer_terms commitment u y super sets (powers_from (length sets) v p) (Some i) = Ok (m, r) /\
    mval m = scale (p * i * peval (map (fun s => lprod (diffs super s) u * peval (map (fun c => com (fst c)) (rs_commitments s)) y) sets) v) gen /\
    r = p * i * peval (map (fun s => lprod (diffs super s) u *
          peval (map (fun c => peval (interp_of (rs_points s) (snd c)) u) (rs_commitments s)) y) sets) v.
Proof.
  induction sets as [|s sets IH]; intros W p; cbn [length powers_from outer_terms map peval].
  - exists [], f0. split; [reflexivity|]. split; [|fring]. replace (p * i * f0) with (@f0 r_pos) by fring. symmetry. apply (mod_zero_scale _ _ _ _ M).
  - destruct (IH (fun s I => W s (or_intror I)) (v * p)) as (m & r & E & V & ->).
    destruct (W s (or_introl eq_refl)) as (N & NE & L). cbn [bind].
    destruct (inner_terms_is u (rs_points s) y (rs_commitments s) N L f1) as (m1 & E1 & V1). unfold powers_of. rewrite E1. cbn [bind].
    rewrite E. cbn [bind]. fold (diffs super s). rewrite vanishing_is.
    destruct (rs_commitments s) as [|c0 cs0] eqn:Ec; [congruence|]. rewrite <- Ec in *.
    eexists _, _. split; [reflexivity|]. split.
    + rewrite mval_app, mval_scale, V1, V, <- (mod_mul_scale _ _ _ _ M), <- (mod_add_scale _ _ _ _ M). f_equal. fring.
    + fring.
Qed.
Lemma outer_terms_none u y super v s sets : (forall t, In t (s :: sets) -> well_formed t) ->
  let z := lprod (diffs super s) u in
  if feqb z f0 then outer_terms commitment u y super (s :: sets) (powers_of (length (s :: sets)) v) None = Panic else
  exists m r, outer_terms commitment u y super (s :: sets) (powers_of (length (s :: sets)) v) None = Ok (m, r) /\
    add (mval m) (scale (- r) gen) = scale (finv z * opening_sum com super (s :: sets) y v u) gen.
Proof.
  intros W z. unfold powers_of. cbn [length powers_from outer_terms]. fold (diffs super s). rewrite vanishing_is. fold z.
  unfold finvert. destruct (feqb z f0) eqn:Ez; [reflexivity|]. apply feqb_neq in Ez. cbn [bind].
  destruct (outer_terms_some u y super v (finv z) sets (fun t I => W t (or_intror I)) (v * f1)) as (m & r & E & V & ->).
  destruct (W s (or_introl eq_refl)) as (N & NE & L).
  destruct (inner_terms_is u (rs_points s) y (rs_commitments s) N L f1) as (m1 & E1 & V1). unfold powers_of. rewrite E1. cbn [bind].
  rewrite E. cbn [bind]. destruct (rs_commitments s) as [|c0 cs0] eqn:Ec; [congruence|]. rewrite <- Ec in *.
  eexists _, _. split; [reflexivity|].
  rewrite mval_app, mval_scale, V1, V, <- (mod_mul_scale _ _ _ _ M), <- !(mod_add_scale _ _ _ _ M). f_equal.
  unfold opening_sum. cbn [map peval]. fold z.
  rewrite (peval_map_ext (fun t => lprod (diffs super t) u *
      peval (map (fun c => com (fst c) - peval (interp_of (rs_points t) (snd c)) u) (rs_commitments t)) y) (fun t => lprod (diffs super t) u * peval (map (fun c => com (fst c)) (rs_commitments t)) y -
      lprod (diffs super t) u * peval (map (fun c => peval (interp_of (rs_points t) (snd c)) u) (rs_commitments t)) y)).
  - rewrite !peval_map_sub. pose proof (fmul_finv z Ez) as Q. clearbody z. revert Q. generalize (finv z). intros i Q.
    set (A1 := peval (map (fun c => com (fst c)) (rs_commitments s)) y).
    set (B1 := peval (map (fun c => peval (interp_of (rs_points s) (snd c)) u) (rs_commitments s)) y).
    set (A2 := peval (map (fun t => lprod (diffs super t) u * peval (map (fun c => com (fst c)) (rs_commitments t)) y) sets) v).
    set (B2 := peval (map (fun t => lprod (diffs super t) u *
                 peval (map (fun c => peval (interp_of (rs_points t) (snd c)) u) (rs_commitments t)) y) sets) v).
    match goal with |- context [peval (map ?f sets) v - peval (map ?g sets) v] => change (peval (map f sets) v) with A2; change (peval (map g sets) v) with B2 end.
    clearbody A1 B1 A2 B2. transitivity (z * i * (A1 - B1) + v * i * (A2 - B2)); [rewrite Q|]; fring.
  - intros t It. rewrite peval_map_sub. fring.
Qed.

Lemma scale_inj a b : gen <> zero -> scale a gen = scale b gen -> a = b.
Proof.
  intros gen_nz E. apply fsub_eq. destruct (fe_dec (a - b) f0) as [Z|Z]; [exact Z|]. exfalso. apply gen_nz.
  assert (E2 : scale (a - b) gen = zero).
  { replace (a - b) with (a + - f1 * b) by fring. rewrite (mod_add_scale _ _ _ _ M), E, (mod_mul_scale _ _ _ _ M), <- (mod_mul_scale _ _ _ _ M), <- (mod_add_scale _ _ _ _ M).
    replace (b + - f1 * b) with (@f0 r_pos) by fring. apply (mod_zero_scale _ _ _ _ M). }
  rewrite <- (mod_one_scale _ _ _ _ M gen), <- (fmul_finv _ Z).
  assert (C : forall a b : Fr, a * b = b * a) by (intros; fring). rewrite C, (mod_mul_scale _ _ _ _ M), E2. apply scale_zero.
Qed.
Variable same : T -> T -> bool.
Hypothesis same_eq : forall a b, same a b = true <-> a = b.
Variable pairing_check : G -> G2 -> G -> G2 -> bool.

(** The verifier's decision on multiples of the generator. *)
Lemma verify_is (p : srs G G2) s qs y v a1 u a2 sets super : (exists rest, sr_g p = gen :: rest) ->
  (forall l r, pairing_check l (sr_s_g2 p) r (sr_g2 p) = true <-> scale s l = r) ->
  intermediate_sets same qs = Ok (sets, super) -> good_sets qs sets super -> qs <> [] ->
  exists s0 rest, sets = s0 :: rest /\
  let z := lprod (diffs super s0) u in
  if feqb z f0 then shplonk_verify same commitment zero add pairing_check p qs y v (scale a1 gen) u (scale a2 gen) = Panic
  else exists b, shplonk_verify same commitment zero add pairing_check p qs y v (scale a1 gen) u (scale a2 gen) = Ok b /\
    let correct := (s - u) * a2 * z = opening_sum com super sets y v u - lprod super u * a1 in
    (correct -> b = true) /\ (gen <> zero -> b = true -> correct).
Proof.
  intros (grest & Eg) Hp E Hg Hq. destruct sets as [|s0 rest].
  { exfalso. destruct qs as [|[[c pt] e] qs]; [congruence|]. destruct (gs_all _ _ _ Hg c pt e (or_introl eq_refl)) as (? & ? & [] & _). }
  exists s0, rest. split; [reflexivity|]. intros z. unfold shplonk_verify. rewrite Eg. unfold shplonk_sides. rewrite E. cbn [bind].
  assert (W : forall t, In t (s0 :: rest) -> well_formed t).
  { intros t It. apply (gs_set _ _ _ Hg) in It. destruct It as (N & _ & NE & _ & _ & L). repeat split; [exact N|exact NE|]. intros c es I. apply (L c es I). }
  pose proof (outer_terms_none u y super v s0 rest W) as O. cbv zeta in O. fold z in O.
  destruct (feqb z f0) eqn:Ez; [rewrite O; reflexivity|]. apply feqb_neq in Ez. destruct O as (m & r & -> & V). cbn [bind].
  unfold dual_check. cbn [fst snd]. rewrite !msm_eval_is. cbn [bind]. eexists. split; [reflexivity|]. cbv zeta. rewrite Hp.
  rewrite mval_app, !mval_cons, !vanishing_is. change (mval []) with zero.
  rewrite (mod_assoc _ _ _ _ M (mval m)), V, (mod_one_scale _ _ _ _ M), (mod_comm _ _ _ _ M (scale a2 gen) zero), (mod_zero _ _ _ _ M).
  rewrite (mod_comm _ _ _ _ M (scale u (scale a2 gen)) zero), (mod_zero _ _ _ _ M), <- !(mod_mul_scale _ _ _ _ M), <- !(mod_add_scale _ _ _ _ M).
  pose proof (gs_set _ _ _ Hg s0 (or_introl eq_refl)) as (N & I & _).
  pose proof (lprod_perm _ _ u (diffs_perm super s0 (gs_nodup _ _ _ Hg) N I)) as P. rewrite lprod_app in P. fold z in P. rewrite <- P.
  clearbody z. pose proof (fmul_finv z Ez) as Q. revert Q. generalize (finv z). intros i Q.
  set (O := opening_sum com super (s0 :: rest) y v u). set (z0 := lprod (rs_points s0) u). clearbody O z0.
  split.
  - intros H. f_equal. transitivity (z * i * (s - u) * a2 + u * a2); [rewrite Q; fring|].
    transitivity (i * ((s - u) * a2 * z) + u * a2); [fring|]. rewrite H.
    transitivity (i * O + - (z * i) * z0 * a1 + u * a2); [fring|]. rewrite Q. fring.
  - intros NZ H. apply scale_inj in H; [|exact NZ]. transitivity (s * a2 * z - u * a2 * z); [fring|]. rewrite H.
    transitivity (z * i * O - z * z0 * a1); [fring|]. rewrite Q. fring.
Qed.
End Verify.
