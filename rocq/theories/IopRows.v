(** The permutation and lookup arguments on rows of values. *)
From Coq Require Import ZArith List Arith Lia Permutation Bool.
From Verif Require Import Base Moduli Field FieldFacts LimbSpec LimbField LimbConst PolyFacts IopPoly.
Import ListNotations.
Local Open Scope F_scope.

(** [P] holds for at least [d] field elements *)
Definition many (d : nat) (P : Fr -> Prop) : Prop :=
  exists l, NoDup l /\ (d <= length l)%nat /\ forall a, In a l -> P a.
Lemma many_mono d d' (P Q : Fr -> Prop) : (d' <= d)%nat -> (forall a, P a -> Q a) -> many d P -> many d' Q.
Proof. intros L H (l & N & Ll & Hl). exists l. split; [exact N|]. split; [lia|auto]. Qed.
Lemma many_one d P : (1 <= d)%nat -> many d P -> exists a, P a.
Proof. intros L (l & _ & Ll & H). destruct l as [|a l]; [cbn in Ll; lia|]. exists a. apply H. left. reflexivity. Qed.

(** ** Products *)
Fixpoint fprod (l : list Fr) : Fr := match l with [] => f1 | a :: l => a * fprod l end.
Lemma fprod_app l k : fprod (l ++ k) = fprod l * fprod k.
Proof. induction l as [|a l IH]; cbn [app fprod]; [fring|rewrite IH; fring]. Qed.
Lemma fprod_zero l : fprod l = f0 <-> In f0 l.
Proof.
  induction l as [|a l IH]; cbn [fprod In].
  - split; [intros E; exfalso; exact (Fr_1_neq_0 E)|contradiction].
  - rewrite <- IH. split.
    + intros E. apply Fr_mul_eq_0 in E. tauto.
    + intros [->|E]; [fring|rewrite E; fring].
Qed.
Lemma fprod_perm l k : Permutation l k -> fprod l = fprod k.
Proof. induction 1; cbn [fprod]; [reflexivity|congruence|fring|congruence]. Qed.
Lemma fprod_lprod {A} (f : A -> Fr) l x : fprod (map (fun a => f a + x) l) = lprod (map (fun a => - f a) l) x.
Proof.
  induction l as [|a l IH]; [reflexivity|]. cbn [map fprod lprod fold_right]. fold (lprod (map (fun a => - f a) l) x).
  rewrite IH. fring.
Qed.
Lemma running (z num den : nat -> Fr) u : (forall r, (r < u)%nat -> z (S r) * den r = z r * num r) ->
  z u * fprod (map den (seq 0 u)) = z 0%nat * fprod (map num (seq 0 u)).
Proof.
  induction u as [|u IH]; intros H; [reflexivity|].
  rewrite seq_S, !map_app, !fprod_app. cbn [map fprod]. change (0 + u)%nat with u.
  assert (E := H u ltac:(lia)). assert (E2 := IH ltac:(intros; apply H; lia)).
  replace (z (S u) * (fprod (map den (seq 0 u)) * (den u * f1))) with ((z (S u) * den u) * fprod (map den (seq 0 u))) by fring.
  rewrite E. replace (z u * num u * fprod (map den (seq 0 u))) with ((z u * fprod (map den (seq 0 u))) * num u) by fring.
  rewrite E2. fring.
Qed.

(** ** Polynomial facts *)
Lemma zeros_dec p : {zeros p} + {~ zeros p}.
Proof. apply Forall_dec. intros x. apply fe_dec. Qed.
Lemma enough_elems d : (Z.of_nat d < 2 ^ 128)%Z -> NoDup (elems d).
Proof. intros H. apply elems_nodup. apply Z.lt_le_incl, (Z.lt_trans _ _ _ H). reflexivity. Qed.
Lemma zero_fun_zeros p : (Z.of_nat (length p) < 2 ^ 128)%Z -> (forall x, peval p x = f0) -> zeros p.
Proof.
  intros L H. apply (many_roots p (elems (length p))); [apply enough_elems, L|auto|].
  pose proof (elems_length (length p)). change (fe r_pos) with Fr in *. lia.
Qed.
Lemma integral d e f g : (Z.of_nat d < 2 ^ 100)%Z -> (Z.of_nat e < 2 ^ 100)%Z -> polyfun d f -> polyfun e g ->
  (forall x, f x * g x = f0) -> (forall x, f x = f0) \/ (forall x, g x = f0).
Proof.
  intros Ld Le (p & Lp & Ep) (q & Lq & Eq) H.
  destruct (zeros_dec p) as [Zp|Np]; [left; intros x; rewrite Ep; apply peval_zeros, Zp|].
  destruct (zeros_dec q) as [Zq|Nq]; [right; intros x; rewrite Eq; apply peval_zeros, Zq|].
  exfalso. set (m := (d + e)%nat).
  destruct (avoid_roots m [p; q] (elems (2 * m + 1))) as (t & _ & Ht).
  - apply enough_elems. unfold m. lia.
  - intros x [<-|[<-|[]]]; (split; [unfold m; change (fe r_pos) with Fr in *; lia|assumption]).
  - cbn [length]. rewrite elems_length. lia.
  - specialize (H t). rewrite Ep, Eq in H. apply Fr_mul_eq_0 in H.
    destruct H as [H|H]; [apply (Ht p)|apply (Ht q)]; cbn [In]; auto.
Qed.
Lemma peval_app1 l c x : peval (l ++ [c]) x = peval l x + c * fpow x (Z.of_nat (length l)).
Proof.
  induction l as [|a l IH]; cbn [app peval length].
  - change (fpow x (Z.of_nat 0)) with (@f1 r_pos). fring.
  - rewrite IH, fpow_S'. fring.
Qed.
Lemma lprod_monic l : exists q, length q = length l /\ forall x, lprod l x = peval q x + fpow x (Z.of_nat (length l)).
Proof.
  induction l as [|a l (q & Lq & Eq)].
  - exists []. split; [reflexivity|]. intros x. cbn [lprod fold_right peval length].
    change (fpow x (Z.of_nat 0)) with (@f1 r_pos). fring.
  - (* (x - a) (q + x^m) = x q - a q - a x^m + x^(m+1) *)
    exists (padd (f0 :: q) (map (fmul (fopp a)) q ++ [fopp a])). split.
    + rewrite padd_length, app_length, map_length. cbn [length]. change (fe r_pos) with Fr in *. lia.
    + intros x. rewrite padd_eval, peval_app1, pscale_eval, map_length. cbn [lprod fold_right peval length].
      fold (lprod l x). rewrite Eq, fpow_S'. change (fe r_pos) with Fr in *. rewrite Lq. fring.
Qed.
(** the leading coefficients of proportional monic polynomials agree *)
Lemma monic_scale A A' l l' : length l = length l' -> (Z.of_nat (length l) < 2 ^ 100)%Z ->
  (forall x, A * lprod l x = A' * lprod l' x) -> A = A'.
Proof.
  intros L Hl H. destruct (lprod_monic l) as (q & Lq & Eq), (lprod_monic l') as (q' & Lq' & Eq').
  assert (Z1 : zeros (padd (map (fmul A) q) (map (fmul (fopp A')) q') ++ [A - A'])).
  { assert (LP : length (padd (map (fmul A) q) (map (fmul (fopp A')) q')) = length l).
    { rewrite padd_length, !map_length. change (fe r_pos) with Fr in *. lia. }
    apply zero_fun_zeros.
    - rewrite app_length. cbn [length]. change (fe r_pos) with Fr in *. lia.
    - intros x. rewrite peval_app1. change (fe r_pos) with Fr in *. rewrite LP, padd_eval, !pscale_eval.
      specialize (H x). rewrite Eq, Eq', <- L in H. set (w := fpow x _) in *.
      replace (A * peval q x + - A' * peval q' x + (A - A') * w)
        with (A * (peval q x + w) - A' * (peval q' x + w)) by fring. rewrite H. fring. }
  apply Forall_app in Z1. destruct Z1 as [_ Z1]. apply Forall_inv in Z1. apply fsub_eq, Z1.
Qed.
Lemma boolean (z : Fr) : z * z = z -> z = f0 \/ z = f1.
Proof.
  intros E. assert (X : z * (z - f1) = f0) by (replace (z * (z - f1)) with (z * z - z) by fring; rewrite E; fring).
  apply Fr_mul_eq_0 in X. destruct X as [X|X]; [left; exact X|right; apply fsub_eq, X].
Qed.
Lemma lprod_poly' {A} (f : A -> Fr) l : polyfun (S (length l)) (fun x => fprod (map (fun a => f a + x) l)).
Proof.
  apply (polyfun_ext _ (lprod (map (fun a => - f a) l))); [intros x; symmetry; apply fprod_lprod|].
  rewrite <- (map_length (fun a => - f a) l). apply lprod_poly.
Qed.
Lemma fprod_linear {A} (f g : A -> Fr) l : polyfun (S (length l)) (fun b => fprod (map (fun a => f a + b * g a) l)).
Proof.
  induction l as [|a l IH]; [apply (polyfun_ext _ (fun _ => f1)); [reflexivity|apply polyfun_const; cbn; lia]|].
  apply (polyfun_ext _ (fun b => fprod (map (fun a => f a + b * g a) l) * (f a + b * g a))).
  { intros x. cbn [map fprod]. fring. }
  replace (S (length (a :: l))) with (S (length l) + 1)%nat by (cbn [length]; lia).
  apply polyfun_mul; [exact IH|]. apply polyfun_add; [apply polyfun_const; lia|].
  apply (polyfun_ext _ (fun x => g a * x)); [intros x; fring|]. apply polyfun_scale, polyfun_id.
Qed.

(** ** Separating pairs *)
Lemma separate2 (l : list (Fr * Fr)) : (Z.of_nat (length l) < 2 ^ 60)%Z ->
  exists b, forall x y, In x l -> In y l -> fst x + b * snd x = fst y + b * snd y -> x = y.
Proof.
  intros Hl. set (diff := fun pr : (Fr * Fr) * (Fr * Fr) => [fst (fst pr) - fst (snd pr); snd (fst pr) - snd (snd pr)]).
  set (ps := filter (fun p => if zeros_dec p then false else true) (map diff (list_prod l l))).
  assert (Lps : (length ps <= length l * length l)%nat).
  { unfold ps. etransitivity; [apply filter_le|]. rewrite map_length, prod_length. lia. }
  destruct (avoid_roots 1 ps (elems (length l * length l + 1))) as (b & _ & Hb).
  - apply enough_elems. rewrite Nat2Z.inj_add, Nat2Z.inj_mul. change (2 ^ 128)%Z with (2 ^ 60 * 2 ^ 60 * 256)%Z. nia.
  - intros p I. apply filter_In in I. destruct I as [I E]. split; [|destruct (zeros_dec p); [discriminate|assumption]].
    apply in_map_iff in I. destruct I as (x & <- & _). cbn [diff length]. lia.
  - rewrite elems_length. lia.
  - exists b. intros [x1 x2] [y1 y2] Ix Iy E. cbn [fst snd] in E.
    destruct (zeros_dec (diff ((x1, x2), (y1, y2)))) as [Z|N].
    + unfold diff in Z. cbn [fst snd] in Z. inversion Z as [|? ? E1 Z1]; subst. inversion Z1 as [|? ? E2 _]; subst.
      apply fsub_eq in E1, E2. subst. reflexivity.
    + exfalso. apply (Hb (diff ((x1, x2), (y1, y2)))).
      * apply filter_In. split; [apply in_map, in_prod; assumption|]. destruct (zeros_dec _); [contradiction|reflexivity].
      * unfold diff. cbn [fst snd peval]. replace (x1 - y1 + b * (x2 - y2 + b * f0)) with ((x1 + b * x2) - (y1 + b * y2)) by fring.
        rewrite E. fring.
Qed.

(** ** The permutation argument *)
Section Perm.
Context {C : Type}.
Variables (cells : list C) (v id sg : C -> Fr).
Let N := length cells.
Hypothesis HN : (Z.of_nat N < 2 ^ 50)%Z.
Let num (b g : Fr) := fprod (map (fun c => v c + b * id c + g) cells).
Let den (b g : Fr) := fprod (map (fun c => v c + b * sg c + g) cells).

Lemma perm_sound :
  many (S N) (fun b => many (2 * N + 1) (fun g => exists zu, zu * zu = zu /\ zu * den b g = num b g)) ->
  Permutation (map (fun c => (v c, sg c)) cells) (map (fun c => (v c, id c)) cells).
Proof.
  intros (lb & Nb & Lb & Hb).
  assert (P1 : forall b, polyfun (S N) (num b)) by (intros b; apply (lprod_poly' (fun c => v c + b * id c))).
  assert (P2 : forall b, polyfun (S N) (den b)) by (intros b; apply (lprod_poly' (fun c => v c + b * sg c))).
  assert (E1 : forall b, In b lb -> forall g, num b g = den b g).
  { intros b Ib. destruct (Hb b Ib) as (lg & Ng & Lg & Hg).
    assert (Z : forall g, num b g * (num b g - den b g) = f0).
    { apply (polyfun_zero (S N + N) _ lg).
      - apply polyfun_mul; [apply P1|apply polyfun_sub; [apply P1|apply P2]].
      - exact Ng.
      - change (fe r_pos) with Fr in *. lia.
      - intros g Ig. destruct (Hg g Ig) as (zu & Bz & Ez). destruct (boolean zu Bz) as [-> | -> ].
        + rewrite <- Ez. fring.
        + replace (num b g) with (den b g) by (rewrite <- Ez; fring). fring. }
    destruct (integral (S N) (S N) (num b) (fun g => num b g - den b g)) as [Z1|Z1]; try lia.
    - apply P1.
    - apply polyfun_sub; [apply P1|apply P2].
    - exact Z.
    - exfalso. destruct (lprod_monic (map (fun c => - (v c + b * id c)) cells)) as (q & Lq & Eq).
      rewrite map_length in Lq, Eq. fold N in Lq, Eq.
      assert (ZZ : zeros (q ++ [f1])).
      { apply zero_fun_zeros.
        - rewrite app_length. cbn [length]. change (fe r_pos) with Fr in *. lia.
        - intros x. rewrite peval_app1. change (fe r_pos) with Fr in *. rewrite Lq. rewrite <- (Z1 x). unfold num.
          rewrite (fprod_lprod (fun c => v c + b * id c)), Eq. fring. }
      apply Forall_app in ZZ. destruct ZZ as [_ ZZ]. apply Forall_inv in ZZ. exact (Fr_1_neq_0 ZZ).
    - intros g. apply fsub_eq, Z1. }
  assert (E2 : forall b g, num b g = den b g).
  { intros b g. revert b. apply (polyfun_eq (S N) (fun b => num b g) (fun b => den b g) lb).
    - apply (polyfun_ext _ (fun b => fprod (map (fun c => (v c + g) + b * id c) cells))); [|apply fprod_linear].
      intros x. unfold num. f_equal. apply map_ext. intros c. fring.
    - apply (polyfun_ext _ (fun b => fprod (map (fun c => (v c + g) + b * sg c) cells))); [|apply fprod_linear].
      intros x. unfold den. f_equal. apply map_ext. intros c. fring.
    - exact Nb.
    - change (fe r_pos) with Fr in *. lia.
    - intros b Ib. apply E1, Ib. }
  set (L1 := map (fun c => (v c, sg c)) cells). set (L2 := map (fun c => (v c, id c)) cells).
  destruct (separate2 (L1 ++ L2)) as (b & Hs).
  { unfold L1, L2. rewrite app_length, !map_length. fold N. lia. }
  apply (perm_map_inj (fun x => fst x + b * snd x)); [exact Hs|].
  assert (PP : Permutation (map fopp (map (fun x : Fr * Fr => fst x + b * snd x) L1)) (map fopp (map (fun x : Fr * Fr => fst x + b * snd x) L2))).
  { apply lprod_eq.
    - unfold L1, few. rewrite !map_length. fold N. lia.
    - unfold L2, few. rewrite !map_length. fold N. lia.
    - intros x. specialize (E2 b x). unfold num, den in E2. rewrite !(fprod_lprod (fun c => _)) in E2.
      unfold L1, L2. rewrite !map_map. cbn [fst snd]. symmetry. exact E2. }
  apply (Permutation_map fopp) in PP. rewrite !map_map in PP.
  rewrite (map_ext _ (fun x : Fr * Fr => fst x + b * snd x)) in PP by (intros x; fring).
  rewrite (map_ext (fun x : Fr * Fr => - - _) (fun x : Fr * Fr => fst x + b * snd x)) in PP by (intros x; fring). exact PP.
Qed.
(** completeness: the two products agree *)
Lemma perm_complete b g : Permutation (map (fun c => (v c, sg c)) cells) (map (fun c => (v c, id c)) cells) ->
  den b g = num b g.
Proof.
  intros P. unfold den, num.
  transitivity (fprod (map (fun x : Fr * Fr => fst x + b * snd x + g) (map (fun c => (v c, sg c)) cells))).
  { rewrite map_map. reflexivity. }
  transitivity (fprod (map (fun x : Fr * Fr => fst x + b * snd x + g) (map (fun c => (v c, id c)) cells))).
  { apply fprod_perm, Permutation_map, P. }
  rewrite map_map. reflexivity.
Qed.
End Perm.

(** ** The lookup argument *)
Section Lookup.
Variables (u : nat) (a s a' s' : nat -> Fr).
Hypothesis Hu : (Z.of_nat u < 2 ^ 50)%Z.
Let rows := seq 0 u.
Let lnum (b g : Fr) := fprod (map (fun r => (a r + b) * (s r + g)) rows).
Let lden (b g : Fr) := fprod (map (fun r => (a' r + b) * (s' r + g)) rows).
Lemma fprod_mul {A} (f g : A -> Fr) l : fprod (map (fun x => f x * g x) l) = fprod (map f l) * fprod (map g l).
Proof. induction l as [|x l IH]; cbn [map fprod]; [fring|rewrite IH; fring]. Qed.
Lemma few_roots (f : nat -> Fr) l : NoDup l -> (forall b, In b l -> fprod (map (fun r => f r + b) rows) = f0) -> (length l <= u)%nat.
Proof.
  intros Nl H. assert (I : incl l (map (fun r => - f r) rows)).
  { intros b Ib. apply H in Ib. rewrite fprod_lprod in Ib. apply lprod_zero in Ib. exact Ib. }
  apply (NoDup_incl_length Nl) in I. rewrite map_length in I. unfold rows in I. rewrite seq_length in I. exact I.
Qed.
Lemma lookup_sound :
  many (2 * u + 1) (fun b => many (2 * u + 1) (fun g => exists zu, zu * zu = zu /\ zu * lden b g = lnum b g)) ->
  Permutation (map a' rows) (map a rows) /\ Permutation (map s' rows) (map s rows).
Proof.
  intros (lb & Nb & Lb & Hb).
  set (A := fun b => fprod (map (fun r => a r + b) rows)). set (A' := fun b => fprod (map (fun r => a' r + b) rows)).
  set (T := fun b => fprod (map (fun r => s r + b) rows)). set (T' := fun b => fprod (map (fun r => s' r + b) rows)).
  assert (LR : length rows = u) by (unfold rows; apply seq_length).
  assert (PT : polyfun (S u) T) by (rewrite <- LR; apply lprod_poly').
  assert (PT' : polyfun (S u) T') by (rewrite <- LR; apply lprod_poly').
  assert (NT : ~ forall x, T x = f0).
  { intros Z1. destruct (lprod_monic (map (fun r => - s r) rows)) as (q & Lq & Eq). rewrite map_length, LR in Lq, Eq.
    assert (ZZ : zeros (q ++ [f1])).
    { apply zero_fun_zeros.
      - rewrite app_length. cbn [length]. change (fe r_pos) with Fr in *. lia.
      - intros x. rewrite peval_app1. change (fe r_pos) with Fr in *. rewrite Lq, <- (Z1 x). unfold T.
        rewrite (fprod_lprod s), Eq. fring. }
    apply Forall_app in ZZ. destruct ZZ as [_ ZZ]. apply Forall_inv in ZZ. exact (Fr_1_neq_0 ZZ). }
  assert (K : forall b, In b lb -> A b <> f0 -> forall g, A b * T g = A' b * T' g).
  { intros b Ib NA. destruct (Hb b Ib) as (lg & Ng & Lg & Hg).
    assert (Z : forall g, A b * T g * (A b * T g - A' b * T' g) = f0).
    { apply (polyfun_zero (S u + u) _ lg).
      - apply polyfun_mul; [apply polyfun_scale, PT|apply polyfun_sub; apply polyfun_scale; assumption].
      - exact Ng.
      - change (fe r_pos) with Fr in *. lia.
      - intros g Ig. destruct (Hg g Ig) as (zu & Bz & Ez). unfold lden, lnum in Ez. rewrite !fprod_mul in Ez.
        change (zu * (A' b * T' g) = A b * T g) in Ez. destruct (boolean zu Bz) as [-> | -> ].
        + rewrite <- Ez. fring.
        + replace (A b * T g) with (A' b * T' g) by (rewrite <- Ez; fring). fring. }
    destruct (integral (S u) (S u) (fun g => A b * T g) (fun g => A b * T g - A' b * T' g)) as [Z1|Z1]; try lia.
    - apply polyfun_scale, PT.
    - apply polyfun_sub; apply polyfun_scale; assumption.
    - exact Z.
    - exfalso. apply NT. intros x. specialize (Z1 x). apply Fr_mul_eq_0 in Z1. tauto.
    - intros g. apply fsub_eq, Z1. }
  assert (K2 : forall b, In b lb -> A b <> f0 -> A b = A' b).
  { intros b Ib NA. apply (monic_scale _ _ (map (fun r => - s r) rows) (map (fun r => - s' r) rows)).
    - rewrite !map_length. reflexivity.
    - rewrite map_length, LR. lia.
    - intros x. rewrite <- !fprod_lprod. apply K; assumption. }
  set (good := filter (fun b => negb (feqb (A b) f0)) lb).
  assert (Lgood : (S u <= length good)%nat).
  { assert (Hs : (length (filter (fun b => feqb (A b) f0) lb) + length good = length lb)%nat).
    { unfold good. clear. induction lb as [|x l IHl]; [reflexivity|]. cbn [filter]. destruct (feqb (A x) f0); cbn [negb length]; lia. }
    assert (length (filter (fun b => feqb (A b) f0) lb) <= u)%nat; [|change (fe r_pos) with Fr in *; lia].
    apply (few_roots a); [apply NoDup_filter, Nb|]. intros b Ib. apply filter_In in Ib. destruct Ib as [_ E]. apply feqb_eq in E. exact E. }
  assert (Hgood : forall b, In b good -> In b lb /\ A b <> f0).
  { intros b Ib. apply filter_In in Ib. destruct Ib as [Ib E]. split; [exact Ib|]. apply feqb_neq. apply negb_true_iff, E. }
  assert (EA : forall b, A b = A' b).
  { apply (polyfun_eq (S u) A A' good).
    - rewrite <- LR. apply lprod_poly'.
    - rewrite <- LR. apply lprod_poly'.
    - apply NoDup_filter, Nb.
    - exact Lgood.
    - intros b Ib. destruct (Hgood b Ib). apply K2; assumption. }
  assert (ET : forall g, T g = T' g).
  { destruct good as [|b good'] eqn:Eg; [cbn in Lgood; lia|]. destruct (Hgood b (or_introl eq_refl)) as [Ib NA].
    intros g. pose proof (K b Ib NA g) as X. rewrite <- EA in X. apply (fmul_cancel (A b)); assumption. }
  assert (G : forall f f' : nat -> Fr, (forall x, fprod (map (fun r => f r + x) rows) = fprod (map (fun r => f' r + x) rows)) ->
    Permutation (map f' rows) (map f rows)).
  { intros f f' H. assert (PP : Permutation (map (fun r => - f' r) rows) (map (fun r => - f r) rows)).
    { apply lprod_eq; [unfold few; rewrite map_length, LR; lia..|]. intros x. rewrite <- !fprod_lprod. symmetry. apply H. }
    apply (Permutation_map fopp) in PP. rewrite !map_map in PP.
    rewrite (map_ext (fun x => - - f' x) f') in PP by (intros x; fring).
    rewrite (map_ext (fun x => - - f x) f) in PP by (intros x; fring). exact PP. }
  split; [apply G, EA|apply G, ET].
Qed.
Lemma lookup_complete b g : Permutation (map a' rows) (map a rows) -> Permutation (map s' rows) (map s rows) ->
  lden b g = lnum b g.
Proof.
  intros PA PS. unfold lden, lnum. rewrite !fprod_mul. f_equal.
  - transitivity (fprod (map (fun x => x + b) (map a' rows))); [rewrite map_map; reflexivity|].
    transitivity (fprod (map (fun x => x + b) (map a rows))); [apply fprod_perm, Permutation_map, PA|rewrite map_map; reflexivity].
  - transitivity (fprod (map (fun x => x + g) (map s' rows))); [rewrite map_map; reflexivity|].
    transitivity (fprod (map (fun x => x + g) (map s rows))); [apply fprod_perm, Permutation_map, PS|rewrite map_map; reflexivity].
Qed.
(** every permuted input is a permuted table entry *)
Lemma permuted_in : ((0 < u)%nat -> a' 0%nat = s' 0%nat) ->
  (forall r, (S r < u)%nat -> (a' (S r) - s' (S r)) * (a' (S r) - a' r) = f0) ->
  forall r, (r < u)%nat -> exists r', (r' < u)%nat /\ a' r = s' r'.
Proof.
  intros H0 H. induction r as [|r IH]; intros Hr.
  - exists 0%nat. split; [exact Hr|apply H0, Hr].
  - pose proof (H r Hr) as E. apply Fr_mul_eq_0 in E. destruct E as [E|E]; apply fsub_eq in E.
    + exists (S r). split; [exact Hr|exact E].
    + rewrite E. apply IH. lia.
Qed.
Lemma lookup_rows :
  many (2 * u + 1) (fun b => many (2 * u + 1) (fun g => exists zu, zu * zu = zu /\ zu * lden b g = lnum b g)) ->
  ((0 < u)%nat -> a' 0%nat = s' 0%nat) ->
  (forall r, (S r < u)%nat -> (a' (S r) - s' (S r)) * (a' (S r) - a' r) = f0) ->
  forall r, (r < u)%nat -> exists r', (r' < u)%nat /\ a r = s r'.
Proof.
  intros HM H0 H r Hr. destruct (lookup_sound HM) as [PA PS].
  assert (I : In (a r) (map a' rows)).
  { apply (Permutation_in _ (Permutation_sym PA)). apply in_map, in_seq. lia. }
  apply in_map_iff in I. destruct I as (r1 & E1 & I1). apply in_seq in I1.
  destruct (permuted_in H0 H r1 ltac:(lia)) as (r2 & L2 & E2).
  assert (I2 : In (s' r2) (map s rows)).
  { apply (Permutation_in _ PS). apply in_map, in_seq. lia. }
  apply in_map_iff in I2. destruct I2 as (r3 & E3 & I3). apply in_seq in I3.
  exists r3. split; [lia|]. congruence.
Qed.
End Lookup.

(** ** Compression of several columns *)
Definition compress (theta : Fr) (l : list Fr) : Fr := fold_left (fun acc e => acc * theta + e) l f0.
Lemma compress_peval theta l : compress theta l = peval (rev l) theta.
Proof.
  unfold compress. enough (G : forall (l : list Fr) (a : Fr), fold_left (fun acc e => acc * theta + e) l a = peval (rev l ++ [a]) theta).
  { rewrite G. rewrite peval_app1. fring. }
  clear l. induction l as [|e l IH]; intros a; cbn [fold_left rev app].
  - cbn [peval]. fring.
  - rewrite IH. rewrite <- app_assoc. cbn [app].
    enough (P : forall k x y, peval (k ++ [x * theta + y]) theta = peval (k ++ [y; x]) theta) by apply P.
    clear. induction k as [|c k IH]; intros x y; cbn [app peval]; [fring|rewrite IH; fring].
Qed.
Lemma compress_inj u L (inputs : list Fr) (tables : nat -> list Fr) :
  length inputs = L -> (forall r, (r < u)%nat -> length (tables r) = L) ->
  many ((L - 1) * u + 1) (fun th => exists r, (r < u)%nat /\ compress th inputs = compress th (tables r)) ->
  exists r, (r < u)%nat /\ inputs = tables r.
Proof.
  intros Li Lt (l & Nl & Ll & Hl).
  assert (D : forall p q : list Fr, {p = q} + {p <> q}) by (apply list_eq_dec, fe_dec).
  destruct (Exists_dec (fun r => inputs = tables r) (seq 0 u) (fun r => D _ _)) as [E|E].
  - apply Exists_exists in E. destruct E as (r & Ir & E). apply in_seq in Ir. exists r. split; [lia|exact E].
  - exfalso. assert (NE : forall r, (r < u)%nat -> inputs <> tables r).
    { intros r Hr X. apply E, Exists_exists. exists r. split; [apply in_seq; lia|exact X]. }
    set (dif := fun r => map (fun ab : Fr * Fr => let '(x, y) := ab in x - y) (combine (rev inputs) (rev (tables r)))).
    destruct (avoid_roots (L - 1) (map dif (seq 0 u)) l) as (t & It & Ht).
    + exact Nl.
    + intros p Ip. apply in_map_iff in Ip. destruct Ip as (r & <- & Ir). apply in_seq in Ir.
      assert (LL : length (rev inputs) = length (rev (tables r))) by (rewrite !rev_length, (Lt r) by lia; exact Li).
      split.
      * unfold dif. rewrite map_length, combine_length, <- LL, rev_length. change (fe r_pos) with Fr in *. lia.
      * intros Z. apply diff_zeros in Z; [|exact LL]. apply (NE r); [lia|].
        apply (f_equal (@rev Fr)) in Z. change (fe r_pos) with Fr in *. rewrite !rev_involutive in Z. exact Z.
    + rewrite map_length, seq_length. change (fe r_pos) with Fr in *. lia.
    + destruct (Hl t It) as (r & Hr & Er). apply (Ht (dif r)); [apply in_map, in_seq; lia|].
      unfold dif. rewrite !compress_peval in Er.
      rewrite <- peval_sub by (rewrite !rev_length, (Lt r Hr); exact Li). rewrite Er. fring.
Qed.
