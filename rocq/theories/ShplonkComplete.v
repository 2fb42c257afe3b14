(** The prover of the multi-opening argument convinces the verifier. *)
From Coq Require Import ZArith List Arith Bool Lia Permutation.
From Verif Require Import Base Moduli Field FieldFacts AlgebraSpec LimbSpec DomainFacts ListFacts SelectorModel DomainModel IopModel PolyFacts IopPoly IopRows ArithModel ArithSpec ArithFacts MultiexpFacts
  TransformFacts KzgModel KzgFacts ArithThms ShplonkModel ShplonkSets ShplonkVerify ShplonkSound.
Import ListNotations.
Local Open Scope F_scope.

Lemma zip_left_length f a : forall b, length (zip_left f a b) = length a.
Proof. induction a as [|x a IH]; intros [|y b]; cbn [zip_left length]; auto. Qed.
Lemma zip_add a : forall b x, (length b <= length a)%nat -> peval (zip_left fadd a b) x = peval a x + peval b x.
Proof.
  induction a as [|c a IH]; intros [|e b] x L; cbn [length] in L; cbn [zip_left peval]; try lia; try fring.
  rewrite IH by lia. fring.
Qed.
Lemma zip_sub a : forall b x, (length b <= length a)%nat -> peval (zip_left fsub a b) x = peval a x - peval b x.
Proof.
  induction a as [|c a IH]; intros [|e b] x L; cbn [length] in L; cbn [zip_left peval]; try lia; try fring.
  rewrite IH by lia. fring.
Qed.
Lemma poly_scale_eval a k x : peval (poly_scale a k) x = k * peval a x.
Proof. unfold poly_scale. induction a as [|c a IH]; cbn [map peval]; [fring|]. rewrite IH. fring. Qed.
Lemma poly_scale_length a k : length (poly_scale a k) = length a.
Proof. apply map_length. Qed.
Lemma fold_polys n ps k : (forall p, In p ps -> length p = n) -> forall cur acc, length acc = n ->
  exists q, fold_left (fun acc p => let! acc := acc in poly_add acc p)
     (map (fun pk => poly_scale (fst pk) (snd pk)) (combine ps (powers_from (length ps) k cur))) (Ok acc) = Ok q /\ length q = n /\
    forall x, peval q x = peval acc x + cur * peval (map (fun p => peval p x) ps) k.
Proof.
  induction ps as [|p ps IH]; intros H cur acc La; cbn [length powers_from combine map fold_left].
  - exists acc. split; [reflexivity|]. split; [exact La|]. intros x. cbn [map peval]. fring.
  - cbn [fst snd bind]. unfold poly_add at 2. rewrite poly_scale_length, (H p (or_introl eq_refl)).
    destruct (Nat.leb_spec (length acc) (S n)); [|lia].
    destruct (IH (fun p I => H p (or_intror I)) (k * cur) (zip_left fadd acc (poly_scale p cur))) as (q & E & Lq & V); [rewrite zip_left_length; exact La|].
    exists q. split; [exact E|]. split; [exact Lq|]. intros x. rewrite V, zip_add, poly_scale_eval.
    + cbn [map peval]. fring.
    + rewrite poly_scale_length, (H p (or_introl eq_refl)). lia.
Qed.
Lemma combine_polys_ok n ps k : ps <> [] -> (forall p, In p ps -> length p = n) ->
  exists q, combine_polys ps k = Ok q /\ length q = n /\ forall x, peval q x = peval (map (fun p => peval p x) ps) k.
Proof.
  intros N H. destruct ps as [|p ps]; [congruence|]. unfold combine_polys, powers_of. cbn [length powers_from combine map].
  destruct (fold_polys n ps k (fun p I => H p (or_intror I)) (k * f1) (poly_scale p f1)) as (q & E & Lq & V).
  { rewrite poly_scale_length. apply H. left. reflexivity. }
  exists q. split; [exact E|]. split; [exact Lq|]. intros x. rewrite V, poly_scale_eval. cbn [map peval]. fring.
Qed.
Lemma div_ok roots : forall p, NoDup roots -> (length roots <= length p)%nat -> (forall r, In r roots -> peval p r = f0) ->
  exists q, div_by_vanishing p roots = Ok q /\ length q = (length p - length roots)%nat /\ forall x, peval p x = lprod roots x * peval q x.
Proof.
  unfold div_by_vanishing. induction roots as [|r roots IH]; intros p N L H; cbn [fold_left].
  - exists p. split; [reflexivity|]. split; [cbn [length]; lia|]. intros x. change (lprod [] x) with (@f1 r_pos). fring.
  - apply NoDup_cons_iff in N. destruct N as [N1 N2]. cbn [length] in L. cbn [bind].
    rewrite kate_division_is by (intros ->; cbn in L; lia).
    assert (E : forall x, peval p x = (x - r) * peval (pdiv r p) x).
    { intros x. rewrite (pdiv_eq r p x). etransitivity; [apply (f_equal (fadd _)), H; left; reflexivity|]. fring. }
    destruct (IH (pdiv r p) N2) as (q & Eq & Lq & V).
    + rewrite pdiv_length. lia.
    + intros r' I. pose proof (H r' (or_intror I)) as Z. rewrite E in Z. apply Fr_mul_eq_0 in Z. destruct Z as [Z|Z]; [|exact Z].
      apply fsub_eq in Z. subst r'. tauto.
    + exists q. split; [exact Eq|]. split; [rewrite Lq, pdiv_length; cbn [length]; lia|]. intros x. rewrite E, V.
      change (lprod (r :: roots) x) with ((x - r) * lprod roots x). fring.
Qed.
Lemma resize_length n p : (length p <= n)%nat -> length (resize n p) = n.
Proof. intros L. unfold resize. rewrite app_length, firstn_length, repeat_length. lia. Qed.
Lemma resize_eval n p x : (length p <= n)%nat -> peval (resize n p) x = peval p x.
Proof.
  intros L. unfold resize. rewrite firstn_all2 by exact L. rewrite <- !comb_peval. apply (comb_pad f0 fadd fsub fmul fr_module).
Qed.
Lemma Forall2_map_eq {A B C} (R : A -> B -> Prop) (f : A -> C) (g : B -> C) l m : Forall2 R l m -> (forall a b, In a l -> R a b -> g b = f a) -> map g m = map f l.
Proof.
  induction 1 as [|a b l m H F IH]; intros E; [reflexivity|]. cbn [map]. rewrite (E a b (or_introl eq_refl) H), IH; [reflexivity|].
  intros; apply E; [right|]; assumption.
Qed.

Section Prover.
Context {T : Type}.
Variable same : T -> T -> bool.
Hypothesis same_eq : forall a b, same a b = true <-> a = b.
Variable P : T -> list Fr.
Variables (qs : list (T * Fr)) (sets : list (rotation_set T)) (super : list Fr).
Notation vqs := (prover_queries P qs).
Hypothesis Hg : good_sets vqs sets super.
Hypothesis Hi : intermediate_sets same vqs = Ok (sets, super).
Hypothesis Hq : qs <> [].
Variable n : nat.
Hypothesis HP : forall c, length (P c) = n.
Hypothesis Hn : (length super <= n)%nat.
Notation osum com y v u := (opening_sum com super sets y v u).

Lemma query_true c p e : In (c, p, e) vqs -> e = peval (P c) p.
Proof.
  unfold prover_queries. rewrite in_map_iff. intros ((c' & p') & E & _). cbn [fst snd] in E. injection E as <- <- <-. apply eval_polynomial_is.
Qed.
Lemma sets_nonempty : sets <> [].
Proof.
  clear - Hg Hq. intros ->. destruct qs as [|[c p] q]; [congruence|]. destruct (gs_all _ _ _ Hg c p (eval_polynomial (P c) p)) as (? & ? & [] & _). left. reflexivity.
Qed.
Lemma n_pos' : (1 <= n)%nat.
Proof.
  pose proof sets_nonempty. destruct sets as [|s0 rest] eqn:E; [congruence|]. destruct (gs_set _ _ _ Hg s0 (or_introl eq_refl)) as (_ & I & _ & NE & _).
  destruct (rs_points s0) as [|p0 ps]; [congruence|]. specialize (I p0 (or_introl eq_refl)). destruct super; [destruct I|]. cbn [length] in Hn. lia.
Qed.
Lemma points_le s : In s sets -> (length (rs_points s) <= n)%nat.
Proof.
  intros Is. destruct (gs_set _ _ _ Hg s Is) as (N & I & _). etransitivity; [|exact Hn]. apply NoDup_incl_length; assumption.
Qed.
Definition inner_sum (s : rotation_set T) (y x : Fr) : Fr :=
  peval (map (fun c => peval (P (fst c)) x - peval (interp_of (rs_points s) (snd c)) x) (rs_commitments s)) y.
Lemma quotient_contribution_ok y s : In s sets ->
  exists q, quotient_contribution P n y s = Ok q /\ length q = n /\ forall x, inner_sum s y x = lprod (rs_points s) x * peval q x.
Proof.
  intros Is. destruct (gs_set _ _ _ Hg s Is) as (N & I & NE & NEp & _ & L). unfold quotient_contribution.
  assert (Nu : forall c, In c (rs_commitments s) -> exists m, numerator P (rs_points s) c = Ok m).
  { intros [c es] Ic. destruct (L c es Ic) as [Le _]. destruct (interp_of_is _ es N Le) as (E & Li & _). unfold numerator. cbn [fst snd]. rewrite E. cbn [bind].
    rewrite HP, Li. rewrite (proj2 (Nat.leb_le _ _) (points_le s Is)). eauto. }
  destruct (rmap_ok _ _ Nu) as (ns & En & Ln & Fn). rewrite En. cbn [bind].
  assert (V : forall c m, In c (rs_commitments s) -> numerator P (rs_points s) c = Ok m -> length m = n /\
     forall x, peval m x = peval (P (fst c)) x - peval (interp_of (rs_points s) (snd c)) x).
  { intros [c es] m Ic. destruct (L c es Ic) as [Le _]. destruct (interp_of_is _ es N Le) as (E & Li & _). unfold numerator. cbn [fst snd]. rewrite E. cbn [bind].
    rewrite HP, Li. rewrite (proj2 (Nat.leb_le _ _) (points_le s Is)). intros Q. injection Q as <-.
    split; [rewrite zip_left_length; apply HP|]. intros x. apply zip_sub. rewrite HP, Li. apply points_le, Is. }
  destruct (combine_polys_ok n ns y) as (nx & Ec & Lc & Vc).
  { intros ->. destruct (rs_commitments s); [congruence|discriminate]. }
  { intros m Im. destruct (Forall2_in_r _ _ _ _ Fn Im) as (c & Ic & E). apply (V c m Ic E). }
  rewrite Ec. cbn [bind].
  assert (Vn : forall x, peval nx x = inner_sum s y x).
  { intros x. rewrite Vc. unfold inner_sum. f_equal. eapply Forall2_map_eq; [exact Fn|]. intros c m Ic E. apply (V c m Ic E). }
  destruct (div_ok (rs_points s) nx N) as (q & Eq & Lq & Vq).
  - rewrite Lc. apply points_le, Is.
  - intros r Ir. rewrite Vn. unfold inner_sum. apply (In_nth _ _ f0) in Ir. destruct Ir as (i & Hl & <-).
    rewrite (peval_map_ext _ (fun _ => f0)).
    + clear. induction (rs_commitments s) as [|a l IH]; cbn [map peval]; [reflexivity|]. rewrite IH. fring.
    + intros [c es] Ic. cbn [fst snd]. destruct (L c es Ic) as [Le Lv]. destruct (interp_of_is _ es N Le) as (_ & _ & Vi). specialize (Vi i Hl).
      change (fe r_pos) with Fr in *. rewrite Vi. apply Lv in Hl. apply query_true in Hl. rewrite Hl. fring.
  - rewrite Eq. cbn [bind]. eexists. split; [reflexivity|]. split; [apply resize_length; unfold Fr in *; lia|]. intros x.
    rewrite resize_eval by (unfold Fr in *; lia). rewrite <- Vn. apply Vq.
Qed.
Lemma shplonk_h_ok y v : exists h, shplonk_h same P n qs y v = Ok h /\ length h = n /\
  forall x, osum (fun c => peval (P c) x) y v x = lprod super x * peval h x.
Proof.
  unfold shplonk_h. rewrite Hi. cbn [bind].
  destruct (rmap_ok (quotient_contribution P n y) sets) as (qp & E & Lp & F).
  { intros s Is. destruct (quotient_contribution_ok y s Is) as (q & Eq & _). eauto. }
  rewrite E. cbn [bind]. pose proof sets_nonempty as NE.
  destruct (combine_polys_ok n qp v) as (h & Eh & Lh & Vh).
  { intros ->. destruct sets; [congruence|discriminate]. }
  { intros q Iq. destruct (Forall2_in_r _ _ _ _ F Iq) as (s & Is & Eq). destruct (quotient_contribution_ok y s Is) as (q' & E' & L' & _). congruence. }
  exists h. split; [exact Eh|]. split; [exact Lh|]. intros x. rewrite Vh. unfold opening_sum.
  rewrite <- peval_map_scale. f_equal.
  rewrite (Forall2_map_eq _ (fun s => lprod (diffs super s) x * inner_sum s y x) (fun q => lprod super x * peval q x) _ _ F); [reflexivity|].
  intros s q Is Eq. destruct (quotient_contribution_ok y s Is) as (q' & E' & _ & V'). assert (q' = q) by congruence. subst q'. rewrite V'.
  destruct (gs_set _ _ _ Hg s Is) as (N & I & _).
  rewrite <- (lprod_perm _ _ x (diffs_perm super s (gs_nodup _ _ _ Hg) N I)), lprod_app. fring.
Qed.
Definition lin_sum (s : rotation_set T) (y u x : Fr) : Fr :=
  peval (map (fun c => peval (P (fst c)) x - peval (interp_of (rs_points s) (snd c)) u) (rs_commitments s)) y.
Lemma linearisation_ok y u s : In s sets ->
  exists l, linearisation P super y u s = Ok (l, lprod (diffs super s) u) /\ length l = n /\ forall x, peval l x = lprod (diffs super s) u * lin_sum s y u x.
Proof.
  intros Is. destruct (gs_set _ _ _ Hg s Is) as (N & I & NE & NEp & _ & L). unfold linearisation. fold (diffs super s). rewrite vanishing_is.
  assert (V : forall c, In c (rs_commitments s) -> exists m, linear_term P u (rs_points s) c = Ok m /\ length m = n /\
     forall x, peval m x = peval (P (fst c)) x - peval (interp_of (rs_points s) (snd c)) u).
  { intros [c es] Ic. destruct (L c es Ic) as [Le _]. destruct (interp_of_is _ es N Le) as (E & Li & _). unfold linear_term. cbn [fst snd]. rewrite E. cbn [bind].
    pose proof n_pos' as Np. specialize (HP c). unfold poly_sub_const. destruct (P c) as [|a p] eqn:Ep; [cbn in HP; lia|].
    eexists. split; [reflexivity|]. split; [exact HP|]. intros x. rewrite eval_polynomial_is. cbn [peval]. fring. }
  destruct (rmap_ok (linear_term P u (rs_points s)) (rs_commitments s)) as (ms & Em & Lm & Fm).
  { intros c Ic. destruct (V c Ic) as (m & E & _). eauto. }
  rewrite Em. cbn [bind].
  destruct (combine_polys_ok n ms y) as (l & El & Ll & Vl).
  { intros ->. destruct (rs_commitments s); [congruence|discriminate]. }
  { intros m Im. destruct (Forall2_in_r _ _ _ _ Fm Im) as (c & Ic & E). destruct (V c Ic) as (m' & E' & L' & _). congruence. }
  rewrite El. cbn [bind]. eexists. split; [reflexivity|]. split; [rewrite poly_scale_length; exact Ll|].
  intros x. rewrite poly_scale_eval, Vl. f_equal. unfold lin_sum. f_equal. eapply Forall2_map_eq; [exact Fm|].
  intros c m Ic E. destruct (V c Ic) as (m' & E' & _ & V'). assert (m' = m) by congruence. subst m'. apply V'.
Qed.
Lemma shplonk_h2_ok pr y v h u s0 rest : sets = s0 :: rest -> length h = n ->
  (forall x, osum (fun c => peval (P c) x) y v x = lprod super x * peval h x) -> lprod (diffs super s0) u <> f0 ->
  exists h2, shplonk_h2 same P pr qs y v h u = Ok h2 /\ (length h2 < n)%nat /\
    forall x, (x - u) * peval h2 x * lprod (diffs super s0) u = osum (fun c => peval (P c) x) y v u - lprod super u * peval h x.
Proof.
  intros Es Lh Vh Z. unfold shplonk_h2. rewrite Hi. cbn [bind].
  destruct (rmap_ok (linearisation P super y u) sets) as (ls & E & Ll & F).
  { intros s Is. destruct (linearisation_ok y u s Is) as (q & Eq & _). eauto. }
  rewrite E. cbn [bind]. pose proof sets_nonempty as NE.
  destruct (combine_polys_ok n (map fst ls) v) as (l & El & Lc & Vc).
  { intros N. apply map_eq_nil in N. subst ls. destruct sets; [congruence|discriminate]. }
  { intros m Im. apply in_map_iff in Im. destruct Im as ([m' z] & <- & Im). destruct (Forall2_in_r _ _ _ _ F Im) as (s & Is & Eq).
    destruct (linearisation_ok y u s Is) as (q' & E' & L' & _). rewrite Eq in E'. injection E' as <- _. exact L'. }
  rewrite El. cbn [bind]. unfold poly_sub. rewrite poly_scale_length, Lc, Lh. destruct (Nat.leb_spec n (S n)); [|lia]. cbn [bind].
  set (l' := zip_left fsub l (poly_scale h (evaluate_vanishing_polynomial super u))).
  assert (Vl : forall x, peval l' x = osum (fun c => peval (P c) x) y v u - lprod super u * peval h x).
  { intros x. unfold l'. rewrite zip_sub by (rewrite poly_scale_length; unfold Fr in *; lia). rewrite poly_scale_eval, vanishing_is, Vc, map_map. f_equal.
    unfold opening_sum. f_equal. eapply Forall2_map_eq; [exact F|]. intros s [m z] Is Eq. destruct (linearisation_ok y u s Is) as (q' & E' & _ & V').
    rewrite Eq in E'. injection E' as <- _. apply V'. }
  assert (Z0 : peval l' u = f0) by (rewrite Vl, Vh; fring).
  destruct (div_ok [u] l') as (q & Eq & Lq & Vq).
  { repeat constructor. intros []. }
  { unfold l'. rewrite zip_left_length, Lc. apply n_pos'. }
  { intros r [<-|[]]. exact Z0. }
  destruct ls as [|[l0 z0] ls]; [rewrite Es in Ll; discriminate|].
  assert (Ez : z0 = lprod (diffs super s0) u).
  { assert (Is : In s0 sets) by (rewrite Es; left; reflexivity). destruct (linearisation_ok y u s0 Is) as (q' & E' & _).
    pose proof (Forall2_nth _ _ _ 0 s0 (l0, z0) F) as Q. rewrite Es in Q. specialize (Q ltac:(cbn; lia)). cbn [nth] in Q. congruence. }
  exists (poly_scale q (finv z0)). repeat apply conj.
  - destruct pr.
    + rewrite eval_polynomial_is, (proj2 (feqb_eq _ _) Z0). cbn [bind]. rewrite Eq. cbn [bind]. unfold finvert. rewrite Ez, (proj2 (feqb_neq _ _) Z). reflexivity.
    + cbn [bind]. rewrite Eq. cbn [bind]. unfold finvert. rewrite Ez, (proj2 (feqb_neq _ _) Z). reflexivity.
  - rewrite poly_scale_length, Lq. unfold l'. rewrite zip_left_length, Lc. cbn [length]. pose proof n_pos'. lia.
  - intros x. rewrite <- Vl, Vq, poly_scale_eval, Ez. change (lprod [u] x) with ((x - u) * f1). pose proof (fmul_finv _ Z) as Q. revert Q.
    generalize (lprod (diffs super s0) u). intros z. generalize (finv z). intros i Q. transitivity ((x - u) * peval q x * (z * i)); [fring|]. rewrite Q. fring.
Qed.
End Prover.

Section Complete.
Context {G G2 T : Type}.
Variables (zero : G) (add sub : G -> G -> G) (scale : Fr -> G -> G) (gen : G).
Variables (scale2 : Fr -> G2 -> G2) (gen2 : G2).
Hypothesis M : is_module zero add sub scale.
Variable pairing_check : G -> G2 -> G -> G2 -> bool.
Hypothesis Hp : forall s l r, pairing_check l (scale2 s gen2) r gen2 = true <-> scale s l = r.
Variable same : T -> T -> bool.
Hypothesis same_eq : forall a b, same a b = true <-> a = b.
Notation setup := (setup scale gen scale2 gen2).
Notation verify := (fun com => shplonk_verify same com zero add pairing_check).

(** [p'] may be what is left of the parameters after shrinking *)
Theorem openings_accepted k s p p' (P : T -> list Fr) (commitment : T -> reference G) (qs : list (T * Fr)) :
  (0 <= k <= 28)%Z -> setup k s = Ok p -> (forall c, lenZ (P c) = 2 ^ k)%Z -> qs <> [] ->
  (lenZ (nodup fe_dec (map snd qs)) <= 2 ^ k)%Z ->
  (forall c, commit zero add p (P c) = Ok (ref_value zero add scale (commitment c))) ->
  (exists rest, sr_g p' = gen :: rest) -> sr_g2 p' = sr_g2 p -> sr_s_g2 p' = sr_s_g2 p ->
  forall y v, exists h c1, shplonk_h same P (Z.to_nat (2 ^ k)) qs y v = Ok h /\ commit zero add p h = Ok c1 /\
    forall pr u, ~ In u (map snd qs) ->
      exists h2 c2, shplonk_h2 same P pr qs y v h u = Ok h2 /\ commit zero add p h2 = Ok c2 /\
        verify commitment p' (map (fun q => (fst q, snd q, peval (P (fst q)) (snd q))) qs) y v c1 u c2 = Ok true.
Proof.
  intros Hk Es HP Hq Hd Hc Eg' E2' Es2' y v. destruct (intermediate_ok same same_eq (prover_queries P qs)) as (sets & super & Ei & Hg).
  set (n := Z.to_nat (2 ^ k)) in *. assert (Hn : Z.of_nat n = (2 ^ k)%Z) by (apply pow2_nat; lia).
  assert (HP' : forall c, length (P c) = n) by (intros c; specialize (HP c); unfold lenZ in HP; unfold Fr in *; lia).
  assert (Hs : forall x, In x super <-> In x (map snd qs)).
  { intros x. rewrite (gs_super _ _ _ Hg). unfold prover_queries. rewrite map_map. cbn [fst snd]. reflexivity. }
  assert (Ls : (length super <= n)%nat).
  { assert (length super <= length (nodup fe_dec (map snd qs)))%nat.
    - apply NoDup_incl_length; [apply (gs_nodup _ _ _ Hg)|]. intros x Hx. apply nodup_In, Hs, Hx.
    - unfold lenZ in Hd. unfold Fr in *. lia. }
  assert (CO : forall H, (length H <= n)%nat -> commit zero add p H = Ok (scale (peval H s) gen)).
  { intros H L. eapply commit_ok; try eassumption. lia. }
  destruct (shplonk_h_ok same P qs sets super Hg Ei Hq n HP' Ls y v) as (h & Eh & Lh & Vh).
  exists h, (scale (peval h s) gen). split; [exact Eh|]. split; [apply CO; lia|]. intros pr u Hu.
  assert (Hc2 : forall c, ref_value zero add scale (commitment c) = scale (peval (P c) s) gen).
  { intros c. specialize (Hc c). rewrite CO in Hc by (rewrite HP'; lia). injection Hc as <-. reflexivity. }
  destruct (setup_gen zero add sub scale gen scale2 gen2 M k s p Hk Es) as (_ & Es2 & Eg2).
  assert (Hp2 : forall l r, pairing_check l (sr_s_g2 p') r (sr_g2 p') = true <-> scale s l = r) by (rewrite Es2', E2', Es2, Eg2; apply Hp).
  assert (Eq : map (fun q => (fst q, snd q, peval (P (fst q)) (snd q))) qs = prover_queries P qs).
  { unfold prover_queries. apply map_ext. intros q. rewrite eval_polynomial_is. reflexivity. }
  assert (Hq2 : prover_queries P qs <> []) by (destruct qs; [congruence|discriminate]).
  destruct sets as [|s0 rest] eqn:Ess; [exfalso; exact (sets_nonempty P qs _ _ Hg Hq eq_refl)|]. rewrite <- Ess in *.
  assert (Z : lprod (diffs super s0) u <> f0) by (intros Z; apply lprod_zero, diffs_in in Z; apply Hu, Hs, Z).
  destruct (shplonk_h2_ok same P qs sets super Hg Ei Hq n HP' Ls pr y v h u s0 rest Ess Lh Vh Z) as (h2 & E2 & L2 & V2).
  exists h2, (scale (peval h2 s) gen). split; [exact E2|]. split; [apply CO; lia|]. rewrite Eq.
  destruct (verify_is zero add sub scale gen M commitment (fun c => peval (P c) s) Hc2 same pairing_check p' s (prover_queries P qs) y v
     (peval h s) u (peval h2 s) sets super Eg' Hp2 Ei Hg Hq2) as (s1 & rest1 & Es1 & Q).
  rewrite Ess in Es1. injection Es1 as <- <-. cbv zeta in Q. rewrite (proj2 (feqb_neq _ _) Z) in Q. destruct Q as (b & Eb & Hb).
  rewrite Eb. f_equal. apply Hb. apply V2.
Qed.
End Complete.
