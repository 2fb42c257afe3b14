(** Division by a linear factor and interpolation. *)
From Coq Require Import ZArith List Arith Bool Lia.
From Verif Require Import Base Moduli Field FieldFacts LimbSpec LimbField LimbConst ListFacts PolyFacts
  DomainModel DomainSpec DomainFacts IopPoly ArithModel ArithSpec FftFacts TransformFacts.
Import ListNotations.
Local Open Scope F_scope.

Local Opaque finv.
Ltac flia := change (fe r_pos) with Fr in *; lia.

Lemma eval_polynomial_is p x : eval_polynomial p x = peval p x.
Proof.
  unfold eval_polynomial. rewrite <- fold_left_rev_right, rev_involutive.
  induction p as [|c p IH]; [reflexivity|]. cbn [fold_right peval]. rewrite IH. fring.
Qed.
Lemma vanishing_is roots z : evaluate_vanishing_polynomial roots z = lprod roots z.
Proof.
  unfold evaluate_vanishing_polynomial.
  assert (Q : forall acc, fold_left (fun acc point => (z - point) * acc) roots acc = lprod roots z * acc).
  { unfold lprod. induction roots as [|a l IH]; intros acc; cbn [fold_left fold_right]; [fring|]. rewrite IH. fring. }
  rewrite Q. fring.
Qed.
Lemma powers_from_nth n base : forall cur i, (i < n)%nat -> nth i (powers_from n base cur) f0 = cur * fpow base (Z.of_nat i).
Proof.
  induction n as [|n IH]; intros cur i Hi; [lia|]. destruct i as [|i]; cbn [powers_from nth].
  - change (fpow base (Z.of_nat 0)) with (@f1 r_pos). fring.
  - rewrite IH, fpow_S' by lia. fring.
Qed.
Lemma powers_from_length n base : forall cur, length (powers_from n base cur) = n.
Proof. induction n as [|n IH]; intros cur; cbn [powers_from length]; [reflexivity|]. rewrite IH. reflexivity. Qed.

(** ** Division by X - b *)
Fixpoint suffixes (p : list Fr) (b : Fr) : list Fr :=
  match p with [] => [] | _ :: p' => peval p b :: suffixes p' b end.
Lemma suffixes_pdiv c p b : pdiv b (c :: p) = suffixes p b.
Proof.
  revert c. induction p as [|d p IH]; intros c; [reflexivity|]. cbn [suffixes]. rewrite <- (IH d). reflexivity.
Qed.
Lemma kate_go_is b p : forall c l, kate_go (- b) (length p + c) (rev p ++ l) f0 [] =
  kate_go (- b) c l (- (b * peval p b)) (suffixes p b).
Proof.
  induction p as [|x p IH]; intros c l.
  - cbn [rev app length suffixes peval]. f_equal. fring.
  - cbn [rev length suffixes]. rewrite <- app_assoc. cbn [app]. rewrite Nat.add_succ_comm, IH. cbn [kate_go peval].
    replace (x - - (b * peval p b)) with (x + b * peval p b) by fring. f_equal. fring.
Qed.
Lemma kate_division_is a b : a <> [] -> kate_division a b = Ok (pdiv b a).
Proof.
  destruct a as [|c p]; [congruence|]. intros _. unfold kate_division. cbn [length]. f_equal. cbn [rev].
  rewrite <- (Nat.add_0_r (length p)), kate_go_is, suffixes_pdiv. reflexivity.
Qed.

(** ** Interpolation *)
Lemma peval_combine u v p : forall q x, length p = length q ->
  peval (map (fun ab => fst ab * u + snd ab * v) (combine p q)) x = u * peval p x + v * peval q x.
Proof.
  induction p as [|a p IH]; intros [|b q] x L; try discriminate; [cbn [combine map peval]; fring|].
  cbn [combine map peval fst snd]. rewrite IH by (injection L; auto). fring.
Qed.
Lemma peval_snoc0 p x : peval (p ++ [f0]) x = peval p x.
Proof. induction p as [|a p IH]; cbn [app peval]; [fring|rewrite IH; reflexivity]. Qed.
Lemma times_factor_length tmp d xk : length (times_factor tmp d xk) = S (length tmp).
Proof. unfold times_factor. rewrite map_length, combine_length, app_length. cbn [length]. flia. Qed.
Lemma times_factor_eval tmp d xk x : peval (times_factor tmp d xk) x = d * (x - xk) * peval tmp x.
Proof.
  unfold times_factor. rewrite peval_combine by (rewrite app_length; cbn [length]; flia).
  rewrite peval_snoc0. cbn [peval]. fring.
Qed.
Lemma basis_poly xj ks x : forall tmp,
  length (fold_left (fun tmp xk => times_factor tmp (finv (xj - xk)) xk) ks tmp) = (length tmp + length ks)%nat /\
  peval (fold_left (fun tmp xk => times_factor tmp (finv (xj - xk)) xk) ks tmp) x =
    peval tmp x * fold_right (fun xk s => finv (xj - xk) * (x - xk) * s) f1 ks.
Proof.
  induction ks as [|a ks IH]; intros tmp; cbn [fold_left fold_right length].
  - split; [flia|fring].
  - destruct (IH (times_factor tmp (finv (xj - a)) a)) as [A B]. rewrite A, B, times_factor_length, times_factor_eval. split; [flia|].
    match goal with |- context [fold_right ?f f1 ks] => generalize (fold_right f f1 ks) end.
    generalize (finv (xj - a)). intros i s. fring.
Qed.
Lemma others_length {A} j (l : list A) : (j < length l)%nat -> length (others j l) = pred (length l).
Proof. intros H. unfold others. rewrite app_length, firstn_length, skipn_length. flia. Qed.
Lemma others_in {A} j (l : list A) d x : NoDup l -> (j < length l)%nat -> (In x (others j l) <-> In x l /\ x <> nth j l d).
Proof.
  intros ND Hj. unfold others. rewrite <- (firstn_skipn j l) in ND at 1. rewrite <- (firstn_skipn j l) at 3.
  assert (E : skipn j l = nth j l d :: skipn (S j) l).
  { clear ND. revert l Hj. induction j as [|j IH]; intros [|a l] Hj; cbn [length] in Hj; try flia; [reflexivity|].
    cbn [skipn nth]. rewrite IH by flia. reflexivity. }
  rewrite E in *. rewrite !in_app_iff. cbn [In].
  apply NoDup_remove_2 in ND. rewrite in_app_iff in ND. split.
  - intros [H|H]; (split; [tauto|]); intros ->; tauto.
  - intros [[H|[H|H]] N]; auto. congruence.
Qed.
Lemma basis_at (xj : Fr) ks (x : Fr) : (forall a, In a ks -> a <> xj) ->
  (In x ks -> fold_right (fun xk s => finv (xj - xk) * (x - xk) * s) f1 ks = f0) /\
  (x = xj -> fold_right (fun xk s => finv (xj - xk) * (x - xk) * s) f1 ks = f1).
Proof.
  induction ks as [|a ks IH]; intros H.
  - split; [intros []|reflexivity].
  - destruct IH as [I0 I1]; [intros; apply H; right; assumption|]. cbn [fold_right]. split.
    + intros [->|I]; [|rewrite I0 by exact I; generalize (finv (xj - a)); intros i; fring].
      match goal with |- context [fold_right ?f f1 ks] => generalize (fold_right f f1 ks) end.
      generalize (finv (xj - x)). intros i s. fring.
    + intros E. rewrite I1 by exact E. subst x.
      assert (N : xj - a <> f0) by (apply fsub_nz; intros E; apply (H a); [left; reflexivity|congruence]).
      pose proof (fmul_finv _ N) as F. revert F. generalize (finv (xj - a)). intros i F.
      transitivity ((xj - a) * i); [fring|exact F].
Qed.
Lemma final_poly_eval (poly : nat -> Fr -> Fr -> list Fr) m x l : forall final,
  (forall jxe, In jxe l -> length (poly (fst jxe) (fst (snd jxe)) (snd (snd jxe))) = m) -> length final = m ->
  let r := fold_left (fun final jxe => map (fun ab => fst ab + snd ab)
      (combine final (poly (fst jxe) (fst (snd jxe)) (snd (snd jxe))))) l final in
  length r = m /\
  peval r x = peval final x + fsum (map (fun jxe => peval (poly (fst jxe) (fst (snd jxe)) (snd (snd jxe))) x) l).
Proof.
  induction l as [|jxe l IH]; intros final H L; cbn [fold_left map fsum]; [split; [exact L|fring]|].
  assert (Lj := H jxe (or_introl eq_refl)).
  edestruct IH as [A B]; [intros; apply H; right; assumption| |cbv zeta in A, B; split; [exact A|rewrite B]].
  - rewrite map_length, combine_length. rewrite L, Lj. flia.
  - transitivity (f1 * peval final x + f1 * peval (poly (fst jxe) (fst (snd jxe)) (snd (snd jxe))) x +
      fsum (map (fun jxe => peval (poly (fst jxe) (fst (snd jxe)) (snd (snd jxe))) x) l)); [|fring].
    f_equal. rewrite <- peval_combine by (etransitivity; [exact L|symmetry; exact Lj]). f_equal. apply map_ext. intros ab. fring.
Qed.
Lemma map_fst_combine {A B} (l : list A) : forall k : list B, (length l <= length k)%nat -> map fst (combine l k) = l.
Proof.
  induction l as [|a l IH]; intros [|b k] H; cbn [length] in H; try lia; [reflexivity..|].
  cbn [combine map fst]. rewrite IH by lia. reflexivity.
Qed.
Theorem interpolate_ok points evals : NoDup points -> length points = length evals ->
  exists p, lagrange_interpolate points evals = Ok p /\ length p = length points /\
    forall i, (i < length points)%nat -> peval p (nth i points f0) = nth i evals f0.
Proof.
  intros ND L. unfold lagrange_interpolate. rewrite (proj2 (Nat.eqb_eq _ _) L).
  set (poly := fun (j : nat) (x_j eval : Fr) =>
    let tmp := fold_left (fun tmp x_k => times_factor tmp (finv (x_j - x_k)) x_k) (others j points) [f1] in
    map (fun c => c * eval) tmp).
  set (l := combine (seq 0 (length points)) (combine points evals)).
  assert (G : exists p,
    Ok (fold_left (fun final jxe => map (fun ab => fst ab + snd ab)
          (combine final (poly (fst jxe) (fst (snd jxe)) (snd (snd jxe))))) l (repeat f0 (length points))) = Ok p /\
    length p = length points /\ forall i, (i < length points)%nat -> peval p (nth i points f0) = nth i evals f0).
  { assert (Hl : forall jxe, In jxe l -> (fst jxe < length points)%nat /\ fst (snd jxe) = nth (fst jxe) points f0 /\ snd (snd jxe) = nth (fst jxe) evals f0).
    { intros jxe I. apply (In_nth _ _ (O, (f0, f0))) in I. destruct I as (i & Hi & <-). unfold l in *.
      rewrite combine_length, seq_length, combine_length in Hi.
      rewrite combine_nth by (rewrite seq_length, combine_length; flia). rewrite combine_nth by exact L. rewrite seq_nth by flia.
      cbn [fst snd]. rewrite Nat.add_0_l. split; [flia|auto]. }
    assert (Lp : forall jxe, In jxe l -> length (poly (fst jxe) (fst (snd jxe)) (snd (snd jxe))) = length points).
    { intros jxe I. destruct (Hl jxe I) as (H1 & _ & _). unfold poly. rewrite map_length.
      destruct (basis_poly (fst (snd jxe)) (others (fst jxe) points) f0 [f1]) as [A _]. cbv zeta. etransitivity; [exact A|]. rewrite others_length by exact H1.
      cbn [length]. flia. }
    eexists. split; [reflexivity|].
    split; [apply (final_poly_eval poly (length points) f0 l _ Lp), repeat_length|].
    intros i Hi. destruct (final_poly_eval poly (length points) (nth i points f0) l (repeat f0 (length points)) Lp (repeat_length _ _)) as [_ E].
    cbv zeta in E. etransitivity; [exact E|]. clear E. rewrite peval_zeros by (apply Forall_forall; intros x Hx; apply repeat_spec in Hx; exact Hx).
    assert (Each : forall jxe, In jxe l -> peval (poly (fst jxe) (fst (snd jxe)) (snd (snd jxe))) (nth i points f0) =
                    if (fst jxe =? i)%nat then nth i evals f0 else f0).
    { intros jxe I. destruct (Hl jxe I) as (H1 & H2 & H3). unfold poly. cbv zeta.
      rewrite (map_ext _ (fmul (snd (snd jxe)))) by (intros; fring). rewrite pscale_eval.
      destruct (basis_poly (fst (snd jxe)) (others (fst jxe) points) (nth i points f0) [f1]) as [_ B]. etransitivity; [apply f_equal, B|].
      destruct (basis_at (fst (snd jxe)) (others (fst jxe) points) (nth i points f0)) as [Z0 Z1].
      { intros a Ia. apply (others_in _ _ f0) in Ia; [|exact ND|exact H1]. rewrite H2. tauto. }
      destruct (Nat.eqb_spec (fst jxe) i) as [Ej|Nj].
      - rewrite Z1 by congruence. rewrite H3, Ej. cbn [peval]. fring.
      - rewrite Z0; [fring|]. apply (others_in _ _ f0); [exact ND|exact H1|]. split; [apply nth_In; exact Hi|].
        intros C. apply Nj. symmetry. apply (proj1 (NoDup_nth points f0) ND); assumption. }
    rewrite (map_ext_in _ _ _ Each).
    assert (Sum : fsum (map (fun jxe : nat * (Fr * Fr) => if (fst jxe =? i)%nat then nth i evals f0 else f0) l) =
                  fsum (map (fun j => if (j =? i)%nat then nth i evals f0 else f0) (seq 0 (length points)))).
    { f_equal. unfold l. rewrite <- (map_map fst (fun j => if (j =? i)%nat then nth i evals f0 else f0)). f_equal.
      apply map_fst_combine. rewrite seq_length, combine_length. flia. }
    rewrite Sum. rewrite (fsum_single _ _ i Hi).
    - rewrite Nat.eqb_refl. fring.
    - intros j _ N. destruct (Nat.eqb_spec j i); [contradiction|reflexivity]. }
  destruct points as [|a [|b points]], evals as [|e [|e' evals]]; try discriminate L; try exact G.
  exists [e]. split; [reflexivity|]. split; [reflexivity|]. intros i Hi. cbn [length] in Hi. assert (i = O) by flia. subst i.
  cbn [nth peval]. fring.
Qed.
