(** The polynomial arithmetic and the commitments, in the words of [ArithSpec]. *)
From Coq Require Import ZArith List Arith Bool Lia.
From Verif Require Import Base Moduli Field FieldFacts LimbSpec LimbField LimbConst ListFacts PolyFacts
  DomainModel DomainSpec DomainFacts IopPoly ArithModel ArithSpec FftFacts TransformFacts ArithFacts MultiexpFacts
  RootFacts KzgModel KzgFacts.
Import ListNotations.
Local Open Scope Z_scope.

Section Thms.
Context {G : Type}.
Variables (zero : G) (add sub : G -> G -> G) (scale : Fr -> G -> G).
Hypothesis M : is_module zero add sub scale.

Lemma fft_wrong_length omega L (a : list G) : length a <> (2 ^ L)%nat -> fft add sub scale a omega L = Panic.
Proof. intros H. unfold fft. rewrite (proj2 (Nat.eqb_neq _ _) H). reflexivity. Qed.

Lemma basis_changes pr j k d : 1 <= j < 2 ^ 32 -> 0 <= k -> k + Z.log2_up (j - 1) <= 28 -> domain_new pr j k = Ok d ->
  forall v : list G, lenZ v = 2 ^ k ->
  (exists a, lagrange_to_coeff add sub scale d v = Ok a /\ lenZ a = 2 ^ k /\
     forall r, (r < length v)%nat -> combination zero add scale a (fpow (d_omega d) (Z.of_nat r)) = nth r v zero) /\
  (forall factor, coeff_to_extended_part add sub scale d v factor =
     Ok (map (fun r => combination zero add scale v (d_g_coset d * factor * fpow (d_omega d) (Z.of_nat r))%F)
             (seq 0 (length v)))) /\
  coeff_to_extended add sub scale zero d v =
     Ok (map (fun i => combination zero add scale v (d_g_coset d * fpow (d_extended_omega d) (Z.of_nat i))%F)
             (seq 0 (Z.to_nat (2 ^ d_extended_k d)))).
Proof.
  intros Hj Hk HB E v Lv. destruct (domain_omega pr j k d Hj Hk HB E) as [D _]. unfold lenZ in Lv.
  assert (P : (2 ^ Z.to_nat k)%nat = length v) by (rewrite <- to_nat_pow2 by exact Hk; lia).
  repeat apply conj.
  - destruct (lagrange_to_coeff_ok zero add sub scale M j k d D Hk v) as (a & Ea & La & Na); [lia|].
    exists a. split; [exact Ea|]. split; [unfold lenZ; lia|]. intros r Hr. apply Na. lia.
  - intros factor. rewrite <- P. apply (coeff_to_extended_part_ok zero add sub scale M j k d D Hk). lia.
  - rewrite to_nat_pow2 by (pose proof (df_extended _ _ _ D); lia).
    apply (coeff_to_extended_ok zero add sub scale M j k d D Hk). lia.
Qed.
Lemma quotient_found pr j k d : 1 <= j < 2 ^ 32 -> 0 <= k -> k + Z.log2_up (j - 1) <= 28 -> domain_new pr j k = Ok d ->
  forall h : list G, lenZ h = 2 ^ k * (j - 1) ->
  let n := Z.to_nat (2 ^ k) in
  (let! e := extended_from_lagrange_vec zero d
     (map (fun p => map (fun r =>
        let x := (d_g_coset d * fpow (d_extended_omega d) (Z.of_nat p) * fpow (d_omega d) (Z.of_nat r))%F in
        scale (fpow x (2 ^ k) - f1)%F (combination zero add scale h x)) (seq 0 n)) (seq 0 (Z.to_nat (2 ^ (d_extended_k d - k))))) in
   let! e := divide_by_vanishing_poly scale d e in extended_to_coeff add sub scale d e) = Ok h.
Proof.
  intros Hj Hk HB E h Lh n. destruct (domain_omega pr j k d Hj Hk HB E) as [D _]. unfold lenZ in Lh.
  unfold n. rewrite !to_nat_pow2 by (pose proof (df_extended _ _ _ D); lia).
  apply (quotient_ok zero add sub scale M j k d D Hk h); [lia|lia].
Qed.
End Thms.

Lemma kate_spec a b : match a with
  | [] => kate_division a b = Panic
  | _ => exists q, kate_division a b = Ok q /\ lenZ q = lenZ a - 1 /\
           forall x, value a x = ((x - b) * value q x + value a b)%F
  end.
Proof.
  destruct a as [|c a]; [reflexivity|]. exists (pdiv b (c :: a)). split; [apply kate_division_is; discriminate|]. split.
  - unfold lenZ. rewrite pdiv_length. cbn [length]. lia.
  - intros x. rewrite !comb_peval. apply pdiv_eq.
Qed.
Lemma eval_spec p x : eval_polynomial p x = value p x.
Proof. rewrite comb_peval. apply eval_polynomial_is. Qed.
Lemma interpolate_spec points evals : NoDup points -> length points = length evals ->
  exists p, lagrange_interpolate points evals = Ok p /\ length p = length points /\
    (forall i, (i < length points)%nat -> value p (nth i points f0) = nth i evals f0) /\
    forall p', length p' = length points -> (forall i, (i < length points)%nat -> value p' (nth i points f0) = nth i evals f0) -> p' = p.
Proof.
  intros ND L. destruct (interpolate_ok points evals ND L) as (p & E & Lp & V). exists p.
  split; [exact E|]. split; [exact Lp|]. split; [intros i Hi; rewrite comb_peval; apply V, Hi|].
  intros p' Lp' V'.
  assert (Z0 : zeros (padd p' (map (fmul (fopp f1)) p))).
  { apply (many_roots _ points).
    - exact ND.
    - intros x Hx. apply (In_nth _ _ f0) in Hx. destruct Hx as (i & Hi & <-). rewrite padd_eval, pscale_eval, V by exact Hi.
      specialize (V' i Hi). rewrite comb_peval in V'. change (fe r_pos) with Fr in *. rewrite V'. fring.
    - rewrite padd_length, map_length. change (fe r_pos) with Fr in *; lia. }
  clear - Lp Lp' Z0. rewrite <- Lp in Lp'. clear Lp. revert p Lp' Z0.
  induction p' as [|c p' IH]; intros [|c2 p] L Z0; try discriminate; [reflexivity|].
  cbn [map padd] in Z0. apply Forall_cons_iff in Z0. destruct Z0 as [Z1 Z2]. apply (f_equal2 cons).
  - transitivity (c + - f1 * c2 + c2)%F; [fring|]. etransitivity; [apply (f_equal (fun t => t + c2)%F); exact Z1|]. fring.
  - apply IH; [cbn [length] in L; lia|exact Z2].
Qed.

Section Kzg.
Context {G1 G2 : Type}.
Variables (zero : G1) (add sub : G1 -> G1 -> G1) (scale : Fr -> G1 -> G1) (gen : G1).
Variables (scale2 : Fr -> G2 -> G2) (gen2 : G2).
Hypothesis M : is_module zero add sub scale.
Lemma commit_spec k s p poly : 0 <= k <= 28 -> setup scale gen scale2 gen2 k s = Ok p ->
  commit zero add p poly = if lenZ poly <=? 2 ^ k then Ok (scale (value poly s) gen) else Panic.
Proof.
  intros Hk E. destruct (Z.leb_spec (lenZ poly) (2 ^ k)) as [L|L].
  - rewrite comb_peval. eapply commit_ok; eassumption.
  - destruct (fe_dec (fpow s (2 ^ k)) f1) as [C|C]; [rewrite setup_panics in E by (assumption || lia); discriminate|].
    rewrite setup_ok in E by (assumption || lia). injection E as <-. unfold commit, commit_with. cbn [sr_g].
    rewrite map_length, seq_length. unfold lenZ in L. destruct (Nat.leb_spec (length poly) (Z.to_nat (2 ^ k))); [lia|reflexivity].
Qed.
Lemma commit_lagrange_spec pr j k s p d v : 1 <= j < 2 ^ 32 -> 0 <= k -> k + Z.log2_up (j - 1) <= 28 -> domain_new pr j k = Ok d ->
  setup scale gen scale2 gen2 k s = Ok p -> lenZ v = 2 ^ k ->
  exists c, lagrange_to_coeff fadd fsub fmul d v = Ok c /\
    commit_lagrange zero add p v = Ok (scale (value c s) gen) /\ commit_lagrange zero add p v = commit zero add p c.
Proof.
  intros Hj Hk HB Ed E Lv. destruct (domain_omega pr j k d Hj Hk HB Ed) as [D Ho].
  pose proof (Z.log2_up_nonneg (j - 1)).
  destruct (basis_changes _ _ _ _ fr_module pr j k d Hj Hk HB Ed v Lv) as ((c & Ec & Lc & Nc) & _).
  exists c. split; [exact Ec|].
  assert (X : commit_lagrange zero add p v = Ok (scale (value c s) gen)).
  { rewrite comb_peval. eapply commit_lagrange_ok; try eassumption; [lia|].
    intros r Hr. rewrite <- Ho, <- comb_peval. apply Nc, Hr. }
  split; [exact X|]. rewrite X. rewrite (commit_spec k s p c) by (assumption || lia).
  change (fe r_pos) with Fr in *. rewrite (proj2 (Z.leb_le (lenZ c) (2 ^ k))) by lia. reflexivity.
Qed.
Lemma setup_spec k s : 0 <= k -> (setup scale gen scale2 gen2 k s = Panic <-> 28 < k \/ fpow s (2 ^ k) = f1).
Proof.
  intros Hk. destruct (Z_le_gt_dec k 28) as [L|L].
  - rewrite setup_iff by lia. split; [auto|intros [X|X]; [lia|exact X]].
  - split; [left; lia|]. intros _. unfold setup. destruct (Z.leb_spec k S_); [unfold S_ in *; lia|reflexivity].
Qed.
End Kzg.

(** For the examples. *)
Lemma fvals_eq (l m : list Fr) : map fval l = map fval m -> l = m.
Proof.
  revert m. induction l as [|a l IH]; intros [|b m] E; try discriminate; [reflexivity|]. cbn [map] in E. injection E as E1 E2.
  apply (f_equal2 cons); [apply fe_eq; exact E1|apply IH; exact E2].
Qed.
Lemma ok_list_eq (r : res (list Fr)) l : match r with Ok m => map fval m | Panic => [(-1)] end = map fval l -> r = Ok l.
Proof.
  destruct r as [m|]; intros E; [f_equal; apply fvals_eq; exact E|]. destruct l as [|a l]; [discriminate|]. cbn [map] in E.
  injection E as E _. pose proof (fval_range a). lia.
Qed.
Lemma ok_eq (r : res Fr) a : match r with Ok m => fval m | Panic => -1 end = fval a -> r = Ok a.
Proof. destruct r as [m|]; intros E; [f_equal; apply fe_eq; exact E|]. pose proof (fval_range a). lia. Qed.
Definition w4 : Fr := squarings 26 ROOT.
Lemma w4_order : order_is w4 4.
Proof.
  replace w4 with (omega_c 2); [apply (order_omega 2); lia|]. unfold w4. rewrite squarings_is, ROOT_is.
  unfold omega_c. f_equal.
Qed.
