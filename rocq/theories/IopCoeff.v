(** The coefficients of the polynomial through a column of values: the inverse
    Fourier transform, written out. *)
From Coq Require Import ZArith List Arith Lia.
From Verif Require Import Base Moduli Field FieldFacts LimbSpec LimbField LimbConst RootFacts PolyFacts DomainSpec IopPoly.
Import ListNotations.
Local Open Scope F_scope.

Lemma peval_seq (f : nat -> Fr) x : forall m a, peval (map f (seq a m)) x * fpow x (Z.of_nat a) = fsum (map (fun j => f j * fpow x (Z.of_nat j)) (seq a m)).
Proof.
  induction m as [|m IH]; intros a; cbn [seq map peval fsum]; [fring|]. rewrite <- IH, fpow_S'. fring.
Qed.
Lemma peval_seq0 (f : nat -> Fr) x m : peval (map f (seq 0 m)) x = fsum (map (fun j => f j * fpow x (Z.of_nat j)) (seq 0 m)).
Proof. rewrite <- peval_seq. change (fpow x (Z.of_nat 0)) with (@f1 r_pos). fring. Qed.
Lemma fsum_swap {A B} (f : A -> B -> Fr) l k : fsum (map (fun a => fsum (map (f a) k)) l) = fsum (map (fun b => fsum (map (fun a => f a b) l)) k).
Proof.
  induction l as [|a l IH]; cbn [map fsum].
  - symmetry. apply fsum_zero. reflexivity.
  - rewrite IH, <- fsum_map_add. reflexivity.
Qed.

Definition coeffs (n : nat) (wi ni : Fr) (vals : nat -> Fr) : list Fr :=
  map (fun j => ni * fsum (map (fun i => vals i * fpow wi (Z.of_nat (i * j))) (seq 0 n))) (seq 0 n).
Lemma coeffs_length n wi ni vals : length (coeffs n wi ni vals) = n.
Proof. unfold coeffs. rewrite map_length. apply seq_length. Qed.
Lemma coeffs_eval n wi ni vals x : peval (coeffs n wi ni vals) x = interp n wi ni vals x.
Proof.
  unfold coeffs, interp. rewrite peval_seq0.
  transitivity (fsum (map (fun j => fsum (map (fun i => ni * vals i * fpow wi (Z.of_nat (i * j)) * fpow x (Z.of_nat j)) (seq 0 n))) (seq 0 n))).
  { f_equal. apply map_ext. intros j.
    transitivity (fpow x (Z.of_nat j) * ni * fsum (map (fun i => vals i * fpow wi (Z.of_nat (i * j))) (seq 0 n))); [fring|].
    rewrite fsum_scale, map_map. f_equal. apply map_ext. intros i. fring. }
  rewrite (fsum_swap (fun j i => ni * vals i * fpow wi (Z.of_nat (i * j)) * fpow x (Z.of_nat j))).
  f_equal. apply map_ext. intros i. unfold lag.
  transitivity ((vals i * ni) * fsum (map (fun j => fpow (fpow wi (Z.of_nat i) * x) (Z.of_nat j)) (seq 0 n))); [|fring].
  rewrite fsum_scale, map_map. f_equal. apply map_ext. intros j. rewrite fpow_fmul, Nat2Z.inj_mul, fpow_mul by lia. fring.
Qed.
