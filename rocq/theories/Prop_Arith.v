(** Properties C57 to C63: polynomial arithmetic and commitments. *)
From Coq Require Import ZArith List Lia.
From Verif Require Import Base Moduli Field LimbSpec DomainModel DomainSpec RootFacts DomainFacts ArithModel ArithSpec
  TransformFacts MultiexpFacts KzgModel KzgFacts ArithThms.
Import ListNotations.

(** C57: over any vector space over the scalar field, the transform of a list of
    2^L elements is the list of its values at the powers of a root of unity of
    order 2^L.  A list of another length panics. *)
Theorem C57_fft : forall (G : Type) zero add sub scale, is_module zero add sub scale ->
  forall omega L (a : list G), order_is omega (2 ^ Z.of_nat L) -> length a = 2 ^ L ->
  fft add sub scale a omega L =
    Ok (map (fun j => combination zero add scale a (fpow omega (Z.of_nat j))) (seq 0 (2 ^ L))).
Proof. exact (fun G zero add sub scale M => fft_is zero add sub scale M). Qed.
Print Assumptions C57_fft.
Theorem C57_length : forall (G : Type) (add sub : G -> G -> G) scale omega L (a : list G), length a <> 2 ^ L ->
  fft add sub scale a omega L = Panic.
Proof. exact (fun G => fft_wrong_length). Qed.
Print Assumptions C57_length.
Example C57_case : order_is (w4) 4 /\
  fft fadd fsub fmul [FrZ 1; FrZ 2; FrZ 3; FrZ 5] (w4) 2 =
    Ok [FrZ 11; FrZ (-2) - FrZ 3 * w4; FrZ (-3); FrZ (-2) + FrZ 3 * w4]%F.
Proof. split; [exact w4_order|apply ok_list_eq; vm_compute; reflexivity]. Qed.

(** C58: the changes of basis of every domain the code builds.  Values on the
    domain become the coefficients of a polynomial with these values; coefficients
    become values on each shifted copy of the domain, or on the whole extended
    domain. *)
Theorem C58_basis_changes : forall (G : Type) zero add sub scale, is_module zero add sub scale ->
  forall pr j k d, (1 <= j < 2 ^ 32)%Z -> (0 <= k)%Z -> (k + Z.log2_up (j - 1) <= 28)%Z -> domain_new pr j k = Ok d ->
  forall v : list G, lenZ v = (2 ^ k)%Z ->
  (exists a, lagrange_to_coeff add sub scale d v = Ok a /\ lenZ a = (2 ^ k)%Z /\
     forall r, r < length v -> combination zero add scale a (fpow (d_omega d) (Z.of_nat r)) = nth r v zero) /\
  (forall factor, coeff_to_extended_part add sub scale d v factor =
     Ok (map (fun r => combination zero add scale v (d_g_coset d * factor * fpow (d_omega d) (Z.of_nat r))%F)
             (seq 0 (length v)))) /\
  coeff_to_extended add sub scale zero d v =
     Ok (map (fun i => combination zero add scale v (d_g_coset d * fpow (d_extended_omega d) (Z.of_nat i))%F)
             (seq 0 (Z.to_nat (2 ^ d_extended_k d)))).
Proof. exact (fun G zero add sub scale M => basis_changes zero add sub scale M). Qed.
Print Assumptions C58_basis_changes.
Example C58_case : exists d a, domain_new Checked 4 2 = Ok d /\
  lagrange_to_coeff fadd fsub fmul d [FrZ 2; FrZ 3; FrZ 5; FrZ 7] = Ok a /\ lenZ a = 4%Z /\
  combination f0 fadd fmul a (fpow (d_omega d) 3) = FrZ 7.
Proof.
  destruct (domain_correct Checked 4 2) as (d & E & _); [lia|lia|discriminate|].
  destruct (C58_basis_changes Fr f0 fadd fsub fmul fr_module Checked 4 2 d) with (v := [FrZ 2; FrZ 3; FrZ 5; FrZ 7]) as ((a & A & L & V) & _ & _);
    [lia|lia|discriminate|exact E|reflexivity|].
  exists d, a. split; [exact E|]. split; [exact A|]. split; [exact L|]. apply (V 3%nat). cbn. lia.
Qed.

(** C59: dividing by the vanishing polynomial.  From the values of
    (x^n - 1) h(x) on the shifted copies of the domain, the code computes the
    coefficients of h, for every h of n (j - 1) coefficients. *)
Theorem C59_quotient : forall (G : Type) zero add sub scale, is_module zero add sub scale ->
  forall pr j k d, (1 <= j < 2 ^ 32)%Z -> (0 <= k)%Z -> (k + Z.log2_up (j - 1) <= 28)%Z -> domain_new pr j k = Ok d ->
  forall h : list G, lenZ h = (2 ^ k * (j - 1))%Z ->
  let n := Z.to_nat (2 ^ k) in
  (let! e := extended_from_lagrange_vec zero d
     (map (fun p => map (fun r =>
        let x := (d_g_coset d * fpow (d_extended_omega d) (Z.of_nat p) * fpow (d_omega d) (Z.of_nat r))%F in
        scale (fpow x (2 ^ k) - f1)%F (combination zero add scale h x)) (seq 0 n)) (seq 0 (Z.to_nat (2 ^ (d_extended_k d - k))))) in
   let! e := divide_by_vanishing_poly scale d e in extended_to_coeff add sub scale d e) = Ok h.
Proof. exact (fun G zero add sub scale M => quotient_found zero add sub scale M). Qed.
Print Assumptions C59_quotient.
(** (x^2 - 1)(3 + x + 2x^2), on the two shifted copies of a domain of two points *)
Example C59_case : exists d, domain_new Checked 3 1 = Ok d /\
  (let! e := extended_from_lagrange_vec f0 d
     (map (fun p => map (fun r =>
        let x := (d_g_coset d * fpow (d_extended_omega d) (Z.of_nat p) * fpow (d_omega d) (Z.of_nat r))%F in
        ((fpow x 2 - f1) * value [FrZ 3; FrZ 1; FrZ 2; FrZ 0] x)%F) [0; 1]) (seq 0 (Z.to_nat (2 ^ (d_extended_k d - 1))))) in
   let! e := divide_by_vanishing_poly fmul d e in extended_to_coeff fadd fsub fmul d e) = Ok [FrZ 3; FrZ 1; FrZ 2; FrZ 0].
Proof.
  destruct (domain_correct Checked 3 1) as (d & E & _); [lia|lia|discriminate|]. exists d. split; [exact E|].
  exact (C59_quotient Fr f0 fadd fsub fmul fr_module Checked 3 1 d ltac:(lia) ltac:(lia) ltac:(discriminate) E [FrZ 3; FrZ 1; FrZ 2; FrZ 0] eq_refl).
Qed.

(** C60: evaluation and division by a linear factor.  The division panics on the
    polynomial without coefficients only. *)
Theorem C60_evaluation : forall p x, eval_polynomial p x = value p x.
Proof. exact eval_spec. Qed.
Print Assumptions C60_evaluation.
Theorem C60_division : forall a b, match a with
  | [] => kate_division a b = Panic
  | _ => exists q, kate_division a b = Ok q /\ lenZ q = (lenZ a - 1)%Z /\
           forall x, value a x = ((x - b) * value q x + value a b)%F
  end.
Proof. exact kate_spec. Qed.
Print Assumptions C60_division.
Example C60_case : kate_division [FrZ 7; FrZ 0; FrZ 1] (FrZ 3) = Ok [FrZ 3; FrZ 1] /\
  eval_polynomial [FrZ 7; FrZ 0; FrZ 1] (FrZ 3) = FrZ 16.
Proof. split; [apply ok_list_eq|apply FieldFacts.fe_eq]; vm_compute; reflexivity. Qed.

(** C61: interpolation through distinct points finds the only polynomial with as
    many coefficients as points and the given values. *)
Theorem C61_interpolation : forall points evals, NoDup points -> length points = length evals ->
  exists p, lagrange_interpolate points evals = Ok p /\ length p = length points /\
    (forall i, i < length points -> value p (nth i points f0) = nth i evals f0) /\
    forall p', length p' = length points ->
      (forall i, i < length points -> value p' (nth i points f0) = nth i evals f0) -> p' = p.
Proof. exact interpolate_spec. Qed.
Print Assumptions C61_interpolation.
Example C61_case : lagrange_interpolate [FrZ 0; FrZ 1; FrZ 2] [FrZ 7; FrZ 8; FrZ 11] = Ok [FrZ 7; FrZ 0; FrZ 1] /\
  lagrange_interpolate [FrZ 0; FrZ 1] [FrZ 7] = Panic.
Proof.
  split; [|reflexivity]. destruct (C61_interpolation [FrZ 0; FrZ 1; FrZ 2] [FrZ 7; FrZ 8; FrZ 11]) as (p & E & _ & _ & U); [|reflexivity|].
  - repeat constructor; cbn [In]; intros H; repeat (destruct H as [H|H]; [apply (f_equal fval) in H; vm_compute in H; discriminate|]); exact H.
  - rewrite E. f_equal. symmetry. apply U; [reflexivity|]. intros [|[|[|i]]] L; [| | |cbn in L; lia]; apply FieldFacts.fe_eq; vm_compute; reflexivity.
Qed.

(** C62: the multi-exponentiation is the linear combination. *)
Theorem C62_multiexp : forall (G : Type) zero add sub scale, is_module zero add sub scale ->
  forall coeffs (bases : list G), length coeffs = length bases ->
  best_multiexp add zero coeffs bases = Ok (linear zero add scale coeffs bases).
Proof. exact (fun G zero add sub scale M => multiexp_ok zero add sub scale M). Qed.
Print Assumptions C62_multiexp.
Example C62_case : best_multiexp fadd f0 [FrZ (-1); FrZ 5; FrZ (2 ^ 100)] [FrZ 3; FrZ 10; FrZ 2] = Ok (FrZ (47 + 2 ^ 101)).
Proof. apply ok_eq. vm_compute. reflexivity. Qed.

(** C63: parameters are made for every secret off the domain, and for no other;
    committing to coefficients, and to values on the domain, yields the
    generator times the polynomial's value at the secret; parameters cut down to
    a smaller size are the parameters of that size. *)
Theorem C63_setup : forall (G1 G2 : Type) (scale : Fr -> G1 -> G1) gen (scale2 : Fr -> G2 -> G2) gen2 k s, (0 <= k)%Z ->
  (setup scale gen scale2 gen2 k s = Panic <-> (28 < k)%Z \/ fpow s (2 ^ k) = f1).
Proof. exact (fun G1 G2 => setup_spec). Qed.
Print Assumptions C63_setup.
Theorem C63_commit : forall (G1 G2 : Type) zero add sub scale gen (scale2 : Fr -> G2 -> G2) gen2,
  is_module zero add sub scale -> forall k s (p : srs G1 G2) poly, (0 <= k <= 28)%Z -> setup scale gen scale2 gen2 k s = Ok p ->
  commit zero add p poly = if (lenZ poly <=? 2 ^ k)%Z then Ok (scale (value poly s) gen) else Panic.
Proof. exact (fun G1 G2 zero add sub scale gen scale2 gen2 M => commit_spec zero add sub scale gen scale2 gen2 M). Qed.
Print Assumptions C63_commit.
Theorem C63_commit_lagrange : forall (G1 G2 : Type) zero add sub scale gen (scale2 : Fr -> G2 -> G2) gen2,
  is_module zero add sub scale -> forall pr j k s (p : srs G1 G2) d v,
  (1 <= j < 2 ^ 32)%Z -> (0 <= k)%Z -> (k + Z.log2_up (j - 1) <= 28)%Z -> domain_new pr j k = Ok d ->
  setup scale gen scale2 gen2 k s = Ok p -> lenZ v = (2 ^ k)%Z ->
  exists c, lagrange_to_coeff fadd fsub fmul d v = Ok c /\
    commit_lagrange zero add p v = Ok (scale (value c s) gen) /\ commit_lagrange zero add p v = commit zero add p c.
Proof. exact (fun G1 G2 zero add sub scale gen scale2 gen2 M => commit_lagrange_spec zero add sub scale gen scale2 gen2 M). Qed.
Print Assumptions C63_commit_lagrange.
Theorem C63_downsize : forall (G1 G2 : Type) zero add sub scale gen (scale2 : Fr -> G2 -> G2) gen2,
  is_module zero add sub scale -> forall k s (p : srs G1 G2) k', (0 <= k' <= k)%Z -> (k <= 28)%Z ->
  setup scale gen scale2 gen2 k s = Ok p -> downsize add sub scale p k' = setup scale gen scale2 gen2 k' s.
Proof. exact (fun G1 G2 zero add sub scale gen scale2 gen2 M => downsize_ok zero add sub scale gen scale2 gen2 M). Qed.
Print Assumptions C63_downsize.
(** with the project's secret 42, on the field as the group *)
Example C63_case : exists p d c, setup fmul f1 fmul f1 2 (FrZ 42) = Ok p /\ domain_new Checked 4 2 = Ok d /\
  commit f0 fadd p [FrZ 1; FrZ 2; FrZ 3; FrZ 5] = Ok (FrZ (1 + 84 + 3 * 42 ^ 2 + 5 * 42 ^ 3)) /\
  lagrange_to_coeff fadd fsub fmul d [FrZ 2; FrZ 3; FrZ 5; FrZ 7] = Ok c /\
  commit_lagrange f0 fadd p [FrZ 2; FrZ 3; FrZ 5; FrZ 7] = commit f0 fadd p c /\
  setup fmul f1 fmul f1 2 (FrZ (-1)) = Panic.
Proof.
  destruct (setup fmul f1 fmul f1 2 (FrZ 42)) as [p|] eqn:E.
  - destruct (domain_correct Checked 4 2) as (d & D & _); [lia|lia|discriminate|].
    destruct (C63_commit_lagrange Fr Fr f0 fadd fsub fmul f1 fmul f1 fr_module Checked 4 2 (FrZ 42) p d [FrZ 2; FrZ 3; FrZ 5; FrZ 7])
      as (c & A & _ & B); [lia|lia|discriminate|exact D|exact E|reflexivity|].
    exists p, d, c. split; [reflexivity|]. split; [exact D|]. split; [|split; [exact A|split; [exact B|]]].
    + etransitivity; [apply (C63_commit Fr Fr f0 fadd fsub fmul f1 fmul f1 fr_module 2 (FrZ 42) p); [lia|exact E]|].
      apply ok_eq. vm_compute. reflexivity.
    + apply C63_setup; [discriminate|]. right. apply FieldFacts.fe_eq. vm_compute. reflexivity.
  - exfalso. apply C63_setup in E; [|discriminate]. destruct E as [E|E]; [discriminate E|].
    apply (f_equal fval) in E. vm_compute in E. discriminate E.
Qed.
