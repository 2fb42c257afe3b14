(** What an evaluation domain has to be. *)
From Coq Require Import ZArith List.
From Verif Require Import Moduli Field LimbSpec DomainModel.
Import ListNotations.
Local Open Scope Z_scope.

(** [a] has multiplicative order exactly [m] *)
Definition order_is (a : Fr) (m : Z) : Prop := 0 < m /\ forall i, 0 <= i -> (fpow a i = f1 <-> (m | i)).

(** [d] is a domain of 2^k points for constraints of degree [j]: its generator
    has order 2^k; the extended domain is the smallest power of two that holds
    2^k (j - 1) coefficients; it is shifted by a factor that keeps all its points
    off the small domain; and the stored constants are the inverses they are
    named after. *)
Record domain_for (j k : Z) (d : domain) : Prop := {
  df_size : d_n d = 2 ^ k /\ d_k d = k /\ d_quotient_poly_degree d = j - 1;
  df_extended : k <= d_extended_k d /\ 2 ^ k * (j - 1) <= 2 ^ d_extended_k d /\
    (forall e, k <= e -> 2 ^ k * (j - 1) <= 2 ^ e -> d_extended_k d <= e);
  df_omega : order_is (d_omega d) (2 ^ k);
  df_extended_omega : order_is (d_extended_omega d) (2 ^ d_extended_k d) /\
    d_omega d = fpow (d_extended_omega d) (2 ^ (d_extended_k d - k));
  df_inverses : (d_omega d * d_omega_inv d = f1)%F /\ (d_extended_omega d * d_extended_omega_inv d = f1)%F /\
    (d_g_coset d * d_g_coset_inv d = f1)%F /\ (FrZ (2 ^ k) * d_ifft_divisor d = f1)%F /\
    (FrZ (2 ^ d_extended_k d) * d_extended_ifft_divisor d = f1)%F /\
    (FrZ (2 ^ k) * d_barycentric_weight d = f1)%F;
  df_coset : order_is (d_g_coset d) 3;
  (** dividing by the vanishing polynomial on the shifted domain *)
  df_vanishing : Z.of_nat (length (d_t_evaluations d)) = 2 ^ (d_extended_k d - k) /\
    forall i, 0 <= i ->
      (nth (Z.to_nat (i mod 2 ^ (d_extended_k d - k))) (d_t_evaluations d) f0 *
       (fpow (d_g_coset d * fpow (d_extended_omega d) i) (2 ^ k) - f1))%F = f1
}.
