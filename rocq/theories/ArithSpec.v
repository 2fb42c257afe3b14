(** What the polynomial arithmetic has to compute. *)
From Coq Require Import ZArith List.
From Verif Require Import Base Moduli Field LimbSpec.
Import ListNotations.

(** A vector space over the scalar field, as the group of points of the curve is
    one (its order is the field's characteristic).  The field itself is another. *)
Record is_module {G : Type} (zero : G) (add sub : G -> G -> G) (scale : Fr -> G -> G) : Prop := {
  mod_assoc : forall a b c, add a (add b c) = add (add a b) c;
  mod_comm : forall a b, add a b = add b a;
  mod_zero : forall a, add zero a = a;
  mod_scale_add : forall k a b, scale k (add a b) = add (scale k a) (scale k b);
  mod_add_scale : forall k l a, scale (k + l)%F a = add (scale k a) (scale l a);
  mod_mul_scale : forall k l a, scale (k * l)%F a = scale k (scale l a);
  mod_one_scale : forall a, scale f1 a = a;
  mod_zero_scale : forall a, scale f0 a = zero;
  mod_sub : forall a b, sub a b = add a (scale (- f1)%F b)
}.
Definition gsum {G} (zero : G) (add : G -> G -> G) (l : list G) : G := fold_right add zero l.
(** the sum of a_j x^j *)
Definition combination {G} (zero : G) (add : G -> G -> G) (scale : Fr -> G -> G) (a : list G) (x : Fr) : G :=
  gsum zero add (map (fun j => scale (fpow x (Z.of_nat j)) (nth j a zero)) (seq 0 (length a))).
(** the linear combination of [bases] with [coeffs] *)
Definition linear {G} (zero : G) (add : G -> G -> G) (scale : Fr -> G -> G) (coeffs : list Fr) (bases : list G) : G :=
  gsum zero add (map (fun cb => scale (fst cb) (snd cb)) (combine coeffs bases)).
(** the value of the polynomial with the given coefficients, lowest first *)
Notation value := (combination (@f0 r_pos) fadd fmul).
