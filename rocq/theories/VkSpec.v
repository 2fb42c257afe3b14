(** What a verifying key for the project's circuit may contain. *)
From Coq Require Import ZArith List.
From Verif Require Import Base Field LimbModel Halo2Model CircuitModel SelectorModel SerdeModel SerdeSpec
  DomainModel VMModel VkModel.
Import ListNotations.

(** a key whose derived parts agree with its written parts, with [c] the
    configured constraint system: the domain is the one for its exponent, the
    constraint system is the one its assignments rebuild; written parts fit the
    format, and expressions nest at most [stack] deep *)
Record valid_key (pr : profile) (stack : nat) (c : cs) (v : vkey) : Prop := {
  vd_k : (0 <= d_k (vk_domain v) < 2 ^ 32)%Z;
  vd_domain : domain_new pr (Z.of_nat (cs_degree c)) (d_k (vk_domain v)) = Ok (vk_domain v);
  vd_fixed : fits32 (length (vk_fixed v)) /\ Forall g1_coords (vk_fixed v);
  vd_perm : length (vk_permutation v) = length (perm_columns c) /\ Forall g1_coords (vk_permutation v);
  vd_asgs : fits32 (length (vk_assignments v)) /\ Forall fits_assign (vk_assignments v) /\
            Forall (fun a => depth (sa_expr a) <= stack) (vk_assignments v);
  vd_cs : recreate c (vk_assignments v) = Ok (vk_cs v) /\ vk_degree v = cs_degree (vk_cs v)
}.
