(** Properties C29 - C33 and C41 - C44: the limb arithmetic of the two bn256
    fields. *)
From Coq Require Import ZArith Znumtheory List.
From Verif Require Import Moduli Field FieldFacts LimbModel LimbSpec LimbField LimbConst FieldClaims.
Import ListNotations.
Local Open Scope Z_scope.

(** C29: the modulus is prime; inversion by exponentiation gives an inverse of
    every non-zero element and none for zero. *)
Theorem C29_inversion : inverse_claim fr_params r_pos /\ inverse_claim fq_params q_pos.
Proof. exact (conj (inverse_holds _ _ good_fr) (inverse_holds _ _ good_fq)). Qed.
Print Assumptions C29_inversion.
Theorem C29_moduli : Zpos r_pos = v4 (modulus fr_params) /\ Zpos q_pos = v4 (modulus fq_params).
Proof. exact (conj (eq_sym (g_val _ _ good_fr)) (eq_sym (g_val _ _ good_fq))). Qed.
Print Assumptions C29_moduli.
(** a non-zero element: the inverse of 2 is (r + 1) / 2 *)
Example C29_case : represents (from_u64 fr_params 2) (FrZ 2) /\ FrZ 2 <> f0 /\
  linvert fr_params (from_u64 fr_params 2) = Some (from_raw fr_params
    (L4 0xa1f0fac9f8000001 0x9419f4243cdcb848 0xdc2822db40c0ac2e 0x183227397098d014)).
Proof.
  split; [split; [apply words4_b|]; vm_compute; reflexivity|].
  split; [intros E; apply (f_equal fval) in E; vm_compute in E; discriminate|].
  vm_compute. reflexivity.
Qed.

(** C30: the limb operations keep the invariant and implement the field. *)
Theorem C30_limb_arithmetic : arithmetic_claim fr_params r_pos /\ arithmetic_claim fq_params q_pos.
Proof. exact (conj (arithmetic_holds _ _ good_fr) (arithmetic_holds _ _ good_fq)). Qed.
Print Assumptions C30_limb_arithmetic.
(** the limbs of -2 and of 2^64 - 1, their sum, difference and product *)
Definition lm2 := L4 0xeab58d5b5000000b 0xba3afb1d3af7d63d 0xeb72fed7908ecc00 0x144f5eefad21e1ca.
Definition lbig := from_u64 fr_params 0xffffffffffffffff.
Example C30_case : represents lm2 (FrZ (-2)) /\ represents lbig (FrZ 18446744073709551615) /\
  to_repr fr_params (ladd fr_params lm2 lbig) = le_bytes 32 0xfffffffffffffffd /\
  to_repr fr_params (lsub fr_params lbig lm2) = le_bytes 32 0x10000000000000001 /\
  to_repr fr_params (lneg fr_params lm2) = le_bytes 32 2 /\
  to_repr fr_params (lmul fr_params lm2 lbig) = le_bytes 32 (r_modulus - 0x1fffffffffffffffe) /\
  to_repr fr_params (lsquare fr_params lbig) = le_bytes 32 0xfffffffffffffffe0000000000000001.
Proof.
  split; [split; [apply words4_b|]; vm_compute; reflexivity|].
  split; [split; [apply words4_b|]; vm_compute; reflexivity|].
  vm_compute. repeat split.
Qed.

(** C31: byte strings. *)
Theorem C31_repr : repr_claim fr_params r_pos /\ repr_claim fq_params q_pos.
Proof. exact (conj (repr_holds _ _ good_fr) (repr_holds _ _ good_fq)). Qed.
Print Assumptions C31_repr.
(** the byte string of r is refused and that of r - 1 accepted, as -1 *)
Example C31_case : le_int (le_bytes 32 r_modulus) = r_modulus /\
  from_repr fr_params (le_bytes 32 r_modulus) = None /\
  from_repr fr_params (le_bytes 32 (r_modulus - 1)) = Some (lneg fr_params (lone fr_params)).
Proof. vm_compute. repeat split. Qed.

(** C32: comparison. *)
Theorem C32_order : order_claim fr_params r_pos /\ order_claim fq_params q_pos.
Proof. exact (conj (order_holds _ _ good_fr) (order_holds _ _ good_fq)). Qed.
Print Assumptions C32_order.
(** 256 is above 255 and below -1, although its first byte is smaller *)
Example C32_case :
  lcmp fr_params (from_u64 fr_params 256) (from_u64 fr_params 255) = Gt /\
  lcmp fr_params (from_u64 fr_params 256) (lneg fr_params (lone fr_params)) = Lt /\
  represents (from_u64 fr_params 256) (FrZ 256) /\ represents (from_u64 fr_params 255) (FrZ 255).
Proof.
  split; [vm_compute; reflexivity|]. split; [vm_compute; reflexivity|].
  split; (split; [apply words4_b|]; vm_compute; reflexivity).
Qed.

(** C33: reduction of 512-bit values. *)
Theorem C33_wide : wide_claim fr_params r_pos /\ wide_claim fq_params q_pos.
Proof. exact (conj (wide_holds _ _ good_fr) (wide_holds _ _ good_fq)). Qed.
Print Assumptions C33_wide.
(** the largest value *)
Example C33_case : length (repeat 255 64) = 64%nat /\ le_int (repeat 255 64) = 2 ^ 512 - 1 /\
  to_repr fr_params (from_bytes_wide fr_params (repeat 255 64)) = le_bytes 32 ((2 ^ 512 - 1) mod r_modulus).
Proof. vm_compute. repeat split. Qed.

(** C41: the constants of the scalar field: 7 generates the multiplicative
    group; ROOT_OF_UNITY has order exactly 2^28 and is 7^((r-1)/2^28); DELTA is
    7^(2^28); ZETA is a cube root of one other than one. *)
Theorem C41_generator : represents fr_generator (FrZ 7) /\
  (forall k, 0 < k < r_modulus - 1 -> fpow (FrZ 7) k <> f1) /\ fpow (FrZ 7) (r_modulus - 1) = f1.
Proof. exact generator_holds. Qed.
Print Assumptions C41_generator.
Theorem C41_constants : exists w wi d z h : Fr,
  represents fr_root_of_unity w /\ represents fr_root_of_unity_inv wi /\ represents fr_delta d /\
  represents fr_zeta z /\ represents fr_two_inv h /\
  w = fpow (FrZ 7) ((r_modulus - 1) / 2 ^ fr_S) /\ fpow w (2 ^ fr_S) = f1 /\ fpow w (2 ^ (fr_S - 1)) = (- f1)%F /\
  (w * wi)%F = f1 /\ d = fpow (FrZ 7) (2 ^ fr_S) /\ fpow d ((r_modulus - 1) / 2 ^ fr_S) = f1 /\
  (z * z * z)%F = f1 /\ z <> f1 /\ (h + h)%F = f1.
Proof. exact roots_hold. Qed.
Print Assumptions C41_constants.
Theorem C41_base_constants : exists z h : Fq,
  represents fq_zeta z /\ represents fq_two_inv h /\ represents fq_negative_one (- f1 : Fq)%F /\
  (z * z * z)%F = f1 /\ z <> f1 /\ (h + h)%F = f1.
Proof. exact fq_constants_hold. Qed.
Print Assumptions C41_base_constants.
(** 7^5 = 16807 is not one *)
Example C41_case : 0 < 5 < r_modulus - 1 /\ fval (fpow (FrZ 7) 5) = 16807.
Proof. vm_compute. repeat split. Qed.

(** C42: the values DELTA^i omega^j that name the cells of the permutation
    argument are pairwise different, for every domain size 2^k up to 2^28. *)
Theorem C42_cell_names : forall k i j i' j' (d w : Fr),
  represents fr_delta d -> represents fr_root_of_unity w ->
  0 <= k <= 28 -> let t := (r_modulus - 1) / 2 ^ 28 in let om := fpow w (2 ^ (28 - k)) in
  0 <= i < t -> 0 <= i' < t -> 0 <= j < 2 ^ k -> 0 <= j' < 2 ^ k ->
  (fpow d i * fpow om j = fpow d i' * fpow om j')%F -> i = i' /\ j = j'.
Proof. exact tags_hold. Qed.
Print Assumptions C42_cell_names.
(** there is room for every circuit: t is far above any number of columns *)
Example C42_case : 2 ^ 200 < (r_modulus - 1) / 2 ^ 28 /\ 0 <= 27 < (r_modulus - 1) / 2 ^ 28 /\ 0 <= 1000 < 2 ^ 10.
Proof. vm_compute. repeat split; congruence. Qed.

(** C43: square roots and Legendre symbols in the base field. *)
Theorem C43_sqrt : forall x (a : Fq), represents x a ->
  ((exists b, (b * b)%F = a) -> exists y b, fq_sqrt x = Some y /\ represents y b /\ (b * b)%F = a) /\
  ((~ exists b, (b * b)%F = a) -> fq_sqrt x = None).
Proof. exact sqrt_holds. Qed.
Print Assumptions C43_sqrt.
Theorem C43_legendre : forall x (a : Fq), represents x a ->
  (fq_legendre x = LZero <-> a = f0) /\
  (fq_legendre x = LResidue <-> a <> f0 /\ exists b, (b * b)%F = a) /\
  (fq_legendre x = LNonResidue <-> ~ exists b, (b * b)%F = a).
Proof. exact legendre_holds. Qed.
Print Assumptions C43_legendre.
(** 9 has root -3; -1 has none *)
Example C43_case : fq_sqrt (from_u64 fq_params 9) = Some (lneg fq_params (from_u64 fq_params 3)) /\
  fq_sqrt fq_negative_one = None.
Proof. vm_compute. split; reflexivity. Qed.

(** C44: conversions from u64, u128 and raw limbs; low bits; parity; powers;
    raw serialisation. *)
Theorem C44_conversions : convert_claim fr_params r_pos /\ convert_claim fq_params q_pos.
Proof. exact (conj (convert_holds _ _ good_fr) (convert_holds _ _ good_fq)). Qed.
Print Assumptions C44_conversions.
Example C44_case :
  to_repr fr_params (from_u128 fr_params 0x0123456789abcdef0011223344556677) = le_bytes 32 0x0123456789abcdef0011223344556677 /\
  get_lower_128 fr_params (from_u128 fr_params 0x0123456789abcdef0011223344556677) = 0x0123456789abcdef0011223344556677 /\
  is_odd fr_params (from_u64 fr_params 7) = true /\ is_odd fr_params (lneg fr_params (from_u64 fr_params 7)) = false.
Proof. vm_compute. repeat split. Qed.
