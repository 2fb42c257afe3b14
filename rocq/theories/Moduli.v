(** The two bn256 moduli are prime. *)
From Coq Require Import ZArith Znumtheory List Lia.
From Verif Require Import PocklingtonZ.
Import ListNotations.
Local Open Scope Z_scope.

(** Scalar field modulus.
    halo2curves/src/bn256/fr.rs:28-33 (MODULUS, little-endian 64-bit limbs) and
    :35 (MODULUS_STR). *)
Definition r_modulus : Z :=
  0x30644e72e131a029b85045b68181585d2833e84879b9709143e1f593f0000001.

(** Base field modulus.
    halo2curves/src/bn256/fq.rs:30-35 (MODULUS) and :71 (MODULUS_STR). *)
Definition q_modulus : Z :=
  0x30644e72e131a029b85045b68181585d97816a916871ca8d3c208c16d87cfd47.

Lemma prime_853 : prime 853.
Proof. apply (trial_prime _ (Z.to_nat 40)); [lia|vm_compute; reflexivity]. Qed.

Lemma prime_1637 : prime 1637.
Proof. apply (trial_prime _ (Z.to_nat 50)); [lia|vm_compute; reflexivity]. Qed.

Lemma prime_639533339 : prime 639533339.
Proof.
  apply (pocklington _ [(1637, 1, 2); (853, 1, 2)]); [vm_compute; reflexivity|].
  repeat (constructor; [cbn [fst]; first [exact prime_1637 | exact prime_853]|]). constructor.
Qed.

Lemma prime_65865678001877903 : prime 65865678001877903.
Proof.
  apply (pocklington _ [(639533339, 1, 2)]); [vm_compute; reflexivity|].
  repeat (constructor; [cbn [fst]; first [exact prime_639533339]|]). constructor.
Qed.

Lemma prime_13818364434197438864469338081 : prime 13818364434197438864469338081.
Proof.
  apply (pocklington _ [(65865678001877903, 1, 2)]); [vm_compute; reflexivity|].
  repeat (constructor; [cbn [fst]; first [exact prime_65865678001877903]|]). constructor.
Qed.

Lemma prime_93001 : prime 93001.
Proof. apply (trial_prime _ (Z.to_nat 314)); [lia|vm_compute; reflexivity]. Qed.

Lemma prime_661 : prime 661.
Proof. apply (trial_prime _ (Z.to_nat 35)); [lia|vm_compute; reflexivity]. Qed.

Lemma prime_12048837557 : prime 12048837557.
Proof.
  apply (pocklington _ [(93001, 1, 2); (661, 1, 2)]); [vm_compute; reflexivity|].
  repeat (constructor; [cbn [fst]; first [exact prime_93001 | exact prime_661]|]). constructor.
Qed.

Lemma prime_5156902474397 : prime 5156902474397.
Proof.
  apply (pocklington _ [(12048837557, 1, 2)]); [vm_compute; reflexivity|].
  repeat (constructor; [cbn [fst]; first [exact prime_12048837557]|]). constructor.
Qed.

Lemma prime_1670836401704629 : prime 1670836401704629.
Proof.
  apply (pocklington _ [(5156902474397, 1, 2)]); [vm_compute; reflexivity|].
  repeat (constructor; [cbn [fst]; first [exact prime_5156902474397]|]). constructor.
Qed.

Lemma prime_r : prime r_modulus.
Proof.
  apply (pocklington _ [(13818364434197438864469338081, 1, 2); (1670836401704629, 1, 2)]); [vm_compute; reflexivity|].
  repeat (constructor; [cbn [fst]; first [exact prime_13818364434197438864469338081 | exact prime_1670836401704629]|]). constructor.
Qed.

Lemma prime_3557 : prime 3557.
Proof. apply (trial_prime _ (Z.to_nat 69)); [lia|vm_compute; reflexivity]. Qed.

Lemma prime_911 : prime 911.
Proof. apply (trial_prime _ (Z.to_nat 40)); [lia|vm_compute; reflexivity]. Qed.

Lemma prime_1263766531 : prime 1263766531.
Proof.
  apply (pocklington _ [(3557, 1, 2); (911, 1, 2)]); [vm_compute; reflexivity|].
  repeat (constructor; [cbn [fst]; first [exact prime_3557 | exact prime_911]|]). constructor.
Qed.

Lemma prime_35385462869 : prime 35385462869.
Proof.
  apply (pocklington _ [(1263766531, 1, 2)]); [vm_compute; reflexivity|].
  repeat (constructor; [cbn [fst]; first [exact prime_1263766531]|]). constructor.
Qed.

Lemma prime_2480874801745591 : prime 2480874801745591.
Proof.
  apply (pocklington _ [(35385462869, 1, 2)]); [vm_compute; reflexivity|].
  repeat (constructor; [cbn [fst]; first [exact prime_35385462869]|]). constructor.
Qed.

Lemma prime_13327 : prime 13327.
Proof. apply (trial_prime _ (Z.to_nat 130)); [lia|vm_compute; reflexivity]. Qed.

Lemma prime_173171039 : prime 173171039.
Proof.
  apply (pocklington _ [(13327, 1, 2)]); [vm_compute; reflexivity|].
  repeat (constructor; [cbn [fst]; first [exact prime_13327]|]). constructor.
Qed.

Lemma prime_13427688667394608761327070753331941386769 : prime 13427688667394608761327070753331941386769.
Proof.
  apply (pocklington _ [(2480874801745591, 1, 2); (173171039, 1, 2)]); [vm_compute; reflexivity|].
  repeat (constructor; [cbn [fst]; first [exact prime_2480874801745591 | exact prime_173171039]|]). constructor.
Qed.

Lemma prime_q : prime q_modulus.
Proof.
  apply (pocklington _ [(13427688667394608761327070753331941386769, 1, 2)]); [vm_compute; reflexivity|].
  repeat (constructor; [cbn [fst]; first [exact prime_13427688667394608761327070753331941386769]|]). constructor.
Qed.

