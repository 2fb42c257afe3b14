(** Multiplicative order facts for the constants of the scalar field. *)
From Coq Require Import ZArith List Lia Bool Znumtheory Zpow_facts Ring Field.
From Verif Require Import PocklingtonZ Moduli Field FieldFacts LimbModel LimbSpec LimbField LimbConst.
Import ListNotations.
Local Open Scope Z_scope.

Definition rm1 : Z := Zpos r_pos - 1.
Definition rm1_factors : list Z :=
  [2; 3; 13; 29; 983; 11003; 237073; 405928799; 1670836401704629; 13818364434197438864469338081].
Lemma rm1_factored :
  rm1 = 2 ^ 28 * (3 * (3 * (13 * (29 * (983 * (11003 * (237073 * (405928799 * (1670836401704629 * 13818364434197438864469338081))))))))).
Proof. vm_compute. reflexivity. Qed.
Ltac trial n := apply (trial_prime _ (Z.to_nat n)); [lia|vm_compute; reflexivity].
Lemma rm1_primes q : In q rm1_factors -> prime q.
Proof.
  unfold rm1_factors. cbn [In]. intros H.
  repeat (destruct H as [<-|H]);
    [trial 10|trial 10|trial 20|trial 20|trial 100|trial 200|trial 600|trial 21000
    |exact prime_1670836401704629|exact prime_13818364434197438864469338081|destruct H].
Qed.
Lemma prime_divides_rm1 q : prime q -> (q | rm1) -> In q rm1_factors.
Proof.
  intros Hq D. rewrite rm1_factored in D.
  assert (S : forall f rest, prime f -> In f rm1_factors -> (q | f * rest) -> In q rm1_factors \/ (q | rest)).
  { intros f rest Hf Hin H. apply prime_mult in H; [|exact Hq]. destruct H as [H|H]; [left|right; exact H].
    apply prime_div_prime in H; [subst; exact Hin|exact Hq|exact Hf]. }
  assert (D2 : In q rm1_factors \/ (q | 3 * (3 * (13 * (29 * (983 * (11003 * (237073 * (405928799 * (1670836401704629 * 13818364434197438864469338081)))))))))).
  { apply prime_mult in D; [|exact Hq]. destruct D as [D|D]; [left|right; exact D].
    apply prime_power_prime in D; [subst; left; reflexivity|lia|exact Hq|exact prime_2]. }
  clear D. destruct D2 as [D|D]; [exact D|].
  do 9 (apply S in D; [|apply rm1_primes; cbn; tauto|cbn; tauto]; destruct D as [D|D]; [exact D|]).
  apply prime_div_prime in D; [subst; cbn; tauto|exact Hq|apply rm1_primes; cbn; tauto].
Qed.

Lemma fpow_const z k : 0 <= k -> fpow (FrZ z) k = FrZ (Zpow_mod (z mod r_modulus) k r_modulus).
Proof.
  intros Hk. unfold fpow, FrZ. apply of_Z_eq_mod. rewrite fval_of_Z.
  rewrite r_pos_eq. rewrite Zpow_mod_correct by discriminate.
  rewrite Z.mod_mod by discriminate. reflexivity.
Qed.

Definition seven : Fr := FrZ 7.
Lemma seven_nz : seven <> f0. Proof. intros H. apply (f_equal fval) in H. vm_compute in H. discriminate. Qed.
Lemma seven_fermat : fpow seven rm1 = f1.
Proof. apply (fpow_fermat r_pos r_prime). exact seven_nz. Qed.
(** The powers 7^((r-1)/q) are computed along a product tree, to share work. *)
Inductive ptree := PLeaf (q e : Z) | PNode (a b : ptree).
Fixpoint tprod (t : ptree) : Z := match t with PLeaf q e => q ^ e | PNode a b => tprod a * tprod b end.
Fixpoint tcheck (t : ptree) (x : Z) : bool :=
  match t with
  | PLeaf q e => (1 <? q) && (1 <=? e) && negb (Zpow_mod x (q ^ (e - 1)) r_modulus =? 1)
  | PNode a b => tcheck a (Zpow_mod x (tprod b) r_modulus) && tcheck b (Zpow_mod x (tprod a) r_modulus)
  end.
Fixpoint tfactors (t : ptree) : list Z :=
  match t with PLeaf q e => [q] | PNode a b => tfactors a ++ tfactors b end.
Lemma tprod_pos t x : tcheck t x = true -> 0 < tprod t.
Proof.
  revert x. induction t as [q e|a IHa b IHb]; intros x; cbn [tcheck tprod]; rewrite !andb_true_iff.
  - rewrite Z.ltb_lt, Z.leb_le. intros ((? & ?) & _). apply Z.pow_pos_nonneg; lia.
  - intros (A & B). apply IHa in A. apply IHb in B. nia.
Qed.
Lemma tcheck_ok t : forall x k n q, tcheck t x = true -> 0 <= k -> x mod r_modulus = 7 ^ k mod r_modulus ->
  n = k * tprod t -> In q (tfactors t) -> 7 ^ (n / q) mod r_modulus <> 1.
Proof.
  assert (PW : forall x k m, 0 <= k -> 0 <= m -> x mod r_modulus = 7 ^ k mod r_modulus ->
    Zpow_mod x m r_modulus mod r_modulus = 7 ^ (k * m) mod r_modulus).
  { intros x k m Hk Hm E. rewrite Zpow_mod_correct, Z.mod_mod by discriminate.
    rewrite Zpower_mod by reflexivity. rewrite E, <- Zpower_mod by reflexivity. rewrite <- Z.pow_mul_r by lia. reflexivity. }
  induction t as [p e|a IHa b IHb]; intros x k n q C Hk E Hn Hin; cbn [tcheck tprod tfactors] in *.
  - rewrite !andb_true_iff in C. destruct C as ((C1 & C2) & C3). apply Z.ltb_lt in C1. apply Z.leb_le in C2.
    apply negb_true_iff, Z.eqb_neq in C3. destruct Hin as [<-|[]].
    assert (0 < p ^ (e - 1)) by (apply Z.pow_pos_nonneg; lia).
    assert (D : n / p = k * p ^ (e - 1)).
    { rewrite Hn. replace e with (Z.succ (e - 1)) at 1 by lia. rewrite Z.pow_succ_r by lia.
      replace (k * (p * p ^ (e - 1))) with (k * p ^ (e - 1) * p) by ring. apply Z.div_mul. lia. }
    rewrite D. rewrite <- (PW x k (p ^ (e - 1))) by (try lia; exact E).
    rewrite Zpow_mod_correct in * by discriminate. rewrite Z.mod_mod by discriminate. exact C3.
  - apply andb_true_iff in C as (Ca & Cb). pose proof (tprod_pos _ _ Ca). pose proof (tprod_pos _ _ Cb).
    apply in_app_or in Hin as [Hin|Hin].
    + apply (IHa _ (k * tprod b) n q Ca); [nia|apply PW; lia || exact E|lia|exact Hin].
    + apply (IHb _ (k * tprod a) n q Cb); [nia|apply PW; lia || exact E|lia|exact Hin].
Qed.
Definition rm1_tree : ptree :=
  PNode (PNode (PLeaf 1670836401704629 1) (PLeaf 13818364434197438864469338081 1))
        (PNode (PNode (PNode (PLeaf 2 28) (PLeaf 3 2)) (PNode (PLeaf 13 1) (PLeaf 29 1)))
               (PNode (PNode (PLeaf 983 1) (PLeaf 11003 1)) (PNode (PLeaf 237073 1) (PLeaf 405928799 1)))).
Lemma seven_tree : tcheck rm1_tree 7 = true.
Proof. vm_cast_no_check (eq_refl true). Qed.
Lemma seven_factor q : In q rm1_factors -> fpow seven (rm1 / q) <> f1.
Proof.
  intros H E. unfold seven in E. rewrite fpow_const in E.
  2:{ pose proof (prime_ge_2 _ (rm1_primes q H)). apply Z.div_pos; [vm_compute; discriminate|lia]. }
  refine (tcheck_ok rm1_tree 7 1 rm1 q seven_tree _ _ _ _ _); [lia|reflexivity|vm_compute; reflexivity| |].
  - cbn [rm1_tree tfactors app]. unfold rm1_factors in H. cbn [In] in *. tauto.
  - change (7 mod r_modulus) with 7 in E. unfold FrZ, f1 in E. apply of_Z_eq_mod in E.
    rewrite r_pos_eq in E. rewrite Zpow_mod_correct in * by discriminate. rewrite Z.mod_mod in E by discriminate.
    exact E.
Qed.

Lemma fpow_one_mult (a : Fr) k n : 0 <= k -> 0 <= n -> fpow a k = f1 -> fpow a (k * n) = f1.
Proof. intros Hk Hn E. rewrite <- fpow_mul, E by lia. apply (fpow_one r_pos). exact Hn. Qed.
Lemma fpow_one_gcd (a : Fr) k n : a <> f0 -> 0 <= k -> 0 <= n -> fpow a k = f1 -> fpow a n = f1 ->
  fpow a (Z.gcd k n) = f1.
Proof.
  intros Ha. revert n. pattern k. revert k.
  assert (Main : forall f k n : Z, 0 <= f -> 0 <= k <= f -> 0 <= n -> fpow a k = f1 -> fpow a n = f1 -> fpow a (Z.gcd k n) = f1).
  { intros f k n Hf. revert k n. pattern f. revert f Hf. apply natlike_ind.
    - intros k n Hk Hn Ek En. replace k with 0 by lia. rewrite Z.gcd_0_l, Z.abs_eq by lia. exact En.
    - intros f Hf IH k n Hk Hn Ek En. destruct (Z.eq_dec k 0) as [->|NZ].
      { rewrite Z.gcd_0_l, Z.abs_eq by lia. exact En. }
      rewrite <- Z.gcd_mod by lia.
      pose proof (Z.mod_pos_bound n k ltac:(lia)) as B.
      apply (IH (n mod k) k); [lia|lia| |exact Ek].
      rewrite (Z.div_mod n k) in En by lia.
      assert (0 <= n / k) by (apply Z.div_pos; lia).
      rewrite fpow_add, fpow_one_mult in En by (try assumption; try lia; apply Z.mul_nonneg_nonneg; lia).
      rewrite <- En. fring. }
  intros k n Hk Hn. exact (Main k k n Hk ltac:(lia) Hn).
Qed.

(** 7 generates the multiplicative group: its order is r - 1 *)
Lemma seven_order k : 0 <= k -> fpow seven k = f1 -> (rm1 | k).
Proof.
  intros Hk E. assert (P0 : 0 < rm1) by (vm_compute; reflexivity).
  pose proof (fpow_one_gcd seven k rm1 seven_nz Hk ltac:(lia) E seven_fermat) as Eg.
  set (g := Z.gcd k rm1) in *.
  assert (Gk : (g | k)) by apply Z.gcd_divide_l. assert (Gr : (g | rm1)) by apply Z.gcd_divide_r.
  assert (Gp : 0 <= g) by apply Z.gcd_nonneg.
  destruct Gr as (c & Hc). assert (c > 0) by nia.
  destruct (Z.eq_dec c 1) as [->|NC]; [rewrite Hc, Z.mul_1_l; exact Gk|].
  destruct (has_prime_divisor c ltac:(lia)) as (q & Hq & (d & Hd)).
  pose proof (prime_ge_2 _ Hq).
  assert (D : (q | rm1)) by (exists (d * g); rewrite Hc, Hd; ring).
  exfalso. apply (seven_factor q (prime_divides_rm1 q Hq D)).
  replace (rm1 / q) with (g * d).
  - apply fpow_one_mult; [lia|nia|exact Eg].
  - symmetry. rewrite Hc, Hd. replace (d * q * g) with (g * d * q) by ring. apply Z.div_mul. lia.
Qed.
Lemma seven_eq i j : 0 <= i -> 0 <= j -> fpow seven i = fpow seven j -> (rm1 | j - i).
Proof.
  assert (Half : forall i j, 0 <= i <= j -> fpow seven i = fpow seven j -> (rm1 | j - i)).
  { clear. intros i j Hi E. replace j with (i + (j - i)) in E by lia. rewrite fpow_add in E by lia.
    assert (N : fpow seven i <> f0) by (apply (fpow_nz r_pos r_prime); [lia|exact seven_nz]).
    assert (O : fpow seven (j - i) = f1).
    { transitivity (finv (fpow seven i) * (fpow seven i * fpow seven (j - i)))%F; [|rewrite <- E];
        ffield; exact N. }
    apply seven_order in O; [exact O|lia]. }
  intros Hi Hj E. destruct (Z_le_gt_dec i j); [apply Half; [lia|exact E]|].
  replace (j - i) with (- (i - j)) by lia. apply Z.divide_opp_r. apply Half; [lia|symmetry; exact E].
Qed.
Lemma seven_inj i j : 0 <= i < rm1 -> 0 <= j < rm1 -> fpow seven i = fpow seven j -> i = j.
Proof.
  intros Hi Hj E. apply seven_eq in E; [|lia..]. destruct E as (c & E). assert (c = 0) by nia. lia.
Qed.

(** r - 1 = 2^28 t with t odd *)
Definition tt : Z := rm1 / 2 ^ 28.
Lemma rm1_split : rm1 = 2 ^ 28 * tt. Proof. vm_compute. reflexivity. Qed.
Lemma tt_odd : Z.gcd (2 ^ 28) tt = 1. Proof. vm_compute. reflexivity. Qed.
Lemma tt_pos : 0 < tt. Proof. vm_compute. reflexivity. Qed.
Definition delta_c : Fr := FrZ (v4 (L4 0x870e56bbe533e9a2 0x5b5f898e5e963f25 0x64ec26aad4c86e71 0x09226b6e22c6f0ca)).
Definition root_c : Fr := FrZ (v4 (L4 0xd34f1ed960c37c9c 0x3215cf6dd39329c8 0x98865ea93dd31f74 0x03ddb9f5166d18b7)).
Lemma pow7_b k z : 0 <= k -> (Zpow_mod 7 k r_modulus =? z mod r_modulus) = true -> fpow seven k = FrZ z.
Proof.
  intros Hk E. apply Z.eqb_eq in E. unfold seven. rewrite fpow_const by exact Hk.
  change (7 mod r_modulus) with 7. unfold FrZ. apply of_Z_eq_mod. rewrite r_pos_eq, E.
  apply Z.mod_mod. discriminate.
Qed.
Lemma delta_is : delta_c = fpow seven (2 ^ 28).
Proof. symmetry. apply pow7_b; [lia|]. vm_cast_no_check (eq_refl true). Qed.
Lemma root_is : root_c = fpow seven tt.
Proof. symmetry. apply pow7_b; [vm_compute; discriminate|]. vm_cast_no_check (eq_refl true). Qed.
(** the 2^k-th root of unity obtained by squaring 28 - k times *)
Definition omega_c (k : Z) : Fr := fpow root_c (2 ^ (28 - k)).
Lemma omega_is k : k <= 28 -> omega_c k = fpow seven (tt * 2 ^ (28 - k)).
Proof.
  intros. unfold omega_c. rewrite root_is. apply fpow_mul; [pose proof tt_pos; lia|apply Z.pow_nonneg; lia].
Qed.
Lemma cell_tag i j k : 0 <= k <= 28 -> 0 <= i -> 0 <= j ->
  (fpow delta_c i * fpow (omega_c k) j)%F = fpow seven (2 ^ 28 * i + tt * 2 ^ (28 - k) * j).
Proof.
  intros Hk Hi Hj. pose proof tt_pos. assert (0 <= 2 ^ (28 - k)) by (apply Z.pow_nonneg; lia).
  rewrite delta_is, omega_is by lia. rewrite !fpow_mul by nia. symmetry. apply fpow_add; nia.
Qed.
Lemma cell_tag_inj k i j i' j' : 0 <= k <= 28 -> 0 <= i < tt -> 0 <= i' < tt ->
  0 <= j < 2 ^ k -> 0 <= j' < 2 ^ k ->
  (fpow delta_c i * fpow (omega_c k) j = fpow delta_c i' * fpow (omega_c k) j')%F -> i = i' /\ j = j'.
Proof.
  intros Hk Hi Hi' Hj Hj' E. rewrite !cell_tag in E by lia. pose proof tt_pos.
  assert (P2 : 0 < 2 ^ (28 - k)) by (apply Z.pow_pos_nonneg; lia).
  assert (S2 : 2 ^ 28 = 2 ^ (28 - k) * 2 ^ k) by (rewrite <- Z.pow_add_r by lia; f_equal; lia).
  assert (N : forall a b, 0 <= a -> 0 <= b -> 0 <= 2 ^ 28 * a + tt * 2 ^ (28 - k) * b).
  { intros. apply Z.add_nonneg_nonneg; [lia|]. apply Z.mul_nonneg_nonneg; nia. }
  apply seven_eq in E; [|apply N; lia..]. rewrite rm1_split in E.
  assert (I : i = i').
  { assert (D : (tt | 2 ^ 28 * (i' - i))).
    { destruct E as (c & E). exists (c * 2 ^ 28 - 2 ^ (28 - k) * (j' - j)). lia. }
    apply Z.gauss in D; [|rewrite Z.gcd_comm; exact tt_odd].
    destruct D as (c & D). assert (c = 0) by nia. lia. }
  split; [exact I|]. subst i'. destruct E as (c & E).
  assert (F : 2 ^ (28 - k) * tt * (2 ^ k * c) = 2 ^ (28 - k) * tt * (j' - j)).
  { rewrite S2 in E. lia. }
  apply Z.mul_cancel_l in F; [|nia]. assert (c = 0) by nia. lia.
Qed.
