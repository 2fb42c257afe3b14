(** Powers in a field; the q-th power is a homomorphism if 1 + ... + 1 (q times) is 0. *)
From Coq Require Import List Bool Field_theory Field Ring ZArith Znumtheory Lia.
From Verif Require Import CurveModel CurveSpec TowerModel TowerSpec TowerFacts.

Section Powers.
Context {F : Type} (K : base F) (H : is_field K).
Add Field powf : (fd_field K H).
Local Notation "0" := (bzero K). Local Notation "1" := (bone K).
Local Notation "x + y" := (badd K x y). Local Notation "x - y" := (bsub K x y). Local Notation "x * y" := (bmul K x y). Local Notation "- x" := (bopp K x).
Local Notation pw := (power K).
Lemma pw_S x n : pw x (S n) = x * pw x n. Proof. reflexivity. Qed.
Lemma pw_add x m n : pw x (m + n)%nat = pw x m * pw x n.
Proof. induction m as [|m IH]; cbn [Nat.add power]; [ring|]. rewrite IH. ring. Qed.
Lemma pw_one n : pw 1 n = 1.
Proof. induction n as [|n IH]; cbn [power]; [reflexivity|]. rewrite IH. ring. Qed.
Lemma pw_prod x y n : pw (x * y) n = pw x n * pw y n.
Proof. induction n as [|n IH]; cbn [power]; [ring|]. rewrite IH. ring. Qed.
Lemma pw_pw x m n : pw (pw x m) n = pw x (m * n)%nat.
Proof. induction n as [|n IH]; [rewrite Nat.mul_0_r; reflexivity|]. rewrite Nat.mul_succ_r, Nat.add_comm, pw_add, <- IH. reflexivity. Qed.
Lemma pw_1 x : pw x 1%nat = x. Proof. cbn [power]. ring. Qed.
Lemma pw_2 x : pw x 2%nat = x * x. Proof. cbn [power]. ring. Qed.
Lemma pw_nz x n : x <> 0 -> pw x n <> 0.
Proof. intros X. induction n as [|n IH]; cbn [power]; [exact (a_one K H)|]. intros E. destruct (a_prod K H _ _ E); contradiction. Qed.
Lemma pw_zero n : n <> O -> pw 0 n = 0.
Proof. destruct n; [contradiction|]. intros _. cbn [power]. ring. Qed.

(** binomials *)
Fixpoint choose (n k : nat) : nat :=
  match n, k with _, O => 1%nat | O, S _ => O | S n, S k => (choose n k + choose n (S k))%nat end.
Lemma choose_0 n : choose n 0 = 1%nat. Proof. destruct n; reflexivity. Qed.
Lemma choose_big n : forall k, (n < k)%nat -> choose n k = O.
Proof. induction n as [|n IH]; intros [|k] L; try lia; [reflexivity|]. cbn [choose]. rewrite !IH by lia. reflexivity. Qed.
Lemma choose_full n : choose n n = 1%nat.
Proof. induction n as [|n IH]; [reflexivity|]. cbn [choose]. rewrite IH, choose_big by lia. reflexivity. Qed.
Lemma choose_mult n : forall k, (S k * choose (S n) (S k) = S n * choose n k)%nat.
Proof.
  induction n as [|n IH]; intros k.
  - destruct k; reflexivity || (cbn [choose]; destruct k; cbn; lia).
  - destruct k as [|k].
    + rewrite choose_0. change (choose (S (S n)) 1) with (choose (S n) 0 + choose (S n) 1)%nat. specialize (IH O). rewrite choose_0 in *. lia.
    + pose proof (IH k) as A. pose proof (IH (S k)) as B. change (choose (S (S n)) (S (S k))) with (choose (S n) (S k) + choose (S n) (S (S k)))%nat.
      change (choose (S n) (S k)) with (choose n k + choose n (S k))%nat in *. nia.
Qed.
Lemma choose_prime (n : nat) k : prime (Z.of_nat n) -> (0 < k < n)%nat -> exists m, choose n k = (m * n)%nat.
Proof.
  intros P [A B]. destruct k as [|k]; [lia|]. destruct n as [|n]; [lia|]. pose proof (choose_mult n k) as E.
  assert (D : (Z.of_nat (S n) | Z.of_nat (S k) * Z.of_nat (choose (S n) (S k)))%Z).
  { rewrite <- Nat2Z.inj_mul, E, Nat2Z.inj_mul. apply Z.divide_factor_l. }
  apply prime_mult in D; [|exact P]. destruct D as [D|[m D]]; [apply Z.divide_pos_le in D; lia|].
  exists (Z.to_nat m). apply Nat2Z.inj. rewrite Nat2Z.inj_mul, Z2Nat.id; [exact D|]. nia.
Qed.
Lemma ones_add m n : ones K (m + n)%nat = ones K m + ones K n.
Proof. induction m as [|m IH]; cbn [Nat.add ones]; [ring|]. rewrite IH. ring. Qed.
Lemma ones_mul m n : ones K (m * n)%nat = ones K m * ones K n.
Proof. induction m as [|m IH]; cbn [Nat.mul ones]; [ring|]. rewrite ones_add, IH. ring. Qed.
Section Sum.
Variables x y : F.
Fixpoint term (n k : nat) : F :=
  match n, k with O, O => 1 | O, S _ => 0 | S n, O => y * term n O | S n, S k => x * term n k + y * term n (S k) end.
Fixpoint upto (n m : nat) : F := match m with O => term n O | S m => upto n m + term n (S m) end.
Lemma term_big n : forall k, (n < k)%nat -> term n k = 0.
Proof. induction n as [|n IH]; intros [|k] L; try lia; [reflexivity|]. cbn [term]. rewrite !IH by lia. ring. Qed.
Lemma upto_step n m : upto (S n) (S m) = x * upto n m + y * upto n (S m).
Proof.
  induction m as [|m IH]; [cbn [upto term]; ring|].
  change (upto (S n) (S (S m))) with (upto (S n) (S m) + (x * term n (S m) + y * term n (S (S m)))). rewrite IH. cbn [upto]. ring.
Qed.
Lemma upto_power n : upto n n = pw (x + y) n.
Proof.
  induction n as [|n IH]; [reflexivity|]. rewrite upto_step. cbn [power upto]. rewrite (term_big n (S n)) by lia. rewrite IH. ring.
Qed.
Lemma term_is n : forall k, (k <= n)%nat -> term n k = ones K (choose n k) * (pw x k * pw y (n - k)).
Proof.
  induction n as [|n IH]; intros k L.
  - destruct k; [|lia]. cbn. ring.
  - destruct k as [|k].
    + cbn [term]. rewrite IH by lia. rewrite !choose_0, !Nat.sub_0_r. cbn [power]. ring.
    + cbn [term choose Nat.sub]. rewrite IH, ones_add by lia. destruct (Nat.eq_dec k n) as [->|N].
      * rewrite term_big, (choose_big n (S n)) by lia. rewrite Nat.sub_diag. cbn [power ones]. ring.
      * rewrite IH by lia. replace (n - k)%nat with (S (n - S k)) by lia. cbn [power]. ring.
Qed.
Lemma upto_ends n m : (m < n)%nat -> (forall k, (0 < k <= m)%nat -> term n k = 0) -> upto n m = term n O.
Proof. induction m as [|m IH]; intros L Z; [reflexivity|]. cbn [upto]. rewrite IH, (Z (S m)) by (intros; try apply Z; lia). ring. Qed.
Lemma freshman n : prime (Z.of_nat n) -> ones K n = 0 -> pw (x + y) n = pw x n + pw y n.
Proof.
  intros P Z. assert (T : forall k, (0 < k < n)%nat -> term n k = 0).
  { intros k B. rewrite term_is by lia. destruct (choose_prime n k P B) as [m E]. rewrite E, ones_mul, Z. ring. }
  pose proof (prime_ge_2 _ P) as G. rewrite <- upto_power. destruct n as [|n]; [lia|]. cbn [upto]. rewrite upto_ends by (intros; try apply T; lia).
  rewrite !term_is by lia. rewrite choose_0, choose_full, Nat.sub_0_r, Nat.sub_diag. cbn [power ones]. ring.
Qed.
End Sum.

(** exponents in Z *)
Definition zpow (x : F) (n : Z) : F := if (n <? 0)%Z then binv K (pw x (Z.to_nat (- n))) else pw x (Z.to_nat n).
Lemma zpow_nat x n : zpow x (Z.of_nat n) = pw x n.
Proof. unfold zpow. destruct (Z.ltb_spec (Z.of_nat n) 0); [lia|]. rewrite Nat2Z.id. reflexivity. Qed.
Lemma zpow_nn x n : (0 <= n)%Z -> zpow x n = pw x (Z.to_nat n).
Proof. intros N. unfold zpow. destruct (Z.ltb_spec n 0); [lia|reflexivity]. Qed.
Lemma zpow_nz x n : x <> 0 -> zpow x n <> 0.
Proof.
  intros X. unfold zpow. destruct (n <? 0)%Z; [|apply pw_nz; exact X]. intros E. pose proof (a_inv K H _ (pw_nz x (Z.to_nat (- n)) X)) as I. rewrite E in I. apply (a_one K H). rewrite <- I. ring.
Qed.
Lemma zpow_add_nat x n m : x <> 0 -> zpow x (n + Z.of_nat m)%Z = zpow x n * pw x m.
Proof.
  intros X. induction m as [|m IH]; [rewrite Z.add_0_r; cbn [power]; ring|]. rewrite Nat2Z.inj_succ, Z.add_succ_r. cbn [power].
  replace (zpow x n * (x * pw x m)) with (x * (zpow x n * pw x m)) by ring. rewrite <- IH. generalize (n + Z.of_nat m)%Z. clear IH n m. intros n. unfold zpow.
  destruct (Z.ltb_spec n 0) as [L|L], (Z.ltb_spec (Z.succ n) 0) as [L'|L']; try lia.
  - replace (Z.to_nat (- n)) with (S (Z.to_nat (- Z.succ n))) by lia. cbn [power]. set (t := pw x _). assert (T : t <> 0) by (apply pw_nz; exact X).
    field. split; assumption.
  - replace n with (-1)%Z by lia. change (Z.to_nat (Z.succ (-1))) with O. change (Z.to_nat (- -1)) with 1%nat. cbn [power]. field. exact X.
  - rewrite Z2Nat.inj_succ by lia. reflexivity.
Qed.
Lemma zpow_neg x n : x <> 0 -> zpow x n * zpow x (- n) = 1.
Proof.
  intros X. destruct (Z.le_gt_cases 0 n) as [L|L].
  - pose proof (zpow_add_nat x (- n) (Z.to_nat n) X) as E. rewrite Z2Nat.id, Z.add_opp_diag_l in E by lia. rewrite (zpow_nn x n L).
    replace (pw x (Z.to_nat n) * zpow x (- n)) with (zpow x (- n) * pw x (Z.to_nat n)) by ring. rewrite <- E. reflexivity.
  - pose proof (zpow_add_nat x n (Z.to_nat (- n)) X) as E. rewrite Z2Nat.id, Z.add_opp_diag_r in E by lia. rewrite (zpow_nn x (- n)) by lia. rewrite <- E. reflexivity.
Qed.
Lemma zpow_add x n m : x <> 0 -> zpow x (n + m)%Z = zpow x n * zpow x m.
Proof.
  intros X. destruct (Z.le_gt_cases 0 m) as [L|L].
  - rewrite <- (Z2Nat.id m) at 1 by exact L. rewrite zpow_add_nat, (zpow_nn x m) by assumption. reflexivity.
  - pose proof (zpow_add_nat x (n + m) (Z.to_nat (- m)) X) as E. rewrite Z2Nat.id in E by lia. replace (n + m + - m)%Z with n in E by lia. rewrite <- (zpow_nn x (- m)) in E by lia.
    rewrite E. pose proof (zpow_neg x m X) as I. transitivity (zpow x (n + m) * (zpow x m * zpow x (- m))); [rewrite I|]; ring.
Qed.
Lemma zpow_1 x : zpow x 1 = x. Proof. exact (pw_1 x). Qed.
Lemma zpow_0 x : zpow x 0 = 1. Proof. reflexivity. Qed.
Lemma zpow_mul_nat x n m : x <> 0 -> zpow x (n * Z.of_nat m)%Z = pw (zpow x n) m.
Proof.
  intros X. induction m as [|m IH]; [rewrite Z.mul_0_r; reflexivity|]. rewrite Nat2Z.inj_succ, Z.mul_succ_r, zpow_add by exact X. rewrite IH. cbn [power]. ring.
Qed.
Lemma zpow_opp x n : x <> 0 -> zpow x (- n) = binv K (zpow x n).
Proof.
  intros X. pose proof (zpow_nz x n X) as N. apply (a_cancel K H (zpow x n) _ _ N). rewrite zpow_neg by exact X. pose proof (a_inv K H _ N) as I. rewrite <- I. ring.
Qed.
Lemma zpow_mul x n m : x <> 0 -> zpow x (n * m)%Z = zpow (zpow x n) m.
Proof.
  intros X. destruct (Z.le_gt_cases 0 m) as [L|L].
  - rewrite <- (Z2Nat.id m) at 1 by exact L. rewrite zpow_mul_nat by exact X. rewrite (zpow_nn _ m) by exact L. reflexivity.
  - replace (n * m)%Z with (- (n * Z.of_nat (Z.to_nat (- m))))%Z by lia. rewrite zpow_opp, zpow_mul_nat by exact X.
    replace m with (- (Z.of_nat (Z.to_nat (- m))))%Z at 2 by lia. rewrite zpow_opp, zpow_nat by (apply zpow_nz; exact X). reflexivity.
Qed.
Lemma zpow_prod x y n : x <> 0 -> y <> 0 -> zpow (x * y) n = zpow x n * zpow y n.
Proof.
  intros X Y. assert (Q : x * y <> 0) by (intros E; destruct (a_prod K H _ _ E); contradiction).
  destruct (Z.le_gt_cases 0 n) as [L|L]; [rewrite !zpow_nn by exact L; apply pw_prod|].
  apply (a_cancel K H (zpow (x * y) (- n))); [apply zpow_nz; exact Q|]. replace (zpow (x * y) (- n) * zpow (x * y) n) with (zpow (x * y) n * zpow (x * y) (- n)) by ring. rewrite zpow_neg by exact Q.
  rewrite (zpow_nn _ (- n)) by lia. rewrite pw_prod, <- !(zpow_nn _ (- n)) by lia.
  transitivity ((zpow x n * zpow x (- n)) * (zpow y n * zpow y (- n))); [rewrite !zpow_neg by assumption|]; ring.
Qed.
End Powers.

(** homomorphisms *)
Record hom {A B} (K : base A) (L : base B) (f : A -> B) : Prop := {
  hom_one : f (bone K) = bone L; hom_zero : f (bzero K) = bzero L;
  hom_add : forall x y, f (badd K x y) = badd L (f x) (f y); hom_mul : forall x y, f (bmul K x y) = bmul L (f x) (f y) }.
Lemma hom_power {A B} (K : base A) (L : base B) f (Hf : hom K L f) x n : f (power K x n) = power L (f x) n.
Proof. induction n as [|n IH]; cbn [power]; [apply (hom_one _ _ _ Hf)|]. rewrite (hom_mul _ _ _ Hf), IH. reflexivity. Qed.
Lemma hom_ones {A B} (K : base A) (L : base B) f (Hf : hom K L f) n : f (ones K n) = ones L n.
Proof. induction n as [|n IH]; cbn [ones]; [apply (hom_zero _ _ _ Hf)|]. rewrite (hom_add _ _ _ Hf), IH, (hom_one _ _ _ Hf). reflexivity. Qed.
Lemma frob_hom {A} (K : base A) (H : is_field K) n : prime (Z.of_nat n) -> ones K n = bzero K -> hom K K (fun x => power K x n).
Proof.
  intros P Z. constructor.
  - apply (pw_one K H).
  - apply (pw_zero K H). pose proof (prime_ge_2 _ P). lia.
  - intros x y. apply (freshman K H); assumption.
  - intros x y. apply (pw_prod K H).
Qed.
