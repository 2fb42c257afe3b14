(** Algebra of [fe p]: ring and field structure, decidable equality. *)
From Coq Require Import ZArith Lia Bool Eqdep_dec Zpow_facts Znumtheory Ring Field.
From Verif Require Import PocklingtonZ Moduli Field.
Local Open Scope Z_scope.

Section Generic.
Context {p : positive}.
Implicit Types a b c : fe p.

Lemma fe_eq a b : fval a = fval b -> a = b.
Proof.
  destruct a as [x Hx], b as [y Hy]; cbn. intros ->. f_equal. apply UIP_dec, bool_dec.
Qed.

Lemma fval_range a : 0 <= fval a < Zpos p.
Proof.
  pose proof (fok a) as H. apply andb_true_iff in H. destruct H as [H1 H2].
  apply Z.leb_le in H1. apply Z.ltb_lt in H2. lia.
Qed.

Lemma fval_of_Z x : fval (of_Z p x) = x mod Zpos p.
Proof. reflexivity. Qed.

Lemma fval_mod a : fval a mod Zpos p = fval a.
Proof. apply Z.mod_small, fval_range. Qed.

Lemma of_Z_fval a : of_Z p (fval a) = a.
Proof. apply fe_eq. rewrite fval_of_Z. apply fval_mod. Qed.

Lemma fval_small x : 0 <= x < Zpos p -> fval (of_Z p x) = x.
Proof. intros H. rewrite fval_of_Z. apply Z.mod_small, H. Qed.

Lemma of_Z_eq_mod x y : x mod Zpos p = y mod Zpos p <-> of_Z p x = of_Z p y.
Proof.
  split; intros H.
  - apply fe_eq. exact H.
  - apply (f_equal fval) in H. exact H.
Qed.

Lemma of_Z_add x y : of_Z p (x + y) = (of_Z p x + of_Z p y)%F.
Proof. apply fe_eq. cbn. rewrite Zplus_mod. reflexivity. Qed.
Lemma of_Z_sub x y : of_Z p (x - y) = (of_Z p x - of_Z p y)%F.
Proof. apply fe_eq. cbn. rewrite Zminus_mod. reflexivity. Qed.
Lemma of_Z_mul x y : of_Z p (x * y) = (of_Z p x * of_Z p y)%F.
Proof. apply fe_eq. cbn. rewrite Zmult_mod. reflexivity. Qed.
Lemma of_Z_opp x : of_Z p (- x) = (- of_Z p x)%F.
Proof.
  apply fe_eq. cbn. rewrite <- (Z.sub_0_l x), <- (Z.sub_0_l (x mod _)).
  rewrite Zminus_mod_idemp_r. reflexivity.
Qed.

Lemma feqb_spec a b : reflect (a = b) (feqb a b).
Proof.
  unfold feqb. destruct (Z.eqb_spec (fval a) (fval b)) as [E|E]; constructor.
  - apply fe_eq, E.
  - intros ->. apply E. reflexivity.
Qed.

Lemma feqb_eq a b : feqb a b = true <-> a = b.
Proof. destruct (feqb_spec a b); split; congruence. Qed.
Lemma feqb_neq a b : feqb a b = false <-> a <> b.
Proof. destruct (feqb_spec a b); split; congruence. Qed.
Lemma feqb_refl a : feqb a a = true.
Proof. apply feqb_eq. reflexivity. Qed.

Lemma fe_dec a b : {a = b} + {a <> b}.
Proof. destruct (feqb_spec a b); [left|right]; assumption. Qed.

Lemma fe_ring_theory : ring_theory (@f0 p) f1 fadd fmul fsub fopp eq.
Proof.
  constructor; intros; apply fe_eq; cbn -[Z.add Z.mul Z.sub Z.opp Z.modulo];
    rewrite ?Z.mod_0_l by lia.
  - rewrite Z.add_0_l. apply fval_mod.
  - f_equal. lia.
  - rewrite Zplus_mod_idemp_l, Zplus_mod_idemp_r. f_equal. lia.
  - destruct (Z.eq_dec (Zpos p) 1) as [E|E].
    + rewrite E, !Z.mod_1_r. pose proof (fval_range x). lia.
    + rewrite Zmult_mod_idemp_l, Z.mul_1_l. apply fval_mod.
  - f_equal. lia.
  - rewrite Zmult_mod_idemp_l, Zmult_mod_idemp_r. f_equal. lia.
  - rewrite Zmult_mod_idemp_l, <- Zplus_mod. f_equal. lia.
  - rewrite Zplus_mod_idemp_r. f_equal.
  - rewrite Zplus_mod_idemp_r. rewrite Z.add_opp_diag_r. reflexivity.
Qed.

Hypothesis Hp : prime (Zpos p).

Lemma f1_neq_f0 : (@f1 p) <> f0.
Proof.
  intros H. apply (f_equal fval) in H. pose proof (prime_ge_2 _ Hp).
  change (1 mod Zpos p = 0 mod Zpos p) in H.
  rewrite !Z.mod_small in H by lia. discriminate.
Qed.

Lemma finv_pow_l a : a <> f0 -> (finv_pow a * a)%F = f1.
Proof.
  intros Ha. pose proof (prime_ge_2 _ Hp) as H2.
  assert (Hv : 0 < fval a < Zpos p).
  { pose proof (fval_range a).
    assert (fval a <> 0); [|lia].
    intros E. apply Ha. apply fe_eq. rewrite E. reflexivity. }
  apply fe_eq. unfold finv_pow, fmul. cbn [fval of_Z f1].
  rewrite Zpow_mod_correct by lia.
  rewrite Z.mod_mod by lia. rewrite Zmult_mod_idemp_l.
  replace (fval a ^ (Zpos p - 2) * fval a) with (fval a ^ (Zpos p - 1)).
  - rewrite fermat by assumption. rewrite Z.mod_small by lia. reflexivity.
  - replace (Zpos p - 1) with (Z.succ (Zpos p - 2)) by lia.
    rewrite Z.pow_succ_r by lia. ring.
Qed.

(** [finv] is the exponentiation by p - 2. *)
Lemma finv_pow_eq a : finv a = finv_pow a.
Proof.
  unfold finv. set (y := bgcd _ _ _ _ _ _). clearbody y.
  destruct (Z.eqb_spec ((y * fval a) mod Zpos p) 1) as [E|E]; [|reflexivity].
  assert (H1 : (of_Z p y * a)%F = f1).
  { apply fe_eq. unfold fmul. rewrite !fval_of_Z, Zmult_mod_idemp_l, E.
    pose proof (prime_ge_2 _ Hp). symmetry. apply Z.mod_small. lia. }
  assert (Ha : a <> f0).
  { intros ->. change (fval (@f0 p)) with (0 mod Zpos p) in E.
    rewrite Z.mod_0_l, Z.mul_0_r, Z.mod_0_l in E by lia. discriminate. }
  pose proof (finv_pow_l a Ha) as H2.
  pose proof fe_ring_theory as R.
  rewrite <- (R.(Rmul_1_l) (of_Z p y)), <- H2, <- R.(Rmul_assoc), (R.(Rmul_comm) a), H1.
  rewrite R.(Rmul_comm). apply R.(Rmul_1_l).
Qed.

Lemma finv_l a : a <> f0 -> (finv a * a)%F = f1.
Proof. rewrite finv_pow_eq. apply finv_pow_l. Qed.

Lemma finv_0 : 2 < Zpos p -> finv (@f0 p) = f0.
Proof.
  intros H. rewrite finv_pow_eq. apply fe_eq. unfold finv_pow. rewrite fval_of_Z.
  rewrite Zpow_mod_correct by lia. rewrite Z.mod_mod by lia.
  replace (fval (@f0 p)) with 0 by (symmetry; apply Z.mod_0_l; lia).
  rewrite Z.pow_0_l by lia. reflexivity.
Qed.

Lemma fe_field_theory : field_theory (@f0 p) f1 fadd fmul fsub fopp fdiv finv eq.
Proof.
  constructor.
  - apply fe_ring_theory.
  - apply f1_neq_f0.
  - reflexivity.
  - apply finv_l.
Qed.

Lemma fmul_eq_0 a b : (a * b)%F = f0 -> a = f0 \/ b = f0.
Proof.
  intros H. destruct (fe_dec a f0) as [|Ha]; [left; assumption|right].
  pose proof fe_ring_theory as R.
  rewrite <- (R.(Rmul_1_l) b), <- (finv_l a Ha), <- R.(Rmul_assoc), H.
  apply fe_eq. unfold fmul, f0. rewrite !fval_of_Z, Z.mod_0_l by lia.
  rewrite Z.mul_0_r, Z.mod_0_l by lia. reflexivity.
Qed.
End Generic.

Lemma r_pos_eq : Zpos r_pos = r_modulus. Proof. reflexivity. Qed.
Lemma q_pos_eq : Zpos q_pos = q_modulus. Proof. reflexivity. Qed.
Lemma r_prime : prime (Zpos r_pos). Proof. rewrite r_pos_eq. exact prime_r. Qed.
Lemma q_prime : prime (Zpos q_pos). Proof. rewrite q_pos_eq. exact prime_q. Qed.

Definition Fr_ring := @fe_ring_theory r_pos.
Definition Fr_field := @fe_field_theory r_pos r_prime.
Definition Fq_ring := @fe_ring_theory q_pos.
Definition Fq_field := @fe_field_theory q_pos q_prime.

Lemma fe_eqb_ok {p} (a b : fe p) : feqb a b = true -> a = b.
Proof. apply feqb_eq. Qed.

(** Constants of the form [FrZ z] are recognised as ring coefficients. *)
Lemma Fr_morph : ring_morph (@f0 r_pos) f1 fadd fmul fsub fopp eq
  0%Z 1%Z Z.add Z.mul Z.sub Z.opp Z.eqb FrZ.
Proof.
  constructor; try reflexivity.
  - apply of_Z_add. - apply of_Z_sub. - apply of_Z_mul. - apply of_Z_opp.
  - intros x y H. apply Z.eqb_eq in H. congruence.
Qed.

Ltac isZcst t :=
  match t with
  | Z0 => constr:(true) | Zpos ?p => isZcst p | Zneg ?p => isZcst p
  | xI ?p => isZcst p | xO ?p => isZcst p | xH => constr:(true)
  | _ => constr:(false)
  end.
Ltac Frcst t :=
  match t with
  | FrZ ?z => match isZcst z with true => z | _ => constr:(InitialRing.NotConstant) end
  | of_Z r_pos ?z => match isZcst z with true => z | _ => constr:(InitialRing.NotConstant) end
  | f0 => constr:(0%Z)
  | f1 => constr:(1%Z)
  | _ => constr:(InitialRing.NotConstant)
  end.

Add Field Fr_field_inst : Fr_field (morphism Fr_morph, constants [Frcst]).

(** [ring] looks its carrier up syntactically: declare it under the name [Fr]
    too. *)
Lemma Fr_field' : @field_theory Fr f0 f1 fadd fmul fsub fopp fdiv finv eq.
Proof. exact Fr_field. Qed.
Lemma Fr_morph' : @ring_morph Fr f0 f1 fadd fmul fsub fopp eq Z
  0%Z 1%Z Z.add Z.mul Z.sub Z.opp Z.eqb FrZ.
Proof. exact Fr_morph. Qed.
Add Field Fr_field_inst' : Fr_field' (morphism Fr_morph', constants [Frcst]).
Ltac fring := lazymatch goal with |- @eq _ ?a ?b =>
  first [change (@eq (fe r_pos) a b); ring | change (@eq Fr a b); ring] end.
Ltac ffield := lazymatch goal with |- @eq _ ?a ?b =>
  first [change (@eq (fe r_pos) a b); field | change (@eq Fr a b); field] end.

Lemma Fr_mul_eq_0 (a b : Fr) : (a * b)%F = f0 -> a = f0 \/ b = f0.
Proof. apply (fmul_eq_0 r_prime). Qed.
Lemma Fr_1_neq_0 : (@f1 r_pos) <> f0.
Proof. exact (f1_neq_f0 r_prime). Qed.

Example ring_works (a b : Fr) : (a * (b + FrZ 2) - FrZ 2 * a = b * a)%F.
Proof. ring. Qed.
