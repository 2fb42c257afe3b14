(** Square roots and Legendre symbol in Fq, and the constants of Fr and Fq. *)
From Coq Require Import ZArith List Lia Bool Znumtheory Zpow_facts Ring Field.
From Verif Require Import PocklingtonZ Moduli Field FieldFacts LimbModel LimbSpec LimbFacts LimbField.
Import ListNotations.
Local Open Scope Z_scope.

Section Powers.
Variable p : positive.
Hypothesis Hp : prime (Zpos p).
Add Field F_inst : (@fe_field_theory p Hp).
Implicit Types a b : fe p.

Lemma fpow_S a n : 0 <= n -> fpow a (n + 1) = (a * fpow a n)%F.
Proof. intros. rewrite fpow_add, fpow_1 by lia. ring. Qed.
Lemma fpow_fmul a b n : fpow (a * b)%F n = (fpow a n * fpow b n)%F.
Proof.
  unfold fpow. rewrite <- of_Z_mul, <- Z.pow_mul_l. unfold fmul.
  apply of_Z_eq_mod. rewrite fval_of_Z. symmetry. apply Zpower_mod. lia.
Qed.
Lemma fpow_zero n : 0 < n -> fpow (@f0 p) n = f0.
Proof.
  intros. unfold fpow, f0. rewrite fval_of_Z, Z.mod_0_l by lia. rewrite Z.pow_0_l by lia. reflexivity.
Qed.
Lemma fpow_one n : 0 <= n -> fpow (@f1 p) n = f1.
Proof.
  intros. unfold fpow. transitivity (of_Z p (1 ^ n)); [|rewrite Z.pow_1_l by lia; reflexivity].
  apply of_Z_eq_mod. unfold f1. rewrite fval_of_Z. symmetry. apply Zpower_mod. lia.
Qed.
Lemma fval_nz a : a <> f0 -> 0 < fval a < Zpos p.
Proof.
  intros Ha. pose proof (fval_range a). assert (fval a <> 0); [|lia].
  intros E. apply Ha. apply fe_eq. rewrite E. reflexivity.
Qed.
Lemma fpow_fermat a : a <> f0 -> fpow a (Zpos p - 1) = f1.
Proof.
  intros Ha. apply fe_eq. unfold fpow, f1. rewrite !fval_of_Z. pose proof (prime_ge_2 _ Hp).
  pose proof (fval_nz _ Ha). rewrite fermat by assumption. symmetry. apply Z.mod_small. lia.
Qed.
Lemma fpow_nz a n : 0 <= n -> a <> f0 -> fpow a n <> f0.
Proof.
  intros Hn Ha E. apply Ha. revert n Hn E. apply (natlike_ind (fun n => fpow a n = f0 -> a = f0)).
  - intros E. rewrite fpow_0 in E. exfalso. apply (f1_neq_f0 Hp E).
  - intros n Hn IH E. unfold Z.succ in E. rewrite fpow_S in E by lia.
    destruct (fmul_eq_0 Hp _ _ E) as [E'|E']; auto.
Qed.

(** when p = 3 mod 4 *)
Variables (e h : Z).
Hypothesis He : 0 < e.
Hypothesis He4 : Zpos p = 4 * e - 1.
Lemma sqrt_34 a : (exists c, c * c = a)%F -> (fpow a e * fpow a e = a)%F.
Proof.
  intros (c & <-). rewrite <- fpow_add by lia.
  destruct (fe_dec c f0) as [->|Hc].
  - replace (f0 * f0)%F with (@f0 p) by ring. apply fpow_zero. lia.
  - replace (c * c)%F with (fpow c 2) at 1.
    2:{ change 2 with (1 + 1). rewrite fpow_add, fpow_1 by lia. reflexivity. }
    rewrite fpow_mul by lia. replace (2 * (e + e)) with ((Zpos p - 1) + 1 + 1) by lia.
    rewrite !fpow_add, fpow_fermat, fpow_1 by (assumption || lia). ring.
Qed.
Hypothesis Hh : Zpos p = 2 * h + 1.
Lemma legendre_34 a : a <> f0 -> (fpow a h = f1 <-> exists c, c * c = a)%F.
Proof.
  intros Ha. assert (E : e + e = h + 1) by lia. split.
  - intros H. exists (fpow a e). rewrite <- fpow_add, E, fpow_add, H, fpow_1 by lia. ring.
  - intros H. pose proof (sqrt_34 a H) as Q. rewrite <- fpow_add, E, fpow_add, fpow_1 in Q by lia.
    transitivity (fpow a h * a * finv a)%F; [field; exact Ha|]. rewrite Q. field. exact Ha.
Qed.
End Powers.

Notation rq := (rep q_pos).
Lemma fq_sqrt_rep x a : rq x a ->
  match fq_sqrt x with
  | Some y => exists b, rq y b /\ (b * b = a)%F
  | None => ~ exists b, (b * b = a)%F
  end.
Proof.
  intros Hx. unfold fq_sqrt. cbv zeta.
  set (ex := L4 _ _ _ _).
  assert (Hw : words4 ex) by (apply words4_b; vm_compute; reflexivity).
  pose proof (lpow_rep fq_params q_pos good_fq x ex a Hx Hw) as Ht.
  set (t := lpow fq_params x ex) in *. clearbody t.
  rewrite (leqb_rep fq_params q_pos good_fq _ _ _ _ (lsquare_rep _ _ good_fq _ _ Ht) Hx).
  destruct (feqb_spec (fpow a (v4 ex) * fpow a (v4 ex))%F a) as [E|E].
  - eexists. split; [exact Ht|exact E].
  - intros H. apply E. apply sqrt_34; [exact q_prime|vm_compute; reflexivity|vm_compute; reflexivity|exact H].
Qed.
Lemma fq_legendre_rep x a : rq x a ->
  match fq_legendre x with
  | LZero => a = f0
  | LResidue => a <> f0 /\ exists b, (b * b = a)%F
  | LNonResidue => ~ exists b, (b * b = a)%F
  end.
Proof.
  intros Hx. unfold fq_legendre. cbv zeta.
  set (ex := L4 _ _ _ _).
  assert (Hw : words4 ex) by (apply words4_b; vm_compute; reflexivity).
  pose proof (lpow_rep fq_params q_pos good_fq x ex a Hx Hw) as Ht.
  set (t := lpow fq_params x ex) in *. clearbody t.
  rewrite (leqb_rep fq_params q_pos good_fq _ _ _ _ Ht (lzero_rep fq_params q_pos good_fq)).
  rewrite (leqb_rep fq_params q_pos good_fq _ _ _ _ Ht (lone_rep fq_params q_pos good_fq)).
  destruct (feqb_spec (fpow a (v4 ex)) f0) as [E|E].
  - destruct (fe_dec a f0) as [H|H]; [exact H|]. exfalso.
    refine (fpow_nz q_pos q_prime a (v4 ex) _ H E). vm_compute. congruence.
  - assert (Ha : a <> f0).
    { intros ->. apply E. apply fpow_zero. vm_compute. reflexivity. }
    pose proof (fun e A B => legendre_34 q_pos q_prime e (v4 ex) A B) as L.
    specialize (L ((Zpos q_pos + 1) / 4)). 
    specialize (L ltac:(vm_compute; reflexivity) ltac:(vm_compute; reflexivity) ltac:(vm_compute; reflexivity) a Ha).
    destruct (feqb_spec (fpow a (v4 ex)) f1) as [F|F].
    + split; [exact Ha|]. apply L. exact F.
    + intros C. apply F. apply L. exact C.
Qed.

(** a checker for concrete limb vectors *)
Lemma rep_b p x z : words4 x -> (v4 x =? (z * 2 ^ 256) mod Zpos p) = true -> 0 <= z < Zpos p ->
  represents x (of_Z p z).
Proof.
  intros A E R. apply Z.eqb_eq in E. split; [exact A|]. rewrite fval_of_Z, (Z.mod_small z) by exact R. exact E.
Qed.
