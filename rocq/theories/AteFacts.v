(** The pairing of the code is the optimal ate pairing. *)
From Coq Require Import List Bool Field_theory Field Ring ZArith Znumtheory Lia.
From Verif Require Import Base Moduli Field FieldFacts LimbModel CurveModel CurveSpec CurveLaw CurveFacts CurveTimes CurveOrder G1Group TowerModel TowerSpec TowerFacts PowerFacts TowerFq TowerFrob PairingModel FinalExp MillerFacts G2Group AteSpec AteSteps AteTwist AteLoop.
Import ListNotations.
Add Field fq12fin : f12_field.
Local Notation Fq2 := (ext2 Fq).
Local Notation Fq12 := (ext2 (ext3 (ext2 Fq))).
Local Notation "x * y" := (f12_mul K1 x y).
Local Notation O12 := (f12_zero K1).
Local Notation cj := (f2_conjugate K1).
Local Notation m2 := (f2_mul K1).

(** a homomorphism of the field maps sums to sums *)
Section Hom.
Variable f : Fq12 -> Fq12.
Hypothesis Hf : hom K12 K12 f.
Lemma f_mul x y : f (x * y) = f x * f y. Proof. exact (hom_mul _ _ _ Hf x y). Qed.
Lemma f_add x y : f (f12_add K1 x y) = f12_add K1 (f x) (f y). Proof. exact (hom_add _ _ _ Hf x y). Qed.
Lemma f_0 : f O12 = O12. Proof. exact (hom_zero _ _ _ Hf). Qed.
Lemma f_1 : f (f12_one K1) = f12_one K1. Proof. exact (hom_one _ _ _ Hf). Qed.
Lemma f_sub x y : f (f12_sub K1 x y) = f12_sub K1 (f x) (f y).
Proof. assert (E : f x = f12_add K1 (f (f12_sub K1 x y)) (f y)). { rewrite <- f_add. apply f_equal. ring. } rewrite E. ring. Qed.
Lemma f_neg x : f (f12_neg K1 x) = f12_neg K1 (f x).
Proof. replace (f12_neg K1 x) with (f12_sub K1 O12 x) by ring. rewrite f_sub, f_0. ring. Qed.
Lemma f_nz x : x <> O12 -> f x <> O12.
Proof. intros N E. apply one_nz. rewrite <- f_1. replace (f12_one K1) with (binv K12 x * x) by (field; exact N). rewrite f_mul, E. ring. Qed.
Lemma f_inj x y : f x = f y -> x = y.
Proof.
  intros E. destruct (a_eq_dec K12 fq12_fld x y) as [H|H]; [exact H|]. exfalso. apply (f_nz (f12_sub K1 x y)).
  - intros Z. apply H. transitivity (f12_add K1 (f12_sub K1 x y) y); [ring|]. rewrite Z. ring.
  - rewrite f_sub, E. ring.
Qed.
Lemma f_eqb x y : beqb K12 (f x) (f y) = beqb K12 x y.
Proof. apply eq_true_iff_eq. rewrite !(fd_eq _ fq12_fld). split; [apply f_inj|intros ->; reflexivity]. Qed.
Lemma f_inv x : f (binv K12 x) = binv K12 (f x).
Proof.
  destruct (a_eq_dec K12 fq12_fld x O12) as [->|N]; [rewrite binv_zero12, f_0, binv_zero12; reflexivity|]. pose proof (f_nz x N) as N'.
  apply (mul_inj _ _ (f x) N'). rewrite <- f_mul. replace (binv K12 x * x) with (f12_one K1) by (field; exact N). rewrite f_1. field. exact N'.
Qed.
Definition fp (P : point Fq12) : point Fq12 := match P with Infinity => Infinity | Point x y => Point (f x) (f y) end.
Lemma fp_plus A B : fp (pplus K12 A B) = pplus K12 (fp A) (fp B).
Proof.
  destruct A as [|x1 y1]; [reflexivity|]. destruct B as [|x2 y2]; [reflexivity|]. cbn [fp pplus].
  assert (S : f (slope K12 x1 y1 x2 y2) = slope K12 (f x1) (f y1) (f x2) (f y2)).
  { unfold slope. rewrite f_eqb. destruct (beqb K12 x1 x2); unfold bdiv; change (bmul K12) with (f12_mul K1); change (bsub K12) with (f12_sub K1); rewrite !f_mul, ?f_inv, ?f_mul, ?f_sub; [|reflexivity].
    unfold three, two. change (badd K12) with (f12_add K1). change (bone K12) with (f12_one K1). rewrite !f_add, !f_1. reflexivity. }
  assert (Z : beqb K12 (badd K12 (f y1) (f y2)) (bzero K12) = beqb K12 (badd K12 y1 y2) (bzero K12)).
  { rewrite <- (f_eqb (badd K12 y1 y2) (bzero K12)). change (badd K12) with (f12_add K1). change (bzero K12) with O12. rewrite f_add, f_0. reflexivity. }
  rewrite f_eqb, Z. destruct (beqb K12 x1 x2 && _); [reflexivity|]. rewrite <- S. cbn [fp].
  change (bmul K12) with (f12_mul K1); change (bsub K12) with (f12_sub K1). rewrite !f_sub, !f_mul, !f_sub, !f_mul. reflexivity.
Qed.
Lemma fp_times n A : fp (ptimes K12 n A) = ptimes K12 n (fp A).
Proof. induction n as [|n IH]; [reflexivity|]. cbn [ptimes]. rewrite fp_plus, IH. reflexivity. Qed.
End Hom.
Lemma frob_times n A : frobenius K12 nq (ptimes K12 n A) = ptimes K12 n (frobenius K12 nq A).
Proof. exact (fp_times _ frob12_hom n A). Qed.

(** Frobenius on the twist *)
Definition g3 : Fq2 := m2 (m2 g6 g6) g6.
Definition psi (A : point Fq2) : point Fq2 := match A with Infinity => Infinity | Point x y => Point (m2 (cj x) (m2 g6 g6)) (m2 (cj y) g3) end.
Lemma frob_io x : power K12 (io x) nq = io (cj x).
Proof. rewrite <- (hom_power _ _ _ io_hom x nq), conj_frob. reflexivity. Qed.
Lemma frob_w : power K12 w nq = io g6 * w. Proof. exact ww_frob. Qed.
Lemma frob_prod x y : power K12 (x * y) nq = power K12 x nq * power K12 y nq. Proof. exact (pw_prod K12 fq12_fld x y nq). Qed.
Lemma ut_psi A : ut (psi A) = frobenius K12 nq (ut A).
Proof.
  destruct A as [|x y]; [reflexivity|]. cbn [psi]. rewrite !ut_point. cbn [frobenius]. rewrite !frob_prod, !frob_io, !frob_w. unfold g3. rewrite !io_mul. generalize (io g6) (io (cj x)) (io (cj y)) w. intros a c d e. apply (f_equal2 (@Point Fq12)); ring.
Qed.
Definition twist_ok : bool := f2_eqb K1 (t_half tbl) g3 && f2_eqb K1 (m2 (cj g3) g3) (f2_neg K1 (f2_one K1)).
Lemma twist_right : twist_ok = true. Proof. vm_compute. reflexivity. Qed.
Lemma half_is : t_half tbl = g3 /\ m2 (cj g3) g3 = f2_neg K1 (f2_one K1).
Proof. destruct (andb_prop _ _ twist_right) as [A B]. apply (f2_eqb_iff K1 fq_fld) in A, B. exact (conj A B). Qed.
Lemma tab1 : nth 1 (t_6a tbl) (f2_zero K1) = m2 g6 g6. Proof. destruct tables_say as (_ & (_ & B & _) & _). exact B. Qed.
Lemma tab2 : nth 2 (t_6a tbl) (f2_zero K1) = m2 (cj (m2 g6 g6)) (m2 g6 g6).
Proof. destruct tables_say as (_ & (_ & B & _) & (_ & H & _) & _). pose proof (steps_at (t_6a tbl) 6 1 ltac:(discriminate) H) as S. unfold tab_at in S. change (2 mod 6)%nat with 2%nat in S. change (1 mod 6)%nat with 1%nat in S. rewrite B in S. exact S. Qed.
Lemma psi_psi x y : pneg K2 (psi (psi (Point x y))) = Point (m2 x (m2 (cj (m2 g6 g6)) (m2 g6 g6))) y.
Proof.
  cbn [psi pneg]. rewrite !cj_mul, !cj_cj. change (bopp K2) with (f2_neg K1). apply (f_equal2 (@Point Fq2)); [generalize (cj g6) g6; intros; ring|]. transitivity (f2_neg K1 (m2 y (m2 (cj g3) g3))); [generalize (cj g3) g3; intros; ring|]. rewrite (proj2 half_is). ring.
Qed.

(** factors from Fq2 do not matter *)
Lemma fq2_order (k : Fq2) : k <> f2_zero K1 -> power K2 k (nq * nq - 1) = f2_one K1.
Proof.
  intros N. assert (L : (1 <= nq)%nat) by (pose proof nq_Z as E; unfold q_modulus in E; lia).
  assert (E : power K2 k (nq * nq) = k). { rewrite <- (pw_pw K2 fq2_fld), !conj_frob. apply cj_cj. }
  replace (nq * nq)%nat with (S (nq * nq - 1)) in E by nia. cbn [power] in E. apply (a_cancel K2 fq2_fld k); [exact N|]. rewrite E. change (k = m2 k (f2_one K1)). ring.
Qed.
Lemma r_cyclotomic : ((Q ^ 4 - Q ^ 2 + 1) / r_modulus * r_modulus = Q ^ 4 - Q ^ 2 + 1)%Z. Proof. vm_compute. reflexivity. Qed.
Lemma parts (n q r h : Z) : r <> 0%Z -> (n * r = q ^ 12 - 1)%Z -> (h * r = q ^ 4 - q ^ 2 + 1)%Z -> (n = (q * q - 1) * ((q ^ 4 + q ^ 2 + 1) * (q ^ 2 + 1) * h))%Z.
Proof.
  intros R A B. apply (Z.mul_reg_r _ _ r R). rewrite A. transitivity ((q * q - 1) * ((q ^ 4 + q ^ 2 + 1) * (q ^ 2 + 1)) * (h * r))%Z; [rewrite B; ring|ring].
Qed.
Lemma exponent : exists m, n_final = ((nq * nq - 1) * m)%nat.
Proof.
  pose proof (parts (Z.of_nat n_final) Q r_modulus _ ltac:(discriminate) n_final_Z r_cyclotomic) as E. revert E. generalize ((Q ^ 4 + Q ^ 2 + 1) * (Q ^ 2 + 1) * ((Q ^ 4 - Q ^ 2 + 1) / r_modulus))%Z. intros M E.
  assert (L : (2 <= nq)%nat) by (pose proof nq_Z as E'; unfold q_modulus in E'; lia).
  assert (X : Z.of_nat (nq * nq - 1) = (Q * Q - 1)%Z). { rewrite Nat2Z.inj_sub, Nat2Z.inj_mul, nq_Z by nia. reflexivity. }
  rewrite <- X in E. revert E X. generalize n_final. intros n E X. exists (Z.to_nat M). assert (P : (0 < Z.of_nat (nq * nq - 1))%Z) by nia. clear X.
  revert E P. generalize (nq * nq - 1)%nat. intros a E P. apply Nat2Z.inj. rewrite Nat2Z.inj_mul, Z2Nat.id by nia. exact E.
Qed.
Lemma near_power f fs : near f fs -> power K12 f n_final = power K12 fs n_final.
Proof.
  intros [_ (k & N & ->)]. change (io k * fs) with (bmul K12 (io k) fs). rewrite (pw_prod K12 fq12_fld). rewrite <- (hom_power _ _ _ io_hom k n_final).
  destruct exponent as [m E]. assert (O : power K2 k n_final = f2_one K1). { rewrite E, <- (pw_pw K2 fq2_fld), (fq2_order k N). exact (pw_one K2 fq2_fld m). }
  rewrite O, io_1. change (f12_one K1 * power K12 fs n_final = power K12 fs n_final). ring.
Qed.

(** the theorem *)
Definition s_ate : Z := (6 * 4965661367192848881 + 2)%Z.
Lemma digits_ok : Forall digit loop_digits.
Proof. apply Forall_forall. intros d H. assert (B : forallb (fun d => Z.eqb d 0 || Z.eqb d 1 || Z.eqb d (-1)) loop_digits = true) by reflexivity. rewrite forallb_forall in B. specialize (B d H). unfold digit. lia. Qed.
Lemma digits_sum : digits_value loop_digits = s_ate. Proof. vm_compute. reflexivity. Qed.
Lemma not_div n : (n mod r_modulus <> 0)%Z -> ~ (r_modulus | n)%Z.
Proof. intros N D. apply N. apply Z.mod_divide; [discriminate|exact D]. Qed.
Lemma div0 : ~ (r_modulus | s_ate)%Z. Proof. apply not_div. vm_compute. discriminate. Qed.
Lemma div1 : ~ (r_modulus | Q - s_ate)%Z. Proof. apply not_div. vm_compute. discriminate. Qed.
Lemma div2 : ~ (r_modulus | s_ate + Q)%Z. Proof. apply not_div. vm_compute. discriminate. Qed.
Lemma div3 : ~ (r_modulus | s_ate + Q + Q * Q)%Z. Proof. apply not_div. vm_compute. discriminate. Qed.
Lemma div4 : ~ (r_modulus | Q * Q - (s_ate + Q))%Z. Proof. apply not_div. vm_compute. discriminate. Qed.
Theorem ate_is (p : aff Fq) (q : aff Fq2) rn : ay p <> bzero K1 -> on_curve K2 b2 (Point (ax q) (ay q)) -> Z.of_nat rn = r_modulus -> second_group K12 nq rn (ut (Point (ax q) (ay q))) ->
  pairing K1 tbl p q = Ok (ate K12 nq n_final loop_digits (on_g1 K1 (Point (ax p) (ay p))) (ut (Point (ax q) (ay q)))).
Proof.
  intros HP HQ Hrn [G1 G2]. set (QQ := Point (ax q) (ay q)) in *.
  assert (Hr : ptimes K2 rn QQ = Infinity). { apply ut_inj. rewrite ut_times. exact G1. }
  assert (H1 : psi QQ = ptimes K2 nq QQ). { apply ut_inj. rewrite ut_psi, ut_times. exact G2. }
  assert (H2 : psi (psi QQ) = ptimes K2 (nq * nq) QQ).
  { apply ut_inj. rewrite !ut_psi, G2, frob_times, G2, ut_times, <- !ut_times. apply (f_equal ut). symmetry. exact (times_mul K2 b2 fq2_is_base nq nq QQ HQ). }
  assert (ID : aff_is_identity K2 q = false).
  { destruct (aff_is_identity K2 q) eqn:E; [|reflexivity]. exfalso. apply andb_prop in E. destruct E as [E1 E2]. apply (fd_eq _ fq2_fld) in E1, E2. unfold QQ in HQ. rewrite E1, E2 in HQ. cbn [on_curve] in HQ.
    apply b2_nz. change (m2 (f2_zero K1) (f2_zero K1) = f2_add K1 (m2 (m2 (f2_zero K1) (f2_zero K1)) (f2_zero K1)) b2) in HQ. change (bzero K2) with (f2_zero K1). transitivity (m2 (f2_zero K1) (f2_zero K1)); [rewrite HQ|]; ring. }
  assert (IP : aff_is_identity K1 p = false).
  { destruct (aff_is_identity K1 p) eqn:E; [|reflexivity]. exfalso. apply andb_prop in E. destruct E as [_ E]. apply (fd_eq _ fq_fld) in E. contradiction. }
  assert (C0 : jac_point K2 (aff_to_curve K2 q) = ptimes K2 1 QQ).
  { rewrite (to_curve_point K2 b2 fq2_is_base), times_one. unfold QQ. destruct q as [x y]. apply (aff_point_on K2 b2 fq2_is_base). exact HQ. }
  assert (C1 : jz (aff_to_curve K2 q) <> f2_zero K1). { unfold aff_to_curve. cbn [jz]. rewrite ID. exact (one_neq K2 b2 fq2_is_base). }
  assert (N0 : near (f12_one K1) (f12_one K1)). { split; [exact one_nz|]. exists (f2_one K1). split; [exact (one_neq K2 b2 fq2_is_base)|]. rewrite io_1. ring. }
  assert (BD : ((Z.of_nat 1 + 1) * 2 ^ Z.of_nat (length loop_digits) < r_modulus)%Z) by (vm_compute; reflexivity).
  destruct (loop_at p q rn HP HQ Hrn Hr loop_digits digits_ok true (aff_to_curve K2 q) 1 _ _ C0 C1 (le_n 1) BD N0 (fun _ => eq_refl)) as (ls & r & k & f & fs & L1 & L2 & L3 & L4 & L5 & L6 & L7).
  fold QQ in L3, L5. assert (EK : Z.of_nat k = s_ate) by (rewrite L7; exact digits_sum). clear L7.
  assert (SQ : (s_ate < Q)%Z) by reflexivity.
  set (q1 := Aff (m2 (cj (ax q)) (m2 g6 g6)) (m2 (cj (ay q)) g3)).
  assert (E1 : Point (ax q1) (ay q1) = ptimes K2 nq QQ) by exact H1.
  destruct (add_at p q rn HP HQ Hrn Hr r q1 k L5 L6) as (r1 & c1 & A1 & A2 & A3 & A4).
  { rewrite EK. exact div0. }
  { rewrite E1. apply (m_on q HQ). }
  { fold QQ. rewrite E1. intros E. apply div1. rewrite <- EK. unfold Q. rewrite <- nq_Z. apply (m_eq q rn HQ Hrn Hr); [|symmetry; exact E]. apply Nat2Z.inj_le. rewrite EK, nq_Z. apply Z.lt_le_incl. exact SQ. }
  { fold QQ. rewrite E1. intros E. apply div2. rewrite <- EK. unfold Q. rewrite <- nq_Z. apply (m_neg q rn HQ Hrn Hr). exact E. }
  fold QQ in A3, A4. rewrite E1 in A3, A4. rewrite <- (times_add K2 b2 fq2_is_base k nq QQ HQ) in A3.
  set (q2 := Aff (m2 (ax q) (m2 (cj (m2 g6 g6)) (m2 g6 g6))) (ay q)).
  assert (E2 : Point (ax q2) (ay q2) = pneg K2 (ptimes K2 (nq * nq) QQ)). { rewrite <- H2. symmetry. exact (psi_psi (ax q) (ay q)). }
  assert (EKQ : Z.of_nat (k + nq) = (s_ate + Q)%Z) by (rewrite Nat2Z.inj_add, EK, nq_Z; reflexivity).
  assert (EQQ : Z.of_nat (nq * nq) = (Q * Q)%Z) by (rewrite Nat2Z.inj_mul, nq_Z; reflexivity).
  destruct (add_at p q rn HP HQ Hrn Hr r1 q2 (k + nq) A3 A2) as (r2 & c2 & B1 & B2 & B3 & B4).
  { rewrite EKQ. exact div2. }
  { rewrite E2. apply (pneg_on_curve K2 b2 fq2_is_base). apply (m_on q HQ). }
  { fold QQ. rewrite E2. intros E. apply div3. rewrite <- EKQ, <- EQQ. apply (m_neg q rn HQ Hrn Hr). exact E. }
  { fold QQ. rewrite E2, (pneg_pneg K2 b2 fq2_is_base). intros E. apply div4. rewrite <- EKQ, <- EQQ. apply (m_eq q rn HQ Hrn Hr); [|symmetry; exact E]. apply Nat2Z.inj_le. rewrite EKQ, EQQ. vm_compute. discriminate. }
  fold QQ in B4. rewrite E2 in B4.
  assert (PR : from_affine K1 tbl q = Prepared (ls ++ [c1; c2]) false).
  { unfold from_affine. rewrite ID, L1, tab1, tab2, (proj1 half_is). rewrite !(f2_mul_assign_mul K1 fq_fld). fold q1 q2. rewrite A1, B1. reflexivity. }
  assert (ML : multi_miller_loop K1 [(p, from_affine K1 tbl q)] = Ok (f * line_at c1 p * line_at c2 p)).
  { rewrite PR. unfold multi_miller_loop. cbn [filter fst snd infinity map coeffs]. rewrite IP. cbn [negb andb map fst snd coeffs]. rewrite L2. cbn [ell_all]. rewrite !ell_is. reflexivity. }
  assert (NR : near (f * line_at c1 p * line_at c2 p) (fs * line_value K12 (ut (ptimes K2 k QQ)) (ut (ptimes K2 nq QQ)) (P12 p) * line_value K12 (ut (ptimes K2 (k + nq) QQ)) (ut (pneg K2 (ptimes K2 (nq * nq) QQ))) (P12 p))).
  { apply near_mul; [apply near_mul; [exact L4|exact A4]|exact B4]. }
  apply (pairing_of p q _ _ ML). split; [exact (proj1 NR)|]. rewrite (near_power _ _ NR). unfold ate. rewrite times_one in L3. change (on_g1 K1 (Point (ax p) (ay p))) with (P12 p). change (bone K12) with (f12_one K1). rewrite L3.
  rewrite <- !ut_psi, <- ut_plus, <- ut_neg, H2, H1, <- (times_add K2 b2 fq2_is_base k nq QQ HQ). reflexivity.
Qed.
