(** The project's proving keys and what is computed with them. *)
From Coq Require Import ZArith List Arith Bool Lia.
From Verif Require Import Base Moduli Field FieldFacts ListFacts LimbSpec LimbField LimbConst PolyFacts LimbModel Halo2Model CircuitModel VMModel
  SelectorModel PermModel PermFacts SelectorSpec SelectorClaims SerdeModel DomainModel DomainSpec DomainFacts VkModel VkFacts IopModel IopPoly IopRows
  IopSpec IopLagrange IopTotal IopFull CircuitFacts LayoutFacts IopKey ArithModel ArithSpec KzgModel FftFacts TransformFacts
  PermSpec VerifierModel VerifierSpec VerifierProject IopAccept IopDegree IopComplete ProverModel ProverSpec GraphModel GraphSpec GraphFacts CreateModel PiecesFacts PkFacts GraphThms.
From Verif Require QuotientFacts.
Import ListNotations IopPoly.
Local Open Scope nat_scope.

Lemma indicator_at n on r : r < n -> nth r (indicator n on) f0 = if on r then f1 else f0.
Proof. apply map_nth_seq'. Qed.

Section Project.
Variables (commit : list Fr -> g1) (pr : profile) (k : Z) (m : matrix) (v : vkey).
Hypothesis Hvk : keygen_vk commit pr k m = EOk v.
Hypothesis Hk : (0 <= k < 63)%Z.
Local Notation n := (Z.to_nat (2 ^ k)).
Local Notation c := (vk_cs v).
Local Notation d := (vk_domain v).

Lemma project_n : Z.of_nat n = (2 ^ k)%Z.
Proof. apply Z2Nat.id, Z.pow_nonneg. lia. Qed.

Lemma project_facts : exists pk cols sigma fixed copies, keygen_pk pr k v m = EOk pk /\ proving_key v n cols sigma pk /\
  vk_fixed v = map commit cols /\ vk_permutation v = map commit sigma /\
  length cols = num_fixed c /\ length sigma = length (perm_columns c) /\
  (forall col, In col cols -> length col = n) /\ (forall s, In s sigma -> length s = n) /\
  key_for v k fixed copies (fun i => nth i (pk_fixed_polys pk) []) (fun i => nth i (pk_sigma_polys pk) []) /\
  domain_for 11 k d /\ d_g_coset d = ZETA.
Proof.
  destruct (project_pk commit pr k m v Hvk Hk) as (pk & asm & c' & polys & asgs & sigma & E & EK & Ec & Ev & H).
  cbv zeta in H. destruct H as (E1 & E2 & L1 & L2 & L3 & L4 & KF & PK & DF & GZ).
  exists pk. eexists _, sigma, (fixed_of asm polys), (rev (asm_copies asm)). split; [exact E|]. split; [exact PK|]. rewrite Ev. repeat (split; [assumption|]).
  split; [|split; assumption]. apply KF; (apply (columns_interpolate v n); [assumption|]); apply PK.
Qed.
Theorem key_matches : exists pk, keygen_pk pr k v m = EOk pk /\ matches commit v n pk.
Proof.
  destruct project_facts as (pk & cols & sigma & fixed & copies & E & PK & E1 & E2 & L1 & L2 & L3 & L4 & KF & DF & GZ).
  pose proof (kf_rows _ _ _ _ _ _ KF) as Hr. pose proof (rows_split n v Hr) as [Hs Hu]. assert (K0 : (0 <= k)%Z) by lia.
  exists pk. split; [exact E|]. destruct PK. constructor; rewrite ?pk_has_fixed, ?pk_has_sigma; auto.
  - intros col [I|I]; auto.
  - split; [apply pk_l0_ok|]. intros r Hlt. etransitivity; [apply pk_l0_ok|]. rewrite indicator_at by exact Hlt.
    apply (lag_row d 11 k n project_n DF 0 r); lia.
  - split; [apply pk_last_ok|]. intros r Hlt. etransitivity; [apply pk_last_ok|]. rewrite indicator_at by exact Hlt.
    apply (lag_row d 11 k n project_n DF (usable_rows n c) r); lia.
  - split; [apply pk_active_ok|]. intros r Hlt. etransitivity; [apply pk_active_ok|]. rewrite indicator_at by exact Hlt.
    apply (activef_at d 11 k n K0 project_n DF v Hr r Hlt).
Qed.
Lemma key_for_polys pk : keygen_pk pr k v m = EOk pk -> exists fixed copies,
  key_for v k fixed copies (fun i => nth i (pk_fixed_polys pk) []) (fun i => nth i (pk_sigma_polys pk) []).
Proof.
  intros E. destruct project_facts as (pk' & cols & sigma & fixed & copies & E' & PK & E1 & E2 & L1 & L2 & L3 & L4 & KF & DF & GZ).
  rewrite E in E'. injection E' as <-. exists fixed, copies. exact KF.
Qed.

Variable pk : pkey.
Hypothesis Hpk : keygen_pk pr k v m = EOk pk.
Variables (insts : list (list Fr)) (chs : list Fr) (theta beta gamma y : Fr).
Hypothesis Hinst : length insts = num_instance c.
Hypothesis Hlen : forall l, In l insts -> (Z.of_nat (length l) <= 2 ^ k)%Z.
Hypothesis Hchs : length chs = num_challenges c.
Variables (advice instance sets : list (list Fr)) (lks : list lookup_polys) (random : list Fr).
Hypothesis HA : polys_of n (num_advice c) advice.
Hypothesis HI : Forall2 (takes v n) (padded n insts) instance.
Hypothesis HZ : polys_of n (VerifierModel.sets_count v) sets.
Hypothesis HL : lookup_polys_of n (length (lookups c)) lks.

Theorem project_numerator : exists h, evaluate_h pk advice instance chs y beta gamma theta lks sets = Ok h /\
  Z.of_nat (length h) = (2 ^ d_extended_k d)%Z /\
  forall i, i < length h -> let x := (ZETA * fpow (d_extended_omega d) (Z.of_nat i))%F in
    exists inst l_0 l_last l_blind es,
      instance_evals v (2 ^ k) insts x = Ok inst /\ l_values v x (fpow x (2 ^ k)) = Ok (l_0, l_last, l_blind) /\
      expressions v inst chs l_0 l_last l_blind theta beta gamma x (evaluations v advice (pk_fixed_polys pk) (pk_sigma_polys pk) sets lks random x) = Ok es /\
      nth i h f0 = combined y f0 es.
Proof.
  destruct project_facts as (pk' & cols & sigma & fixed & copies & E' & PK & E1 & E2 & L1 & L2 & L3 & L4 & KF & DF & GZ).
  rewrite Hpk in E'. injection E' as <-. destruct (keygen_complete commit pr k m v Hvk Hk) as (CK & _ & _).
  apply (numerator_ok v k cols sigma pk fixed copies _ _ KF PK GZ (ck_advice _ CK) L1 L2 insts chs theta beta gamma y Hinst Hlen Hchs advice instance sets lks random HA HI HZ HL).
Qed.

Variables (fixed : nat -> nat -> Fr) (copies : list (acell * acell)).
Hypothesis HK : key_for v k fixed copies (fun i => nth i (pk_fixed_polys pk) []) (fun i => nth i (pk_sigma_polys pk) []).
Local Notation P := (commitments pk advice sets lks random).
Local Notation a := (assigned n (d_omega d) fixed (fun i => nth i advice []) insts chs).
Local Notation S_ := (fun i => nth i (pk_sigma_polys pk) []).
Hypothesis HSat : satisfied c copies a.
Hypothesis HPm : permuted v n a theta (cm_linput (P [])) (cm_ltable (P [])).
Hypothesis HPr : products v n a S_ (cm_linput (P [])) (cm_ltable (P [])) theta beta gamma (cm_product (P [])) (cm_lproduct (P [])).
Hypothesis HLk : lucky v n a S_ theta beta gamma.
Hypothesis HR : length random <= n.

Theorem project_quotient p : kz_n p = (2 ^ k)%Z -> exists h b q,
  evaluate_h pk advice instance chs y beta gamma theta lks sets = Ok h /\
  divide_by_vanishing_poly fmul d h = Ok b /\ extended_to_coeff fadd fsub fmul d b = Ok q /\
  let pieces := chunks_exact p (length q) q in
  bounded v n (P pieces) /\
  forall x, fpow x (2 ^ k) <> f1 -> accepts v (2 ^ k) insts chs theta beta gamma y x (P pieces).
Proof.
  intros Hp.
  destruct project_facts as (pk' & cols & sigma & fixed' & copies' & E' & PK & E1 & E2 & L1 & L2 & L3 & L4 & KF & DF & GZ).
  rewrite Hpk in E'. injection E' as <-. destruct (keygen_complete commit pr k m v Hvk Hk) as (CK & _ & _).
  destruct (quotient_ok v k cols sigma pk fixed copies _ _ HK PK GZ (ck_advice _ CK) L1 L2 insts chs theta beta gamma y Hinst Hlen Hchs advice instance sets lks random HA HI HZ HL
    HK HSat HPm HPr HLk HR p Hp) as (h & b & q & A1 & A2 & A3 & A4 & A5 & A6 & A7 & A8).
  exists h, b, q. rewrite A4. auto.
Qed.
End Project.
