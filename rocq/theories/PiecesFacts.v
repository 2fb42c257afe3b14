(** The prover's quotient: what is left after dividing the values of the
    constraints by those of X^n - 1 and returning to coefficients. *)
From Coq Require Import ZArith List Arith Bool Lia.
From Verif Require Import Base Moduli Field FieldFacts ListFacts LimbSpec LimbField LimbConst PolyFacts Halo2Model SelectorModel
  PermModel PermFacts SelectorSpec SelectorClaims DomainModel DomainSpec DomainFacts VkModel IopModel IopPoly IopRows IopSpec IopLagrange
  IopTotal IopAccept IopDegree IopComplete ArithModel ArithSpec FftFacts TransformFacts IopHonest SerdeModel GraphModel GraphFacts QuotientFacts CreateModel.
Import ListNotations.
Local Open Scope F_scope.

Section Domain.
Variables (j k : Z) (d : domain).
Hypothesis Hd : domain_for j k d.
Hypothesis Hk : (0 <= k)%Z.
Local Notation en := (2 ^ Z.to_nat (d_extended_k d))%nat.
Local Notation coset i := (d_g_coset d * fpow (d_extended_omega d) (Z.of_nat i)).

Lemma divide_total (a : list Fr) : length a = en -> exists b, divide_by_vanishing_poly fmul d a = Ok b /\ length b = en.
Proof.
  intro La. unfold divide_by_vanishing_poly. rewrite (en_eq j k d Hd Hk). match goal with |- context [if ?b then _ else _] => replace b with true by (symmetry; exact (len_check a en La)) end.
  eexists. split; [reflexivity|]. rewrite mapi_length. exact La.
Qed.
Lemma extended_total (a : list Fr) : (1 <= j)%Z -> length a = en ->
  exists h, extended_to_coeff fadd fsub fmul d a = Ok h /\ length h = Z.to_nat (2 ^ k * (j - 1)).
Proof.
  intros Hj La. destruct (df_size _ _ _ Hd) as (En & Ek & Eq). pose proof (ek_ge j k d Hd) as EK.
  destruct (df_extended _ _ _ Hd) as (_ & Le & _). rewrite (en_eq j k d Hd Hk) in Le.
  unfold extended_to_coeff. rewrite (en_eq j k d Hd Hk). match goal with |- context [if ?b then _ else _] => replace b with true by (symmetry; exact (len_check a en La)) end.
  destruct (df_extended_omega _ _ _ Hd) as (Oo & _). destruct (df_inverses _ _ _ Hd) as (_ & I2 & _ & _ & I5 & _).
  destruct (ifft_is f0 fadd fsub fmul fr_module (d_extended_omega d) (d_extended_omega_inv d) (d_extended_ifft_divisor d)
    (Z.to_nat (d_extended_k d)) a) as (b & Eb & Lb & _); rewrite ?Z2Nat.id by lia; try assumption.
  rewrite Eb. cbn [bind]. eexists. split; [reflexivity|]. rewrite firstn_length, En, Eq.
  unfold distribute_powers_zeta. rewrite mapi_length, Lb. lia.
Qed.
Lemma quotient_comes_back (f : Fr -> Fr) h : (1 <= j)%Z -> length h = Z.to_nat (2 ^ k * (j - 1)) ->
  (forall x, f x = (fpow x (2 ^ k) - f1) * peval h x) ->
  exists b, divide_by_vanishing_poly fmul d (map (fun i => f (coset i)) (seq 0 en)) = Ok b /\
    extended_to_coeff fadd fsub fmul d b = Ok h.
Proof.
  intros Hj Lh Ef.
  eexists. split.
  - etransitivity; [|apply (divide_ok f0 fadd fsub fmul fr_module j k d Hd Hk (fun x => peval h x))]. f_equal. apply map_ext. intro i. apply Ef.
  - etransitivity; [|apply (extended_to_coeff_ok f0 fadd fsub fmul fr_module j k d Hd Hk h Lh Hj)]. f_equal. apply map_ext. intro i. symmetry. apply comb_peval.
Qed.
End Domain.

(** [chunks_exact] *)
Lemma chunks_exact_is p q : (0 < Z.to_nat (kz_n p))%nat -> forall l fuel, (length l <= fuel)%nat -> length l = (q * Z.to_nat (kz_n p))%nat ->
  chunks_exact p fuel l = split_pieces (Z.to_nat (kz_n p)) q l.
Proof.
  intro Hn. induction q as [|q IH]; intros l fuel Hf L.
  - destruct fuel; [reflexivity|]. cbn [chunks_exact split_pieces]. destruct (Nat.ltb_spec (length l) (Z.to_nat (kz_n p))); [reflexivity|].
    change (fe r_pos) with Fr in *. lia.
  - assert (Hq : (Z.to_nat (kz_n p) <= length l)%nat) by (rewrite L; nia).
    destruct fuel as [|fuel]; [change (fe r_pos) with Fr in *; lia|].
    cbn [chunks_exact split_pieces]. destruct (Nat.ltb_spec (length l) (Z.to_nat (kz_n p))); [change (fe r_pos) with Fr in *; lia|].
    f_equal. apply IH; rewrite skipn_length; change (fe r_pos) with Fr in *; lia.
Qed.
Lemma split_all n q : forall p h, length p = (q * n)%nat -> List.In h (split_pieces n q p) -> length h = n.
Proof.
  induction q as [|q IH]; intros p h L I; [contradiction|]. cbn [split_pieces] in I. destruct I as [<-|I].
  - rewrite firstn_length. change (fe r_pos) with Fr in *. nia.
  - apply (IH (skipn n p)); [rewrite skipn_length; change (fe r_pos) with Fr in *; lia|exact I].
Qed.

(** The prover's constraints on the rows vanish: then its quotient is the exact
    one. *)
Section Exact.
Variables (v : vkey) (j k : Z) (n : nat).
Hypothesis Hk : (0 <= k)%Z.
Hypothesis Hn : Z.of_nat n = (2 ^ k)%Z.
Hypothesis Hd : domain_for j k (vk_domain v).
Hypothesis Hj : (Z.of_nat (vk_degree v) <= j)%Z.
Hypothesis Hrows : (minimum_rows (vk_cs v) <= n)%nat.
Hypothesis Hdeg : vk_degree v = cs_degree (vk_cs v).
Hypothesis Hperm : length (vk_permutation v) = length (perm_columns (vk_cs v)).
Variables (insts : list (list Fr)) (chs : list Fr) (theta beta gamma : Fr) (P : committed).
Hypothesis Hchs : length chs = num_challenges (vk_cs v).
Local Notation qd := (Z.to_nat (d_quotient_poly_degree (vk_domain v))).
Hypothesis Hb : bounded v n P.
Hypothesis HV : forall f r, In f (all_fs v n insts chs P theta beta gamma) -> (r < n)%nat -> f (pt (d_omega (vk_domain v)) r) = f0.

Lemma exact_quotient y : exists h, length h = (qd * n)%nat /\
  forall x, compress y (map (fun f => f x) (all_fs v n insts chs P theta beta gamma)) = (fpow x (2 ^ k) - f1) * peval h x.
Proof.
  destruct (divide_points n (d_omega (vk_domain v)) (Hw _ j k n Hn Hd) (qd * n)
    (fun x => compress y (map (fun f => f x) (all_fs v n insts chs P theta beta gamma)))) as (p & Lp & Ep).
  - replace (qd * n + n)%nat with (need_x v n) by (unfold need_x; lia).
    apply compress_poly. intros f If.
    apply (fs_poly v j k n Hk Hn Hd Hj Hrows Hdeg Hperm insts chs P theta beta gamma Hchs Hb f). exact If.
  - intros r Hr. rewrite compress_peval. apply peval_zeros. apply Forall_rev. apply Forall_forall. intros a Ia.
    apply in_map_iff in Ia. destruct Ia as (f & <- & If). apply HV; assumption.
  - exists (p ++ repeat f0 (qd * n - length p)). split.
    + rewrite app_length, repeat_length. change (fe r_pos) with Fr in *. lia.
    + intro x. rewrite Ep, Hn, peval_app', (peval_zeros (repeat f0 _)); [f_equal; fring|].
      apply Forall_forall. intros a Ia. apply repeat_spec in Ia. exact Ia.
Qed.
End Exact.
