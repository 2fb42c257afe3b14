(** Soundness for whole keys, and for the keys generated for the project's
    circuit. *)
From Coq Require Import ZArith List Arith Lia Bool.
From Verif Require Import Base ListFacts Moduli Field FieldFacts LimbSpec LimbField LimbConst RootFacts PolyFacts Halo2Model SelectorModel
  PermModel PermSpec SelectorSpec SelectorFacts SelectorClaims SelectorMain DomainModel DomainSpec DomainFacts CircuitModel CircuitFacts KeygenFacts PermFacts PermClaims
  VkModel VkFacts IopModel IopPoly IopRows IopSpec IopLagrange IopTotal IopMain.
Import ListNotations.

Section Any.
Variables (v : vkey) (k : Z) (fixed : nat -> nat -> Fr) (copies : list (acell * acell)) (F S : nat -> list Fr).
Hypothesis HK : key_for v k fixed copies F S.
Variables (insts : list (list Fr)) (chs : list Fr) (advice : nat -> list Fr).
Hypothesis Hchs : length chs = num_challenges (vk_cs v).
Hypothesis HC : convincing v k insts chs F S advice.
Local Notation n := (Z.to_nat (2 ^ k)).

Lemma rows_nat : (Z.of_nat n = 2 ^ k)%Z.
Proof. pose proof (kf_k _ _ _ _ _ _ HK). apply Z2Nat.id, Z.pow_nonneg. lia. Qed.
Lemma sound_folded : satisfied (vk_cs v) copies
    (mkAssign n (fun _ _ => false) fixed (fun i r => peval (advice i) (fpow (d_omega (vk_domain v)) (Z.of_nat r)))
      (fun i r => wrapped n (nth i insts []) r) (fun i => nth i chs f0)) /\
  length insts = num_instance (vk_cs v).
Proof.
  destruct (kf_domain _ _ _ _ _ _ HK) as (j & Hd & Hj). destruct (kf_sigma _ _ _ _ _ _ HK) as (p & Hp & HS).
  assert (Hk0 : (0 <= k)%Z) by (pose proof (kf_k _ _ _ _ _ _ HK); lia).
  refine (sound v j k n (kf_k _ _ _ _ _ _ HK) rows_nat Hd ltac:(lia) (kf_rows _ _ _ _ _ _ HK) (kf_cs _ _ _ _ _ _ HK)
    (kf_degree _ _ _ _ _ _ HK) (kf_perm _ _ _ _ _ _ HK) insts chs (fun i r => wrapped n (nth i insts []) r) Hchs _
    fixed F S advice copies (kf_fixed _ _ _ _ _ _ HK) HC eq_refl p Hp HS (kf_usable _ _ _ _ _ _ HK)).
  intros i r Hr. exact (ipoly_at (vk_domain v) j k n Hk0 rows_nat Hd _ r Hr).
Qed.
End Any.

(** [satisfied] only looks at instance cells on existing rows *)
Lemma rotate_bound n r t : (0 < n)%nat -> (rotate n r t < n)%nat.
Proof.
  intros H. unfold rotate. pose proof (Z.mod_pos_bound (Z.of_nat r + t) (Z.of_nat n) ltac:(lia)). lia.
Qed.
Section Ext.
Variables (a b : assignment).
Hypothesis Hn : as_n a = as_n b.
Hypothesis Hpos : (0 < as_n a)%nat.
Hypothesis Hs : as_sel a = as_sel b.
Hypothesis Hf : forall i r, (r < as_n a)%nat -> as_fixed a i r = as_fixed b i r.
Hypothesis Ha : forall i r, (r < as_n a)%nat -> as_advice a i r = as_advice b i r.
Hypothesis Hi : forall i r, (r < as_n a)%nat -> as_instance a i r = as_instance b i r.
Hypothesis Hc : forall i, as_challenge a i = as_challenge b i.
Lemma eval_ext row e : eval a row e = eval b row e.
Proof.
  induction e.
  - reflexivity.
  - unfold eval. cbn [evaluate]. rewrite Hs. reflexivity.
  - unfold eval. cbn [evaluate]. rewrite <- Hn. apply Hf, rotate_bound, Hpos.
  - unfold eval. cbn [evaluate]. rewrite <- Hn. apply Ha, rotate_bound, Hpos.
  - unfold eval. cbn [evaluate]. rewrite <- Hn. apply Hi, rotate_bound, Hpos.
  - apply Hc.
  - exact (f_equal fopp IHe).
  - exact (f_equal2 fadd IHe1 IHe2).
  - exact (f_equal2 fmul IHe1 IHe2).
  - exact (f_equal (fun x => fmul x f) IHe).
Qed.
Lemma satisfied_ext c copies : (forall x y, In (x, y) copies -> (snd x < as_n a)%nat /\ (snd y < as_n a)%nat) ->
  satisfied c copies a -> satisfied c copies b.
Proof.
  intros HR (G & L & C). split; [|split].
  - intros g p row Ig Ip Hr. rewrite <- eval_ext. apply (G g); [exact Ig|exact Ip|rewrite Hn; exact Hr].
  - intros l row Il Hr. rewrite <- Hn in Hr |- *. destruct (L l row Il Hr) as (r' & Hr' & E). exists r'. split; [exact Hr'|].
    rewrite (map_ext _ _ (fun e => eq_sym (eval_ext row e))), (map_ext _ _ (fun e => eq_sym (eval_ext r' e))). exact E.
  - assert (V : forall x, (snd x < as_n a)%nat -> cell_value b x = cell_value a x).
    { intros [[?|?|?] r] H; unfold cell_value; cbn [fst snd] in *; symmetry; auto. }
    intros x y I. destruct (HR _ _ I) as [H1 H2]. rewrite !V by assumption. apply C, I.
Qed.
End Ext.

Theorem iop_sound v k fixed copies F S insts chs advice : key_for v k fixed copies F S ->
  length chs = num_challenges (vk_cs v) -> (forall l, In l insts -> (Z.of_nat (length l) <= 2 ^ k)%Z) ->
  convincing v k insts chs F S advice ->
  satisfied (vk_cs v) copies (assigned (Z.to_nat (2 ^ k)) (d_omega (vk_domain v)) fixed advice insts chs) /\
  length insts = num_instance (vk_cs v).
Proof.
  intros HK Hc HL HC. destruct (sound_folded v k fixed copies F S HK insts chs advice Hc HC) as [H1 H2]. split; [|exact H2].
  pose proof (kf_k _ _ _ _ _ _ HK) as Hk. assert (P : (0 < 2 ^ k)%Z) by (apply Z.pow_pos_nonneg; lia).
  apply (satisfied_ext _ (assigned (Z.to_nat (2 ^ k)) (d_omega (vk_domain v)) fixed advice insts chs)) in H1; try reflexivity.
  - exact H1.
  - cbn [as_n]. lia.
  - intros i r Hr. cbn [as_instance assigned as_n] in *. unfold instance_fn. apply wrapped_short; [|exact Hr].
    destruct (Nat.lt_ge_cases i (length insts)) as [H|H]; [|rewrite nth_overflow by exact H; simpl; lia].
    specialize (HL _ (nth_In insts [] H)). lia.
  - intros x y I. cbn [as_n]. pose proof (kf_usable _ _ _ _ _ _ HK x y I). unfold usable_rows in *. lia.
Qed.

(** ** Selector compression keeps the constraint system in order *)
Definition other_ok (c : cs) (e : expr) : bool :=
  match e with
  | EAdvice q ph => match nth_error (advice_queries c) (q_index q) with
                    | Some (a, t) => Nat.eqb (ac_index a) (q_col q) && Nat.eqb (ac_phase a) ph && Z.eqb t (q_rot q) | None => false end
  | EInstance q => match nth_error (instance_queries c) (q_index q) with
                   | Some (i, t) => Nat.eqb i (q_col q) && Z.eqb t (q_rot q) | None => false end
  | EChallenge ch => ch_index ch <? num_challenges c
  | _ => true
  end.
Lemma others_registered c : forall e, selectors_in e = [] ->
  (forall q, In q (fixed_in e) -> nth_error (fixed_queries c) (q_index q) = Some (q_col q, q_rot q)) ->
  (forall l, In l (others_in e) -> other_ok c l = true) -> registered c e.
Proof.
  induction e; cbn [selectors_in fixed_in others_in registered]; intros H1 H2 H3.
  - exact I.
  - discriminate.
  - apply H2. left. reflexivity.
  - specialize (H3 _ (or_introl eq_refl)). cbn [other_ok] in H3.
    destruct (nth_error (advice_queries c) (q_index q)) as [[[ai ap] t]|]; [|discriminate]. cbn [ac_index ac_phase] in H3.
    apply andb_true_iff in H3 as [H3 H5]. apply andb_true_iff in H3 as [H3 H4].
    apply Nat.eqb_eq in H3, H4. apply Z.eqb_eq in H5. subst. reflexivity.
  - specialize (H3 _ (or_introl eq_refl)). cbn [other_ok] in H3.
    destruct (nth_error (instance_queries c) (q_index q)) as [[i t]|]; [|discriminate].
    apply andb_true_iff in H3 as [H3 H4]. apply Nat.eqb_eq in H3. apply Z.eqb_eq in H4. subst. reflexivity.
  - specialize (H3 _ (or_introl eq_refl)). cbn [other_ok] in H3. apply Nat.ltb_lt in H3. exact H3.
  - auto.
  - apply app_eq_nil in H1 as [A B]. split; [apply IHe1|apply IHe2]; auto; intros; (apply H2 || apply H3); apply in_app_iff; auto.
  - apply app_eq_nil in H1 as [A B]. split; [apply IHe1|apply IHe2]; auto; intros; (apply H2 || apply H3); apply in_app_iff; auto.
  - auto.
Qed.
Definition queried_b (c : cs) (col : column) : bool :=
  match col with
  | CAdvice a => existsb (fun q => Nat.eqb (ac_index (fst q)) (ac_index a) && Nat.eqb (ac_phase (fst q)) (ac_phase a) && Z.eqb (snd q) cur) (advice_queries c)
  | CFixed i => existsb (fun q => Nat.eqb (fst q) i && Z.eqb (snd q) cur) (fixed_queries c)
  | CInstance i => existsb (fun q => Nat.eqb (fst q) i && Z.eqb (snd q) cur) (instance_queries c)
  end.
Lemma queried_is c col : queried_b c col = true -> queried c col.
Proof.
  destruct col as [[ai ap]|i|i]; cbn [queried_b queried]; intros H; apply existsb_exists in H as (q & I & H).
  - destruct q as [[bi bp] t]. cbn [fst snd ac_index ac_phase] in H.
    apply andb_true_iff in H as [H H5]. apply andb_true_iff in H as [H H4].
    apply Nat.eqb_eq in H, H4. apply Z.eqb_eq in H5. subst. exact I.
  - destruct q as [a t]. cbn [fst snd] in H. apply andb_true_iff in H as [H H4]. apply Nat.eqb_eq in H. apply Z.eqb_eq in H4. subst. exact I.
  - destruct q as [a t]. cbn [fst snd] in H. apply andb_true_iff in H as [H H4]. apply Nat.eqb_eq in H. apply Z.eqb_eq in H4. subst. exact I.
Qed.
(** what has to hold of the system before compression *)
Record well_queried (c : cs) : Prop := {
  wq_others : forall e l, In e (gate_exprs c) \/ In e (lookup_exprs c) -> In l (others_in e) -> other_ok c l = true;
  wq_perm : forall col, In col (perm_columns c) -> queried c col;
  wq_nodup : NoDup (perm_columns c);
  wq_tags : (Z.of_nat (length (perm_columns c)) < 2 ^ 20)%Z;
  wq_instance : forall q, In q (instance_queries c) -> (fst q < num_instance c)%nat;
  wq_fixed : forall q, In q (fixed_queries c) -> (fst q < num_fixed c)%nat;
  wq_lookups : forall l, In l (lookups c) -> length (fst l) = length (snd l) }.
Lemma compressed_well_formed c acts n c' polys reps : compressed c acts n c' polys reps -> well_queried c -> well_formed c'.
Proof.
  intros CP WQ. destruct (cp_rest _ _ _ _ _ _ CP) as [R _]. injection R as R1 R2 R3 R4 R5 R6.
  assert (OK : forall e, other_ok c' e = other_ok c e).
  { intros e. destruct e; cbn [other_ok]; rewrite ?R3, ?R4, ?R5; reflexivity. }
  constructor.
  - intros e I. apply others_registered.
    + apply (cp_gone _ _ _ _ _ _ CP), I.
    + intros q Iq. apply (cf_fixed _ (cp_configured _ _ _ _ _ _ CP) e q I Iq).
    + intros l Il. rewrite OK. destruct (cp_others _ _ _ _ _ _ CP e l I Il) as (e0 & I0 & J). apply (wq_others _ WQ e0 l I0 J).
  - intros col I. rewrite R6 in I. apply (wq_perm _ WQ) in I. destruct (cp_queries _ _ _ _ _ _ CP) as (fq & Eq & _).
    destruct col; cbn [queried] in *; rewrite ?R4, ?R5, ?Eq; auto. apply in_app_iff. auto.
  - rewrite R6. apply (wq_nodup _ WQ).
  - rewrite R6. apply (wq_tags _ WQ).
  - intros q I. rewrite R5 in I. rewrite R2. apply (wq_instance _ WQ q I).
  - intros q I. destruct (cp_queries _ _ _ _ _ _ CP) as (fq & Eq & HF). rewrite Eq in I. apply in_app_iff in I as [I|I]; [|apply HF, I].
    apply (wq_fixed _ WQ) in I. destruct (cp_columns _ _ _ _ _ _ CP) as [-> _]. lia.
  - pose proof (cp_widths _ _ _ _ _ _ CP) as W. intros l' Il.
    assert (X : exists l, In l (lookups c) /\ length (fst l') = length (fst l) /\ length (snd l') = length (snd l)).
    { clear - W Il. induction W as [|x y X Y E W IH]; [destruct Il|]. destruct Il as [<-|Il].
      - exists x. split; [left; reflexivity|exact E].
      - destruct (IH Il) as (l & I & E'). exists l. split; [right; exact I|exact E']. }
    destruct X as (l & I & -> & ->). apply (wq_lookups _ WQ l I).
Qed.
Lemma bcs_well_queried : well_queried bcs.
Proof.
  assert (C1 : forallb (fun e => forallb (other_ok bcs) (others_in e)) (gate_exprs bcs ++ lookup_exprs bcs) = true) by (vm_compute; reflexivity).
  assert (C2 : forallb (queried_b bcs) (perm_columns bcs) = true) by (vm_compute; reflexivity).
  assert (C3 : forallb (fun q => fst q <? num_instance bcs)%nat (instance_queries bcs) = true) by (vm_compute; reflexivity).
  assert (C4 : forallb (fun l => length (fst l) =? length (snd l))%nat (lookups bcs) = true) by (vm_compute; reflexivity).
  assert (C5 : forallb (fun q => fst q <? num_fixed bcs)%nat (fixed_queries bcs) = true) by (vm_compute; reflexivity).
  rewrite forallb_forall in C1, C2, C3, C4, C5. constructor.
  - intros e l I J. assert (X : forallb (other_ok bcs) (others_in e) = true) by (apply C1, in_app_iff, I).
    rewrite forallb_forall in X. apply X, J.
  - intros col I. apply queried_is, C2, I.
  - exact bcs_perm_nodup.
  - vm_compute. reflexivity.
  - intros q I. apply Nat.ltb_lt, C3, I.
  - intros q I. apply Nat.ltb_lt, C5, I.
  - intros l I. apply Nat.eqb_eq, C4, I.
Qed.

(** ** The project's keys *)
Lemma keygen_usable c n : forall ops a a', keygen_ops c n ops a = EOk a' ->
  (forall x y, In (x, y) (asm_copies a) -> (snd x < usable_rows n c /\ snd y < usable_rows n c)%nat) ->
  forall x y, In (x, y) (asm_copies a') -> (snd x < usable_rows n c /\ snd y < usable_rows n c)%nat.
Proof.
  induction ops as [|o ops IH]; intros a a' H HA; [injection H as <-; exact HA|].
  cbn [keygen_ops] in H. destruct (keygen_op c n o a) as [a1| |] eqn:E; try discriminate.
  apply (IH a1 a' H). clear IH H.
  destruct o; cbn [keygen_op] in E;
    repeat match type of E with (if ?b then _ else _) = _ => destruct b eqn:?; try discriminate end;
    repeat match type of E with match ?b with _ => _ end = _ => destruct b eqn:?; try discriminate end;
    injection E as <-; try exact HA.
  simpl. intros x y [[= <- <-]|I]; [|apply HA, I].
  apply andb_true_iff in Heqb as [B1 B2]. apply Nat.ltb_lt in B1, B2. auto.
Qed.
Lemma sigma_get (polys : list (list (option Fr))) (sigma : list (list Fr)) : rmap unwrap_all polys = Ok sigma -> forall i r s x,
  nth_error sigma i = Some s -> nth_error s r = Some x -> get2 polys (i, r) = Some (Some x).
Proof.
  intros H. apply rmap_inv in H. intros i r s x E1 E2. unfold get2. cbn [fst snd].
  assert (X : exists l, nth_error polys i = Some l /\ unwrap_all l = Ok s).
  { clear E2. revert i s E1. induction H as [|a b A B E F IH]; intros [|i] s E1; try discriminate; cbn [nth_error] in *.
    - injection E1 as <-. eauto.
    - apply IH, E1. }
  destruct X as (l & -> & Eu). clear - Eu E2. revert s r Eu E2.
  induction l as [|[a|] l IH]; intros s r Eu E2; cbn [unwrap_all] in Eu.
  - injection Eu as <-. destruct r; discriminate.
  - apply bind_ok in Eu as (s' & Es & Eu). injection Eu as <-. destruct r as [|r]; cbn [nth_error] in *.
    + congruence.
    + apply (IH s' r Es E2).
  - discriminate.
Qed.

Lemma nth_error_seq0 n i : (i < n)%nat -> nth_error (seq 0 n) i = Some i.
Proof. intros H. rewrite (nth_error_nth' _ 0%nat) by (rewrite seq_length; exact H). rewrite seq_nth by exact H. reflexivity. Qed.
Definition fixed_of (asm : assembly) (polys : list (list Fr)) (col row : nat) : Fr :=
  if col <? num_fixed bcs then asm_fixed asm col row else nth row (nth (col - num_fixed bcs) polys []) f0.

Lemma project_parts commit pr k m v : keygen_vk commit pr k m = EOk v -> (0 <= k < 63)%Z ->
  exists asm c' polys asgs sigma,
    domain_new pr 11 k = Ok (vk_domain v) /\ (0 <= k <= 24)%Z /\
    (exists p, perm_copies (length (perm_columns bcs) * Z.to_nat (2 ^ k)) (perm_new (Z.to_nat (2 ^ k)) (perm_columns bcs))
      (rev (asm_copies asm)) = COk p /\
      rmap unwrap_all (perm_polys DELTA (d_omega (vk_domain v)) (Z.to_nat (2 ^ k)) p) = Ok sigma) /\
    bf_keygen (Z.to_nat (2 ^ k)) m = EOk (conf, bcs, asm) /\
    compress_selectors bcs (selector_rows bcs (Z.to_nat (2 ^ k)) asm) = Ok (c', polys, asgs) /\ vk_cs v = c' /\
    let cols := map (fun col => map (asm_fixed asm col) (seq 0 (Z.to_nat (2 ^ k)))) (seq 0 (num_fixed bcs)) ++ polys in
    vk_fixed v = map commit cols /\ vk_permutation v = map commit sigma /\
    length cols = num_fixed c' /\ length sigma = length (perm_columns c') /\
    (forall col, In col cols -> length col = Z.to_nat (2 ^ k)) /\ (forall s, In s sigma -> length s = Z.to_nat (2 ^ k)) /\
    forall F S, interpolates (d_omega (vk_domain v)) cols F -> interpolates (d_omega (vk_domain v)) sigma S ->
      key_for v k (fixed_of asm polys) (rev (asm_copies asm)) F S.
Proof.
  intros H Hk.
  apply keygen_vk_parts in H as (d & a & c' & polys & asgs & p & sigma & Ed & EK & Ec & Ep & Es & Ev). subst v.
  change (circuit_rows k) with (Z.to_nat (2 ^ k)) in *. set (n := Z.to_nat (2 ^ k)) in *.
  assert (Hk24 : (0 <= k <= 24)%Z).
  { destruct (Z_le_gt_dec k 24) as [L|L]; [lia|]. rewrite bcs_degree in Ed. change (Z.of_nat 11) with 11%Z in Ed.
    rewrite (domain_refused pr k) in Ed by lia. discriminate Ed. }
  assert (DF : domain_for 11 k d).
  { destruct (domain_correct pr 11 k) as (d2 & E2 & D2); [lia|lia|change (Z.log2_up (11 - 1)) with 4%Z; lia|].
    rewrite bcs_degree in Ed. change (Z.of_nat 11) with 11%Z in Ed. rewrite Ed in E2. apply ok_inj in E2. subst d2. exact D2. }
  destruct (project_compressed _ _ _ _ _ EK) as (c2 & polys2 & asgs2 & Ec2 & CP & _).
  rewrite Ec in Ec2. apply ok_inj in Ec2. injection Ec2 as <- <- <-.
  destruct (sigma_ok DELTA (d_omega d) _ _ _ _ _ bcs_perm_nodup (le_n _) Ep) as (sigma2 & Es2 & Ls & Fs).
  rewrite Es in Es2. apply ok_inj in Es2. subst sigma2.
  destruct (cp_rest _ _ _ _ _ _ CP) as [R UR]. injection R as R1 R2 R3 R4 R5 R6.
  destruct (cp_columns _ _ _ _ _ _ CP) as [NF PL].
  pose proof (compressed_well_formed _ _ _ _ _ _ CP bcs_well_queried) as WF.
  assert (MR : (minimum_rows bcs <= n)%nat).
  { assert (X : exists x, bf_keygen n m = EOk x) by eauto. apply keygen_iff in X. destruct X as [X _].
    destruct X as [X _]. assert (M9 : minimum_rows bcs = 8%nat) by (vm_compute; reflexivity). lia. }
  exists a, c', polys, asgs, sigma. unfold from_parts. cbn [vk_cs vk_fixed vk_permutation vk_domain vk_degree].
  split; [rewrite bcs_degree in Ed; exact Ed|]. split; [exact Hk24|]. split; [exists p; split; [exact Ep|exact Es]|].
  split; [exact EK|]. split; [exact Ec|]. split; [reflexivity|]. cbv zeta. split; [reflexivity|]. split; [reflexivity|].
  split; [rewrite app_length, map_length, seq_length; symmetry; exact NF|]. split; [rewrite R6; exact Ls|].
  split. { intros col I. apply in_app_iff in I as [I|I]; [|apply PL, I]. apply in_map_iff in I as (i & <- & _). rewrite map_length, seq_length. reflexivity. }
  split. { rewrite Forall_forall in Fs. exact Fs. }
  intros F S HF HS. constructor; cbn [vk_cs vk_fixed vk_permutation vk_domain vk_degree]; fold n.
  - exact WF.
  - reflexivity.
  - lia.
  - exists 11%Z. split; [exact DF|]. pose proof (cp_degree _ _ _ _ _ _ CP) as D. rewrite bcs_degree in D. lia.
  - unfold usable_rows in UR. unfold minimum_rows in *. lia.
  - rewrite map_length, R6. exact Ls.
  - intros i r Hi Hr. unfold fixed_of. destruct (Nat.ltb_spec i (num_fixed bcs)) as [L|L].
    + eapply HF; [rewrite nth_error_app1 by (rewrite map_length, seq_length; exact L); apply map_nth_error, nth_error_seq0, L|].
      apply map_nth_error, nth_error_seq0, Hr.
    + rewrite NF in Hi. assert (Lp : (i - num_fixed bcs < length polys)%nat) by lia.
      pose proof (nth_error_nth' polys [] Lp) as Ei.
      eapply HF; [rewrite nth_error_app2 by (rewrite map_length, seq_length; exact L); rewrite map_length, seq_length; exact Ei|].
      apply nth_error_nth'. rewrite (PL _ (nth_In polys [] Lp)). exact Hr.
  - rewrite UR. intros x y I. apply in_rev in I. pose proof EK as EK'. apply keygen_asm in EK' as (_ & _ & EK').
    apply (keygen_usable _ _ _ _ _ EK'); [intros ? ? []|exact I].
  - rewrite R6. exists p. split; [exact Ep|]. intros i r Hi Hr.
    assert (Li : (i < length sigma)%nat) by (rewrite Ls; exact Hi).
    pose proof (nth_error_nth' sigma [] Li) as Ei.
    rewrite Forall_forall in Fs. pose proof (Fs _ (nth_In sigma [] Li)) as Lr.
    assert (Er := nth_error_nth' (nth i sigma []) f0 (ltac:(rewrite Lr; exact Hr) : (r < length (nth i sigma []))%nat)).
    rewrite (HS _ _ _ _ Ei Er). apply (sigma_get _ _ Es _ _ _ _ Ei Er).
Qed.
Lemma project_key commit pr k m v : keygen_vk commit pr k m = EOk v -> (0 <= k < 63)%Z ->
  exists asm c' polys asgs sigma,
    bf_keygen (Z.to_nat (2 ^ k)) m = EOk (conf, bcs, asm) /\
    compress_selectors bcs (selector_rows bcs (Z.to_nat (2 ^ k)) asm) = Ok (c', polys, asgs) /\ vk_cs v = c' /\
    let cols := map (fun col => map (asm_fixed asm col) (seq 0 (Z.to_nat (2 ^ k)))) (seq 0 (num_fixed bcs)) ++ polys in
    vk_fixed v = map commit cols /\ vk_permutation v = map commit sigma /\
    length cols = num_fixed c' /\ length sigma = length (perm_columns c') /\
    (forall col, In col cols -> length col = Z.to_nat (2 ^ k)) /\ (forall s, In s sigma -> length s = Z.to_nat (2 ^ k)) /\
    forall F S, interpolates (d_omega (vk_domain v)) cols F -> interpolates (d_omega (vk_domain v)) sigma S ->
      key_for v k (fixed_of asm polys) (rev (asm_copies asm)) F S.
Proof.
  intros H Hk. destruct (project_parts commit pr k m v H Hk) as (asm & c' & polys & asgs & sigma & _ & _ & _ & R).
  exists asm, c', polys, asgs, sigma. exact R.
Qed.

Theorem project_sound commit pr k m v : keygen_vk commit pr k m = EOk v -> (0 <= k < 63)%Z ->
  exists asm cols sigma,
    bf_keygen (Z.to_nat (2 ^ k)) m = EOk (conf, bcs, asm) /\
    vk_fixed v = map commit cols /\ vk_permutation v = map commit sigma /\
    forall F S insts chs advice,
      interpolates (d_omega (vk_domain v)) cols F -> interpolates (d_omega (vk_domain v)) sigma S ->
      length chs = num_challenges bcs -> (forall l, In l insts -> (Z.of_nat (length l) <= 2 ^ k)%Z) ->
      convincing v k insts chs F S advice ->
      satisfied bcs (asm_copies asm) (assign_with (Z.to_nat (2 ^ k)) asm
        (fun i r => peval (advice i) (fpow (d_omega (vk_domain v)) (Z.of_nat r))) insts (fun i => nth i chs f0)) /\
      length insts = num_instance bcs.
Proof.
  intros H Hk. destruct (project_key commit pr k m v H Hk) as (asm & c' & polys & asgs & sigma & EK & Ec & Ev & E1 & E2 & _ & _ & _ & _ & HKF).
  exists asm. eexists. exists sigma. split; [exact EK|]. split; [exact E1|]. split; [exact E2|].
  intros F S insts chs advice HF HS Hc HL HC. specialize (HKF F S HF HS).
  destruct (project_compressed _ _ _ _ _ EK) as (c2 & polys2 & asgs2 & Ec2 & CP & _ & SAT).
  rewrite Ec in Ec2. apply ok_inj in Ec2. injection Ec2 as <- <- <-.
  destruct (cp_rest _ _ _ _ _ _ CP) as [R UR]. injection R as R1 R2 R3 R4 R5 R6.
  assert (Hc' : length chs = num_challenges (vk_cs v)) by (rewrite Ev, R3; exact Hc).
  destruct (iop_sound v k _ _ F S insts chs advice HKF Hc' HL HC) as [X Y]. rewrite Ev, R2 in Y. split; [|exact Y].
  apply SAT. rewrite Ev in X.
  assert (P : (0 < 2 ^ k)%Z) by (apply Z.pow_pos_nonneg; lia).
  assert (X' : satisfied c' (asm_copies asm) (assigned (Z.to_nat (2 ^ k)) (d_omega (vk_domain v)) (fixed_of asm polys) advice insts chs)).
  { destruct X as (A & B & C). split; [exact A|]. split; [exact B|]. intros x y I. apply C. apply -> in_rev. exact I. }
  assert (NS : forall e row, In e (gate_exprs c') \/ In e (lookup_exprs c') ->
    eval (assigned (Z.to_nat (2 ^ k)) (d_omega (vk_domain v)) (fixed_of asm polys) advice insts chs) row e =
    eval (extended bcs polys (assign_with (Z.to_nat (2 ^ k)) asm
        (fun i r => peval (advice i) (fpow (d_omega (vk_domain v)) (Z.of_nat r))) insts (fun i => nth i chs f0))) row e).
  { intros e row I. apply (cp_gone _ _ _ _ _ _ CP) in I. clear - I. induction e; cbn [selectors_in] in I.
    - reflexivity.
    - discriminate.
    - reflexivity.
    - reflexivity.
    - reflexivity.
    - reflexivity.
    - exact (f_equal fopp (IHe I)).
    - apply app_eq_nil in I as [I1 I2]. exact (f_equal2 fadd (IHe1 I1) (IHe2 I2)).
    - apply app_eq_nil in I as [I1 I2]. exact (f_equal2 fmul (IHe1 I1) (IHe2 I2)).
    - exact (f_equal (fun x => fmul x f) (IHe I)). }
  destruct X' as (A & B & C). split; [|split].
  - intros g q row Ig Iq Hr. rewrite <- NS by (left; apply in_gate_exprs; eauto). apply (A g q row Ig Iq Hr).
  - intros l row Il Hr. destruct (B l row Il Hr) as (r' & Hr' & E). exists r'. split; [exact Hr'|].
    assert (M : forall es row, (forall e, In e es -> In e (lookup_exprs c')) ->
      map (eval (assigned (Z.to_nat (2 ^ k)) (d_omega (vk_domain v)) (fixed_of asm polys) advice insts chs) row) es = 
      map (eval (extended bcs polys (assign_with (Z.to_nat (2 ^ k)) asm
        (fun i r => peval (advice i) (fpow (d_omega (vk_domain v)) (Z.of_nat r))) insts (fun i => nth i chs f0))) row) es).
    { intros es rw I. apply map_ext_in. intros e Ie. apply NS. right. apply I, Ie. }
    rewrite <- (M (fst l) row), <- (M (snd l) r') by (intros; apply in_lookup_exprs; eauto). exact E.
  - exact C.
Qed.
