(** If all constraints vanish on the rows, a quotient exists and every
    evaluation point off the rows is accepted. *)
From Coq Require Import ZArith List Arith Lia Bool Permutation.
From Verif Require Import Base ListFacts Moduli Field FieldFacts LimbSpec LimbField LimbConst PolyFacts Halo2Model SelectorModel
  PermModel PermFacts SelectorSpec SelectorClaims DomainModel DomainSpec DomainFacts VkModel IopModel IopPoly IopRows IopSpec
  IopLagrange IopTotal IopAccept IopDegree ProverModel.
Import ListNotations.
Local Open Scope F_scope.

(** ** What is written is what is read *)
Lemma take_app a b : take (length a) (a ++ b) = Some (a, b).
Proof.
  unfold take. rewrite app_length. destruct (Nat.leb_spec (length a) (length a + length b)); [|lia].
  rewrite firstn_app, skipn_app, firstn_all, skipn_all, Nat.sub_diag. cbn [firstn skipn app]. rewrite app_nil_r. reflexivity.
Qed.
(** all sets but the last carry their value at the last usable row *)
Definition shaped (sets : list pset) : Prop :=
  forall i s, nth_error sets i = Some s -> (ps_last s = None <-> S i = length sets).
Lemma read_write_sets sets rest : shaped sets -> read_sets (length sets) (flat_map write_set sets ++ rest) = Some (sets, rest).
Proof.
  revert rest. induction sets as [|s sets IH]; intros rest H; [reflexivity|].
  pose proof (H 0%nat s eq_refl) as H0. destruct s as [a b o]. cbn [ps_last length] in H0.
  cbn [length flat_map]. destruct sets as [|s2 sets].
  - destruct o as [e|]; [destruct H0 as [_ H0]; discriminate H0; reflexivity|]. reflexivity.
  - destruct o as [e|]; [|destruct H0 as [H0 _]; discriminate H0; reflexivity].
    assert (H' : shaped (s2 :: sets)).
    { intros i s E. rewrite (H (S i) s E). cbn [length]. split; lia. }
    specialize (IH rest H').
    change (match read_sets (length (s2 :: sets)) (flat_map write_set (s2 :: sets) ++ rest) with
            | Some (s, l) => Some (PSet a b (Some e) :: s, l) | None => None end = Some (PSet a b (Some e) :: s2 :: sets, rest)).
    rewrite IH. reflexivity.
Qed.
Lemma read_write_lookups ls rest : read_lookups (length ls) (flat_map write_lookup ls ++ rest) = Some (ls, rest).
Proof.
  revert rest. induction ls as [|[a b c d e] ls IH]; intros rest; [reflexivity|].
  cbn [length flat_map write_lookup le_product le_product_next le_input le_input_inv le_table app read_lookups]. rewrite IH. reflexivity.
Qed.
Theorem read_write v e rest : length (ev_advice e) = length (advice_queries (vk_cs v)) ->
  length (ev_fixed e) = length (fixed_queries (vk_cs v)) -> length (ev_sigma e) = length (vk_permutation v) ->
  length (ev_sets e) = length (chunks (chunk_len v) (perm_columns (vk_cs v))) -> shaped (ev_sets e) ->
  length (ev_lookups e) = length (lookups (vk_cs v)) ->
  read_evals v (write_evals e ++ rest) = Some (e, rest).
Proof.
  intros L1 L2 L3 L4 L5 L6. unfold read_evals, write_evals. rewrite <- !app_assoc.
  rewrite <- L1, <- L2, <- L3, <- L4, <- L6, !take_app. cbn [app]. rewrite <- !app_assoc, take_app.
  rewrite read_write_sets by exact L5. rewrite read_write_lookups. destruct e. reflexivity.
Qed.

Section Intro.
Variables (v : vkey) (j k : Z) (n : nat).
Hypothesis Hk : (0 <= k)%Z.
Hypothesis Hn : Z.of_nat n = (2 ^ k)%Z.
Hypothesis Hd : domain_for j k (vk_domain v).
Local Notation d := (vk_domain v).
Local Notation c := (vk_cs v).
Local Notation m := (length (perm_columns c)).
Local Notation rot := (rotate_omega d).
Hypothesis Hrows : (minimum_rows c <= n)%nat.
Hypothesis Hwf : well_formed c.
Hypothesis Hdeg : vk_degree v = cs_degree c.
Hypothesis Hperm : length (vk_permutation v) = m.
Variables (insts : list (list Fr)) (chs : list Fr) (P : committed) (theta beta gamma : Fr).
Hypothesis Hchs : length chs = num_challenges c.
Hypothesis Hinst : length insts = num_instance c.
Local Notation E_ := (evalsx v P).
Local Notation Fs := (all_fs v n insts chs P theta beta gamma).
Local Notation s := (length (JJ v)).

Lemma evalsx_shaped x : shaped (map (setx v P x) (seq 0 s)).
Proof.
  intros i t E. rewrite nth_error_map' in E. destruct (nth_error (seq 0 s) i) as [q|] eqn:Eq; [|discriminate].
  assert (Hi : (i < s)%nat) by (rewrite <- (seq_length s 0); apply nth_error_Some; congruence).
  rewrite (nth_error_nth' _ 0%nat) in Eq by (rewrite seq_length; exact Hi). rewrite seq_nth in Eq by exact Hi. injection Eq as <-.
  cbn [option_map] in E. injection E as <-. rewrite map_length, seq_length. cbn [setx ps_last Nat.add].
  destruct (Nat.ltb_spec (S i) s); split; intros X; try discriminate X; try reflexivity; lia.
Qed.
Lemma read_evalsx x rest : read_evals v (write_evals (E_ x) ++ rest) = Some (E_ x, rest).
Proof.
  apply read_write; cbn [evalsx ev_advice ev_fixed ev_sigma ev_sets ev_lookups].
  - unfold advx. apply map_length.
  - unfold fixx. apply map_length.
  - rewrite map_length, seq_length. symmetry. exact Hperm.
  - rewrite map_length, seq_length. symmetry. apply sets_count.
  - apply evalsx_shaped.
  - rewrite map_length, seq_length. reflexivity.
Qed.
Lemma fmul_cancel_r (a b e : Fr) : e <> f0 -> a * e = b * e -> a = b.
Proof. intros N E. apply (fmul_cancel e _ _ N). replace (e * a) with (a * e) by fring. rewrite E. fring. Qed.

(** the places of the openings *)
Definition places (x : Fr) : list (handle * Fr) :=
  map (fun q : advice_col * Z => (HAdvice (ac_index (fst q)), rot x (snd q))) (advice_queries c) ++
  (flat_map (fun i => [(HProduct i, x); (HProduct i, rot x next)]) (seq 0 s) ++
   map (fun i => (HProduct i, rot x (- (Z.of_nat (blinding_factors c) + 1)))) (rev (seq 0 (s - 1)))) ++
  flat_map (fun i => [(HLookupProduct i, x); (HLookupInput i, x); (HLookupTable i, x); (HLookupInput i, rot x prev); (HLookupProduct i, rot x next)])
    (seq 0 (length (lookups c))) ++
  map (fun q : nat * Z => (HFixed (fst q), rot x (snd q))) (fixed_queries c) ++
  map (fun i => (HSigma i, x)) (seq 0 m) ++
  [(HQuotient, x); (HRandom, x)].
Lemma map_flat_map {A B C} (f : B -> C) (g : A -> list B) l : map f (flat_map g l) = flat_map (fun a => map f (g a)) l.
Proof. induction l as [|a l IH]; [reflexivity|]. cbn [flat_map]. rewrite map_app, IH. reflexivity. Qed.
Lemma flat_map_map {A B C} (f : A -> B) (g : B -> list C) l : flat_map g (map f l) = flat_map (fun a => g (f a)) l.
Proof. induction l as [|a l IH]; [reflexivity|]. cbn [flat_map map]. rewrite IH. reflexivity. Qed.
Lemma map_enum {A B} (f : A -> B) (l : list A) : map (fun ia : nat * A => f (snd ia)) (enum l) = map f l.
Proof. unfold enum. generalize 0%nat. induction l as [|a l IH]; intros i; [reflexivity|]. cbn [length seq combine map snd]. rewrite IH. reflexivity. Qed.
Theorem openings_exist y x : fpow x (2 ^ k)%Z <> f1 -> exists ops, read_evals v (write_evals (E_ x)) = Some (E_ x, []) /\
    verify_openings v (2 ^ k) insts chs theta beta gamma y x (E_ x) = VOpen ops /\ map fst ops = places x /\
    (compress y (map (fun f => f x) Fs) = quotient_at k P x * (fpow x (2 ^ k)%Z - f1) ->
     forall h pt val, In (h, pt, val) ops -> peval (poly_of P (fpow x (2 ^ k)%Z) h) pt = val).
Proof.
  intros N.
  destruct (expected_ok y (fpow x (2 ^ k)%Z) (map (fun f => f x) Fs) N) as (h & EH & EH2).
  assert (QH : compress y (map (fun f => f x) Fs) = quotient_at k P x * (fpow x (2 ^ k)%Z - f1) -> quotient_at k P x = h).
  { intros EQ. apply (fmul_cancel_r _ _ (fpow x (2 ^ k)%Z - f1)); [apply fsub_nz, N|]. rewrite <- EQ. exact EH2. }
  unfold verify_openings. rewrite Hinst, Nat.eqb_refl. cbn [negb].
  rewrite !pow_vartime_is by (apply Z.pow_nonneg; lia).
  rewrite (instance_evals_are d j k n Hk Hn Hd v eq_refl insts x N).
  2:{ intros q Iq. rewrite Hinst. apply (wf_instance _ Hwf _ Iq). }
  cbn [bind]. rewrite (l_values_are d j k n Hk Hn Hd v eq_refl Hrows x N). cbn [bind].
  pose proof (expressions_are v n Hwf Hdeg insts chs P theta beta gamma Hchs x) as EE. unfold instx in EE. rewrite EE. clear EE.
  cbn [bind]. match goal with |- context [expected_h y ?b ?l] => replace (expected_h y b l) with (Ok h) by (symmetry; exact EH) end. cbn [bind].
  unfold perm_queries. cbn [ev_sets evalsx].
  assert (ES : enum (map (setx v P x) (seq 0 s)) = map (fun i => (i, setx v P x i)) (seq 0 s)).
  { rewrite enum_map, enum_seq, map_map. reflexivity. }
  rewrite ES.
  set (x_last := rot x (- (Z.of_nat (blinding_factors c) + 1))).
  assert (EL : tl (rev (map (fun i => (i, setx v P x i)) (seq 0 s))) = map (fun i => (i, setx v P x i)) (rev (seq 0 (s - 1)))).
  { destruct s as [|q]; [reflexivity|]. rewrite seq_S, map_app, rev_app_distr. cbn [map rev app tl].
    rewrite Nat.sub_succ, Nat.sub_0_r, map_rev. reflexivity. }
  rewrite EL.
  rewrite (rmap_map _ (fun s0 : nat * pset => (HProduct (fst s0), x_last, zf P (fst s0) x_last))).
  2:{ intros [i a] I. apply in_map_iff in I. destruct I as (i' & [= -> <-] & Ii). apply in_rev in Ii. rewrite ?rev_involutive in Ii. apply in_seq in Ii.
      cbn [fst snd setx ps_last]. destruct (Nat.ltb_spec (S i) s); [reflexivity|lia]. }
  cbn [bind].
  assert (EA : rmap (fun iq : nat * (advice_col * Z) => let! ev := at_ (ev_advice (E_ x)) (fst iq) in
      Ok (HAdvice (ac_index (fst (snd iq))), rot x (snd (snd iq)), ev)) (enum (advice_queries c)) =
    Ok (map (fun iq : nat * (advice_col * Z) => (HAdvice (ac_index (fst (snd iq))), rot x (snd (snd iq)),
      peval (cm_advice P (ac_index (fst (snd iq)))) (rot x (snd (snd iq))))) (enum (advice_queries c)))).
  { apply rmap_map. intros [i q] I. apply enum_nth in I. cbn [fst snd evalsx ev_advice]. unfold at_, advx. rewrite nth_error_map', I. reflexivity. }
  rewrite EA. clear EA. cbn [bind].
  assert (EF : rmap (fun iq : nat * (nat * Z) => let! ev := at_ (ev_fixed (E_ x)) (fst iq) in
      Ok (HFixed (fst (snd iq)), rot x (snd (snd iq)), ev)) (enum (fixed_queries c)) =
    Ok (map (fun iq : nat * (nat * Z) => (HFixed (fst (snd iq)), rot x (snd (snd iq)),
      peval (cm_fixed P (fst (snd iq))) (rot x (snd (snd iq))))) (enum (fixed_queries c)))).
  { apply rmap_map. intros [i q] I. apply enum_nth in I. cbn [fst snd evalsx ev_fixed]. unfold at_, fixx. rewrite nth_error_map', I. reflexivity. }
  rewrite EF. clear EF. cbn [bind].
  eexists. split; [rewrite <- (app_nil_r (write_evals (E_ x))); apply read_evalsx|]. split; [reflexivity|]. split.
  { unfold places. rewrite !map_app, !map_map. cbn [fst].
      apply f_equal2; [apply (map_enum (fun q : advice_col * Z => (HAdvice (ac_index (fst q)), rot x (snd q))))|].
      apply f_equal2; [apply f_equal2; [rewrite map_flat_map, flat_map_map; reflexivity|reflexivity]|].
      apply f_equal2; [rewrite map_flat_map; cbn [evalsx ev_lookups]; rewrite enum_map, enum_seq, map_map, flat_map_map; reflexivity|].
      apply f_equal2; [apply (map_enum (fun q : nat * Z => (HFixed (fst q), rot x (snd q))))|].
      apply f_equal2; [|reflexivity]. cbn [evalsx ev_sigma]. rewrite enum_map, enum_seq, !map_map. reflexivity. }
  intros EQ hd pt val I. specialize (QH EQ). rewrite !in_app_iff in I. destruct I as [I|[[I|I]|[I|[I|[I|I]]]]].
  - apply in_map_iff in I. destruct I as (q & [= <- <- <-] & _). reflexivity.
  - apply in_flat_map in I. destruct I as ([i a] & I & J). apply in_map_iff in I. destruct I as (i' & [= -> <-] & _).
    cbn [fst snd setx ps_eval ps_next] in J. destruct J as [[= <- <- <-]|[[= <- <- <-]|[]]]; reflexivity.
  - apply in_map_iff in I. destruct I as (q & [= <- <- <-] & _). reflexivity.
  - apply in_flat_map in I. destruct I as ([i a] & I & J). apply enum_nth in I. cbn [evalsx ev_lookups] in I. rewrite nth_error_map' in I.
    destruct (nth_error (seq 0 (length (lookups c))) i) as [q|] eqn:Eq; [|discriminate]. cbn [option_map] in I. injection I as <-.
    assert (Hi : (i < length (lookups c))%nat) by (rewrite <- (seq_length (length (lookups c)) 0); apply nth_error_Some; congruence).
    rewrite (nth_error_nth' _ 0%nat) in Eq by (rewrite seq_length; exact Hi). rewrite seq_nth in Eq by exact Hi. injection Eq as <-.
    unfold lookup_queries, lkx in J. cbn [le_product le_product_next le_input le_input_inv le_table Nat.add] in J.
    destruct J as [J|[J|[J|[J|[J|[]]]]]]; injection J as <- <- <-; reflexivity.
  - apply in_map_iff in I. destruct I as (q & [= <- <- <-] & _). reflexivity.
  - apply in_map_iff in I. destruct I as ([i a] & [= <- <- <-] & I). apply enum_nth in I. cbn [evalsx ev_sigma] in I. rewrite nth_error_map' in I.
    destruct (nth_error (seq 0 m) i) as [q|] eqn:Eq; [|discriminate]. cbn [option_map] in I. injection I as <-.
    assert (Hi : (i < m)%nat) by (rewrite <- (seq_length m 0); apply nth_error_Some; congruence).
    rewrite (nth_error_nth' _ 0%nat) in Eq by (rewrite seq_length; exact Hi). rewrite seq_nth in Eq by exact Hi. injection Eq as <-. reflexivity.
  - destruct I as [[= <- <- <-]|[[= <- <- <-]|[]]]; [exact QH|reflexivity].
Qed.
Theorem accepts_intro y x : fpow x (2 ^ k)%Z <> f1 ->
  compress y (map (fun f => f x) Fs) = quotient_at k P x * (fpow x (2 ^ k)%Z - f1) ->
  exists ops, read_evals v (write_evals (E_ x)) = Some (E_ x, []) /\
    verify_openings v (2 ^ k) insts chs theta beta gamma y x (E_ x) = VOpen ops /\
    forall h pt val, In (h, pt, val) ops -> peval (poly_of P (fpow x (2 ^ k)%Z) h) pt = val.
Proof. intros N EQ. destruct (openings_exist y x N) as (ops & A & B & _ & C). exists ops. auto. Qed.
End Intro.

(** ** The quotient *)
Lemma peval_app' l l' x : peval (l ++ l') x = peval l x + fpow x (Z.of_nat (length l)) * peval l' x.
Proof.
  induction l as [|a l IH]; cbn [app peval length].
  - change (fpow x (Z.of_nat 0)) with (@f1 r_pos). fring.
  - rewrite IH, fpow_S'. fring.
Qed.
(** [chunks_exact(n)] (vanishing/prover.rs:93-96) of a list of [q * n] entries *)
Fixpoint split_pieces (n q : nat) (p : list Fr) : list (list Fr) :=
  match q with O => [] | S q => firstn n p :: split_pieces n q (skipn n p) end.
Lemma split_length n q : forall p, length (split_pieces n q p) = q.
Proof. induction q as [|q IH]; intros p; [reflexivity|]. cbn [split_pieces length]. rewrite IH. reflexivity. Qed.
Lemma split_bound n q : forall p h, In h (split_pieces n q p) -> (length h <= n)%nat.
Proof.
  induction q as [|q IH]; intros p h I; [contradiction|]. destruct I as [<-|I]; [|apply (IH _ _ I)].
  rewrite firstn_length. change (fe r_pos) with Fr in *. lia.
Qed.
Lemma split_eval n q x : forall p, (length p <= q * n)%nat ->
  pieces (split_pieces n q p) x (fpow x (Z.of_nat n)) = peval p x.
Proof.
  induction q as [|q IH]; intros p L; cbn [split_pieces pieces].
  - destruct p; [reflexivity|cbn in L; lia].
  - rewrite IH by (rewrite skipn_length; change (fe r_pos) with Fr in *; lia).
    transitivity (peval (firstn n p ++ skipn n p) x); [|rewrite firstn_skipn; reflexivity]. rewrite peval_app'.
    destruct (Nat.le_gt_cases n (length p)) as [G|G].
    + rewrite firstn_length, Nat.min_l by (change (fe r_pos) with Fr in *; lia). reflexivity.
    + rewrite (skipn_all2 p) by (change (fe r_pos) with Fr in *; lia). cbn [peval]. fring.
Qed.

Section Quotient.
Variables (v : vkey) (j k : Z) (n : nat).
Hypothesis Hk : (0 <= k)%Z.
Hypothesis Hn : Z.of_nat n = (2 ^ k)%Z.
Hypothesis Hd : domain_for j k (vk_domain v).
Hypothesis Hj : (Z.of_nat (vk_degree v) <= j)%Z.
Hypothesis Hrows : (minimum_rows (vk_cs v) <= n)%nat.
Hypothesis Hwf : well_formed (vk_cs v).
Hypothesis Hdeg : vk_degree v = cs_degree (vk_cs v).
Hypothesis Hperm : length (vk_permutation v) = length (perm_columns (vk_cs v)).
Variables (insts : list (list Fr)) (chs : list Fr) (theta beta gamma : Fr)
  (advice F S_ product lproduct linput ltable : nat -> list Fr) (random : list Fr).
Hypothesis Hchs : length chs = num_challenges (vk_cs v).
Hypothesis Hinst : length insts = num_instance (vk_cs v).
Local Notation P q := (Committed advice F S_ product lproduct linput ltable q random).
Local Notation qd := (Z.to_nat (d_quotient_poly_degree (vk_domain v))).
Hypothesis Hb : bounded v n (P (repeat [] qd)).
Hypothesis HV : forall f r, In f (all_fs v n insts chs (P []) theta beta gamma) -> (r < n)%nat -> f (pt (d_omega (vk_domain v)) r) = f0.

Theorem quotient_exists y : exists quotient, bounded v n (P quotient) /\
  forall x, fpow x (2 ^ k)%Z <> f1 -> accepts v (2 ^ k) insts chs theta beta gamma y x (P quotient).
Proof.
  destruct (divide_points n (d_omega (vk_domain v)) (Hw _ j k n Hn Hd) (qd * n)
    (fun x => compress y (map (fun f => f x) (all_fs v n insts chs (P []) theta beta gamma)))) as (p & Lp & Ep).
  - replace (qd * n + n)%nat with (need_x v n) by (unfold need_x; lia).
    apply compress_poly. intros f If.
    apply (fs_poly v j k n Hk Hn Hd Hj Hrows Hdeg Hperm insts chs (P (repeat [] qd)) theta beta gamma Hchs Hb f). exact If.
  - intros r Hr. rewrite compress_peval. apply peval_zeros. apply Forall_rev. apply Forall_forall. intros a Ia.
    apply in_map_iff in Ia. destruct Ia as (f & <- & If). apply HV; assumption.
  - exists (split_pieces n qd p). split.
    + destruct Hb. constructor; try assumption. cbn [cm_quotient]. split; [apply split_length|apply split_bound].
    + intros x N.
      destruct (accepts_intro v j k n Hk Hn Hd Hrows Hwf Hdeg Hperm insts chs (P (split_pieces n qd p)) theta beta gamma Hchs Hinst y x N) as (ops & A & B & C).
      * unfold quotient_at. cbn [poly_of cm_quotient]. rewrite h_combine_is, <- Hn, split_eval by exact Lp.
        etransitivity; [exact (Ep x)|]. generalize (fpow x (Z.of_nat n)) (peval p x). intros. fring.
      * exists (write_evals (evalsx v (P (split_pieces n qd p)) x)), (evalsx v (P (split_pieces n qd p)) x), [], ops. auto.
Qed.
End Quotient.
