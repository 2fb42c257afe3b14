(** Verifying keys survive serialisation. *)
From Coq Require Import ZArith List Lia Bool Arith Permutation.
From Verif Require Import Base Moduli Field FieldFacts LimbModel LimbSpec LimbFacts LimbBytes Halo2Model
  CircuitModel CircuitFacts KeygenFacts PermModel SelectorModel SelectorSpec SelectorFacts SelectorMain
  SerdeModel SerdeSpec SerdeFacts PointFacts DomainModel VMModel VkModel VkSpec.
Import ListNotations.

(** ** The assignments selector compression records are small *)
Lemma root_product_small len query : fits query -> depth query = 1 -> forall assigned root acc, fits acc ->
  fits (root_product len query assigned root acc) /\
  depth (root_product len query assigned root acc) <= Nat.max 3 (depth acc) + len.
Proof.
  intros Fq Dq. induction len as [|len IH]; intros assigned root acc Fa; cbn [root_product]; [split; [exact Fa|lia]|].
  destruct (feqb root assigned).
  - destruct (IH assigned (root + f1)%F acc Fa) as [A B]. split; [exact A|lia].
  - destruct (IH assigned (root + f1)%F (EProd acc (esub (EConst root) query))) as [A B].
    { cbn [fits esub]. tauto. }
    split; [exact A|]. cbn [depth esub] in B. rewrite Dq in B. lia.
Qed.

Section Shape.
Context {S : Type} (alloc : S -> res (expr * S)) (Inv : S -> nat -> Prop) (K : nat).
Hypothesis HA : forall s k e s', k < K -> Inv s k -> alloc s = Ok (e, s') ->
  fits e /\ depth e = 1 /\ Inv s' (Datatypes.S k).

Definition small (a : selassign) : Prop :=
  sa_combination a < K /\ fits (sa_expr a) /\ depth (sa_expr a) <= K + 3.

Lemma alone_small : forall sels combs asgs s rest combs' asgs' s',
  alone alloc sels combs asgs s = Ok (rest, combs', asgs', s') ->
  Inv s (length combs) -> length combs + length sels <= K -> Forall small asgs ->
  Forall small asgs' /\ Inv s' (length combs') /\ length combs' + length rest = length combs + length sels.
Proof.
  induction sels as [|d sels IH]; intros combs asgs s rest combs' asgs' s' H HI HL HF; cbn [alone] in H.
  - injection H as <- <- <- <-. auto.
  - cbn [length] in HL. destruct (Nat.eqb (sd_deg d) 0).
    + apply bind_ok in H as ([e s1] & E & H).
      destruct (HA s (length combs) e s1) as (F1 & D1 & I1); [lia|exact HI|exact E|].
      apply IH in H.
      * destruct H as (A & B & C). rewrite app_length in C. cbn [length] in *.
        split; [exact A|]. split; [exact B|]. lia.
      * rewrite app_length. cbn [length]. rewrite Nat.add_1_r. exact I1.
      * rewrite app_length. cbn [length]. lia.
      * apply Forall_app. split; [exact HF|]. constructor; [|constructor].
        unfold small; cbn [sa_combination sa_expr]. split; [lia|]. split; [exact F1|]. lia.
    + apply bind_ok in H as ([[[r1 c1] a1] s1] & E & H). injection H as <- <- <- <-.
      apply IH in E as (A & B & C); [|exact HI|lia|exact HF].
      split; [exact A|]. split; [exact B|]. cbn [length]. lia.
Qed.
Lemma try_length maxd : forall sels j d comb added comb' added',
  try_selectors maxd sels j d comb added = (comb', added') -> length comb' <= length comb + length sels.
Proof.
  induction sels as [|x sels IH]; intros j d comb added comb' added' H; cbn [try_selectors] in H; cbn [length].
  - injection H as <- <-. lia.
  - destruct (Nat.eqb _ _); [injection H as <- <-; lia|].
    destruct (nth j added false); [apply IH in H; lia|].
    destruct (existsb _ _); [apply IH in H; lia|].
    destruct (maxd <? _); apply IH in H; [lia|]. rewrite app_length in H. cbn [length] in H. lia.
Qed.
Lemma assign_small len index query : fits query -> depth query = 1 -> len <= K -> index < K ->
  forall comb assigned col col' asgs, assign_comb comb len index query assigned col = (col', asgs) ->
  Forall small asgs.
Proof.
  intros Fq Dq HL HX. induction comb as [|x comb IH]; intros assigned col col' asgs H; cbn [assign_comb] in H.
  - injection H as <- <-. constructor.
  - destruct (assign_comb comb len index query (fadd assigned f1) (set_rows col (sd_act x) assigned)) as [c1 a1] eqn:E.
    injection H as <- <-. constructor; [|eapply IH; exact E].
    unfold small; cbn [sa_combination sa_expr]. split; [exact HX|].
    destruct (root_product_small len query Fq Dq assigned f1 query Fq) as [A B]. split; [exact A|]. rewrite Dq in B. lia.
Qed.
Lemma combine_small n maxd : forall sels i added combs asgs s combs' asgs' s',
  combine_all alloc n maxd sels i added combs asgs s = Ok (combs', asgs', s') ->
  Inv s (length combs) -> length combs + length sels <= K -> Forall small asgs ->
  Forall small asgs' /\ length combs' <= K.
Proof.
  induction sels as [|d sels IH]; intros i added combs asgs s combs' asgs' s' H HI HL HF; cbn [combine_all] in H.
  - injection H as <- <- <-. cbn [length] in HL. split; [exact HF|lia].
  - cbn [length] in HL. destruct (nth i added false); [eapply IH; [exact H|exact HI|lia|exact HF]|].
    cbv zeta in H. destruct (maxd <? sd_deg d); [discriminate|].
    destruct (try_selectors maxd sels (i + 1) (sd_deg d - 1) [d] (upd added i true)) as [comb added'] eqn:ET.
    apply try_length in ET. cbn [length] in ET.
    apply bind_ok in H as ([q s1] & E & H).
    destruct (HA s (length combs) q s1) as (F1 & D1 & I1); [lia|exact HI|exact E|].
    destruct (assign_comb comb (length comb) (length combs) q f1 (repeat f0 n)) as [col new] eqn:EA.
    apply assign_small in EA; [|exact F1|exact D1|lia|lia].
    eapply IH; [exact H| | |].
    + rewrite app_length. cbn [length]. rewrite Nat.add_1_r. exact I1.
    + rewrite app_length. cbn [length]. lia.
    + apply Forall_app. auto.
Qed.
Lemma process_small sels maxd s combs asgs s' : process sels maxd alloc s = Ok (combs, asgs, s') ->
  Inv s 0 -> length sels <= K -> Forall small asgs /\ length combs <= K.
Proof.
  intros H HI HL. unfold process in H. destruct sels as [|d0 sels]; [injection H as <- <- <-; split; [constructor|simpl; lia]|].
  destruct (negb _); [discriminate|]. apply bind_ok in H as ([[[rest c1] a1] s1] & E & H).
  apply alone_small in E as (A & B & C); [|exact HI|exact HL|constructor].
  eapply combine_small; [exact H|exact B| |exact A]. cbn [length] in *. lia.
Qed.
End Shape.

Lemma alloc_small c0 K : (Z.of_nat (num_fixed c0 + K) < 2 ^ 32)%Z ->
  (Z.of_nat (length (fixed_queries c0) + K) < 2 ^ 32)%Z ->
  forall s k e s', k < K ->
  (num_fixed (fst s) = num_fixed c0 + k /\ length (fixed_queries (fst s)) <= length (fixed_queries c0) + k) ->
  alloc_column s = Ok (e, s') -> fits e /\ depth e = 1 /\
  (num_fixed (fst s') = num_fixed c0 + S k /\ length (fixed_queries (fst s')) <= length (fixed_queries c0) + S k).
Proof.
  intros B1 B2 [c cols] k e s' Hk [I1 I2] H. cbn [fst] in *.
  unfold alloc_column, fixed_column, query_fixed_index in H. cbn [bind fixed_queries num_fixed] in H.
  match type of H with context [position ?f ?l] => destruct (position f l) as [j|] eqn:E end.
  - cbn [bind] in H. injection H as <- <-. cbn [fst num_fixed fixed_queries depth fits].
    assert (j < length (fixed_queries c)).
    { apply SelectorClaims.position_found in E as (x & E & _). apply nth_error_Some. congruence. }
    unfold fits_query, fits32, fits_i32, cur; cbn [q_index q_col q_rot]. repeat split; try lia.
  - cbn [bind] in H. injection H as <- <-. cbn [fst num_fixed fixed_queries depth fits].
    rewrite app_length. cbn [length].
    unfold fits_query, fits32, fits_i32, cur; cbn [q_index q_col q_rot]. repeat split; try lia.
Qed.

(** the assignments of any compression of the project's constraint system *)
Lemma compress_small acts c' polys asgs : compress_selectors bcs acts = Ok (c', polys, asgs) ->
  length acts = num_selectors bcs -> Forall (small 15) asgs /\ length polys <= 15.
Proof.
  intros H LA. unfold compress_selectors in H.
  destruct (negb _); [discriminate|]. apply bind_ok in H as (ds & ED & H).
  apply bind_ok in H as ([[p1 a1] [c1 cols]] & EP & H).
  apply bind_ok in H as ([m r] & _ & H). apply bind_ok in H as (m' & _ & H). apply bind_ok in H as (r' & _ & H).
  apply bind_ok in H as (c2 & _ & H). injection H as <- <- <-.
  eapply (process_small alloc_column _ 15 (alloc_small bcs 15 ltac:(vm_compute; reflexivity) ltac:(vm_compute; reflexivity)));
    [exact EP|cbn [fst]; lia|].
  assert (LD := sel_degrees_length _ _ _ ED). rewrite repeat_length in LD.
  rewrite <- (map_length sd_selector), SelectorClaims.describe_sel, seq_length by lia.
  rewrite LA. vm_compute. lia.
Qed.

(** ** Round trip *)
Lemma reads_g1_raw_f f g : f <> Processed -> g1_coords g -> reads (read_g1 f) (write_g1 f g) g.
Proof.
  intros N H. destruct f; [congruence|apply reads_g1_raw, H|].
  cbn [read_g1 write_g1]. destruct H as [Cx Cy]. unfold g1_read_raw_unchecked, g1_write_raw.
  destruct g as [gx gy]; cbn [g1_x g1_y] in *.
  eapply reads_bind; [apply reads_raw_unchecked, Cx|].
  apply (reads_map read_raw_unchecked (G1 gx)), reads_raw_unchecked, Cy.
Qed.
Lemma be4 k : (0 <= k < 2 ^ 32)%Z -> be_value (be_bytes 4 k) = k.
Proof. intros H. rewrite be_value_bytes. apply Z.mod_small. change (256 ^ Z.of_nat 4)%Z with (2 ^ 32)%Z. exact H. Qed.

Local Opaque read_g1 write_g1 read_selassign write_selassign read_u32 u32_be domain_new recreate be_bytes.
Lemma create_bcs pr k : create_domain pr k =
  bind (domain_new pr (Z.of_nat (cs_degree bcs)) k) (fun d => Ok (d, bcs)).
Proof. unfold create_domain. rewrite configure_ok. reflexivity. Qed.
Local Opaque create_domain.

Section Key.
Variables (pr : profile) (stack : nat) (v : vkey).
Hypothesis V : valid_key pr stack bcs v.
Lemma create_v : create_domain pr (d_k (vk_domain v)) = Ok (vk_domain v, bcs).
Proof. rewrite create_bcs, (vd_domain _ _ _ _ V). reflexivity. Qed.
Lemma from_parts_v : from_parts (vk_domain v) (vk_fixed v) (vk_permutation v) (vk_cs v) (vk_assignments v) = v.
Proof. unfold from_parts. destruct (vd_cs _ _ _ _ V) as [_ <-]. destruct v; reflexivity. Qed.

Theorem read_write_vk f : f <> Processed -> reads (read_vk pr stack f) (write_vk f v) v.
Proof.
  intros N. destruct (vd_fixed _ _ _ _ V) as [F1 F2]. destruct (vd_perm _ _ _ _ V) as [P1 P2].
  destruct (vd_asgs _ _ _ _ V) as (A1 & A2 & A3). rewrite Forall_forall in F2, P2, A2, A3.
  unfold read_vk, write_vk.
  eapply reads_bind; [apply reads_exact_n, be_bytes_length|]. rewrite be4 by apply V. rewrite create_v. cbn [ilift].
  match goal with |- reads _ ?w _ => change w with ([] ++ w) end.
  eapply reads_bind; [apply reads_ret|].
  eapply reads_bind; [apply reads_u32, F1|].
  eapply reads_bind; [apply reads_repeat; intros x I; apply reads_g1_raw_f; auto|].
  eapply reads_bind; [rewrite <- P1; apply reads_repeat; intros x I; apply reads_g1_raw_f; auto|].
  eapply reads_bind; [apply reads_u32, A1|].
  rewrite <- (app_nil_r (flat_map (write_selassign f) _)).
  eapply reads_bind.
  { apply reads_repeat. intros x I. apply reads_unwrap, read_write_selassign; auto. }
  destruct (vd_cs _ _ _ _ V) as [-> _]. cbn [ilift].
  apply (reads_bind (iret (vk_cs v)) _ [] [] (vk_cs v)); [apply reads_ret|]. rewrite from_parts_v. apply reads_ret.
Qed.
End Key.

(** ** Generated keys *)
From Verif Require Import SelectorClaims PermSpec PermFacts PermClaims LayoutFacts DomainSpec DomainFacts.
Lemma sigma_ok d w n cols fuel E p : NoDup cols -> length cols * n <= fuel ->
  perm_copies fuel (perm_new n cols) E = COk p ->
  exists sigma, rmap unwrap_all (perm_polys d w n p) = Ok sigma /\ length sigma = length cols /\
    Forall (fun s => length s = n) sigma.
Proof.
  intros ND F H. pose proof (copies_valid _ _ _ _ _ ND F H) as V.
  destruct (copies_inv n cols fuel ND F E [] (perm_new n cols) (new_inv n cols fuel F) eq_refl V)
    as (p0 & E0 & I & C).
  assert (p0 = p) by congruence. subst p0.
  destruct (i_map _ _ _ _ I) as [L1 L2]. pose proof (i_perm _ _ _ _ I) as [P1 _].
  assert (X : forall rows i0, (forall i row, nth_error rows i = Some row -> nth_error (pm_mapping p) (i0 + i) = Some row) ->
    exists sigma, rmap unwrap_all (map (map (fun c => get2 (deltaomega d w (length cols) n) c)) rows) = Ok sigma /\
      length sigma = length rows /\ Forall (fun s => length s = n) sigma).
  { induction rows as [|row rows IH]; intros i0 HR; cbn [map rmap].
    - exists []. repeat split. constructor.
    - pose proof (HR 0 row eq_refl) as R0. rewrite Nat.add_0_r in R0.
      destruct (unwrap_ok (map (fun c => get2 (deltaomega d w (length cols) n) c) row)) as (s & -> & Es).
      { intros j Hj. rewrite map_length in Hj. rewrite nth_error_map.
        destruct (nth_error row j) as [c|] eqn:Ej; [|apply nth_error_None in Ej; lia]. cbn [option_map].
        assert (IN : inside (length cols) n (i0, j)).
        { split; cbn [fst snd]; [rewrite <- L1; apply nth_error_Some; congruence|].
          rewrite <- (L2 _ _ R0). exact Hj. }
        apply P1 in IN. unfold fn, get2 in IN. cbn [fst snd] in IN. rewrite R0, Ej in IN.
        destruct c as [i' j']. destruct IN as [A B]. cbn [fst snd] in A, B.
        rewrite (deltaomega_get d w _ _ i' j' A B). eauto. }
      destruct (IH (S i0)) as (sigma & -> & Ls & Fs).
      { intros i r Hi. rewrite <- (HR (S i) r Hi). f_equal. lia. }
      cbn [bind]. exists (s :: sigma). split; [reflexivity|]. cbn [length]. split; [lia|].
      constructor; [|exact Fs]. apply (f_equal (@length _)) in Es. rewrite !map_length in Es.
      rewrite <- Es. eapply L2, R0. }
  destruct (X (pm_mapping p) 0) as (sigma & Es & Ls & Fs); [auto|].
  exists sigma. unfold perm_polys. rewrite C. split; [exact Es|]. split; [rewrite Ls; exact L1|exact Fs].
Qed.

Lemma bcs_degree : cs_degree bcs = 11. Proof. vm_compute. reflexivity. Qed.
Lemma create_ok pr k : (0 <= k <= 24)%Z -> exists d, create_domain pr k = Ok (d, bcs) /\ domain_for 11 k d.
Proof.
  intros Hk. destruct (domain_correct pr 11 k) as (d & E & D); [lia|lia| |].
  { change (Z.log2_up (11 - 1)) with 4%Z. lia. }
  exists d. rewrite create_bcs, bcs_degree. change (Z.of_nat 11) with 11%Z. rewrite E. auto.
Qed.
Lemma domain_new_k pr j k d : domain_new pr j k = Ok d -> d_k d = k.
Proof.
  Local Transparent domain_new.
  intros H. unfold domain_new in H. do 8 (apply bind_ok in H as (? & _ & H)).
  injection H as <-. reflexivity.
  Local Opaque domain_new.
Qed.

Lemma eok_inj {A} (x y : A) : EOk x = EOk y -> x = y.
Proof. intros H. injection H. auto. Qed.
Lemma ebind_ok {A B} (x : eres A) (f : A -> eres B) y : ebind x f = EOk y -> exists a, x = EOk a /\ f a = EOk y.
Proof. destruct x; cbn [ebind]; [eauto|discriminate|discriminate]. Qed.
Lemma ok_inj {A} (x y : A) : Ok x = Ok y -> x = y.
Proof. intros H. injection H. auto. Qed.
Lemma bcs_selectors : num_selectors bcs = 15. Proof. vm_compute. reflexivity. Qed.
Lemma bcs_fixed : num_fixed bcs = 1. Proof. vm_compute. reflexivity. Qed.
(** key generation for the project succeeds whenever the table fits *)
Lemma ebind_def {A B} (a : A) (f : A -> eres B) : ebind (EOk a) f = f a.
Proof. reflexivity. Qed.
Lemma build_ok commit n d m cc sc asm : bf_keygen n m = EOk (cc, sc, asm) ->
  exists v, build_key commit n d sc asm = EOk v.
Proof.
  intros H. unfold build_key. cbv zeta.
  destruct (project_compressed _ _ _ _ _ H) as (c' & polys & asgs & Ec & _). rewrite Ec.
  destruct (project_permutation _ _ _ _ _ H) as (p & Ep & _). rewrite Ep.
  apply keygen_asm in H as (E1 & E2 & H). subst cc sc.
  destruct (sigma_ok DELTA (d_omega d) _ _ _ _ _ bcs_perm_nodup (le_n _) Ep) as (sigma & Es & _).
  rewrite Es. eauto.
Qed.
Lemma keygen_vk_total commit pr k m cc sc asm : (0 <= k <= 24)%Z ->
  bf_keygen (circuit_rows k) m = EOk (cc, sc, asm) -> exists v, keygen_vk commit pr k m = EOk v.
Proof.
  intros Hk H. destruct (create_ok pr k Hk) as (d & Ed & _).
  destruct (build_ok commit (circuit_rows k) d m cc sc asm H) as [v E]. exists v.
  unfold keygen_vk. cbv zeta. rewrite Ed, H. cbn [lift_panic]. rewrite !ebind_def. exact E.
Qed.
Lemma keygen_vk_parts commit pr k m v : keygen_vk commit pr k m = EOk v ->
  exists d a c' polys asgs p sigma,
    domain_new pr (Z.of_nat (cs_degree bcs)) k = Ok d /\
    bf_keygen (circuit_rows k) m = EOk (conf, bcs, a) /\
    compress_selectors bcs (selector_rows bcs (circuit_rows k) a) = Ok (c', polys, asgs) /\
    perm_copies (length (perm_columns bcs) * circuit_rows k) (perm_new (circuit_rows k) (perm_columns bcs))
      (rev (asm_copies a)) = COk p /\
    rmap unwrap_all (perm_polys DELTA (d_omega d) (circuit_rows k) p) = Ok sigma /\
    v = from_parts d (map commit (map (fun col => map (asm_fixed a col) (seq 0 (circuit_rows k))) (seq 0 (num_fixed bcs)) ++ polys))
          (map commit sigma) c' asgs.
Proof.
  intros H. unfold keygen_vk in H. cbv zeta in H. rewrite create_bcs in H.
  destruct (domain_new pr (Z.of_nat (cs_degree bcs)) k) as [d|] eqn:Ed; [|discriminate H].
  cbn [bind lift_panic] in H. apply ebind_ok in H as ([d0 s0] & H0 & H). apply eok_inj in H0.
  injection H0 as <- <-.
  apply ebind_ok in H as ([[cc sc] a] & EK & H).
  assert (EK' := EK). apply keygen_asm in EK' as (E1 & E2 & _). subst cc sc.
  unfold build_key in H. cbv zeta in H.
  destruct (compress_selectors bcs _) as [[[c' polys] asgs]|] eqn:Ec; [|discriminate H].
  destruct (perm_copies _ _ _) as [p| | |] eqn:Ep; try discriminate H.
  destruct (rmap unwrap_all _) as [sigma|] eqn:Es; [|discriminate H].
  apply eok_inj in H. 
  exists d, a, c', polys, asgs, p, sigma. repeat (split; [first [assumption|reflexivity]|]). symmetry. exact H.
Qed.
Lemma keygen_valid commit pr k m v : (forall l, g1_coords (commit l)) -> (0 <= k < 2 ^ 32)%Z ->
  keygen_vk commit pr k m = EOk v -> forall stack, 18 <= stack -> valid_key pr stack bcs v /\ d_k (vk_domain v) = k.
Proof.
  intros HC Hk H stack Hs.
  apply keygen_vk_parts in H as (d & a & c' & polys & asgs & p & sigma & Ed & EK & Ec & Ep & Es & Ev). subst v.
  destruct (project_compressed _ _ _ _ _ EK) as (c2 & polys2 & asgs2 & Ec2 & CP & Er & _).
  rewrite Ec in Ec2. apply ok_inj in Ec2. injection Ec2 as <- <- <-.
  destruct (sigma_ok DELTA (d_omega d) _ _ _ _ _ bcs_perm_nodup (le_n _) Ep) as (sigma2 & Es2 & Ls & _).
  rewrite Es in Es2. apply ok_inj in Es2. subst sigma2.
  pose proof (domain_new_k _ _ _ _ Ed) as Kd.
  destruct (compress_small _ _ _ _ Ec) as [SM LP].
  { unfold selector_rows. rewrite map_length, seq_length. reflexivity. }
  assert (PM : Permutation (map sa_selector asgs) (seq 0 15)).
  { pose proof (cp_all _ _ _ _ _ _ CP) as X. unfold reps_of in X. rewrite map_map in X. rewrite bcs_selectors in X. exact X. }
  assert (LA : length asgs = 15).
  { apply Permutation_length in PM. rewrite map_length, seq_length in PM. exact PM. }
  split; [|exact Kd].
  unfold from_parts. constructor; cbn [vk_domain vk_fixed vk_permutation vk_cs vk_degree vk_assignments].
  - rewrite Kd. exact Hk.
  - rewrite Kd. exact Ed.
  - split.
    + unfold fits32. rewrite map_length, app_length, map_length, seq_length, bcs_fixed. lia.
    + apply Forall_forall. intros x I. apply in_map_iff in I as (l & <- & _). apply HC.
  - split.
    + rewrite map_length. exact Ls.
    + apply Forall_forall. intros x I. apply in_map_iff in I as (l & <- & _). apply HC.
  - rewrite Forall_forall in SM. split; [unfold fits32; rewrite LA; reflexivity|]. split.
    + apply Forall_forall. intros x I. destruct (SM x I) as (A & B & _).
      assert (S15 : sa_selector x < 15).
      { apply (in_map sa_selector) in I. apply (Permutation_in _ PM) in I. apply in_seq in I. lia. }
      unfold fits_assign, fits32. split; [lia|]. split; [lia|exact B].
    + apply Forall_forall. intros x I. destruct (SM x I) as (_ & _ & B). lia.
  - auto.
Qed.
