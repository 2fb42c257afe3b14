(** Keys of runs are small: almost all selectors are enabled on the first row, so
    hardly any of them share a column. *)
From Coq Require Import ZArith List Lia Bool Arith Permutation.
From Verif Require Import Base Moduli Field FieldFacts ListFacts BFSpec BFFacts VMCompile CompileSpec CompileFacts VMModel TraceSpec VMTrace LimbModel Halo2Model
  LimbFacts LimbBytes CircuitModel CircuitFacts KeygenFacts Completeness SelectorModel SelectorSpec SelectorFacts SelectorMain SelectorClaims
  SerdeModel SerdeFacts DomainModel DomainFacts PermModel PermFacts PermClaims VkModel VkSpec VkFacts VkReject SerdeSpec EntryModel EntrySpec EntryFacts VerifierModel VerifierSpec VerifierProject.
Import ListNotations.
Local Open Scope nat_scope.

Definition expr_bytes (e : expr) : nat := length (write_expr RawBytes e).
Definition asg_bytes (l : list selassign) : nat := length (flat_map (write_selassign RawBytes) l).
Lemma asg_bytes_app l m : asg_bytes (l ++ m) = asg_bytes l + asg_bytes m.
Proof. unfold asg_bytes. rewrite flat_map_app, app_length. reflexivity. Qed.
Lemma fr_bytes c : length (write_fr RawBytes c) = 32.
Proof. unfold write_fr, write_field, write_raw. rewrite !app_length, !le_bytes_length. reflexivity. Qed.
Lemma one_assignment s i e : length (write_selassign RawBytes (SelAssign s i e)) = 8 + expr_bytes e.
Proof. unfold write_selassign, u32_be. cbn [sa_selector sa_combination sa_expr]. rewrite !app_length, !be_bytes_length. unfold expr_bytes. lia. Qed.
Lemma fixed_bytes q : expr_bytes (EFixed q) = 13.
Proof. unfold expr_bytes. cbn [write_expr]. unfold write_query, u32_be, i32_be. rewrite !app_length, !be_bytes_length. reflexivity. Qed.
Lemma factor_bytes acc root q : expr_bytes q = 13 -> expr_bytes (EProd acc (esub (EConst root) q)) = expr_bytes acc + 49.
Proof.
  intros Q. unfold expr_bytes in *. unfold esub. cbn [write_expr]. rewrite !app_length, fr_bytes. cbn [length]. lia.
Qed.
Lemma root_product_bytes q a : expr_bytes q = 13 -> (Z.of_nat a < r_modulus)%Z -> forall len b acc, (Z.of_nat (b + len) <= r_modulus)%Z ->
  expr_bytes (root_product len q (FrZ (Z.of_nat a)) (FrZ (Z.of_nat b)) acc) =
  expr_bytes acc + 49 * (len - (if (b <=? a) && (a <? b + len) then 1 else 0)).
Proof.
  intros Dq Ha. induction len; intros b acc Hb; cbn [root_product].
  - destruct (Nat.leb_spec b a); destruct (Nat.ltb_spec a (b + 0)); cbn [andb]; lia.
  - rewrite FrZ_succ, IHlen by lia.
    destruct (feqb_spec (FrZ (Z.of_nat b)) (FrZ (Z.of_nat a))) as [E|N].
    + apply FrZ_small_inj in E; [|lia..]. apply Nat2Z.inj in E. subst b.
      destruct (Nat.leb_spec (S a) a); [lia|]. destruct (Nat.leb_spec a a); [|lia].
      destruct (Nat.ltb_spec a (a + S len)); [|lia]. cbn [andb]. lia.
    + assert (Nba : b <> a) by congruence. rewrite factor_bytes by exact Dq.
      destruct (Nat.leb_spec (S b) a), (Nat.leb_spec b a), (Nat.ltb_spec a (S b + len)),
        (Nat.ltb_spec a (b + S len)); cbn [andb]; lia.
Qed.
Lemma block_bytes len index q : expr_bytes q = 13 -> (Z.of_nat (1 + len) <= r_modulus)%Z -> forall comb a col, 1 <= a -> a + length comb <= 1 + len ->
  asg_bytes (snd (assign_comb comb len index q (FrZ (Z.of_nat a)) col)) = length comb * (21 + 49 * (len - 1)).
Proof.
  intros Q HL. induction comb as [|s comb IH]; intros a col Ha H; cbn [assign_comb length] in *; [reflexivity|].
  rewrite FrZ_succ. specialize (IH (S a) (set_rows col (sd_act s) (FrZ (Z.of_nat a))) ltac:(lia) ltac:(lia)).
  destruct (assign_comb comb len index q _ _) as [col' asgs]. cbn [snd] in *.
  change (asg_bytes (?x :: asgs)) with (asg_bytes ([x] ++ asgs)). rewrite asg_bytes_app, IH. unfold asg_bytes. cbn [flat_map]. rewrite app_nil_r, one_assignment.
  change f1 with (FrZ (Z.of_nat 1)). rewrite root_product_bytes by (assumption || lia).
  destruct (Nat.leb_spec 1 a); [|lia]. destruct (Nat.ltb_spec a (1 + len)); [|lia]. cbn [andb]. rewrite Q. lia.
Qed.

(** ** Charges *)
Definition off (d : seldesc) : bool := negb (act_at d 0).
Definition offs (l : list seldesc) : nat := length (filter off l).
Lemma offs_app l m : offs (l ++ m) = offs l + offs m.
Proof. unfold offs. rewrite filter_app, app_length. reflexivity. Qed.
Lemma offs_perm l m : Permutation l m -> offs l = offs m.
Proof.
  intros P. unfold offs. induction P as [|x l m P IH|x y l|l m k P1 IH1 P2 IH2]; cbn [filter]; try (destruct (off x)); try (destruct (off y)); cbn [length]; congruence.
Qed.
Lemma offs_cons d l : offs (d :: l) = (if off d then 1 else 0) + offs l.
Proof. unfold offs. cbn [filter]. destruct (off d); reflexivity. Qed.
(** in a combination one selector at most is enabled on the first row *)
Lemma comb_offs n maxd d comb : good_comb n maxd d comb -> length comb <= 1 + offs comb.
Proof.
  intros G. assert (D := gc_disj _ _ _ _ G). clear G. induction comb as [|s comb IH]; [cbn; lia|].
  rewrite offs_cons. cbn [length]. unfold off at 1. destruct (act_at s 0) eqn:E; cbn [negb].
  - assert (A : offs comb = length comb).
    { clear IH. assert (F : forall t, List.In t comb -> off t = true).
      { intros t I. apply In_nth_error in I as [j Ej]. unfold off. rewrite (D 0 (S j) s t 0); [reflexivity|lia|reflexivity|exact Ej|exact E]. }
      clear D. induction comb as [|t comb IH]; [reflexivity|]. rewrite offs_cons, (F t (or_introl eq_refl)), IH; [reflexivity|]. intros x I. apply F. right. exact I. }
    lia.
  - assert (H : length comb <= 1 + offs comb) by (apply IH; intros i j a b row L Ei Ej; apply (D (S i) (S j) a b row); [lia|exact Ei|exact Ej]). lia.
Qed.
Definition charge (l : list seldesc) : nat := 21 * length l + 245 * offs l.
Lemma comb_charge comb : length comb <= 1 + offs comb -> offs comb <= 4 -> length comb * (21 + 49 * (length comb - 1)) <= charge comb.
Proof. unfold charge. intros H H4. set (x := offs comb) in *. set (L := length comb) in *. clearbody x L. destruct L; [lia|]. replace (S L - 1) with L by lia. nia. Qed.

Section Loops.
Context {S : Type} (alloc : S -> res (expr * S)).
Hypothesis HA : forall s e s', alloc s = Ok (e, s') -> expr_bytes e = 13.
Lemma combine_bytes n maxd : forall sels i added combs asgs s combs' asgs' s',
  length added = i + length sels -> (Z.of_nat (1 + length sels) < r_modulus)%Z ->
  (forall d, List.In d sels -> length (sd_act d) = n /\ 0 < sd_deg d) -> offs (pending sels i added) <= 4 ->
  combine_all alloc n maxd sels i added combs asgs s = Ok (combs', asgs', s') ->
  asg_bytes asgs' <= asg_bytes asgs + charge (pending sels i added).
Proof.
  induction sels as [|d sels IH]; intros i added combs asgs s combs' asgs' s' L Hr HS HO H; cbn [combine_all pending] in *.
  - injection H as <- <- <-. lia.
  - cbn [length] in L, Hr. replace (i + 1) with (Datatypes.S i) in H by lia.
    destruct (nth i added false) eqn:Ei. { apply IH in H; [exact H|lia|lia|intros; apply HS; right; auto|exact HO]. }
    destruct (Nat.ltb_spec maxd (sd_deg d)) as [|GE]; [discriminate|].
    destruct (HS d (or_introl eq_refl)) as [Ld Dd].
    assert (G0 : good_comb n maxd (sd_deg d - 1) [d]).
    { constructor.
      - intros t [<-|[]]. repeat split; auto.
      - cbn [length]. lia.
      - intros a b x y row Hab Ex Ey. destruct b as [|[|b]]; [lia| |]; (destruct a as [|[|a]]; try discriminate; try lia). }
    destruct (try_spec n maxd sels (Datatypes.S i) (sd_deg d - 1) [d] (upd added i true) G0) as (new & a' & d' & E & G & L' & K & P).
    { rewrite upd_length. lia. }
    { intros; apply HS; right; auto. }
    rewrite upd_length in L'. rewrite E in H. clear E. apply bind_ok in H as ([q s1] & Eq & H). apply HA in Eq.
    rewrite <- (pending_ext sels (Datatypes.S i) added (upd added i true)) in P by (intros k Hk; symmetry; apply nth_upd_neq; lia).
    assert (Lnew : length new <= length sels).
    { apply Permutation_length in P. rewrite app_length in P. pose proof (pending_le sels (Datatypes.S i) added). lia. }
    assert (OP := offs_perm _ _ P). rewrite offs_app in OP. rewrite offs_cons in HO.
    assert (CL := comb_offs _ _ _ _ G). assert (CO : offs ([d] ++ new) = (if off d then 1 else 0) + offs new) by (cbn [app]; apply offs_cons).
    assert (B := comb_charge _ CL ltac:(rewrite CO; lia)).
    assert (BB := block_bytes (length ([d] ++ new)) (length combs) q Eq ltac:(cbn [app length]; lia) ([d] ++ new) 1 (repeat f0 n) (le_n 1) (le_n _)).
    change (FrZ (Z.of_nat 1)) with (f1 : Fr) in BB. destruct (assign_comb _ _ _ _ _ _) as [col blk]. cbn [snd] in BB.
    apply IH in H; [|lia|lia|intros; apply HS; right; auto|lia].
    rewrite asg_bytes_app, BB in H.
    assert (PL := Permutation_length P). rewrite app_length in PL. revert H B. unfold charge. rewrite CO, offs_cons. cbn [app length]. lia.
Qed.
Lemma alone_bytes : forall sels combs asgs s rest combs' asgs' s', alone alloc sels combs asgs s = Ok (rest, combs', asgs', s') ->
  asg_bytes asgs' + charge rest <= asg_bytes asgs + charge sels.
Proof.
  induction sels as [|d sels IH]; intros combs asgs s rest combs' asgs' s' H; cbn [alone] in H.
  - injection H as <- <- <- <-. lia.
  - destruct (Nat.eqb_spec (sd_deg d) 0) as [E0|N0].
    + apply bind_ok in H as ([q s1] & Eq & H). apply HA in Eq. apply IH in H. rewrite asg_bytes_app in H.
      unfold asg_bytes at 3 in H. cbn [flat_map] in H. rewrite app_nil_r, one_assignment, Eq in H. unfold charge in *. rewrite offs_cons. cbn [length]. lia.
    + apply bind_ok in H as ([[[rest1 combs1] asgs1] s1] & E & H). injection H as <- <- <- <-. apply IH in E. unfold charge in *. rewrite !offs_cons. cbn [length]. lia.
Qed.
Lemma process_bytes n maxd sels s combs asgs s' : (forall d, List.In d sels -> length (sd_act d) = n) -> (Z.of_nat (1 + length sels) < r_modulus)%Z -> offs sels <= 4 ->
  process sels maxd alloc s = Ok (combs, asgs, s') -> asg_bytes asgs <= charge sels.
Proof.
  intros HS Hr HO H. unfold process in H. destruct sels as [|d0 sels]; [injection H as <- <- <-; cbn; lia|].
  assert (Ln : length (sd_act d0) = n) by (apply HS; left; reflexivity).
  destruct (negb _); [discriminate|]. apply bind_ok in H as ([[[rest combs1] asgs1] s1] & E & H). rewrite Ln in H.
  assert (B := alone_bytes _ _ _ _ _ _ _ _ E). apply (alone_spec alloc n maxd) in E; [|exact HS].
  destruct E as (qs & cols & new & ds & E1 & E2 & Lq & EM & PM & HD & F2).
  assert (LR : length rest <= length (d0 :: sels)) by (rewrite (Permutation_length PM), app_length; lia).
  assert (OR : offs rest <= 4) by (rewrite (offs_perm _ _ PM), offs_app in HO; lia).
  apply combine_bytes in H; [|rewrite repeat_length; reflexivity|lia| |rewrite pending_none; exact OR].
  - rewrite pending_none in H. change (asg_bytes []) with 0 in B. lia.
  - intros d Hd. split; [|apply HD, Hd]. apply HS. apply Permutation_in with (ds ++ rest); [symmetry; exact PM|]. apply in_app_iff. auto.
Qed.
End Loops.
Lemma alloc_bytes s e s' : alloc_column s = Ok (e, s') -> expr_bytes e = 13.
Proof.
  destruct s as [c cols]. unfold alloc_column. destruct (fixed_column c) as [[col c1]|]; [|discriminate]. cbn [bind].
  destruct (query_fixed_index col cur c1) as [[i c2]|]; [|discriminate]. cbn [bind]. intros H. assert (E : e = EFixed (Query i col cur)) by congruence. rewrite E. apply fixed_bytes.
Qed.

Lemma describe_offs acts : forall i ds, length ds = length acts -> offs (describe i acts ds) = length (filter (fun a => negb (nth 0 a false)) acts).
Proof.
  induction acts as [|a acts IH]; intros i [|d ds] L; try discriminate; [reflexivity|]. cbn [describe filter]. rewrite offs_cons. unfold off, act_at. cbn [sd_act].
  rewrite IH by (injection L; auto). destruct (nth 0 a false); reflexivity.
Qed.
Lemma compress_bytes n acts c' polys asgs : compress_selectors bcs acts = Ok (c', polys, asgs) -> (forall a, List.In a acts -> length a = n) ->
  length acts = 15 -> length (filter (fun a => negb (nth 0 a false)) acts) <= 4 -> asg_bytes asgs <= 1295.
Proof.
  intros H HL LA HO. unfold compress_selectors in H. destruct (negb _); [discriminate|]. apply bind_ok in H as (ds & ED & H).
  apply bind_ok in H as ([[p1 a1] [c1 cols]] & EP & H).
  apply bind_ok in H as ([m r] & _ & H). apply bind_ok in H as (m' & _ & H). apply bind_ok in H as (r' & _ & H).
  apply bind_ok in H as (c2 & _ & H). injection H as <- <- <-.
  assert (LD := sel_degrees_length _ _ _ ED). rewrite repeat_length in LD.
  assert (LS : length (describe 0 acts ds) = 15) by (rewrite <- (map_length sd_selector), SelectorClaims.describe_sel, seq_length by lia; exact LA).
  assert (LO := describe_offs acts 0 ds LD).
  apply (process_bytes alloc_column alloc_bytes n) in EP.
  - unfold charge in EP. rewrite LS, LO in EP. lia.
  - intros d Hd. apply SelectorClaims.describe_in in Hd as (j & _ & H & _). apply HL. eapply nth_error_In; eauto.
  - rewrite LS. vm_compute. reflexivity.
  - rewrite LO. exact HO.
Qed.
Lemma first_row n m cc sc asm : bf_keygen n m = EOk (cc, sc, asm) -> 2 <= zp (sizes_of m) -> 2 <= zm (sizes_of m) -> 2 <= zi (sizes_of m) -> 0 < n ->
  length (filter (fun a => negb (nth 0 a false)) (selector_rows bcs n asm)) <= 4.
Proof.
  intros K P2 M2 I2 Hn. destruct (keygen_spec _ _ _ _ _ K) as (_ & _ & _ & _ & KF). assert (KS := key_sel _ _ KF).
  destruct (selector_rows_spec bcs n asm) as (L1 & _ & L3). rewrite bcs_selectors in L1, L3.
  assert (A : forall s, s < 15 -> sel_spec (sizes_of m) s 0 = true -> nth 0 (nth s (selector_rows bcs n asm) []) false = true).
  { intros s Hs E. change (nth 0 (nth s (selector_rows bcs n asm) []) false) with (active (selector_rows bcs n asm) s 0). rewrite L3 by lia.
    apply existsb_exists. exists (s, 0). split; [apply KS, E|]. cbn [fst snd]. rewrite Nat.eqb_refl. reflexivity. }
  destruct (selector_rows bcs n asm) as [|a0 [|a1 [|a2 [|a3 [|a4 [|a5 [|a6 [|a7 [|a8 [|a9 [|a10 [|a11 [|a12 [|a13 [|a14 [|? ?]]]]]]]]]]]]]]]]; try discriminate L1.
  pose proof (A 0 ltac:(lia)) as A0. pose proof (A 1 ltac:(lia)) as A1. pose proof (A 2 ltac:(lia)) as A2. pose proof (A 3 ltac:(lia)) as A3. pose proof (A 4 ltac:(lia)) as A4.
  pose proof (A 5 ltac:(lia)) as A5. pose proof (A 6 ltac:(lia)) as A6. pose proof (A 7 ltac:(lia)) as A7. pose proof (A 8 ltac:(lia)) as A8. pose proof (A 9 ltac:(lia)) as A9. pose proof (A 11 ltac:(lia)) as A11.
  clear A KS K L1 L3. revert A0 A1 A2 A3 A4 A5 A6 A7 A8 A9 A11. generalize dependent (sizes_of m). intros z P2 M2 I2.
  cbn [sel_spec nth filter]. rewrite !(proj2 (Nat.ltb_lt _ _)) by lia.
  intros A0 A1 A2 A3 A4 A5 A6 A7 A8 A9 A11.
  rewrite A0, A1, A2, A3, A4, A5, A6, A7, A8, A9, A11 by reflexivity. cbn [negb].
  destruct (negb _), (negb _), (negb _), (negb _); cbn [length]; lia.
Qed.
Theorem key_bytes commit pr k m v : keygen_vk commit pr k m = EOk v -> 2 <= zp (sizes_of m) -> 2 <= zm (sizes_of m) -> 2 <= zi (sizes_of m) ->
  (lenZ (write_vk RawBytes v) <= 3355)%Z.
Proof.
  intros H P2 M2 I2. apply keygen_vk_parts in H as (d & a & c' & polys & asgs & p & sigma & Ed & EK & Ec & Ep & Es & Ev).
  assert (Hn : 0 < circuit_rows k).
  { assert (F : KeygenFacts.fits (circuit_rows k) (sizes_of m)) by (apply (proj1 (keygen_iff _ _)); eauto). destruct F. lia. }
  assert (LR : length (selector_rows bcs (circuit_rows k) a) = 15) by (rewrite (proj1 (selector_rows_spec bcs _ a)); apply bcs_selectors).
  assert (FR := first_row _ _ _ _ _ EK P2 M2 I2 Hn).
  assert (AB := compress_bytes (circuit_rows k) _ _ _ _ Ec (proj1 (proj2 (selector_rows_spec bcs _ a))) LR FR).
  destruct (compress_small _ _ _ _ Ec) as [_ LP]; [rewrite LR; symmetry; apply bcs_selectors|].
  destruct (sigma_ok DELTA (d_omega d) _ _ _ _ _ bcs_perm_nodup (le_n _) Ep) as (sigma2 & Es2 & Ls & _).
  rewrite Es in Es2. apply ok_inj in Es2. subst sigma2.
  assert (N6 : length (perm_columns bcs) = 16) by (vm_compute; reflexivity).
  assert (VF : length (vk_fixed v) = 1 + length polys).
  { rewrite Ev. cbn [from_parts vk_fixed]. rewrite map_length, app_length, map_length, seq_length, bcs_fixed. reflexivity. }
  assert (VP : length (vk_permutation v) = 16) by (rewrite Ev; cbn [from_parts vk_permutation]; rewrite map_length, Ls; exact N6).
  assert (VA : vk_assignments v = asgs) by (rewrite Ev; reflexivity).
  assert (T : length (write_vk RawBytes v) = 12 + 64 * (length (vk_fixed v) + length (vk_permutation v)) + asg_bytes (vk_assignments v)).
  { unfold write_vk, u32_be. rewrite !app_length, !be_bytes_length.
    change (flat_map (write_g1 RawBytes)) with (flat_map g1_write_raw). rewrite !flat_raw_length. unfold asg_bytes. lia. }
  unfold lenZ. rewrite T, VF, VP, VA. lia.
Qed.

(** ** The keys of runs *)
Lemma trace_some W w i ip c ip' c' : trace W w i ip c [] ip' c' -> ip' = ip.
Proof. intros T. inversion T. reflexivity. Qed.
Lemma run_rows pr src p inp c fuel s n : parses src p -> (1 <= program_words p <= 65535)%Z -> in_range 8 inp ->
  compile pr src = Ok c -> run pr fuel (start c (easygen inp)) = Finished s -> (Z.of_nat n < 2 ^ 64)%Z -> KeygenFacts.fits n (sizes_of (mat s)) ->
  2 <= zp (sizes_of (mat s)) /\ 2 <= zm (sizes_of (mat s)) /\ 2 <= zi (sizes_of (mat s)).
Proof.
  intros Hp Hw Hin Hc Hr Hn F.
  assert (HN : (Z.of_nat (length (processor_matrix (mat s))) < 2 ^ 64)%Z) by (unfold KeygenFacts.fits in F; cbn [sizes_of zp] in F; lia).
  destruct (F_rec pr src p inp c fuel s Hp Hw Hin Hc Hr HN) as (W & rows & last & c' & ks & ipf & cf & E & L & R).
  pose proof (run_sizes _ _ _ _ _ _ _ _ _ R) as S. cbn zeta in S.
  assert (LW : (1 <= lenZ W)%Z).
  { pose proof (compile_emit pr src p Hp ltac:(lia)) as X. unfold compile in Hc. rewrite X in Hc. cbn [bind] in Hc. apply ok_inj in Hc. rewrite E in Hc.
    apply (f_equal (@length Fr)) in Hc. rewrite !map_length in Hc. pose proof (emit_length p 0) as Y. unfold lenZ in *. lia. }
  assert (P2 : 2 <= zp (sizes_of (mat s))).
  { cbn [sizes_of zp]. rewrite (rr_P _ _ _ _ _ _ _ _ _ R), app_length. cbn [length]. destruct rows as [|r rows]; [|cbn [length]; lia].
    pose proof (trace_some _ _ _ _ _ _ _ (rr_trace _ _ _ _ _ _ _ _ _ R)). lia. }
  lia.
Qed.
Theorem run_key_bytes commit pr' k v pr src p inp c fuel s : parses src p -> (1 <= program_words p <= 65535)%Z -> in_range 8 inp ->
  compile pr src = Ok c -> run pr fuel (start c (easygen inp)) = Finished s -> (0 <= k < 63)%Z -> keygen_vk commit pr' k (mat s) = EOk v ->
  (lenZ (write_vk RawBytes v) <= 4096)%Z.
Proof.
  intros Hp Hw Hin Hc Hr Hk KG. pose proof KG as KG'. apply keygen_vk_parts in KG' as (d & a & c' & polys & asgs & q & sigma & _ & EK & _).
  assert (F : KeygenFacts.fits (circuit_rows k) (sizes_of (mat s))) by (apply (proj1 (keygen_iff _ _)); eauto).
  assert (Hn : (Z.of_nat (circuit_rows k) < 2 ^ 64)%Z).
  { unfold circuit_rows. assert (0 < 2 ^ k)%Z by (apply Z.pow_pos_nonneg; lia). rewrite Z2Nat.id by lia. apply Z.pow_lt_mono_r; lia. }
  destruct (run_rows pr src p inp c fuel s _ Hp Hw Hin Hc Hr Hn F) as (P2 & M2 & I2).
  pose proof (key_bytes _ _ _ _ _ KG P2 M2 I2). lia.
Qed.
Theorem run_transaction commit k v pr stack verify q q' src p inp ws fuel s proof :
  parses src p -> (1 <= program_words p < 1024)%Z -> in_range 8 inp -> compile_to_u16 pr src = Ok ws -> length inp < 1024 ->
  run pr fuel (start (map FrZ ws) (easygen inp)) = Finished s ->
  (forall l, g1_coords (commit l)) -> 18 <= stack -> (0 <= k < 63)%Z -> keygen_vk commit pr k (mat s) = EOk v ->
  valid_params q -> (1 <= kz_k q < 31)%Z -> shrink q SHRINK_K = Ok q' -> length proof = proof_size v ->
  bf_verifier pr stack verify (tx_witness (write_kzg q') (write_vk RawBytes v) proof (code_bytes ws) inp) =
  match verify q' v (statement ws inp) proof with
  | Panic => Crash | Ok false => Exit (-2) | Ok true => Exit 0
  end.
Proof.
  intros Hp Hw Hin C Li Hr HC Hs Hk KG VP Kp Sh LP.
  assert (CC : compile pr src = Ok (map FrZ ws)) by (unfold compile; rewrite C; reflexivity).
  assert (LW : length ws < 1024).
  { pose proof (compile_emit pr src p Hp ltac:(lia)) as X. rewrite C in X. apply ok_inj in X. subst ws. pose proof (emit_length p 0). lia. }
  assert (LK := run_key_bytes commit pr k v pr src p inp (map FrZ ws) fuel s Hp ltac:(lia) Hin CC Hr Hk KG).
  destruct (keygen_complete _ _ _ _ _ KG Hk) as (K & NI & SZ).
  assert (VK : valid_key pr stack bcs v) by (apply (keygen_valid commit pr k (mat s) v HC ltac:(lia) KG stack Hs)).
  rewrite <- public_statement. apply (transaction pr stack verify q q' v proof src ws (map FrZ ws) inp); try assumption. unfold lenZ. rewrite LP. exact SZ.
Qed.
