(** The repaired circuit is sound (C21, C39). *)
From Coq Require Import ZArith List Arith Lia Permutation Bool.
From Verif Require Import Base Field FieldFacts AlgebraSpec PolyFacts AccFacts ListFacts BFSpec BFFacts CompileSpec CompileFacts
  VMModel VMCompile VMSim TraceSpec VMInv VMTrace Halo2Model CircuitModel CircuitFacts KeygenFacts CircuitSpec LocalSound
  HonestFacts SoundSpec RepairSpec RepairFacts Completeness.
Import List ListNotations.
Local Open Scope F_scope.

Lemma nth_map_seq {B} (f : nat -> B) N i v : nth_error (map f (seq 0 N)) i = Some v -> (i < N)%nat /\ v = f i.
Proof.
  intros H. assert (Hi : (i < N)%nat).
  { assert (X : (i < length (map f (seq 0 N)))%nat) by (apply nth_error_Some; congruence).
    rewrite map_length, seq_length in X. exact X. }
  split; [exact Hi|]. rewrite nth_error_map, (nth_error_nth' _ 0%nat), seq_nth in H
    by (rewrite ?seq_length; exact Hi). injection H as <-. reflexivity.
Qed.

Definition phase0 (col : nat) : Prop := nth col (advice_phases bcs) 0%nat = 0%nat.

(** The accumulator conditions in terms of column numbers. *)
Record sums0 (i0 : Fr) (z : sizes) (A : nat -> nat -> Fr) : Prop := mkS0 {
  s0_mem : A 7%nat 0%nat = FrZ 3 /\ A 14%nat 0%nat = FrZ 3;
  s0_inst : A 8%nat 0%nat = FrZ 9 /\ A 18%nat 0%nat = FrZ 9;
  s0_code : A 19%nat 0%nat = f0 /\ A 27%nat 0%nat = f0;
  s0_out : A 9%nat 0%nat = i0 /\ A 21%nat 0%nat = i0;
  s0_in : A 10%nat 0%nat = i0 /\ A 24%nat 0%nat = i0;
  s0_code_last : A 19%nat (zi z) = A 19%nat (zi z - 1)%nat;
  s0_out_last : A 9%nat (zp z) = A 9%nat (zp z - 1)%nat;
  s0_in_last : A 10%nat (zp z) = A 10%nat (zp z - 1)%nat
}.

Section Rep.
Variables (i0 : Fr) (n : nat) (z : sizes) (inst : nat -> nat -> Fr) (A0 : nat -> nat -> Fr).
Hypothesis Hn : (Z.of_nat n <= 2 ^ 28)%Z.
Hypothesis Hfit : KeygenFacts.fits n z.
Hypothesis Hall : forall ch, exists A, (forall col r, phase0 col -> A col r = A0 col r) /\ sums0 i0 z A /\ sat n z inst ch A.
(* memory table *)
Hypothesis Tm0 : A0 12%nat 0%nat = f0.
Hypothesis Tmo : forall r, (S r < zm z)%nat -> A0 12%nat (S r) = A0 12%nat r -> (fval (A0 11%nat r) < fval (A0 11%nat (S r)))%Z.
(* instruction table *)
Hypothesis Ti : (0 < zi z)%nat.
Hypothesis Ti0 : A0 15%nat 0%nat = f0.
Hypothesis Til : forall r, (S r < zi z)%nat -> A0 15%nat (S r) <> A0 15%nat r -> A0 17%nat r = A0 16%nat (S r).
Hypothesis Tie : A0 15%nat (zi z - 1)%nat = A0 26%nat 0%nat /\ A0 16%nat (zi z - 1)%nat = f0 /\ A0 17%nat (zi z - 1)%nat = f0.
Hypothesis Tp : (0 < zp z)%nat.
Hypothesis Tpe : A0 2%nat (zp z - 1)%nat = A0 26%nat 0%nat.

Lemma two28 : (2 ^ 28 < 2 ^ 64)%Z. Proof. reflexivity. Qed.
Lemma small k : (k <= n)%nat -> (Z.of_nat k < 2 ^ 64)%Z.
Proof. pose proof two28. lia. Qed.
Lemma sizes_n : (zp z < n /\ zm z < n /\ zi z < n /\ zo z < n /\ zu z < n /\ zg z < n)%nat.
Proof. unfold KeygenFacts.fits in Hfit. lia. Qed.


Lemma r_view A r : (forall col r, phase0 col -> A col r = A0 col r) -> view conf A r = view conf A0 r.
Proof. intros E. unfold view. cbn [p_config conf p_clk p_ip p_ci p_ni p_mp p_mv p_mvi ac_index]. rewrite !E by reflexivity. reflexivity. Qed.

Lemma r_step r : (S r < zp z)%nat -> step_ok (view conf A0 r) (view conf A0 (S r)).
Proof.
  intros Hr. destruct (Hall (fun _ => f0)) as (A & E & _ & S). rewrite <- !(r_view A) by exact E.
  exact (sat_step _ _ _ _ _ S r Hr).
Qed.
Lemma r_byte r : (r < zp z)%nat -> exists k, (0 <= k < 256)%Z /\ A0 5%nat r = FrZ k.
Proof.
  intros Hr. destruct (Hall (fun _ => f0)) as (A & E & _ & S).
  destruct (sat_range _ _ _ _ _ S r Hr) as (k & Hk & Ek). exists k. split; [exact Hk|].
  rewrite <- E by reflexivity. exact Ek.
Qed.
Lemma r_first : A0 0%nat 0%nat = f0 /\ A0 2%nat 0%nat = f0 /\ A0 4%nat 0%nat = f0 /\ A0 5%nat 0%nat = f0.
Proof.
  destruct (Hall (fun _ => f0)) as (A & E & _ & S). pose proof (sat_first _ _ _ _ _ S) as F.
  rewrite (E 0%nat), (E 2%nat), (E 4%nat), (E 5%nat) in F by reflexivity. exact F.
Qed.
Lemma r_clk r : (r < zp z)%nat -> A0 0%nat r = FrZ (Z.of_nat r).
Proof.
  induction r as [|r IH]; intros Hr; [apply r_first|].
  destruct (r_step r Hr) as (E & _). cbn [view v_clk p_config conf p_clk ac_index] in E.
  rewrite E, IH by lia. symmetry. apply FrZ_S.
Qed.

(** Gates between first-phase columns. *)
Lemma r_M r : (S r < zm z)%nat ->
  (A0 12%nat (S r) - A0 12%nat r - f1) * (A0 12%nat (S r) - A0 12%nat r) = f0 /\
  (A0 12%nat (S r) - A0 12%nat r - f1) * (A0 13%nat r - A0 13%nat (S r)) * (A0 11%nat (S r) - A0 11%nat r - f1) = f0 /\
  (A0 12%nat (S r) - A0 12%nat r) * A0 13%nat (S r) = f0.
Proof.
  intros Hr. destruct (Hall (fun _ => f0)) as (A & E & _ & S). pose proof (sat_rows _ _ _ _ _ S r) as Q.
  assert (On : sel_spec z 6 r = true) by (cbn [sel_spec]; apply Nat.ltb_lt; exact Hr).
  pose proof (e_M0 _ _ _ _ _ Q On) as E1. pose proof (e_M1 _ _ _ _ _ Q On) as E2. pose proof (e_M2 _ _ _ _ _ Q On) as E3.
  cbv beta in *. rewrite ?(E 11%nat), ?(E 12%nat), ?(E 13%nat) in E1 by reflexivity. rewrite ?(E 11%nat), ?(E 12%nat), ?(E 13%nat) in E2 by reflexivity. rewrite ?(E 11%nat), ?(E 12%nat), ?(E 13%nat) in E3 by reflexivity. split; [exact E1|split; [exact E2|exact E3]].
Qed.
Lemma r_I r : (S r < zi z)%nat ->
  (A0 15%nat (S r) - A0 15%nat r) * (A0 15%nat (S r) - A0 15%nat r - f1) = f0 /\
  (A0 15%nat (S r) - A0 15%nat r - f1) * (A0 16%nat (S r) - A0 16%nat r) = f0 /\
  (A0 15%nat (S r) - A0 15%nat r - f1) * (A0 17%nat (S r) - A0 17%nat r) = f0.
Proof.
  intros Hr. destruct (Hall (fun _ => f0)) as (A & E & _ & S). pose proof (sat_rows _ _ _ _ _ S r) as Q.
  assert (On : sel_spec z 11 r = true) by (cbn [sel_spec]; apply Nat.ltb_lt; exact Hr).
  pose proof (e_I0 _ _ _ _ _ Q On) as E1. pose proof (e_I1 _ _ _ _ _ Q On) as E2. pose proof (e_I2 _ _ _ _ _ Q On) as E3.
  cbv beta in *. rewrite ?(E 15%nat), ?(E 16%nat), ?(E 17%nat) in E1 by reflexivity. rewrite ?(E 15%nat), ?(E 16%nat), ?(E 17%nat) in E2 by reflexivity. rewrite ?(E 15%nat), ?(E 16%nat), ?(E 17%nat) in E3 by reflexivity. split; [exact E1|split; [exact E2|exact E3]].
Qed.

(** Challenge functions with given values. *)
Definition ch4 (base : nat) (al a b c : Fr) (i : nat) : Fr :=
  if Nat.eqb i base then al else if Nat.eqb i (base + 1) then a else if Nat.eqb i (base + 2) then b else c.

Definition proc_mem : list trip := map (fun r => (A0 0%nat r, A0 4%nat r, A0 5%nat r)) (seq 0 (zp z)).
Definition mem_rows : list trip := map (fun r => (A0 11%nat r, A0 12%nat r, A0 13%nat r)) (seq 0 (zm z)).
Definition proc_inst : list trip := map (fun r => (A0 2%nat r, A0 1%nat r, A0 3%nat r)) (seq 0 (zp z)).
Definition inst_rows : list trip :=
  inner (A0 15%nat) (A0 16%nat) (A0 17%nat) (zi z - 1) ++ [(A0 15%nat (zi z - 1)%nat, A0 16%nat (zi z - 1)%nat, A0 17%nat (zi z - 1)%nat)].

Lemma FrZ_ne k : (0 < k < 2 ^ 64)%Z -> FrZ k <> f0.
Proof. intros H E. rewrite f0_FrZ in E. apply FrZ_inj in E; lia. Qed.

Lemma r_mem_perm : Permutation proc_mem mem_rows.
Proof.
  pose proof sizes_n as HS.
  assert (L1 : length proc_mem = zp z) by (unfold proc_mem; rewrite map_length, seq_length; reflexivity).
  assert (L2 : length mem_rows = zm z) by (unfold mem_rows; rewrite map_length, seq_length; reflexivity).
  apply (C23_lemma proc_mem mem_rows (FrZ 3)).
  - apply FrZ_ne. lia.
  - rewrite L1. apply small. lia.
  - rewrite L2. apply small. lia.
  - intros al a b c. destruct (Hall (ch4 0 al a b c)) as (A & E & S0 & S).
    exists (A 7%nat), (A 14%nat). destruct (s0_mem _ _ _ S0) as [E7 E14].
    split; [|split; [|split; [exact E7|split; [exact E14|]]]].
    + intros i t Hi. apply nth_map_seq in Hi. destruct Hi as [Hi ->].
      pose proof (sat_rows _ _ _ _ _ S i) as Q.
      assert (On : sel_spec z 4 i = true) by (cbn [sel_spec]; apply Nat.ltb_lt; exact Hi).
      pose proof (e_pmem _ _ _ _ _ Q On) as G. cbv beta in G. cbn [ch4 Nat.eqb Nat.add] in G.
      rewrite (E 0%nat), (E 4%nat), (E 5%nat) in G by reflexivity.
      apply Fr_sub_eq. exact G.
    + intros i t Hi. apply nth_map_seq in Hi. destruct Hi as [Hi ->].
      pose proof (sat_rows _ _ _ _ _ S i) as Q.
      assert (On : sel_spec z 7 i = true) by (cbn [sel_spec]; apply Nat.ltb_lt; exact Hi).
      pose proof (e_mem _ _ _ _ _ Q On) as G. cbv beta in G. cbn [ch4 Nat.eqb Nat.add] in G.
      rewrite (E 11%nat), (E 12%nat), (E 13%nat) in G by reflexivity.
      apply Fr_sub_eq. exact G.
    + rewrite L1, L2. apply (sat_mem_prp _ _ _ _ _ S).
Qed.

Lemma r_inst_perm : Permutation proc_inst inst_rows.
Proof.
  pose proof sizes_n as HS.
  assert (L1 : length proc_inst = zp z) by (unfold proc_inst; rewrite map_length, seq_length; reflexivity).
  assert (L2 : (length inst_rows <= zi z)%nat).
  { unfold inst_rows, inner. rewrite app_length, map_length. cbn [length].
    pose proof (filter_le (fun r => negb (up (A0 15%nat) r)) (seq 0 (zi z - 1))) as F. rewrite seq_length in F. lia. }
  assert (B1 : few (length proc_inst)) by (unfold few; rewrite L1; apply small; lia).
  assert (B2 : few (length inst_rows)) by (unfold few; apply small; lia).
  apply (tprod_perm proc_inst inst_rows B1 B2).
  intros al a b c. rewrite <- !row_product_tprod.
  destruct (Hall (ch4 4 al a b c)) as (A & E & S0 & S). destruct (s0_inst _ _ _ S0) as [E8 E18].
  assert (P : A 8%nat (zp z) = FrZ 9 * row_product al a b c proc_inst).
  { rewrite <- L1, <- E8. apply running_product_end. intros i t Hi. apply nth_map_seq in Hi. destruct Hi as [Hi ->].
    pose proof (sat_rows _ _ _ _ _ S i) as Q.
    assert (On : sel_spec z 4 i = true) by (cbn [sel_spec]; apply Nat.ltb_lt; exact Hi).
    pose proof (e_pinst _ _ _ _ _ Q On) as G. cbv beta in G. cbn [ch4 Nat.eqb Nat.add] in G.
    rewrite (E 2%nat), (E 1%nat), (E 3%nat) in G by reflexivity.
    apply Fr_sub_eq. exact G. }
  assert (T : A 18%nat (zi z) = FrZ 9 * row_product al a b c inst_rows).
  { assert (T1 : A 18%nat (zi z - 1)%nat = FrZ 9 * row_product al a b c (inner (A0 15%nat) (A0 16%nat) (A0 17%nat) (zi z - 1))).
    { rewrite <- E18. apply (product_inner (zi z) (A0 15%nat) (A0 16%nat) (A0 17%nat)).
      - intros r Hr. apply (r_I r Hr).
      - intros r Hr. apply (r_I r Hr).
      - intros r Hr. apply (r_I r Hr).
      - intros r Hr. pose proof (sat_rows _ _ _ _ _ S r) as Q.
        assert (On : sel_spec z 8 r = true) by (cbn [sel_spec]; apply Nat.ltb_lt; exact Hr).
        pose proof (e_iprp _ _ _ _ _ Q On) as G. cbv beta in G. cbn [ch4 Nat.eqb Nat.add] in G.
        rewrite !(E 15%nat), !(E 16%nat), !(E 17%nat) in G by reflexivity. exact G.
      - lia. }
    pose proof (sat_rows _ _ _ _ _ S (zi z)) as Q.
    assert (On : sel_spec z 10 (zi z) = true) by (cbn [sel_spec]; apply Nat.eqb_refl).
    pose proof (e_iadhoc _ _ _ _ _ Q On) as G. cbv beta in G. cbn [ch4 Nat.eqb Nat.add] in G.
    replace (prev_row n (zi z)) with (zi z - 1)%nat in G by (destruct (zi z); [lia|cbn [prev_row]; lia]).
    rewrite (E 15%nat), (E 16%nat), (E 17%nat), T1 in G by reflexivity.
    unfold inst_rows. rewrite row_product_app. apply Fr_sub_eq. rewrite <- G.
    change (row_product al a b c [(A0 15%nat (zi z - 1)%nat, A0 16%nat (zi z - 1)%nat, A0 17%nat (zi z - 1)%nat)])
      with ((al - a * A0 15%nat (zi z - 1)%nat - b * A0 16%nat (zi z - 1)%nat - c * A0 17%nat (zi z - 1)%nat) * f1).
    fring. }
  pose proof (sat_inst_prp _ _ _ _ _ S) as EE. rewrite P, T in EE.
  apply (mul_cancel (FrZ 9)); [apply FrZ_ne; lia|exact EE].
Qed.

(** ** The code *)
Variable W : list Fr.
Hypothesis HW1 : length W = zg z.
Hypothesis HW2 : inst 0%nat 0%nat = FrZ (Z.of_nat (length W)).
Hypothesis HW3 : forall r, (r < length W)%nat -> inst 0%nat (S r) = nth r W f0.

Lemma r_len : A0 26%nat 0%nat = FrZ (Z.of_nat (length W)).
Proof.
  destruct (Hall (fun _ => f0)) as (A & E & _ & S). rewrite <- E by reflexivity. rewrite (sat_code_len _ _ _ _ _ S). exact HW2.
Qed.
Lemma r_program r : (r < zg z)%nat -> A0 25%nat r = nth r W f0.
Proof.
  intros Hr. destruct (Hall (fun _ => f0)) as (A & E & _ & S). rewrite <- E by reflexivity.
  rewrite (sat_code _ _ _ _ _ S) by exact Hr. apply HW3. lia.
Qed.
Lemma seq_nth_map (V : list Fr) : map (fun r => nth r V f0) (seq 0 (length V)) = V.
Proof.
  apply nth_ext with (d := f0) (d' := f0); [rewrite map_length, seq_length; reflexivity|].
  intros k Hk. rewrite map_length, seq_length in Hk.
  rewrite (nth_indep _ f0 (nth 0 V f0)) by (rewrite map_length, seq_length; exact Hk).
  change (nth 0 V f0) with ((fun r => nth r V f0) 0%nat). rewrite map_nth, seq_nth by exact Hk. reflexivity.
Qed.
Lemma run_horner g l rs s : rs 0%nat = s -> running_sum g l rs -> rs (length l) = horner g l s.
Proof. intros E H. rewrite (running_sum_end _ _ _ H), E, horner_sum. reflexivity. Qed.

Lemma r_starts : starts (A0 15%nat) (A0 16%nat) (zi z - 1) = W.
Proof.
  pose proof sizes_n as HS.
  assert (Hl : length (starts (A0 15%nat) (A0 16%nat) (zi z - 1)) = length W).
  { apply (starts_last_length (zi z) (A0 15%nat) (A0 16%nat) (A0 17%nat)).
    - apply small. lia.
    - exact Ti0.
    - intros r Hr. apply (r_I r Hr).
    - exact Ti.
    - rewrite <- r_len. exact Tie.
    - apply small. lia. }
  apply horner_inj_len; [exact Hl|rewrite Hl; unfold few; apply small; lia|].
  intros g. destruct (Hall (fun i => g)) as (A & E & S0 & S). destruct (s0_code _ _ _ S0) as [E19 E27].
  rewrite <- (sum_starts (zi z) (A0 15%nat) (A0 16%nat) (A0 17%nat) (fun r Hr => proj1 (r_I r Hr))
     (fun r Hr => proj1 (proj2 (r_I r Hr))) (fun r Hr => proj2 (proj2 (r_I r Hr))) g (A 19%nat) E19); [| |lia].
  - rewrite <- (s0_code_last _ _ _ S0), <- (sat_code_rs _ _ _ _ _ S).
    rewrite <- HW1. apply run_horner; [exact E27|]. intros i v Hi.
    assert (Li : (i < length W)%nat) by (apply nth_error_Some; congruence).
    apply (nth_error_nth W i (f0 : Fr)) in Hi. change (@nth Fr i W (f0 : Fr) = v) in Hi. 
    pose proof (sat_rows _ _ _ _ _ S i) as Q.
    assert (On : sel_spec z 14 i = true) by (cbn [sel_spec]; apply Nat.ltb_lt; lia).
    pose proof (e_code _ _ _ _ _ Q On) as G. cbv beta in G. rewrite (E 25%nat), r_program in G by (reflexivity || lia).
    change (A 27%nat (Datatypes.S i) - (A 27%nat i * g + @nth Fr i W (f0 : Fr)) = f0) in G. rewrite Hi in G. apply Fr_sub_eq. etransitivity; [|exact G]. fring.
  - intros r Hr. pose proof (sat_rows _ _ _ _ _ S r) as Q.
    assert (On : sel_spec z 9 r = true) by (cbn [sel_spec]; apply Nat.ltb_lt; exact Hr).
    pose proof (e_irs _ _ _ _ _ Q On) as G. cbv beta in G. rewrite !(E 15%nat), !(E 16%nat) in G by reflexivity. exact G.
Qed.

Lemma r_code r : (r < zp z)%nat -> exists a, (a <= length W)%nat /\ A0 2%nat r = FrZ (Z.of_nat a) /\
  A0 1%nat r = nth a W f0 /\ A0 3%nat r = nth (S a) W f0.
Proof.
  intros Hr. pose proof sizes_n as HS.
  assert (I : List.In (A0 2%nat r, A0 1%nat r, A0 3%nat r) inst_rows).
  { eapply Permutation_in; [exact r_inst_perm|]. apply in_map_iff. exists r. split; [reflexivity|apply in_seq; lia]. }
  assert (J : exists j, (j < zi z)%nat /\ (A0 2%nat r, A0 1%nat r, A0 3%nat r) = (A0 15%nat j, A0 16%nat j, A0 17%nat j)).
  { apply in_app_iff in I. destruct I as [I|[I|[]]].
    - apply inner_in in I. destruct I as (j & Hj & E). exists j. split; [lia|exact E].
    - exists (zi z - 1)%nat. split; [lia|]. symmetry. exact I. }
  destruct J as (j & Hj & E). injection E as E1 E2 E3. rewrite E1, E2, E3.
  apply (row_bound (zi z) (A0 15%nat) (A0 16%nat) (A0 17%nat)).
  - apply small. lia.
  - exact Ti0.
  - intros k Hk. apply (r_I k Hk).
  - intros k Hk. apply (r_I k Hk).
  - intros k Hk. apply (r_I k Hk).
  - exact Ti.
  - exact Til.
  - rewrite <- r_len. exact Tie.
  - apply small. lia.
  - exact r_starts.
  - exact Hj.
Qed.

(** ** Memory *)
Lemma r_visits j : (j < zp z)%nat ->
  (forall i, (S i < j)%nat -> A0 4%nat i = A0 4%nat j ->
     (forall k, (i < k)%nat -> (k < j)%nat -> A0 4%nat k <> A0 4%nat j) -> A0 5%nat j = A0 5%nat i) /\
  ((forall k, (k < j)%nat -> A0 4%nat k <> A0 4%nat j) -> A0 5%nat j = f0).
Proof.
  pose proof sizes_n as HS.
  apply (visits (zp z) (zm z) (A0 0%nat) (A0 4%nat) (A0 5%nat) (A0 11%nat) (A0 12%nat) (A0 13%nat)).
  - apply small. lia.
  - exact r_clk.
  - apply r_first.
  - exact r_mem_perm.
  - exact Tm0.
  - intros r Hr. apply (r_M r Hr).
  - intros r Hr. apply (r_M r Hr).
  - intros r Hr. apply (r_M r Hr).
  - exact Tmo.
Qed.
Lemma r_cellpos r : (r < zp z)%nat -> exists b, (b < zp z)%nat /\ A0 4%nat r = FrZ (Z.of_nat b).
Proof.
  pose proof sizes_n as HS.
  apply (small_pos (zp z) (zm z) (A0 0%nat) (A0 4%nat) (A0 5%nat) (A0 11%nat) (A0 12%nat) (A0 13%nat)).
  - exact r_clk.
  - exact r_mem_perm.
  - exact Tm0.
  - intros k Hk. apply (r_M k Hk).
Qed.

Lemma r_not_zero r : (S r < zp z)%nat -> A0 1%nat r <> f0.
Proof.
  intros Hr E0. pose proof sizes_n as HS.
  destruct (r_cellpos r ltac:(lia)) as (b & Hb & Eb). destruct (r_cellpos (S r) Hr) as (b' & Hb' & Eb').
  destruct (Hall (fun _ => f0)) as (A & E & _ & S). pose proof (sat_rows _ _ _ _ _ S r) as Q.
  assert (On : sel_spec z 2 r = true) by (cbn [sel_spec]; apply Nat.ltb_lt; exact Hr).
  pose proof (e_P2 _ _ _ _ _ Q On) as G. cbv beta in G. rewrite !(E 1%nat), !(E 4%nat), E0, Eb, Eb', FrZ_sub in G by reflexivity.
  revert G. apply no_step_at_zero. assert (2 ^ 28 < 2 ^ 30)%Z by reflexivity. lia.
Qed.

(** ** The program *)
Variables (pr : profile) (src : list Z) (p : list instr) (Wz inp : list Z).
Hypothesis Hb : balanced src.
Hypothesis Hc : (1 <= word_count src <= 65535)%Z.
Hypothesis HWc : compile_to_u16 pr src = Ok Wz.
Hypothesis EW : W = map FrZ Wz.
Hypothesis Hin : in_range 8 inp.
Hypothesis HU1 : length inp = zu z.
Hypothesis HU3 : forall r, (r < length inp)%nat -> inst 1%nat (S r) = FrZ (nth r inp 0%Z).
Hypothesis Hi0 : i0 <> f0.

Let lenW := lenZ Wz.
Lemma lenW_nat : lenW = Z.of_nat (length W).
Proof. unfold lenW, lenZ. rewrite EW, map_length. reflexivity. Qed.
Lemma lenW_small : (1 <= lenW <= 65535)%Z.
Proof. exact (W_len' pr src Wz Hc HWc). Qed.
Let at_ := at_op src.

Lemma at_range a : at_ a -> (0 <= a <= lenW)%Z.
Proof.
  intros (i & Hi & ->). split; [apply addr_nonneg|]. exact (addr_end pr src Wz Hc HWc i Hi).
Qed.
Lemma sm x : (0 <= x <= 65537)%Z -> (0 <= x < 2 ^ 64)%Z.
Proof. assert (65537 < 2 ^ 64)%Z by reflexivity. lia. Qed.

Lemma r_row r a : (S r < zp z)%nat -> at_ a -> A0 2%nat r = FrZ a ->
  exists i ch, nth_error (ops src) i = Some ch /\ a = addr (ops src) i /\ word Wz a = Some ch /\ (a < lenW)%Z /\
    A0 1%nat r = FrZ ch /\ A0 3%nat r = FrZ (word_or_0 Wz (a + 1)).
Proof.
  intros Hr Ha E. pose proof (at_range a Ha) as Ra. pose proof lenW_small as RW.
  destruct (r_code r ltac:(lia)) as (b & Hbl & Eb & Ec & En). rewrite E in Eb. apply FrZ_inj in Eb; [|apply sm; lia|
    rewrite lenW_nat in *; apply sm; lia]. subst a.
  rewrite EW in Ec, En. rewrite <- word_or_0_nth in Ec, En.
  replace (Z.of_nat (S b)) with (Z.of_nat b + 1)%Z in En by lia.
  destruct (Z_lt_dec (Z.of_nat b) lenW) as [L|L].
  - destruct (op_at pr src Wz Hc HWc _ Ha L) as (i & ch & E1 & E2 & E3). exists i, ch.
    split; [exact E1|]. split; [exact E2|]. split; [exact E3|]. split; [exact L|]. split; [|exact En].
    rewrite Ec. unfold word_or_0. rewrite E3. reflexivity.
  - exfalso. apply (r_not_zero r Hr). rewrite Ec, (word_or_0_end Wz) by (unfold lenW in *; lia). reflexivity.
Qed.

Lemma jump_at i ch : nth_error (ops src) i = Some ch -> ch = chr_open \/ ch = chr_close ->
  exists d, word Wz (addr (ops src) i + 1) = Some d /\ at_ d.
Proof.
  intros E [-> | ->].
  - destruct (proj1 (balanced_partner src i chr_open Hb E) eq_refl) as [j Hm].
    destruct (proj2 (proj2 (W_right pr src Wz Hc HWc)) i j Hm) as [J1 J2].
    exists (addr (ops src) j + 2)%Z. split; [exact J1|]. apply (at_op_next src j chr_close), Hm.
  - destruct (proj2 (balanced_partner src i chr_close Hb E) eq_refl) as [j Hm].
    destruct (proj2 (proj2 (W_right pr src Wz Hc HWc)) j i Hm) as [J1 J2].
    exists (addr (ops src) j + 2)%Z. split; [exact J2|]. apply (at_op_next src j chr_open), Hm.
Qed.

Lemma r_next r a : (S r < zp z)%nat -> at_ a -> A0 2%nat r = FrZ a -> exists a', at_ a' /\ A0 2%nat (S r) = FrZ a'.
Proof.
  intros Hr Ha E. destruct (r_row r a Hr Ha E) as (i & ch & Ei & -> & Ew & L & Ec & En).
  pose proof (r_step r Hr) as (_ & Sinc & Sdec & Sright & Sleft & Sout & Sin & Sopen & Sclose).
  unfold view in *. cbn [v_clk v_ip v_ci v_ni v_mp v_mv v_mvi p_config conf p_clk p_ip p_ci p_ni p_mp p_mv p_mvi ac_index] in *.
  pose proof (at_op_next src i ch Ei) as An.
  pose proof (instr_in src i ch Ei) as Hi. unfold instr_chars in Hi. cbn [List.In] in Hi.
  assert (One : A0 2%nat (S r) = A0 2%nat r + f1 -> width ch = 1%Z -> exists a', at_ a' /\ A0 2%nat (S r) = FrZ a').
  { intros E1 Ew1. exists (addr (ops src) i + width ch)%Z. split; [exact An|].
    rewrite E1, E, f1_FrZ, FrZ_add, Ew1. reflexivity. }
  assert (Two : A0 2%nat (S r) = A0 2%nat r + FrZ 2 -> width ch = 2%Z -> exists a', at_ a' /\ A0 2%nat (S r) = FrZ a').
  { intros E1 Ew1. exists (addr (ops src) i + width ch)%Z. split; [exact An|].
    rewrite E1, E, FrZ_add, Ew1. reflexivity. }
  assert (Jmp : ch = chr_open \/ ch = chr_close -> A0 2%nat (S r) = A0 3%nat r -> exists a', at_ a' /\ A0 2%nat (S r) = FrZ a').
  { intros Hch E1. destruct (jump_at i ch Ei Hch) as (d & Ed & Hd). exists d. split; [exact Hd|].
    rewrite E1, En. unfold word_or_0. rewrite Ed. reflexivity. }
  destruct Hi as [H|[H|[H|[H|[H|[H|[H|[H|[]]]]]]]]]; rewrite <- H in Ec, An, One, Two, Jmp.
  - apply One; [apply (Sright Ec)|reflexivity].
  - apply One; [apply (Sleft Ec)|reflexivity].
  - apply One; [apply (Sinc Ec)|reflexivity].
  - apply One; [apply (Sdec Ec)|reflexivity].
  - apply One; [apply (Sout Ec)|reflexivity].
  - apply One; [apply (Sin Ec)|reflexivity].
  - destruct (Sopen Ec) as (_ & _ & S1 & S2). destruct (fe_dec (A0 5%nat r) f0) as [Z0|Z0].
    + apply Jmp; [left; reflexivity|exact (S1 Z0)].
    + apply Two; [exact (S2 Z0)|reflexivity].
  - destruct (Sclose Ec) as (_ & _ & S1 & S2). destruct (fe_dec (A0 5%nat r) f0) as [Z0|Z0].
    + apply Two; [exact (S2 Z0)|reflexivity].
    + apply Jmp; [right; reflexivity|exact (S1 Z0)].
Qed.
Lemma r_at r : (r < zp z)%nat -> exists a, at_ a /\ A0 2%nat r = FrZ a.
Proof.
  induction r as [|r IH]; intros Hr.
  - exists 0%Z. split; [exists 0%nat; split; [lia|reflexivity]|]. apply r_first.
  - destruct (IH ltac:(lia)) as (a & Ha & E). exact (r_next r a Hr Ha E).
Qed.
Lemma r_op r : (S r < zp z)%nat -> exists o, A0 1%nat r = FrZ o /\ List.In o OPCODES.
Proof.
  intros Hr. destruct (r_at r ltac:(lia)) as (a & Ha & E). destruct (r_row r a Hr Ha E) as (i & ch & Ei & _ & _ & _ & Ec & _).
  exists ch. split; [exact Ec|]. pose proof (instr_in src i ch Ei) as Hi. unfold instr_chars in Hi. cbn [List.In] in Hi.
  destruct Hi as [<-|[<-|[<-|[<-|[<-|[<-|[<-|[<-|[]]]]]]]]]; unfold OPCODES; cbn [List.In];
    repeat (try (left; reflexivity); right); left; reflexivity.
Qed.

(** ** Input and output *)
Definition emits (r : nat) : list Fr :=
  flat_map (fun r => if feqb (A0 1%nat r) (FrZ PUTCHAR) then [A0 5%nat r] else []) (seq 0 r).
Definition loads (r : nat) : list Fr :=
  flat_map (fun r => if feqb (A0 1%nat r) (FrZ GETCHAR) then [A0 5%nat (S r)] else []) (seq 0 r).
Lemma emits_S r : emits (S r) = emits r ++ if feqb (A0 1%nat r) (FrZ PUTCHAR) then [A0 5%nat r] else [].
Proof. unfold emits. rewrite seq_S', flat_map_app. cbn [flat_map]. rewrite app_nil_r. reflexivity. Qed.
Lemma loads_S r : loads (S r) = loads r ++ if feqb (A0 1%nat r) (FrZ GETCHAR) then [A0 5%nat (S r)] else [].
Proof. unfold loads. rewrite seq_S', flat_map_app. cbn [flat_map]. rewrite app_nil_r. reflexivity. Qed.
Lemma emits_length r : (length (emits r) <= r)%nat.
Proof.
  clear. induction r as [|r IH]; [apply le_n|]. rewrite emits_S, app_length. destruct (feqb _ _); cbn [length];
  change (fe r_pos) with Fr in *; lia.
Qed.
Lemma loads_length r : (length (loads r) <= r)%nat.
Proof.
  clear. induction r as [|r IH]; [apply le_n|]. rewrite loads_S, app_length. destruct (feqb _ _); cbn [length];
  change (fe r_pos) with Fr in *; lia.
Qed.

Lemma in_opcode o : List.In o OPCODES -> (0 <= o < 256)%Z.
Proof. unfold OPCODES. cbn [List.In]. intros H. repeat (destruct H as [<-|H]; [vm_compute; split; congruence|]). destruct H. Qed.
Lemma io_gate o q d x y : List.In o OPCODES -> List.In q OPCODES ->
  desel (FrZ o) q * (d - x) + (FrZ o - FrZ q) * (d - y) = f0 -> d = if feqb (FrZ o) (FrZ q) then x else y.
Proof.
  intros Ho Hq G. rewrite feqb_op by (apply in_opcode; assumption). destruct (Z.eqb_spec o q) as [->|Ne].
  - apply Fr_sub_eq. apply (mul_cancel (desel (FrZ q) q)); [apply desel_self; exact Hq|].
    etransitivity; [|etransitivity; [exact G|]]; fring.
  - rewrite (desel_other o q Ho Hq Ne) in G. apply Fr_sub_eq.
    apply (mul_cancel (FrZ o - FrZ q)).
    + intros E0. apply Fr_sub_eq in E0. apply in_opcode in Ho, Hq. apply FrZ_inj in E0; [contradiction|apply sm; lia..].
    + etransitivity; [|etransitivity; [exact G|]]; fring.
Qed.

Lemma sum_emits g A : (forall col r, phase0 col -> A col r = A0 col r) -> sums0 i0 z A -> sat n z inst (fun _ => g) A ->
  forall r, (r < zp z)%nat -> A 9%nat r = horner g (emits r) i0 /\ A 10%nat r = horner g (loads r) i0.
Proof.
  intros E S0 S. induction r as [|r IH]; intros Hr.
  - split; [apply (s0_out _ _ _ S0)|apply (s0_in _ _ _ S0)].
  - destruct (IH ltac:(lia)) as [I1 I2]. destruct (r_op r Hr) as (o & Eo & Ho).
    pose proof (sat_rows _ _ _ _ _ S r) as Q.
    assert (On : sel_spec z 5 r = true) by (cbn [sel_spec]; apply Nat.ltb_lt; exact Hr).
    pose proof (e_pout _ _ _ _ _ Q On) as G1. pose proof (e_pin _ _ _ _ _ Q On) as G2. cbv beta in G1, G2.
    rewrite !(E 1%nat), !(E 5%nat), Eo in G1 by reflexivity. rewrite !(E 1%nat), !(E 5%nat), Eo in G2 by reflexivity.
    apply io_gate in G1; [|exact Ho|apply in_op; reflexivity].
    apply io_gate in G2; [|exact Ho|apply in_op; reflexivity].
    rewrite emits_S, loads_S, !horner_app, <- I1, <- I2, Eo. rewrite G1, G2. split.
    + destruct (feqb (FrZ o) (FrZ PUTCHAR)); unfold horner; cbn [fold_left]; [fring|reflexivity].
    + destruct (feqb (FrZ o) (FrZ GETCHAR)); unfold horner; cbn [fold_left]; [fring|reflexivity].
Qed.

Lemma r_out : emits (zp z - 1) = map (A0 20%nat) (seq 0 (zo z)).
Proof.
  pose proof sizes_n as HS.
  assert (L2 : length (map (A0 20%nat) (seq 0 (zo z))) = zo z) by (rewrite map_length, seq_length; reflexivity).
  apply (horner_inj _ _ i0 Hi0).
  - unfold few. pose proof (emits_length (zp z - 1)). apply small. lia.
  - unfold few. apply small. change (fe r_pos) with Fr in *. lia.
  - intros g. destruct (Hall (fun _ => g)) as (A & E & S0 & S).
    rewrite <- (proj1 (sum_emits g A E S0 S (zp z - 1) ltac:(lia))).
    rewrite <- (s0_out_last _ _ _ S0), <- (sat_out_rs _ _ _ _ _ S). rewrite <- L2 at 1.
    apply run_horner; [apply (s0_out _ _ _ S0)|]. intros i v Hi. apply nth_map_seq in Hi. destruct Hi as [Hi ->].
    pose proof (sat_rows _ _ _ _ _ S i) as Q.
    assert (On : sel_spec z 12 i = true) by (cbn [sel_spec]; apply Nat.ltb_lt; lia).
    pose proof (e_out _ _ _ _ _ Q On) as G. cbv beta in G. rewrite (E 20%nat) in G by reflexivity.
    apply Fr_sub_eq. rewrite <- G. fring.
Qed.
Lemma r_input r : (r < zu z)%nat -> A0 22%nat r = FrZ (nth r inp 0%Z).
Proof.
  intros Hr. destruct (Hall (fun _ => f0)) as (A & E & _ & S). rewrite <- E by reflexivity.
  rewrite (sat_input _ _ _ _ _ S) by exact Hr. apply HU3. lia.
Qed.
Lemma r_in : loads (zp z - 1) = map FrZ inp.
Proof.
  pose proof sizes_n as HS.
  apply (horner_inj _ _ i0 Hi0).
  - unfold few. pose proof (loads_length (zp z - 1)). apply small. lia.
  - unfold few. rewrite map_length. apply small. lia.
  - intros g. destruct (Hall (fun _ => g)) as (A & E & S0 & S).
    rewrite <- (proj2 (sum_emits g A E S0 S (zp z - 1) ltac:(lia))).
    rewrite <- (s0_in_last _ _ _ S0), <- (sat_in_rs _ _ _ _ _ S). rewrite <- HU1, <- (map_length FrZ inp).
    apply run_horner; [apply (s0_in _ _ _ S0)|]. intros i v Hi.
    rewrite nth_error_map in Hi. destruct (nth_error inp i) as [x|] eqn:Ex; [|discriminate Hi]. injection Hi as <-.
    assert (Li : (i < length inp)%nat) by (apply nth_error_Some; congruence).
    apply (nth_error_nth _ _ 0%Z) in Ex.
    pose proof (sat_rows _ _ _ _ _ S i) as Q.
    assert (On : sel_spec z 13 i = true) by (cbn [sel_spec]; apply Nat.ltb_lt; lia).
    pose proof (e_in _ _ _ _ _ Q On) as G. cbv beta in G. rewrite (E 22%nat), r_input, Ex in G by (reflexivity || lia).
    apply Fr_sub_eq. rewrite <- G. fring.
Qed.

(** ** The execution *)
Definition big : Z := (2 ^ 64)%Z.
Record tape_inv (r : nat) (c : config) : Prop := mkTI {
  ti_last : forall k b, (k <= r)%nat -> (0 <= b < big)%Z -> A0 4%nat k = FrZ b ->
    (forall j, (k < j)%nat -> (j <= r)%nat -> A0 4%nat j <> FrZ b) -> A0 5%nat k = FrZ (tape c b);
  ti_fresh : forall b, (0 <= b < big)%Z -> (forall k, (k <= r)%nat -> A0 4%nat k <> FrZ b) -> tape c b = 0%Z
}.
Lemma tape_inv_S r c c' : (0 <= pos c' < big)%Z -> tape_inv r c ->
  A0 4%nat (S r) = FrZ (pos c') -> A0 5%nat (S r) = FrZ (BFSpec.cell c') ->
  (forall b, b <> pos c' -> tape c' b = tape c b) -> tape_inv (S r) c'.
Proof.
  intros Hp [TL TF] E4 E5 Hd. constructor.
  - intros k b Hk Hbb Ek Hj. destruct (Nat.eq_dec k (S r)) as [->|Ne].
    + rewrite E4 in Ek. apply FrZ_inj in Ek; [|exact Hp|exact Hbb]. subst b. exact E5.
    + assert (Nb : b <> pos c').
      { intros ->. apply (Hj (S r)); [lia|apply le_n|exact E4]. }
      rewrite (Hd b Nb). apply (TL k b); [lia|exact Hbb|exact Ek|]. intros j J1 J2. apply Hj; lia.
  - intros b Hbb Hf. assert (Nb : b <> pos c').
    { intros ->. apply (Hf (S r)); [apply le_n|exact E4]. }
    rewrite (Hd b Nb). apply TF; [exact Hbb|]. intros k Hk. apply Hf. lia.
Qed.
Lemma last_visit b r : (exists k, (k <= r)%nat /\ A0 4%nat k = FrZ b /\ forall j, (k < j)%nat -> (j <= r)%nat -> A0 4%nat j <> FrZ b)
  \/ (forall k, (k <= r)%nat -> A0 4%nat k <> FrZ b).
Proof.
  clear. induction r as [|r IH].
  - destruct (fe_dec (A0 4%nat 0%nat) (FrZ b)) as [E|E].
    + left. exists 0%nat. split; [apply le_n|]. split; [exact E|]. intros j J1 J2. lia.
    + right. intros k Hk. assert (k = 0)%nat as -> by lia. exact E.
  - destruct (fe_dec (A0 4%nat (S r)) (FrZ b)) as [E|E].
    + left. exists (S r). split; [apply le_n|]. split; [exact E|]. intros j J1 J2. lia.
    + destruct IH as [(k & Hk & Ek & Hj)|Hn'].
      * left. exists k. split; [lia|]. split; [exact Ek|]. intros j J1 J2.
        destruct (Nat.eq_dec j (S r)) as [->|Ne]; [exact E|apply Hj; lia].
      * right. intros k Hk. destruct (Nat.eq_dec k (S r)) as [->|Ne]; [exact E|apply Hn'; lia].
Qed.
(** Moving to a cell shows its contents. *)
Lemma moved r c b : (S r < zp z)%nat -> tape_inv r c -> (0 <= b < big)%Z ->
  A0 4%nat (S r) = FrZ b -> A0 4%nat r <> FrZ b -> A0 5%nat (S r) = FrZ (tape c b).
Proof.
  intros Hr [TL TF] Hbb E4 Ne. destruct (r_visits (S r) Hr) as [V1 V2].
  destruct (last_visit b r) as [(k & Hk & Ek & Hj)|Hf].
  - assert (k <> r) by (intros ->; contradiction).
    rewrite (V1 k); [apply (TL k b); assumption|lia|congruence|].
    intros j J1 J2. rewrite E4. apply Hj; lia.
  - rewrite V2; [rewrite (TF b Hbb Hf); reflexivity|]. intros k Hk. rewrite E4. apply Hf. lia.
Qed.

Lemma pos_small s c a : rel 8 Wz s c a -> (0 <= pos c < 2 ^ 57)%Z.
Proof.
  intros R. pose proof (mr_pos _ _ _ (rl_mem _ _ _ _ _ R)). pose proof (mr_cap _ _ _ (rl_mem _ _ _ _ _ R)).
  unfold tape_cells in *. lia.
Qed.
Lemma two57 : (2 ^ 57 + 1 < big)%Z. Proof. reflexivity. Qed.

Record sim (s1 : interp) (r : nat) (s : interp) (c : config) (a : Z) : Prop := mkSim {
  sm_run : stepn pr r s1 s;
  sm_rel : rel 8 Wz s c a;
  sm_at : at_ a;
  sm_ip : A0 2%nat r = FrZ a;
  sm_mp : A0 4%nat r = FrZ (pos c);
  sm_mv : A0 5%nat r = FrZ (BFSpec.cell c);
  sm_tape : tape_inv r c;
  sm_out : map FrZ (written c) = emits r;
  sm_in : map FrZ (read c) = loads r;
  sm_io : read c ++ unread c = inp
}.

Lemma loads_prefix u v : (u <= v)%nat -> exists t, loads v = loads u ++ t.
Proof.
  clear. induction 1 as [|v _ [t IH]]; [exists []; symmetry; apply app_nil_r|].
  rewrite loads_S, IH, <- app_assoc. eexists. reflexivity.
Qed.
Lemma feqb_ops o q : List.In o OPCODES -> List.In q OPCODES -> feqb (FrZ o) (FrZ q) = Z.eqb o q.
Proof. intros Ho Hq. apply feqb_op; apply in_opcode; assumption. Qed.

Lemma sim_ext s1 r s c a s' c' a' : sim s1 r s c a -> (a < lenW)%Z -> cycle_step pr s = Ok s' -> rel 8 Wz s' c' a' -> at_ a' ->
  A0 2%nat (S r) = FrZ a' -> A0 4%nat (S r) = FrZ (pos c') -> A0 5%nat (S r) = FrZ (BFSpec.cell c') ->
  (forall b, b <> pos c' -> tape c' b = tape c b) ->
  map FrZ (written c') = emits (S r) -> map FrZ (read c') = loads (S r) -> read c' ++ unread c' = inp ->
  sim s1 (S r) s' c' a'.
Proof.
  intros H L Es R A E2 E4 E5 Ht Ho Hi' Hio. pose proof (pos_small _ _ _ R) as Ps. pose proof two57. constructor; try assumption.
  - replace (S r) with (r + 1)%nat by lia. eapply stepn_trans; [exact (sm_run _ _ _ _ _ H)|]. apply stepn_1; [|exact Es].
    rewrite (halted_iff 8 Wz lenW_small _ _ _ (sm_rel _ _ _ _ _ H)). apply Z.leb_gt. exact L.
  - apply (tape_inv_S r c); [lia|exact (sm_tape _ _ _ _ _ H)|assumption..].
Qed.
Lemma f0_cell s c a r : rel 8 Wz s c a -> A0 5%nat r = FrZ (BFSpec.cell c) -> A0 5%nat r = f0 <-> BFSpec.cell c = 0%Z.
Proof.
  intros R E. pose proof (cell_range _ _ _ _ _ R) as Rc. rewrite E, f0_FrZ. split; [|intros ->; reflexivity].
  intros X. apply FrZ_inj in X; [exact X|apply sm; change (2 ^ 8)%Z with 256%Z in Rc; lia..].
Qed.
Lemma ops_in ch : List.In ch instr_chars -> List.In ch OPCODES.
Proof.
  intros Hi. unfold instr_chars in Hi. cbn [List.In] in Hi.
  destruct Hi as [<-|[<-|[<-|[<-|[<-|[<-|[<-|[<-|[]]]]]]]]]; unfold OPCODES; cbn [List.In];
    repeat (try (left; reflexivity); right); left; reflexivity.
Qed.

Ltac io_same Ec := rewrite ?emits_S, ?loads_S, Ec, feqb_ops by (apply in_op; reflexivity);
  cbn [Z.eqb Pos.eqb chr_right chr_left chr_inc chr_dec chr_out chr_in chr_open chr_close PUTCHAR GETCHAR]; rewrite ?app_nil_r.

Lemma sim_step s1 r s c a : (S r < zp z)%nat -> sim s1 r s c a -> exists s' c' a', sim s1 (S r) s' c' a'.
Proof.
  intros Hr H. pose proof H as [_ R A E2 E4 E5 Ht Ho Hi' Hio].
  destruct (r_row r a Hr A E2) as (i & ch & Ei & Ea & Ew & L & Ec & En).
  pose proof (r_step r Hr) as (_ & Sinc & Sdec & Sright & Sleft & Sout & Sin & Sopen & Sclose).
  unfold view in *. cbn [v_clk v_ip v_ci v_ni v_mp v_mv v_mvi p_config conf p_clk p_ip p_ci p_ni p_mp p_mv p_mvi ac_index] in *.
  pose proof (at_op_next src i ch Ei) as An. rewrite <- Ea in An.
  pose proof lenW_small as RW. pose proof (at_range a A) as Ra. pose proof (pos_small _ _ _ R) as Ps. pose proof two57 as T57.
  pose proof (cell_range _ _ _ _ _ R) as Rc. change (2 ^ 8)%Z with 256%Z in Rc.
  assert (Hnw : nth_error Wz (Z.to_nat a) = Some ch) by (rewrite <- word_nth by lia; exact Ew).
  pose proof (instr_in src i ch Ei) as Hch. pose proof (ops_in ch Hch) as Hop. unfold instr_chars in Hch. cbn [List.In] in Hch.
  destruct (r_byte (S r) Hr) as (k' & Hk' & Ek').
  assert (Fk : fval (A0 5%nat r) = BFSpec.cell c) by (rewrite E5; apply fval_FrZ; apply sm; lia).
  assert (Fk' : fval (A0 5%nat (S r)) = k') by (rewrite Ek'; apply fval_FrZ; apply sm; lia).
  destruct (r_cellpos (S r) Hr) as (b' & Hb' & Eb'). pose proof sizes_n as HS.
  assert (Sb : (Z.of_nat b' < 2 ^ 28)%Z) by lia. assert (T28 : (2 ^ 28 < 2 ^ 57)%Z) by reflexivity.
  assert (Jd : ch = chr_open \/ ch = chr_close -> exists d, word Wz (a + 1) = Some d /\ at_ d /\ (0 <= d <= lenZ Wz)%Z /\
     nth_error Wz (Z.to_nat (a + 1)) = Some d /\ A0 3%nat r = FrZ d).
  { intros Hoc. destruct (jump_at i ch Ei Hoc) as (d & Ed & Hd). rewrite <- Ea in Ed. exists d. split; [exact Ed|].
    split; [exact Hd|]. split; [apply at_range; exact Hd|]. split; [rewrite <- word_nth by lia; exact Ed|].
    rewrite En. unfold word_or_0. rewrite Ed. reflexivity. }
  assert (Ip1 : A0 2%nat (S r) = A0 2%nat r + f1 -> A0 2%nat (S r) = FrZ (a + 1)).
  { intros ->. rewrite E2, f1_FrZ, FrZ_add. reflexivity. }
  assert (Ip2 : A0 2%nat (S r) = A0 2%nat r + FrZ 2 -> A0 2%nat (S r) = FrZ (a + 2)).
  { intros ->. rewrite E2, FrZ_add. reflexivity. }
  destruct Hch as [Q|[Q|[Q|[Q|[Q|[Q|[Q|[Q|[]]]]]]]]]; rewrite <- Q in *; clear Q ch.
  - (* > *)
    destruct (Sright Ec) as [S1 S2].
    assert (E4' : A0 4%nat (S r) = FrZ (pos c + 1)) by (rewrite S2, E4, f1_FrZ, FrZ_add; reflexivity).
    assert (Hp : (pos c + 1 = Z.of_nat b')%Z).
    { rewrite E4' in Eb'. apply FrZ_inj in Eb'; unfold big in *; lia. }
    destruct (step_right pr 8 Wz lenW_small s c a R Hnw) as (s' & Es & R'); [unfold tape_cells; lia|].
    exists s', (move c 1), (a + 1)%Z. apply (sim_ext s1 r s c a); try assumption.
    + apply Ip1. exact S1.
    + unfold BFSpec.cell. cbn [move pos tape]. apply moved; [exact Hr|exact Ht|lia|exact E4'|].
      rewrite E4. intros X. apply FrZ_inj in X; unfold big in *; lia.
    + intros b _. reflexivity.
    + io_same Ec. exact Ho.
    + io_same Ec. exact Hi'.
  - (* < *)
    destruct (Sleft Ec) as [S1 S2].
    assert (E4' : A0 4%nat (S r) = FrZ (pos c - 1)) by (rewrite S2, E4, f1_FrZ, FrZ_sub; reflexivity).
    assert (Hp : (pos c = Z.of_nat b' + 1)%Z).
    { rewrite Eb', E4, f1_FrZ, FrZ_sub in S2. apply (f_equal (fun x => x + FrZ 1)) in S2.
      rewrite !FrZ_add in S2. apply FrZ_inj in S2; unfold big in *; lia. }
    destruct (step_left pr 8 Wz lenW_small s c a R Hnw) as (s' & Es & R'); [lia|].
    exists s', (move c (-1)), (a + 1)%Z. apply (sim_ext s1 r s c a); try assumption.
    + apply Ip1. exact S1.
    + unfold BFSpec.cell. cbn [move pos tape]. apply moved; [exact Hr|exact Ht|lia|exact E4'|].
      rewrite E4. intros X. apply FrZ_inj in X; unfold big in *; lia.
    + intros b _. reflexivity.
    + io_same Ec. exact Ho.
    + io_same Ec. exact Hi'.
  - (* + *)
    destruct (Sinc Ec) as (S1 & S2 & S3). rewrite Fk, Fk' in S3.
    destruct (step_inc pr 8 Wz ltac:(lia) lenW_small s c a R Hnw) as (s' & Es & R').
    exists s', (set_cell c ((BFSpec.cell c + 1) mod 2 ^ 8)), (a + 1)%Z. apply (sim_ext s1 r s c a); try assumption.
    + apply Ip1. exact S1.
    + cbn [set_cell pos]. rewrite S2. exact E4.
    + unfold BFSpec.cell at 1. cbn [set_cell pos tape]. rewrite Z.eqb_refl. rewrite Ek', S3. reflexivity.
    + intros b Hbn. cbn [set_cell pos tape] in *. rewrite (proj2 (Z.eqb_neq _ _) Hbn). reflexivity.
    + io_same Ec. exact Ho.
    + io_same Ec. exact Hi'.
  - (* - *)
    destruct (Sdec Ec) as (S1 & S2 & S3). rewrite Fk, Fk' in S3.
    destruct (step_dec pr 8 Wz ltac:(lia) lenW_small s c a R Hnw) as (s' & Es & R').
    exists s', (set_cell c ((BFSpec.cell c - 1) mod 2 ^ 8)), (a + 1)%Z. apply (sim_ext s1 r s c a); try assumption.
    + apply Ip1. exact S1.
    + cbn [set_cell pos]. rewrite S2. exact E4.
    + unfold BFSpec.cell at 1. cbn [set_cell pos tape]. rewrite Z.eqb_refl. rewrite Ek', S3. reflexivity.
    + intros b Hbn. cbn [set_cell pos tape] in *. rewrite (proj2 (Z.eqb_neq _ _) Hbn). reflexivity.
    + io_same Ec. exact Ho.
    + io_same Ec. exact Hi'.
  - (* . *)
    destruct (Sout Ec) as (S1 & S2 & S3).
    destruct (step_out pr 8 Wz ltac:(lia) s c a R Hnw) as (s' & Es & R').
    exists s', (emit_cell c), (a + 1)%Z. apply (sim_ext s1 r s c a); try assumption.
    + apply Ip1. exact S1.
    + cbn [emit_cell pos]. rewrite S2. exact E4.
    + unfold BFSpec.cell. cbn [emit_cell pos tape]. rewrite S3. exact E5.
    + intros b _. reflexivity.
    + io_same Ec. cbn [emit_cell written]. rewrite map_app, Ho, E5. reflexivity.
    + io_same Ec. exact Hi'.
  - (* , *)
    destruct (Sin Ec) as (S1 & S2 & _).
    assert (El : loads (S r) = loads r ++ [A0 5%nat (S r)]) by (io_same Ec; reflexivity).
    assert (Hu : exists v rest, unread c = v :: rest /\ FrZ v = A0 5%nat (S r)).
    { destruct (loads_prefix (S r) (zp z - 1) ltac:(lia)) as [t Et]. rewrite r_in, El, <- Hi', <- Hio, map_app, <- app_assoc in Et.
      apply app_inv_head in Et. destruct (unread c) as [|v rest]; [discriminate Et|]. exists v, rest. split; [reflexivity|].
      cbn [map app] in Et. injection Et as Et _. exact Et. }
    destruct Hu as (v & rest & Eu & Ev).
    destruct (step_in pr 8 Wz ltac:(lia) lenW_small s c a v rest R Hnw Eu) as (s' & Es & R').
    exists s', (take_input c v rest), (a + 1)%Z. apply (sim_ext s1 r s c a); try assumption.
    + apply Ip1. exact S1.
    + cbn [take_input set_cell pos]. rewrite S2. exact E4.
    + unfold BFSpec.cell. cbn [take_input set_cell pos tape]. rewrite Z.eqb_refl. symmetry. exact Ev.
    + intros b Hbn. cbn [take_input set_cell pos tape] in *. rewrite (proj2 (Z.eqb_neq _ _) Hbn). reflexivity.
    + io_same Ec. exact Ho.
    + rewrite El. cbn [take_input set_cell read]. rewrite map_app, Hi', <- Ev. reflexivity.
    + cbn [take_input set_cell read unread]. rewrite <- app_assoc. cbn [app]. rewrite <- Eu. exact Hio.
  - (* [ *)
    destruct (Sopen Ec) as (S1 & S2 & S3 & S4).
    destruct (Jd (or_introl eq_refl)) as (d & Ed & Ad & Rd & Nd & E3).
    destruct (step_open pr 8 Wz ltac:(lia) lenW_small s c a d R Hnw Nd Rd) as (s' & Es & R').
    exists s', c, (if (BFSpec.cell c =? 0)%Z then d else a + 2)%Z. apply (sim_ext s1 r s c a); try assumption.
    + destruct (Z.eqb_spec (BFSpec.cell c) 0); [exact Ad|exact An].
    + destruct (Z.eqb_spec (BFSpec.cell c) 0) as [Z0|Z0].
      * rewrite S3, E3 by (apply (f0_cell s c a r R E5); exact Z0). reflexivity.
      * apply Ip2, S4. intros X. apply Z0. apply (f0_cell s c a r R E5). exact X.
    + rewrite S1. exact E4.
    + rewrite S2. exact E5.
    + intros b _. reflexivity.
    + io_same Ec. exact Ho.
    + io_same Ec. exact Hi'.
  - (* ] *)
    destruct (Sclose Ec) as (S1 & S2 & S3 & S4).
    destruct (Jd (or_intror eq_refl)) as (d & Ed & Ad & Rd & Nd & E3).
    destruct (step_close pr 8 Wz ltac:(lia) lenW_small s c a d R Hnw Nd Rd) as (s' & Es & R').
    exists s', c, (if (BFSpec.cell c =? 0)%Z then a + 2 else d)%Z. apply (sim_ext s1 r s c a); try assumption.
    + destruct (Z.eqb_spec (BFSpec.cell c) 0); [exact An|exact Ad].
    + destruct (Z.eqb_spec (BFSpec.cell c) 0) as [Z0|Z0].
      * apply Ip2, S4. apply (f0_cell s c a r R E5). exact Z0.
      * rewrite S3, E3; [reflexivity|]. intros X. apply Z0. apply (f0_cell s c a r R E5). exact X.
    + rewrite S1. exact E4.
    + rewrite S2. exact E5.
    + intros b _. reflexivity.
    + io_same Ec. exact Ho.
    + io_same Ec. exact Hi'.
Qed.

Lemma sim_all s1 : rel 8 Wz s1 (initial inp) 0 -> forall r, (r < zp z)%nat -> exists s c a, sim s1 r s c a.
Proof.
  intros R1. induction r as [|r IH]; intros Hr.
  - exists s1, (initial inp), 0%Z. destruct r_first as (F0 & F1 & F2 & F3). constructor.
    + constructor.
    + exact R1.
    + exists 0%nat. split; [lia|reflexivity].
    + exact F1.
    + exact F2.
    + exact F3.
    + constructor.
      * intros k b Hk Hbb Ek _. assert (k = 0)%nat as -> by lia. exact F3.
      * reflexivity.
    + reflexivity.
    + reflexivity.
    + reflexivity.
  - destruct (IH ltac:(lia)) as (s & c & a & H). exact (sim_step s1 r s c a Hr H).
Qed.

Hypothesis Hparse : parses src p.
Lemma repaired_run : exists cfg, exec 8 p (initial inp) (Done cfg) /\ unread cfg = [] /\
  map (A0 20%nat) (seq 0 (zo z)) = map FrZ (written cfg).
Proof.
  pose proof lenW_small as RW. pose proof (word_count_parses _ _ Hparse) as Ewc.
  assert (EWz : Wz = emit 0 p).
  { rewrite (compile_emit pr src p Hparse) in HWc by lia. injection HWc as <-. reflexivity. }
  assert (Hpw : (1 <= program_words p <= 65535)%Z) by lia.
  destruct (prologue_rel 8 p inp ltac:(lia) Hpw Hin) as (s1 & E1 & R1). rewrite <- EWz in E1, R1.
  destruct (sim_all s1 R1 (zp z - 1) ltac:(lia)) as (s & c & a & H). destruct H as [Hs R A E2 E4 E5 Ht Ho Hi' Hio].
  assert (a = lenW) as ->.
  { rewrite Tpe, r_len, <- lenW_nat in E2. pose proof (at_range a A). apply FrZ_inj in E2; [symmetry; exact E2|apply sm; lia..]. }
  assert (Er : run pr (zp z - 1) (machine 8 (map FrZ (emit 0 p)) inp) = Finished (epilogue s)).
  { unfold run. rewrite <- EWz, E1. rewrite <- (Nat.add_0_r (zp z - 1)), (run_loop_stepn _ _ _ _ _ Hs). cbn [run_loop].
    rewrite (halted_iff 8 Wz lenW_small _ _ _ R). fold lenW. rewrite Z.leb_refl. reflexivity. }
  destruct (run_finished_inv pr 8 p inp ltac:(lia) Hpw Hin _ _ Er) as (cfg & He & Eo & Eri).
  cbn [epilogue mat output_matrix input_matrix] in Eo, Eri.
  exists cfg. split; [exact He|].
  rewrite (rl_written _ _ _ _ _ R), Ho, r_out in Eo. rewrite (rl_read _ _ _ _ _ R), Hi', r_in in Eri.
  split; [|exact Eo].
  pose proof (exec_io _ _ _ _ He cfg eq_refl) as X. cbn [initial read unread app] in X.
  assert (Lr : length (read cfg) = length inp) by (rewrite <- (map_length FrZ (read cfg)), <- Eri, map_length; reflexivity).
  apply (f_equal (@length Z)) in X. rewrite app_length in X. destruct (unread cfg); [reflexivity|cbn [length] in X; lia].
Qed.
End Rep.

Lemma repaired_sound pr n m src p inp c cc A0 i0 :
  parses src p -> (1 <= program_words p <= 65535)%Z -> in_range 8 inp -> compile pr src = Ok c ->
  (Z.of_nat n <= 2 ^ 28)%Z -> i0 <> f0 ->
  repaired i0 n m (length c) (length inp) (public_inputs c inp) cc A0 ->
  exists cfg, exec 8 p (initial inp) (Done cfg) /\ unread cfg = [] /\
    output_shown cc A0 (length (output_matrix m)) = map FrZ (written cfg).
Proof.
  intros Hp Hl Hin Hc Hn Hi0 (L1 & L2 & TR & sc & asm & K & _ & _ & Hall).
  pose proof (keygen_spec _ _ _ _ _ K) as (-> & -> & F & _).
  unfold compile in Hc. apply bind_ok_inv in Hc. destruct Hc as (Wz & HW & Ec). injection Ec as <-.
  assert (Hb : balanced src) by (apply balanced_parses; exists p; exact Hp).
  pose proof (word_count_parses _ _ Hp) as Ewc.
  destruct TR as [T1 T2 T3 T4 T5 T6 T7 T8].
  cbn [m_config i_config p_config prog_config conf t_mp t_clk n_ip n_ci n_ni g_len p_ip ac_index] in *.
  refine (repaired_run i0 n (sizes_of m) (instance_fn (public_inputs (map FrZ Wz) inp)) A0 Hn F _ T1 T2 T3 T4 T5 T6 T7 T8
    (map FrZ Wz) _ _ _ pr src p Wz inp Hb _ HW eq_refl Hin _ _ Hi0 Hp).
  - intros ch. destruct (Hall ch) as (A & E & SR & S). exists A. split; [exact E|]. split.
    + destruct SR as [R1 R2 R3 R4 R5 R6 R7 R8].
      cbn [m_config i_config p_config prog_config out_config in_config conf p_mem_prp t_prp p_inst_prp n_prp n_rs g_rs p_output_rs
        o_rs p_input_rs u_rs ac_index] in *.
      constructor; assumption.
    + apply (satisfied_iff _ _ _ _ _ _ _ _ K). exact S.
  - cbn [sizes_of zg]. symmetry. exact L1.
  - reflexivity.
  - intros r Hr. reflexivity.
  - lia.
  - cbn [sizes_of zu]. symmetry. exact L2.
  - intros r Hr. unfold instance_fn, public_inputs. cbn [nth]. change (@f0 r_pos) with (FrZ 0). rewrite map_nth. reflexivity.
Qed.
