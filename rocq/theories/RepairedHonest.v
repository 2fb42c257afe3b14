(** Assignments that meet the repaired circuit. *)
From Coq Require Import ZArith List Bool Arith Lia Permutation Sorted.
From Verif Require Import Base Field FieldFacts BFSpec CompileSpec VMModel VMSim VMInv TraceSpec ListFacts Halo2Model
  CircuitModel CircuitFacts LayoutFacts KeygenFacts CircuitSpec SoundSpec LocalSound WitnessFacts HonestFacts
  Completeness Forge Attack RepairSpec.
Import List ListNotations.
Local Open Scope F_scope.

Definition with_input (m : matrix) (u : list Fr) : matrix :=
  mkMatrix (processor_matrix m) (instruction_matrix m) (memory_matrix m) u (output_matrix m) (program m).

Lemma trow_irow W ks : map (irow_at W) ks =
  map (trow (fun k => FrZ (word_or_0 W (Z.of_nat k))) (fun k => FrZ (word_or_0 W (Z.of_nat k + 1)))) ks.
Proof. reflexivity. Qed.

Section Honest.
Variables (W inp : list Z) (m : matrix) (rows : list register) (last : register) (c' : config)
  (ks : list nat) (ipf : nat -> Z) (cf : nat -> config).
Hypothesis R : recorded_run W inp m rows last c' ks ipf cf.
Hypothesis Hsort : StronglySorted (fun x y => (fval (m_mp x) < fval (m_mp y))%Z \/
   m_mp x = m_mp y /\ (fval (m_clk x) < fval (m_clk y))%Z) (memory_matrix m).
Hypothesis Hfull : read c' = inp.
Variables (pub : list Z) (i0 : Fr) (n : nat).
Hypothesis Hpub : forall g, fold_left (fun s x => h_sum g x s) (map FrZ pub) i0 =
                            fold_left (fun s x => h_sum g x s) (map FrZ inp) i0.
Let u := with_input m (map FrZ pub).
Hypothesis Hfits : fits n (sizes_of u).
Let insts := public_inputs (map FrZ W) pub.
Let A := forge u (FrZ 3) (FrZ 9) i0 (instance_fn insts).

Lemma u_local : local_ok u.
Proof.
  pose proof (replaced_local _ _ _ _ _ _ _ _ _ R (fun k => FrZ (word_or_0 W (Z.of_nat k)))
    (fun k => FrZ (word_or_0 W (Z.of_nat k + 1))) (output_matrix m)) as [L1 L2 L3 L4 L5 L6].
  unfold replaced in *. rewrite <- trow_irow, <- (rr_T _ _ _ _ _ _ _ _ _ R) in *.
  constructor; assumption.
Qed.
Lemma last_row : nth_error (processor_matrix m) (length rows) = Some last /\ length (processor_matrix m) = S (length rows).
Proof.
  rewrite (rr_P _ _ _ _ _ _ _ _ _ R), nth_error_app2, Nat.sub_diag by lia. split; [reflexivity|].
  rewrite app_length. cbn [length]. lia.
Qed.
Lemma last_ci : current_instruction last = f0.
Proof. destruct (rr_last _ _ _ _ _ _ _ _ _ R) as (_ & _ & -> & _). rewrite word_end. reflexivity. Qed.
Lemma out_before ch : accF (h_out ch) (zipnext (processor_matrix m)) i0 (length rows) =
  fold_left (fun s x => h_sum (ch 9%nat) x s) (output_matrix m) i0.
Proof.
  destruct last_row as [Hl HP]. rewrite (rr_out _ _ _ _ _ _ _ _ _ R), <- (proj1 (R_sums _ _ _ _ _ _ _ _ _ R ch)).
  rewrite <- accF_end, zipnext_length, HP, (accF_S _ _ _ _ _ (zip_at _ _ _ Hl)). unfold h_out at 2. cbn [fst].
  rewrite last_ci. reflexivity.
Qed.
Lemma in_before ch : accF (h_in ch) (zipnext (processor_matrix m)) i0 (length rows) =
  fold_left (fun s x => h_sum (ch 10%nat) x s) (map FrZ pub) i0.
Proof.
  destruct last_row as [Hl HP]. rewrite Hpub, <- Hfull, <- (proj2 (R_sums _ _ _ _ _ _ _ _ _ R ch)).
  rewrite <- accF_end, zipnext_length, HP, (accF_S _ _ _ _ _ (zip_at _ _ _ Hl)). unfold h_in at 2. cbn [fst].
  rewrite last_ci. reflexivity.
Qed.
Lemma pub_vals : map (fun i => instance_fn insts 1 (S i)) (seq 0 (length (map FrZ pub))) = map FrZ pub.
Proof.
  apply nth_error_ext'. intros k. rewrite nth_error_map. destruct (lt_dec k (length (map FrZ pub))) as [Hk|Hk].
  - rewrite (nth_error_nth' (seq 0 _) 0%nat) by (rewrite seq_length; exact Hk).
    rewrite seq_nth by exact Hk. cbn [option_map Nat.add]. unfold insts, instance_fn, public_inputs. cbn [nth].
    symmetry. apply nth_error_nth'. exact Hk.
  - rewrite (proj2 (nth_error_None _ _)) by (rewrite seq_length; lia). symmetry. apply nth_error_None. lia.
Qed.

Lemma u_tables : tables_repaired u conf (A (fun _ => f0)).
Proof.
  pose proof (rr_range _ _ _ _ _ _ _ _ _ R) as Hr. pose proof (rr_sorted _ _ _ _ _ _ _ _ _ R) as Hs.
  pose proof (lo_T _ u_local) as HT. unfold u in HT. cbn [with_input instruction_matrix] in HT.
  assert (HW := rr_W _ _ _ _ _ _ _ _ _ R). unfold lenZ in HW. destruct last_row as [Hl HP].
  assert (LT : length (instruction_matrix m) = length ks) by (rewrite (rr_T _ _ _ _ _ _ _ _ _ R), map_length; reflexivity).
  assert (Ti : forall r k, nth_error ks r = Some k -> nth_error (instruction_matrix m) r = Some (irow_at W k)).
  { intros r k E. rewrite (rr_T _ _ _ _ _ _ _ _ _ R), nth_error_map, E. reflexivity. }
  assert (Hmono : forall i j x y, (i < j)%nat -> nth_error ks i = Some x -> nth_error ks j = Some y -> (x <= y)%nat).
  { intros i j x y Hij Hx Hy. exact (sorted_nth le ks i j x y Hs Hij Hx Hy). }
  constructor; unfold u; cbn [with_input instruction_matrix memory_matrix processor_matrix];
    cbn [m_config i_config p_config prog_config conf t_mp t_clk n_ip n_ci n_ni g_len p_ip ac_index];
    unfold A, forge, u; cbn [with_input instruction_matrix memory_matrix processor_matrix program input_matrix].
  - destruct (lo_first _ u_local) as (y & Hy & _ & _ & Y & _). unfold u in Hy. cbn [with_input processor_matrix] in Hy.
    apply nth_error_In in Hy. apply (in_map mrow_of) in Hy.
    apply (Permutation_in _ (Permutation_sym (rr_M _ _ _ _ _ _ _ _ _ R))) in Hy. change (m_mp (mrow_of y) = f0) in Y.
    destruct (memory_matrix m) as [|x M]; [reflexivity|]. unfold cellF. cbn [nth_error].
    destruct Hy as [->|Hy]; [exact Y|]. apply StronglySorted_inv in Hsort. destruct Hsort as [_ HF].
    rewrite Forall_forall in HF. destruct (HF _ Hy) as [H|[H _]]; [|rewrite H; exact Y].
    rewrite Y in H. pose proof (fval_range (m_mp x)) as Rx. change (fval f0) with 0%Z in H. lia.
  - intros r Hlt Heq. destruct (lt_nth_error (memory_matrix m) r) as [x Hx]; [lia|].
    destruct (lt_nth_error (memory_matrix m) (S r)) as [y Hy]; [lia|].
    unfold cellF in *. rewrite Hx, Hy in *.
    destruct (sorted_nth _ _ r (S r) x y Hsort ltac:(lia) Hx Hy) as [H|[_ H]]; [|exact H].
    exfalso. rewrite Heq in H. exact (Z.lt_irrefl _ H).
  - exact HT.
  - destruct ks as [|k l]; [cbn [length] in LT; lia|]. unfold cellF. rewrite (Ti 0%nat k eq_refl). cbn [irow_at i_ip].
    assert (I0 : List.In 0%nat (k :: l)) by (apply Hr; lia). destruct I0 as [->|I0]; [reflexivity|].
    apply StronglySorted_inv in Hs. destruct Hs as [_ HF]. rewrite Forall_forall in HF. specialize (HF _ I0).
    assert (k = 0)%nat as -> by lia. reflexivity.
  - intros r Hlt. destruct (lt_nth_error ks r) as [x Hx]; [lia|].
    destruct (lt_nth_error ks (S r)) as [y Hy]; [lia|].
    pose proof (R_T2 _ _ _ _ _ _ _ _ _ R r _ _ (Ti _ _ Hx) (Ti _ _ Hy)) as (k0 & Hk0 & E1 & E2).
    unfold cellF. rewrite (Ti _ _ Hx), (Ti _ _ Hy), E1. intros Hne. destruct E2 as [E2|[E2 _]].
    + exfalso. apply Hne. rewrite E2. reflexivity.
    + rewrite E2. cbn [irow_at i_ni i_ci]. f_equal. f_equal. lia.
  - assert (Hin : List.In (length W) ks) by (apply Hr; lia). apply In_nth_error in Hin. destruct Hin as [j Hj].
    assert (Hlast : nth_error ks (length ks - 1) = Some (length W)).
    { destruct (lt_nth_error ks (length ks - 1)) as [y Hy]; [lia|]. rewrite Hy. f_equal.
      assert (Hy' : (y <= length W)%nat) by (apply Hr; exact (nth_error_In _ _ Hy)).
      pose proof (nth_error_lt _ _ _ Hj) as Lj.
      destruct (Nat.eq_dec j (length ks - 1)) as [->|Hne]; [congruence|].
      pose proof (Hmono j (length ks - 1)%nat _ _ ltac:(lia) Hj Hy). lia. }
    rewrite LT. unfold cellF. rewrite (Ti _ _ Hlast). cbn [irow_at i_ip i_ci i_ni Nat.eqb].
    split; [unfold instance_fn, insts, public_inputs, lenZ; cbn [nth]; rewrite map_length; reflexivity|].
    assert (Hover : forall q, (length W <= q)%nat -> FrZ (word_or_0 W (Z.of_nat q)) = f0).
    { intros q Hq. rewrite word_or_0_nth, nth_overflow by (rewrite map_length; exact Hq). reflexivity. }
    split; [apply Hover; lia|]. replace (Z.of_nat (length W) + 1)%Z with (Z.of_nat (S (length W))) by lia. apply Hover. lia.
  - rewrite HP. lia.
  - rewrite HP. replace (S (length rows) - 1)%nat with (length rows) by lia. unfold cellF. rewrite Hl. cbn [Nat.eqb].
    destruct (rr_last _ _ _ _ _ _ _ _ _ R) as (_ & -> & _).
    unfold instance_fn, insts, public_inputs, lenZ; cbn [nth]; rewrite map_length; reflexivity.
Qed.

Lemma u_sums ch : sums_repaired i0 u conf (A ch).
Proof.
  destruct last_row as [Hl HP]. pose proof (lo_T _ u_local) as HT. unfold u in HT. cbn [with_input instruction_matrix] in HT.
  constructor; cbn [m_config i_config p_config prog_config out_config in_config conf p_mem_prp t_prp p_inst_prp n_prp n_rs g_rs
     p_output_rs o_rs p_input_rs u_rs ac_index]; unfold A, forge, u;
     cbn [with_input instruction_matrix memory_matrix processor_matrix program input_matrix output_matrix].
  - split; reflexivity.
  - split; reflexivity.
  - split; reflexivity.
  - rewrite HP. split; reflexivity.
  - rewrite HP. split; reflexivity.
  - destruct (instruction_matrix m) as [|t T] eqn:ET; [cbn [length] in HT; lia|]. rewrite <- ET in *. clear ET t T.
    destruct (lt_nth_error (instruction_matrix m) (length (instruction_matrix m) - 1)) as [x Hx]; [lia|].
    replace (length (instruction_matrix m)) with (S (length (instruction_matrix m) - 1)) at 1 by lia.
    rewrite (accF_S _ _ _ _ _ (zip_at _ _ _ Hx)). unfold h_irs at 1, next_ip. cbn [fst snd].
    rewrite (proj2 (nth_error_None _ _)) by lia. rewrite feqb_refl. reflexivity.
  - rewrite Nat.eqb_refl, (proj2 (Nat.eqb_neq _ _)) by lia.
    rewrite HP. replace (S (length rows) - 1)%nat with (length rows) by lia. rewrite out_before. apply accF_end.
  - rewrite Nat.eqb_refl, (proj2 (Nat.eqb_neq _ _)) by lia.
    rewrite HP. replace (S (length rows) - 1)%nat with (length rows) by lia. rewrite in_before, pub_vals. apply accF_end.
Qed.

Lemma u_repaired : (forall l, List.In l insts -> (length l <= n - 6)%nat) ->
  repaired i0 n u (length W) (length pub) insts conf (A (fun _ => f0)) /\
  output_shown conf (A (fun _ => f0)) (length (output_matrix u)) = map FrZ (written c').
Proof.
  intros Hlen. split.
  - split; [unfold u; cbn [with_input program]; rewrite (rr_prog _ _ _ _ _ _ _ _ _ R), map_length; reflexivity|].
    split; [unfold u; cbn [with_input input_matrix]; apply map_length|]. split; [exact u_tables|].
    assert (G : getchar_ok (processor_matrix u) = true).
    { unfold u. cbn [with_input processor_matrix]. rewrite (rr_P _ _ _ _ _ _ _ _ _ R). apply getchar_ok_snoc. rewrite last_ci. reflexivity. }
    destruct (proj2 (keygen_iff n u) (conj Hfits G)) as [[[cc sc] asm] K].
    pose proof (keygen_spec _ _ _ _ _ K) as (-> & -> & _). exists bcs, asm. split; [exact K|]. split; [reflexivity|].
    split; [intros l Hi; rewrite bcs_usable; apply Hlen; exact Hi|].
    intros ch. exists (A ch). split; [intros col r; apply forge_phase0|]. split; [apply u_sums|].
    apply (satisfied_iff _ _ _ _ _ _ _ _ K). apply forge_sat.
    + exact u_local.
    + right. exact (rr_M _ _ _ _ _ _ _ _ _ R).
    + exact (recorded_inst_product _ _ _ _ _ _ _ _ _ ch (FrZ 9) R).
    + unfold u. cbn [with_input program instruction_matrix].
      rewrite (recorded_code_sum _ _ _ _ _ _ _ _ _ ch R), (rr_prog _ _ _ _ _ _ _ _ _ R). f_equal. apply public_code.
  - unfold A. rewrite forge_output. exact (rr_out _ _ _ _ _ _ _ _ _ R).
Qed.
End Honest.

Lemma repaired_gen pr src p inp cfg c fuel s n i0 pub :
  parses src p -> (1 <= program_words p <= 65535)%Z -> in_range 8 inp ->
  exec 8 p (initial inp) (Done cfg) -> unread cfg = [] ->
  compile pr src = Ok c -> run pr fuel (start c (easygen inp)) = Finished s ->
  (Z.of_nat n < 2 ^ 64)%Z -> (262 < n)%nat -> (length (instruction_matrix (mat s)) + 6 < n)%nat ->
  (length pub + 7 <= n)%nat ->
  (forall g, fold_left (fun s x => h_sum g x s) (map FrZ pub) i0 = fold_left (fun s x => h_sum g x s) (map FrZ inp) i0) ->
  exists A0, repaired i0 n (with_input (mat s) (map FrZ pub)) (length c) (length pub) (public_inputs c pub) conf A0 /\
    output_shown conf A0 (length (written cfg)) = map FrZ (written cfg).
Proof.
  intros Hp Hw Hin He Hu Hc Hr Hn H1 H2 H3 Hpub.
  destruct (F_read pr src p inp cfg c fuel s 0%nat Hp Hw Hin He Hc Hr) as [Fi Fo].
  assert (HF : fits n (sizes_of (mat s))) by (apply (F_fits pr src p inp c fuel s n); auto).
  assert (HN : (Z.of_nat (length (processor_matrix (mat s))) < 2 ^ 64)%Z) by (unfold fits in HF; cbn [sizes_of zp] in HF; lia).
  destruct (F_rec pr src p inp c fuel s Hp Hw Hin Hc Hr HN) as (W & rows & last & c' & ks & ipf & cf & E & L & R).
  assert (HS := C11_cycle_order_lemma _ _ _ (easygen inp) 8 _ Hr).
  assert (Lw : map FrZ (written c') = map FrZ (written cfg)) by (rewrite <- (rr_out _ _ _ _ _ _ _ _ _ R); exact Fo).
  assert (Lr : length (read c') = length (read cfg)).
  { rewrite <- (map_length FrZ), <- (rr_in _ _ _ _ _ _ _ _ _ R), Fi, map_length. reflexivity. }
  pose proof (exec_io _ _ _ _ He _ eq_refl) as Eio. rewrite Hu, app_nil_r in Eio. cbn [initial read unread app] in Eio.
  pose proof (R_io _ _ _ _ _ _ _ _ _ R) as Ec'.
  assert (Hfull : read c' = inp).
  { apply (f_equal (@length Z)) in Ec' as El. rewrite app_length, Lr, Eio in El.
    destruct (unread c'); [rewrite app_nil_r in Ec'; exact Ec'|cbn [length] in El; lia]. }
  assert (El : length (written cfg) = length (output_matrix (mat s))) by (rewrite Fo, map_length; reflexivity).
  rewrite El, <- Lw. rewrite E, map_length in *.
  eexists. refine (u_repaired W inp (mat s) rows last c' ks ipf cf R _ Hfull pub i0 n Hpub _ _).
  - apply HS. eapply Z.le_trans; [apply Z.lt_le_incl; exact HN|]. discriminate.
  - unfold fits in *. cbn [sizes_of with_input zp zm zi zo zu zg processor_matrix memory_matrix instruction_matrix output_matrix
      input_matrix program] in *. rewrite map_length. lia.
  - apply small_insts; [|lia]. unfold fits in HF. cbn [sizes_of zg] in HF. rewrite (rr_prog _ _ _ _ _ _ _ _ _ R) in HF.
    rewrite map_length in *. lia.
Qed.
Lemma repaired_complete pr src p inp cfg c fuel s n i0 :
  parses src p -> (1 <= program_words p <= 65535)%Z -> in_range 8 inp ->
  exec 8 p (initial inp) (Done cfg) -> unread cfg = [] ->
  compile pr src = Ok c -> run pr fuel (start c (easygen inp)) = Finished s ->
  (Z.of_nat n < 2 ^ 64)%Z -> (262 < n)%nat -> (length (instruction_matrix (mat s)) + 6 < n)%nat ->
  exists cc A0, repaired i0 n (mat s) (length c) (length inp) (public_inputs c inp) cc A0 /\
    output_shown cc A0 (length (written cfg)) = map FrZ (written cfg).
Proof.
  intros Hp Hw Hin He Hu Hc Hr Hn H1 H2.
  destruct (F_read pr src p inp cfg c fuel s 0%nat Hp Hw Hin He Hc Hr) as [Fi Fo].
  pose proof (exec_io _ _ _ _ He _ eq_refl) as Eio. rewrite Hu, app_nil_r in Eio. cbn [initial read unread app] in Eio.
  assert (HF : fits n (sizes_of (mat s))) by (apply (F_fits pr src p inp c fuel s n); auto).
  assert (Em : with_input (mat s) (map FrZ inp) = mat s).
  { rewrite <- Eio, <- Fi. destruct (mat s). reflexivity. }
  destruct (repaired_gen pr src p inp cfg c fuel s n i0 inp) as (A0 & HR & HO); auto.
  - unfold fits in HF. cbn [sizes_of zu] in HF. rewrite Fi, map_length, Eio in HF. lia.
  - rewrite Em in HR. exists conf, A0. auto.
Qed.
Lemma repaired_leading_zero pr src p inp cfg c fuel s n :
  parses src p -> (1 <= program_words p <= 65535)%Z -> in_range 8 inp ->
  exec 8 p (initial inp) (Done cfg) -> unread cfg = [] ->
  compile pr src = Ok c -> run pr fuel (start c (easygen inp)) = Finished s ->
  (Z.of_nat n < 2 ^ 64)%Z -> (262 < n)%nat -> (length (instruction_matrix (mat s)) + 6 < n)%nat -> (length inp + 8 <= n)%nat ->
  exists m cc A0, repaired f0 n m (length c) (S (length inp)) (public_inputs c (0%Z :: inp)) cc A0 /\
    length (output_matrix m) = length (written cfg) /\
    output_shown cc A0 (length (output_matrix m)) = map FrZ (written cfg).
Proof.
  intros Hp Hw Hin He Hu Hc Hr Hn H1 H2 H3.
  destruct (F_read pr src p inp cfg c fuel s 0%nat Hp Hw Hin He Hc Hr) as [Fi Fo].
  pose proof (exec_io _ _ _ _ He _ eq_refl) as Eio. rewrite Hu, app_nil_r in Eio. cbn [initial read unread app] in Eio.
  destruct (repaired_gen pr src p inp cfg c fuel s n f0 (0%Z :: inp)) as (A0 & HR & HO); auto.
  - cbn [length]. lia.
  - intros g. cbn [map fold_left]. f_equal. unfold h_sum. rewrite <- f0_FrZ. fring.
  - exists (with_input (mat s) (map FrZ (0%Z :: inp))), conf, A0. split; [exact HR|].
    cbn [with_input output_matrix]. rewrite Fo, map_length. split; [reflexivity|exact HO].
Qed.
Lemma leading_zero_counterexample :
  exists src p inp cfg c m cc A0,
    parses src p /\ (1 <= program_words p <= 65535)%Z /\ in_range 8 inp /\ compile Wrapping src = Ok c /\
    exec 8 p (initial inp) (Done cfg) /\
    repaired f0 512 m (length c) (length inp) (public_inputs c inp) cc A0 /\
    inp = [0; 5]%Z /\ written cfg = [0%Z] /\
    output_shown cc A0 (length (output_matrix m)) = map FrZ [5%Z].
Proof.
  assert (G : exists s, run Wrapping 10 (start (map FrZ [44; 46]%Z) (easygen [5%Z])) = Finished s /\
     length (instruction_matrix (mat s)) = 5%nat) by (apply fin_ex; vm_compute; reflexivity).
  destruct G as (s & Er & El).
  assert (Hp : parses [44; 46]%Z [BFSpec.In; Out]) by apply P_in, P_out, P_nil.
  assert (Hw : (1 <= program_words [BFSpec.In; Out] <= 65535)%Z) by (split; discriminate).
  assert (Hin : in_range 8 [5%Z]) by (repeat constructor; discriminate).
  assert (Hin' : in_range 8 [0; 5]%Z) by (repeat constructor; discriminate).
  assert (He : exists cfg, exec 8 [BFSpec.In; Out] (initial [0; 5]%Z) (Done cfg) /\ written cfg = [0%Z])
    by (eexists; split; [eapply E_in; [reflexivity|]; apply E_out, E_nil|reflexivity]).
  assert (He' : exists cfg, exec 8 [BFSpec.In; Out] (initial [5%Z]) (Done cfg) /\ unread cfg = [] /\ written cfg = [5%Z])
    by (eexists; split; [eapply E_in; [reflexivity|]; apply E_out, E_nil|split; reflexivity]).
  destruct He as (cfg & He & Ew). destruct He' as (cfg' & He' & Eu & Ew').
  assert (Hc : compile Wrapping [44; 46]%Z = Ok (map FrZ [44; 46]%Z)) by reflexivity.
  destruct (repaired_leading_zero Wrapping _ _ _ _ _ _ s 512 Hp Hw Hin He' Eu Hc Er) as (m & cc & A0 & HR & HL & HO).
  - reflexivity.
  - lia.
  - rewrite El. lia.
  - cbn [length]. lia.
  - rewrite Ew' in HO. exists [44; 46]%Z, [BFSpec.In; Out], [0; 5]%Z, cfg, (map FrZ [44; 46]%Z), m, cc, A0.
    repeat (split; [assumption|]). split; [reflexivity|]. split; [exact Ew|]. exact HO.
Qed.

(** ",+." on "a" meets the repaired circuit for every start value. *)
Lemma repaired_case i0 : exists s cfg cc A0,
  parses [44; 43; 46]%Z [BFSpec.In; Inc; Out] /\ in_range 8 [97%Z] /\
  exec 8 [BFSpec.In; Inc; Out] (initial [97%Z]) (Done cfg) /\ unread cfg = [] /\ written cfg = [98%Z] /\
  compile Wrapping [44; 43; 46]%Z = Ok (map FrZ [44; 43; 46]%Z) /\
  run Wrapping 10 (start (map FrZ [44; 43; 46]%Z) (easygen [97%Z])) = Finished s /\
  length (processor_matrix (mat s)) = 4%nat /\ length (instruction_matrix (mat s)) = 7%nat /\
  repaired i0 512 (mat s) 3 1 (public_inputs (map FrZ [44; 43; 46]%Z) [97%Z]) cc A0 /\
  output_shown cc A0 1 = map FrZ [98%Z].
Proof.
  assert (G : exists s, run Wrapping 10 (start (map FrZ [44; 43; 46]%Z) (easygen [97%Z])) = Finished s /\
     (length (processor_matrix (mat s)), length (instruction_matrix (mat s))) = (4, 7)%nat) by (apply fin_ex; vm_compute; reflexivity).
  destruct G as (s & Er & El). injection El as El1 El2.
  assert (Hp : parses [44; 43; 46]%Z [BFSpec.In; Inc; Out]) by apply P_in, P_inc, P_out, P_nil.
  assert (Hw : (1 <= program_words [BFSpec.In; Inc; Out] <= 65535)%Z) by (split; discriminate).
  assert (Hin : in_range 8 [97%Z]) by (repeat constructor; discriminate).
  assert (He : exists cfg, exec 8 [BFSpec.In; Inc; Out] (initial [97%Z]) (Done cfg) /\ unread cfg = [] /\ written cfg = [98%Z]).
  { eexists. split; [eapply E_in; [reflexivity|]; apply E_inc, E_out, E_nil|split; reflexivity]. }
  destruct He as (cfg & He & Eu & Ew).
  assert (Hc : compile Wrapping [44; 43; 46]%Z = Ok (map FrZ [44; 43; 46]%Z)) by reflexivity.
  destruct (repaired_complete Wrapping _ _ _ _ _ _ s 512 i0 Hp Hw Hin He Eu Hc Er) as (cc & A0 & HR & HO).
  - reflexivity.
  - lia.
  - rewrite El2. lia.
  - rewrite Ew in HO. exists s, cfg, cc, A0. repeat (split; [assumption|]). exact HO.
Qed.
