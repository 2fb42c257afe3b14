(** Forged assignments the circuit accepts. *)
From Coq Require Import ZArith List Bool Arith Lia Permutation.
From Verif Require Import Base Field FieldFacts BFSpec CompileSpec VMModel VMSim VMInv TraceSpec ListFacts Halo2Model
  CircuitModel CircuitFacts LayoutFacts KeygenFacts CircuitSpec SoundSpec LocalSound WitnessFacts HonestFacts
  Completeness Forge.
Import List ListNotations.
Local Open Scope F_scope.

Lemma same_sizes_of a b : same_sizes a b -> sizes_of a = sizes_of b.
Proof. intros (H1 & H2 & H3 & H4 & H5 & H6). unfold sizes_of. congruence. Qed.

(** ** Accepting forged tables *)
Section Accept.
Variables (n : nat) (mk m : matrix) (i3 i9 : Fr) (insts : list (list Fr)).
Let inst := instance_fn insts.
Hypothesis K : exists k, bf_keygen n mk = EOk k.
Hypothesis S : same_sizes mk m.
Hypothesis L : local_ok m.
Hypothesis Hl : length insts = 2%nat.
Hypothesis Hs : forall l, In l insts -> (length l <= n - 6)%nat.
Hypothesis Hmem : i3 = f0 \/ Permutation (memory_matrix m) (map mrow_of (processor_matrix m)).
Hypothesis Hinst : forall ch,
   fold_left (fun s x => h_inst ch x s) (zipnext (processor_matrix m)) i9 =
   fold_left (fun s x => h_iprp ch x s) (zipnext (instruction_matrix m)) i9.
Hypothesis Hcode : forall ch,
   fold_left (fun s x => h_sum (ch 8%nat) x s) (map (fun i => inst 0 (Datatypes.S i)) (seq 0 (length (program m)))) f0 =
   fold_left (fun s x => h_irs ch x s) (zipnext (instruction_matrix m)) f0.

Lemma forge_accepted : accepted n mk insts conf (forge m i3 i9 f0 inst (fun _ => f0)).
Proof.
  destruct K as [[[c s] asm] K']. pose proof (keygen_spec _ _ _ _ _ K') as (-> & -> & F & _).
  exists bcs, asm. split; [exact K'|]. split; [rewrite Hl; reflexivity|].
  split; [intros l Hi; rewrite bcs_usable; apply Hs; exact Hi|].
  intros ch. exists (forge m i3 i9 f0 inst ch). split.
  - intros col r. apply forge_phase0.
  - apply (satisfied_iff _ _ _ _ _ _ _ _ K'). rewrite (same_sizes_of _ _ S) in *.
    apply forge_sat; auto.
Qed.
End Accept.

Lemma forge_output m i3 i9 i0 inst ch :
  output_shown conf (forge m i3 i9 i0 inst ch) (length (output_matrix m)) = output_matrix m.
Proof.
  unfold output_shown. change (ac_index (o_val (out_config conf))) with 20%nat.
  apply nth_error_ext'. intros k. rewrite nth_error_map.
  destruct (nth_error (output_matrix m) k) as [x|] eqn:E.
  - pose proof (nth_error_lt _ _ _ E) as Hk.
    rewrite (nth_error_nth' _ 0%nat) by (rewrite seq_length; exact Hk). rewrite seq_nth by exact Hk.
    cbn [option_map forge Nat.add]. rewrite (cellF_nth' _ _ _ _ E). reflexivity.
  - apply nth_error_None in E. rewrite (proj2 (nth_error_None _ _)) by (rewrite seq_length; exact E). reflexivity.
Qed.
Lemma forge_view m i3 i9 i0 inst ch r x : nth_error (processor_matrix m) r = Some x ->
  view conf (forge m i3 i9 i0 inst ch) r = vrow_of x.
Proof.
  intros H. unfold view, vrow_of. cbn [p_config conf p_clk p_ip p_ci p_ni p_mp p_mv p_mvi ac_index forge].
  rewrite !(cellF_nth' _ _ _ _ H). reflexivity.
Qed.

(** ** Tables of a run with another instruction table *)
Definition trow (w v : nat -> Fr) (k : nat) : irow := mkI (FrZ (Z.of_nat k)) (w k) (v k).
Section Replace.
Variables (W inp : list Z) (m : matrix) (rows : list register) (last : register) (c' : config)
  (ks : list nat) (ipf : nat -> Z) (cf : nat -> config).
Hypothesis R : recorded_run W inp m rows last c' ks ipf cf.
Variables (w v : nat -> Fr) (outs : list Fr).
Definition replaced : matrix :=
  mkMatrix (processor_matrix m) (map (trow w v) ks) (memory_matrix m) (input_matrix m) outs (program m).

Lemma replaced_local : local_ok replaced.
Proof.
  constructor; cbn [replaced processor_matrix memory_matrix instruction_matrix].
  - destruct (R_get W inp m rows last c' ks ipf cf R 0) as (x & Hx & X); [lia|]. exists x. split; [exact Hx|].
    destruct X as (E0 & E1 & _ & _ & E4 & E5 & _).
    rewrite E0, E1, E4, E5, (st_ip0 _ _ _ _ _ _ _ (rr_states _ _ _ _ _ _ _ _ _ R)),
      (st_c0 _ _ _ _ _ _ _ (rr_states _ _ _ _ _ _ _ _ _ R)). repeat split; reflexivity.
  - intros r x Hx. destruct (R_row W inp m rows last c' ks ipf cf R r x Hx) as [Hr X].
    split; [|apply X]. exists (BFSpec.cell (cf r)). split; [|apply X].
    destruct (R_bounds W inp m rows last c' ks ipf cf R r Hr) as [B _]. exact (B _).
  - intros r x y Hx Hy. destruct (R_row W inp m rows last c' ks ipf cf R r x Hx) as [Hr X].
    destruct (R_row W inp m rows last c' ks ipf cf R (S r) y Hy) as [Hr' Y].
    assert (Hlt : (r < length rows)%nat) by lia.
    split; [|exact (R_op W inp m rows last c' ks ipf cf R r x Hlt Hx)].
    split; [rewrite (proj1 X), (proj1 Y), f1_FrZ, !FrZ_sub, f0_FrZ; f_equal; lia|].
    exact (vstep_gates W r _ _ _ _ x y (R_in_rs_row W inp m rows last c' ks ipf cf R r x y Hlt Hx Hy)
             (R_bounds W inp m rows last c' ks ipf cf R r Hr) X Y).
  - intros r x y Hx Hy. destruct (rr_Mc _ _ _ _ _ _ _ _ _ R r x y Hx Hy) as (a & b & -> & -> & H).
    unfold mem_step. cbn [mrow_at m_clk m_mp m_mv].
    destruct H as [(Ep & [->|Ec])|(Ep & Ec)]; rewrite ?Ep, ?Ec;
    rewrite <- ?FrZ_add, <- ?f1_FrZ, <- ?f0_FrZ, ?Nat2Z.inj_succ; unfold Z.succ;
    rewrite <- ?FrZ_add, <- ?f1_FrZ; repeat split; fring.
  - intros r x y Hx Hy. rewrite nth_error_map in Hx, Hy.
    destruct (nth_error ks r) as [k|] eqn:Ek; [|discriminate]. destruct (nth_error ks (S r)) as [k'|] eqn:Ek'; [|discriminate].
    injection Hx as <-. injection Hy as <-.
    assert (Hx : nth_error (instruction_matrix m) r = Some (irow_at W k)) by (rewrite (rr_T _ _ _ _ _ _ _ _ _ R), nth_error_map, Ek; reflexivity).
    assert (Hy : nth_error (instruction_matrix m) (S r) = Some (irow_at W k')) by (rewrite (rr_T _ _ _ _ _ _ _ _ _ R), nth_error_map, Ek'; reflexivity).
    destruct (R_T2 W inp m rows last c' ks ipf cf R r _ _ Hx Hy) as (k0 & Hk0 & E1 & E2).
    assert (HW := rr_W _ _ _ _ _ _ _ _ _ R). unfold lenZ in HW.
    assert (k0 = k) as ->.
    { apply (f_equal i_ip) in E1. cbn [irow_at i_ip] in E1. apply nth_error_In in Ek.
      apply (rr_range _ _ _ _ _ _ _ _ _ R) in Ek. apply FrZ_inj in E1; lia. }
    assert (Hk' : (k' <= length W)%nat) by (apply nth_error_In in Ek'; apply (rr_range _ _ _ _ _ _ _ _ _ R) in Ek'; exact Ek').
    unfold inst_step, trow. cbn [i_ip i_ci i_ni]. destruct E2 as [E2|[E2 Hk2]]; apply (f_equal i_ip) in E2; cbn [irow_at i_ip] in E2;
      apply FrZ_inj in E2; try lia; apply Nat2Z.inj in E2; subst k'.
    + left. auto.
    + right. rewrite f1_FrZ, FrZ_add. f_equal. lia.
  - rewrite map_length. pose proof (R_zi W inp m rows last c' ks ipf cf R) as H.
    rewrite (rr_T _ _ _ _ _ _ _ _ _ R), map_length in H. exact H.
Qed.

Lemma trow_ip x y : (x <= length W)%nat -> (y <= length W)%nat ->
  feqb (i_ip (trow w v y)) (i_ip (trow w v x)) = Nat.eqb y x.
Proof. exact (same_ip W (rr_W _ _ _ _ _ _ _ _ _ R) x y). Qed.
Lemma fold_irs_t ch l a : (forall k, In k l -> (k <= length W)%nat) ->
  fold_left (fun s x => h_irs ch x s) (zipnext (map (trow w v) l)) a =
  fold_left (fun s x => h_sum (ch 8%nat) x s) (map w (boundary l)) a.
Proof.
  revert a. induction l as [|x l IH]; intros a H; [reflexivity|]. cbn [map zipnext fold_left].
  rewrite IH by (intros k Hk; apply H; right; exact Hk). unfold h_irs, next_ip. cbn [fst snd].
  destruct l as [|y l]; cbn [map].
  - rewrite feqb_refl. reflexivity.
  - rewrite trow_ip by (apply H; cbn [In]; auto).
    change (boundary (x :: y :: l)) with (if Nat.eqb y x then boundary (y :: l) else x :: boundary (y :: l)).
    destruct (Nat.eqb y x); reflexivity.
Qed.
Lemma replaced_code ch : 
  fold_left (fun s x => h_irs ch x s) (zipnext (instruction_matrix replaced)) f0 =
  fold_left (fun s x => h_sum (ch 8%nat) x s) (map w (seq 0 (length (program m)))) f0.
Proof.
  cbn [replaced instruction_matrix].
  rewrite fold_irs_t by (intros k Hk; apply (rr_range _ _ _ _ _ _ _ _ _ R); exact Hk).
  rewrite (R_boundary W inp m rows last c' ks ipf cf R), (rr_prog _ _ _ _ _ _ _ _ _ R), map_length. reflexivity.
Qed.
End Replace.

(** Every public statement is accepted with the key of any run of any program. *)
Lemma every_statement pr src p inp cfg c fuel s n mk insts outs :
  parses src p -> (1 <= program_words p <= 65535)%Z -> in_range 8 inp ->
  exec 8 p (initial inp) (Done cfg) ->
  compile pr src = Ok c -> run pr fuel (start c (easygen inp)) = Finished s ->
  (Z.of_nat n < 2 ^ 64)%Z ->
  (exists k, bf_keygen n mk = EOk k) -> same_sizes mk (mat s) ->
  length insts = 2%nat -> (forall l, In l insts -> (length l <= n - 6)%nat) ->
  length outs = length (written cfg) ->
  exists cc A0, accepted n mk insts cc A0 /\
    output_shown cc A0 (length outs) = outs /\
    forall r x, nth_error (processor_matrix (mat s)) r = Some x -> view cc A0 r = vrow_of x.
Proof.
  intros Hp Hw Hin He Hc Hr Hn HK HS Hl Hlen Ho.
  assert (HP : (Z.of_nat (length (processor_matrix (mat s))) < 2 ^ 64)%Z).
  { destruct HK as [[[c0 s0] a0] K0]. pose proof (keygen_spec _ _ _ _ _ K0) as (_ & _ & F & _).
    unfold fits in F. cbn [sizes_of zp] in F. destruct HS as [E _]. rewrite <- E. lia. }
  destruct (F_rec pr src p inp c fuel s Hp Hw Hin Hc Hr HP) as (W & rows & last & c' & ks & ipf & cf & _ & _ & R).
  pose proof (F_read pr src p inp cfg c fuel s n Hp Hw Hin He Hc Hr) as [_ Eo].
  set (inst := instance_fn insts).
  set (m := replaced (mat s) ks (fun k => inst 0%nat (S k)) (fun _ => f0) outs).
  exists conf, (forge m f0 f0 f0 inst (fun _ => f0)). split; [|split].
  - apply forge_accepted; auto.
    + destruct HS as (E1 & E2 & E3 & E4 & E5 & E6).
      unfold same_sizes, m, replaced. cbn [processor_matrix memory_matrix instruction_matrix output_matrix input_matrix program].
      repeat split; auto.
      * rewrite E3, (rr_T _ _ _ _ _ _ _ _ _ R), !map_length. reflexivity.
      * rewrite E4, Eo, map_length. symmetry. exact Ho.
    + eapply replaced_local; exact R.
    + intros ch. rewrite fold_h_inst_0, fold_h_iprp_0. reflexivity.
    + intros ch. unfold m. rewrite (replaced_code _ _ _ _ _ _ _ _ _ R). reflexivity.
  - change (length outs) with (length (output_matrix m)). apply forge_output.
  - intros r x Hx. apply forge_view. exact Hx.
Qed.

(** ** Concrete cases *)
Lemma key_exists pr src p inp cfg c fuel s n :
  parses src p -> (1 <= program_words p <= 65535)%Z -> in_range 8 inp ->
  exec 8 p (initial inp) (Done cfg) ->
  compile pr src = Ok c -> run pr fuel (start c (easygen inp)) = Finished s ->
  (Z.of_nat n < 2 ^ 64)%Z -> (262 < n)%nat -> (length (instruction_matrix (mat s)) + 6 < n)%nat ->
  exists k, bf_keygen n (mat s) = EOk k.
Proof.
  intros Hp Hw Hin He Hc Hr Hn H1 H2.
  destruct (F_key pr src p inp cfg c fuel s n (fun _ => f0) Hp Hw Hin He Hc Hr Hn) as (cc & sc & asm & K & _).
  - apply (F_fits pr src p inp c fuel s n); auto.
  - exists (cc, sc, asm). exact K.
Qed.

(** Public inputs of a small program and input. *)
Lemma small_insts n c inp : (length c + 7 <= n)%nat -> (length inp + 7 <= n)%nat ->
  forall l, In l (public_inputs c inp) -> (length l <= n - 6)%nat.
Proof. intros H1 H2 l [<-|[<-|[]]]; cbn [length]; rewrite ?map_length; lia. Qed.

(** ",+." on "a" writes "b"; a proof showing "c" is accepted. *)
Lemma wrong_output_accepted :
  exists src p inp cfg c fuel s cc A0,
    parses src p /\ (1 <= program_words p <= 65535)%Z /\ in_range 8 inp /\ exec 8 p (initial inp) (Done cfg) /\
    compile Wrapping src = Ok c /\ run Wrapping fuel (start c (easygen inp)) = Finished s /\
    accepted 512 (mat s) (public_inputs c inp) cc A0 /\
    written cfg = [98%Z] /\ output_shown cc A0 (length (output_matrix (mat s))) = map FrZ [99%Z].
Proof.
  assert (G : exists s, run Wrapping 10 (start (map FrZ [44; 43; 46]%Z) (easygen [97%Z])) = Finished s /\
     (length (instruction_matrix (mat s)), length (output_matrix (mat s))) = (7, 1)%nat)
    by (apply fin_ex; vm_compute; reflexivity).
  destruct G as (s & Er & El). injection El as El1 El2.
  assert (Hp : parses [44; 43; 46]%Z [BFSpec.In; Inc; Out]) by apply P_in, P_inc, P_out, P_nil.
  assert (Hw : (1 <= program_words [BFSpec.In; Inc; Out] <= 65535)%Z) by (split; discriminate).
  assert (Hin : in_range 8 [97%Z]) by (repeat constructor; discriminate).
  assert (He : exists cfg, exec 8 [BFSpec.In; Inc; Out] (initial [97%Z]) (Done cfg) /\ written cfg = [98%Z]).
  { eexists. split; [eapply E_in; [reflexivity|]; apply E_inc, E_out, E_nil|reflexivity]. }
  destruct He as (cfg & He & Ew).
  assert (Hc : compile Wrapping [44; 43; 46]%Z = Ok (map FrZ [44; 43; 46]%Z)) by reflexivity.
  destruct (every_statement Wrapping _ _ _ _ _ _ _ 512 (mat s) (public_inputs (map FrZ [44; 43; 46]%Z) [97%Z]) (map FrZ [99%Z])
    Hp Hw Hin He Hc Er eq_refl) as (cc & A0 & Ha & Ho & _).
  - eapply key_exists; eauto; [reflexivity|lia|rewrite El1; lia].
  - repeat split.
  - reflexivity.
  - apply small_insts; cbn [length map]; lia.
  - rewrite Ew. reflexivity.
  - exists [44; 43; 46]%Z, [BFSpec.In; Inc; Out], [97%Z], cfg, (map FrZ [44; 43; 46]%Z), 10%nat, s, cc, A0.
    rewrite El2. change (length (map FrZ [99%Z])) with 1%nat in Ho. tauto.
Qed.

Lemma spin_forever w c p o : BFSpec.cell c <> 0%Z -> ~ exec w (Loop [] :: p) c o.
Proof.
  intros Hc H. remember (Loop [] :: p) as q eqn:Eq. revert Hc Eq.
  induction H; intros Hc Eq; try discriminate; injection Eq as -> ->.
  - contradiction.
  - inversion H0; subst. auto.
  - inversion H0.
Qed.

(** "+[]" never terminates; with the key of the run of "+++++" its public
    inputs are accepted. *)
Lemma diverging_accepted :
  exists src p c s cc A0,
    parses src p /\ (forall o, ~ exec 8 p (initial []) o) /\ compile Wrapping src = Ok c /\
    (exists src' c' fuel, compile Wrapping src' = Ok c' /\ run Wrapping fuel (start c' (easygen [])) = Finished s /\
       length c' = length c) /\
    accepted 512 (mat s) (public_inputs c []) cc A0.
Proof.
  assert (G : exists s, run Wrapping 10 (start (map FrZ [43; 43; 43; 43; 43]%Z) (easygen [])) = Finished s /\
     length (instruction_matrix (mat s)) = 11%nat)
    by (apply fin_ex; vm_compute; reflexivity).
  destruct G as (s & Er & El).
  assert (Hp : parses [43; 43; 43; 43; 43]%Z [Inc; Inc; Inc; Inc; Inc]) by apply P_inc, P_inc, P_inc, P_inc, P_inc, P_nil.
  assert (Hw : (1 <= program_words [Inc; Inc; Inc; Inc; Inc] <= 65535)%Z) by (split; discriminate).
  assert (Hin : in_range 8 []) by constructor.
  assert (He : exists cfg, exec 8 [Inc; Inc; Inc; Inc; Inc] (initial []) (Done cfg) /\ written cfg = []).
  { eexists. split; [apply E_inc, E_inc, E_inc, E_inc, E_inc, E_nil|reflexivity]. }
  destruct He as (cfg & He & Ew).
  assert (Hc : compile Wrapping [43; 43; 43; 43; 43]%Z = Ok (map FrZ [43; 43; 43; 43; 43]%Z)) by reflexivity.
  assert (Hc' : exists c, compile Wrapping [43; 91; 93]%Z = Ok c /\ length c = 5%nat) by (eexists; split; reflexivity).
  destruct Hc' as (c & Hc' & Lc).
  destruct (every_statement Wrapping _ _ _ _ _ _ _ 512 (mat s) (public_inputs c []) []
    Hp Hw Hin He Hc Er eq_refl) as (cc & A0 & Ha & _).
  - eapply key_exists; eauto; [reflexivity|lia|rewrite El; lia].
  - repeat split.
  - reflexivity.
  - apply small_insts; cbn [length]; lia.
  - rewrite Ew. reflexivity.
  - exists [43; 91; 93]%Z, [Inc; Loop []], c, s, cc, A0. split.
    { apply P_inc. apply (P_loop [] [] []); apply P_nil. }
    split; [|split; [exact Hc'|split; [|exact Ha]]].
    + intros o H. inversion H; subst. eapply spin_forever; [|eassumption]. discriminate.
    + exists [43; 43; 43; 43; 43]%Z, (map FrZ [43; 43; 43; 43; 43]%Z), 10%nat. rewrite Lc. auto.
Qed.

(** Key and public inputs of "+.", rows executing "-.". *)
Lemma other_code_accepted :
  exists src p cfg c fuel s cc A0,
    parses src p /\ (1 <= program_words p <= 65535)%Z /\ exec 8 p (initial []) (Done cfg) /\
    compile Wrapping src = Ok c /\ run Wrapping fuel (start c (easygen [])) = Finished s /\
    accepted 512 (mat s) (public_inputs c []) cc A0 /\
    ~ code_bound cc A0 (length (processor_matrix (mat s))) c.
Proof.
  assert (G : exists s, run Wrapping 10 (start (map FrZ [43; 46]%Z) (easygen [])) = Finished s /\
     (length (processor_matrix (mat s)), length (memory_matrix (mat s)), length (instruction_matrix (mat s)),
      length (output_matrix (mat s)), length (input_matrix (mat s)), length (program (mat s))) = (3, 3, 5, 1, 0, 2)%nat)
    by (apply fin_ex; vm_compute; reflexivity).
  destruct G as (s & Er & El). injection El as L1 L2 L3 L4 L5 L6.
  assert (G : exists s, run Wrapping 10 (start (map FrZ [45; 46]%Z) (easygen [])) = Finished s /\
     (length (processor_matrix (mat s)), length (memory_matrix (mat s)), length (instruction_matrix (mat s)),
      length (output_matrix (mat s)), length (input_matrix (mat s)), length (program (mat s)),
      map (fun x => fval (current_instruction x)) (firstn 1 (processor_matrix (mat s))),
      map (fun x => fval (instruction_pointer x)) (firstn 1 (processor_matrix (mat s)))) = (3, 3, 5, 1, 0, 2, [45%Z], [0%Z])%nat)
    by (apply fin_ex; vm_compute; reflexivity).
  destruct G as (s' & Er' & El). injection El as M1 M2 M3 M4 M5 M6 Mc Mi.
  assert (Hp : parses [43; 46]%Z [Inc; Out]) by apply P_inc, P_out, P_nil.
  assert (Hw : (1 <= program_words [Inc; Out] <= 65535)%Z) by (split; discriminate).
  assert (Hin : in_range 8 []) by constructor.
  assert (He : exists cfg, exec 8 [Inc; Out] (initial []) (Done cfg)) by (eexists; apply E_inc, E_out, E_nil).
  assert (Hp' : parses [45; 46]%Z [Dec; Out]) by apply P_dec, P_out, P_nil.
  assert (Hw' : (1 <= program_words [Dec; Out] <= 65535)%Z) by (split; discriminate).
  assert (He' : exists cfg, exec 8 [Dec; Out] (initial []) (Done cfg) /\ length (written cfg) = 1%nat)
    by (eexists; split; [apply E_dec, E_out, E_nil|reflexivity]).
  destruct He as (cfg & He). destruct He' as (cfg' & He' & Ew).
  assert (Hc : compile Wrapping [43; 46]%Z = Ok (map FrZ [43; 46]%Z)) by reflexivity.
  assert (Hc' : compile Wrapping [45; 46]%Z = Ok (map FrZ [45; 46]%Z)) by reflexivity.
  destruct (every_statement Wrapping _ _ _ _ _ _ _ 512 (mat s) (public_inputs (map FrZ [43; 46]%Z) []) [f0]
    Hp' Hw' Hin He' Hc' Er' eq_refl) as (cc & A0 & Ha & _ & Hv).
  - apply (key_exists _ _ _ _ _ _ _ _ _ Hp Hw Hin He Hc Er); [reflexivity|lia|rewrite L3; lia].
  - unfold same_sizes. rewrite L1, L2, L3, L4, L5, L6, M1, M2, M3, M4, M5, M6. repeat split.
  - reflexivity.
  - apply small_insts; cbn [length map]; lia.
  - rewrite Ew. reflexivity.
  - exists [43; 46]%Z, [Inc; Out], cfg, (map FrZ [43; 46]%Z), 10%nat, s, cc, A0.
    split; [exact Hp|]. split; [exact Hw|]. split; [exact He|]. split; [exact Hc|]. split; [exact Er|].
    split; [exact Ha|]. intros Hb.
    destruct (processor_matrix (mat s')) as [|x l] eqn:Ex; [discriminate M1|]. cbn [firstn map] in Mc, Mi.
    injection Mc as Mc. injection Mi as Mi. specialize (Hv 0%nat x eq_refl).
    destruct (Hb 0%nat) as (a & Ea & Ec & _); [rewrite L1; lia|].
    rewrite Hv in Ea, Ec. cbn [vrow_of v_ip v_ci] in Ea, Ec.
    destruct a as [|[|a]]; cbn [map nth] in Ec.
    + rewrite Ec in Mc. vm_compute in Mc. discriminate.
    + rewrite Ec in Mc. vm_compute in Mc. discriminate.
    + destruct a; rewrite Ec in Mc; vm_compute in Mc; discriminate.
Qed.

(** ",." with public input 'a', rows loading 'b'. *)
Lemma other_input_accepted :
  exists src p inp cfg c fuel s cc A0,
    parses src p /\ (1 <= program_words p <= 65535)%Z /\ in_range 8 inp /\ exec 8 p (initial inp) (Done cfg) /\
    compile Wrapping src = Ok c /\ run Wrapping fuel (start c (easygen inp)) = Finished s /\
    accepted 512 (mat s) (public_inputs c inp) cc A0 /\
    inp = [97%Z] /\ loaded cc A0 (length (processor_matrix (mat s))) = map FrZ [98%Z].
Proof.
  assert (G : exists s, run Wrapping 10 (start (map FrZ [44; 46]%Z) (easygen [97%Z])) = Finished s /\
     (length (processor_matrix (mat s)), length (memory_matrix (mat s)), length (instruction_matrix (mat s)),
      length (output_matrix (mat s)), length (input_matrix (mat s)), length (program (mat s))) = (3, 3, 5, 1, 1, 2)%nat)
    by (apply fin_ex; vm_compute; reflexivity).
  destruct G as (s & Er & El). injection El as L1 L2 L3 L4 L5 L6.
  assert (G : exists s, run Wrapping 10 (start (map FrZ [44; 46]%Z) (easygen [98%Z])) = Finished s /\
     (length (memory_matrix (mat s)), length (instruction_matrix (mat s)),
      length (output_matrix (mat s)), length (input_matrix (mat s)), length (program (mat s)),
      map (fun x => (fval (current_instruction x), fval (memory_value x))) (processor_matrix (mat s)))
     = (3, 5, 1, 1, 2, [(44, 0); (46, 98); (0, 98)]%Z)%nat)
    by (apply fin_ex; vm_compute; reflexivity).
  destruct G as (s' & Er' & El). injection El as M2 M3 M4 M5 M6 Mc.
  assert (M1 : length (processor_matrix (mat s')) = 3%nat) by (apply (f_equal (@length _)) in Mc; rewrite map_length in Mc; exact Mc).
  assert (Hp : parses [44; 46]%Z [BFSpec.In; Out]) by apply P_in, P_out, P_nil.
  assert (Hw : (1 <= program_words [BFSpec.In; Out] <= 65535)%Z) by (split; discriminate).
  assert (Hin : in_range 8 [97%Z]) by (repeat constructor; discriminate).
  assert (Hin' : in_range 8 [98%Z]) by (repeat constructor; discriminate).
  assert (He : exists cfg, exec 8 [BFSpec.In; Out] (initial [97%Z]) (Done cfg))
    by (eexists; eapply E_in; [reflexivity|]; apply E_out, E_nil).
  assert (He' : exists cfg, exec 8 [BFSpec.In; Out] (initial [98%Z]) (Done cfg) /\ length (written cfg) = 1%nat)
    by (eexists; split; [eapply E_in; [reflexivity|]; apply E_out, E_nil|reflexivity]).
  destruct He as (cfg & He). destruct He' as (cfg' & He' & Ew).
  assert (Hc : compile Wrapping [44; 46]%Z = Ok (map FrZ [44; 46]%Z)) by reflexivity.
  destruct (every_statement Wrapping _ _ _ _ _ _ _ 512 (mat s) (public_inputs (map FrZ [44; 46]%Z) [97%Z]) [f0]
    Hp Hw Hin' He' Hc Er' eq_refl) as (cc & A0 & Ha & _ & Hv).
  - apply (key_exists _ _ _ _ _ _ _ _ _ Hp Hw Hin He Hc Er); [reflexivity|lia|rewrite L3; lia].
  - unfold same_sizes. rewrite L1, L2, L3, L4, L5, L6, M1, M2, M3, M4, M5, M6. repeat split.
  - reflexivity.
  - apply small_insts; cbn [length map]; lia.
  - rewrite Ew. reflexivity.
  - exists [44; 46]%Z, [BFSpec.In; Out], [97%Z], cfg, (map FrZ [44; 46]%Z), 10%nat, s, cc, A0.
    split; [exact Hp|]. split; [exact Hw|]. split; [exact Hin|]. split; [exact He|]. split; [exact Hc|].
    split; [exact Er|]. split; [exact Ha|]. split; [reflexivity|]. rewrite L1.
    destruct (processor_matrix (mat s')) as [|x [|y [|z [|]]]]; try discriminate M1. cbn [map] in Mc.
    injection Mc as X1 X2 Y1 Y2 Z1 Z2.
    unfold loaded. cbn [seq Nat.sub flat_map app].
    rewrite (Hv 0%nat x eq_refl), (Hv 1%nat y eq_refl). cbn [vrow_of v_ci v_mv]. unfold feqb. rewrite X1, Y1. cbn.
    f_equal. apply fe_eq. exact Y2.
Qed.

(** ** Checking tables by computation *)
Fixpoint consec {A} (f : A -> A -> bool) (l : list A) : bool :=
  match l with x :: (y :: _) as t => f x y && consec f t | _ => true end.
Lemma consec_ok {A} (f : A -> A -> bool) l : consec f l = true ->
  forall r x y, nth_error l r = Some x -> nth_error l (S r) = Some y -> f x y = true.
Proof.
  induction l as [|a [|b l] IH]; intros H r x y Hx Hy.
  - destruct r; discriminate.
  - destruct r as [|r]; [discriminate|destruct r; discriminate].
  - cbn [consec] in H. apply andb_true_iff in H. destruct H as [H1 H2]. destruct r as [|r].
    + injection Hx as <-. injection Hy as <-. exact H1.
    + exact (IH H2 r x y Hx Hy).
Qed.
Definition z0 (x : Fr) : bool := feqb x f0.
Lemma z0_eq x : z0 x = true -> x = f0.
Proof. apply feqb_eq. Qed.
Definition proc_stepb (x y : register) : bool :=
  let ci := current_instruction x in
  z0 (cycle y - cycle x - f1) &&
  z0 ((desel ci ADD + desel ci SUB + desel ci SHR + desel ci SHL + desel ci GETCHAR + desel ci PUTCHAR)
     * (instruction_pointer y - instruction_pointer x - f1)
    + desel ci LB * (memory_value x * (instruction_pointer y - instruction_pointer x - FrZ 2) +
        (memory_value x * memory_value_inverse x - f1) * (instruction_pointer y - next_instruction x))
    + desel ci RB * ((memory_value x * memory_value_inverse x - f1) * (instruction_pointer y - instruction_pointer x - FrZ 2)
        + memory_value x * (instruction_pointer y - next_instruction x))) &&
  z0 ((desel ci ADD + desel ci SUB + desel ci LB + desel ci RB + desel ci GETCHAR + desel ci PUTCHAR)
     * (memory_pointer y - memory_pointer x)
    + desel ci SHL * (memory_pointer y - memory_pointer x + f1)
    + desel ci SHR * (memory_pointer y - memory_pointer x - f1)) &&
  z0 ((desel ci LB + desel ci RB + desel ci PUTCHAR) * (memory_value y - memory_value x)
    + desel ci ADD * (memory_value y - memory_value x - f1) * (memory_value y - memory_value x + FrZ 255)
    + desel ci SUB * (memory_value y - memory_value x + f1) * (memory_value y - memory_value x - FrZ 255)) &&
  existsb (fun o => feqb ci (FrZ o)) OPCODES.
Definition mem_stepb (x y : mrow) : bool :=
  z0 ((m_mp y - m_mp x - f1) * (m_mp y - m_mp x)) &&
  z0 ((m_mp y - m_mp x - f1) * (m_mv x - m_mv y) * (m_clk y - m_clk x - f1)) &&
  z0 ((m_mp y - m_mp x) * m_mv y).
Definition inst_stepb (x y : irow) : bool :=
  (feqb (i_ip y) (i_ip x) && feqb (i_ci y) (i_ci x) && feqb (i_ni y) (i_ni x)) || feqb (i_ip y) (i_ip x + f1).
Definition rowb (x : register) : bool :=
  (fval (memory_value x) <? 256)%Z &&
  (if z0 (memory_value x) then z0 (memory_value_inverse x)
   else feqb (memory_value x * memory_value_inverse x) f1).
Definition local_okb (m : matrix) : bool :=
  match processor_matrix m with
  | x :: _ => z0 (cycle x) && z0 (instruction_pointer x) && z0 (memory_pointer x) && z0 (memory_value x)
  | [] => false
  end &&
  forallb rowb (processor_matrix m) &&
  consec proc_stepb (processor_matrix m) && consec mem_stepb (memory_matrix m) &&
  consec inst_stepb (instruction_matrix m) && (0 <? length (instruction_matrix m))%nat.
Lemma local_okb_ok m : local_okb m = true -> local_ok m.
Proof.
  unfold local_okb. rewrite !andb_true_iff. intros [[[[[H1 H2] H3] H4] H5] H6]. constructor.
  - destruct (processor_matrix m) as [|x l]; [discriminate|]. exists x. split; [reflexivity|].
    rewrite !andb_true_iff in H1. destruct H1 as [[[A B] C] D]. apply z0_eq in A, B, C, D. auto.
  - intros r x Hx. apply nth_error_In in Hx. rewrite forallb_forall in H2. apply H2 in Hx.
    unfold rowb in Hx. apply andb_true_iff in Hx. destruct Hx as [A B]. apply Z.ltb_lt in A. split.
    + exists (fval (memory_value x)). split; [split; [apply fval_range|exact A]|]. symmetry. apply of_Z_fval.
    + unfold inverse_of. destruct (z0 (memory_value x)) eqn:E.
      * apply z0_eq in E, B. rewrite E, B. split; [auto|]. intros N. contradiction.
      * apply feqb_neq in E. apply feqb_eq in B. split; [|auto]. intros N. contradiction.
  - intros r x y Hx Hy. pose proof (consec_ok _ _ H3 r x y Hx Hy) as H. unfold proc_stepb in H.
    rewrite !andb_true_iff in H. destruct H as [[[[A B] C] D] E]. apply z0_eq in A, B, C, D.
    split; [unfold proc_step; auto|]. apply existsb_exists in E. destruct E as (o & Ho & E).
    exists o. split; [apply feqb_eq; exact E|exact Ho].
  - intros r x y Hx Hy. pose proof (consec_ok _ _ H4 r x y Hx Hy) as H. unfold mem_stepb in H.
    rewrite !andb_true_iff in H. destruct H as [[A B] C]. apply z0_eq in A, B, C. unfold mem_step. auto.
  - intros r x y Hx Hy. pose proof (consec_ok _ _ H5 r x y Hx Hy) as H. unfold inst_stepb in H.
    rewrite orb_true_iff, !andb_true_iff in H. unfold inst_step. rewrite !feqb_eq in H. tauto.
  - apply Nat.ltb_lt. exact H6.
Qed.

(** ** An unordered memory table
    "+><+><." increments cell 0 twice and prints it.  In the forged trace the last
    two rows show 1; the memory table lists the visits of cell 0 at cycles
    0, 1, 6, 7, 3, 4. *)
Definition preg (clk ip ci ni mp mv : Z) : register :=
  mkReg (FrZ clk) (FrZ ip) (FrZ ci) (FrZ ni) (FrZ mp) (FrZ mv) (finv (FrZ mv)).
Definition forged_rows : list register :=
  [ preg 0 0 43 62 0 0; preg 1 1 62 60 0 1; preg 2 2 60 43 1 0; preg 3 3 43 62 0 1; preg 4 4 62 60 0 2;
    preg 5 5 60 46 1 0; preg 6 6 46 0 0 1; preg 7 7 0 0 0 1 ]%Z.
Definition forged_memory : list mrow :=
  map (fun t => match t with (a, b, c) => mkM (FrZ a) (FrZ b) (FrZ c) end)
    [ (0, 0, 0); (1, 0, 1); (6, 0, 1); (7, 0, 1); (3, 0, 1); (4, 0, 2); (2, 1, 0); (5, 1, 0) ]%Z.
Definition ppw : list Z := [43; 62; 60; 43; 62; 60; 46]%Z.
Definition pps : list instr := [Inc; Right; Left; Inc; Right; Left; Out].

Lemma recorded_inst_product W inp m rows last c' ks ipf cf ch i9 : recorded_run W inp m rows last c' ks ipf cf ->
  fold_left (fun s x => h_inst ch x s) (zipnext (processor_matrix m)) i9 =
  fold_left (fun s x => h_iprp ch x s) (zipnext (instruction_matrix m)) i9.
Proof.
  intros R. rewrite fold_h_inst, (rr_T _ _ _ _ _ _ _ _ _ R), fold_iprp.
  - rewrite (rr_rows _ _ _ _ _ _ _ _ _ R), prodF_map. symmetry.
    exact (prodF_perm (ifac W ch) _ _ _ (R_interior _ _ _ _ _ _ _ _ _ R)).
  - exact (rr_W _ _ _ _ _ _ _ _ _ R).
  - intros k Hk. apply (rr_range _ _ _ _ _ _ _ _ _ R). exact Hk.
Qed.
Lemma recorded_code_sum W inp m rows last c' ks ipf cf ch : recorded_run W inp m rows last c' ks ipf cf ->
  fold_left (fun s x => h_irs ch x s) (zipnext (instruction_matrix m)) f0 =
  fold_left (fun s x => h_sum (ch 8%nat) x s) (program m) f0.
Proof.
  intros R. rewrite (rr_prog _ _ _ _ _ _ _ _ _ R), (rr_T _ _ _ _ _ _ _ _ _ R), fold_irs.
  - rewrite (R_boundary _ _ _ _ _ _ _ _ _ R), words_ci. reflexivity.
  - exact (rr_W _ _ _ _ _ _ _ _ _ R).
  - intros k Hk. apply (rr_range _ _ _ _ _ _ _ _ _ R). exact Hk.
Qed.
Lemma public_code c inp : map (fun i => instance_fn (public_inputs c inp) 0 (S i)) (seq 0 (length c)) = c.
Proof.
  apply nth_error_ext'. intros k. rewrite nth_error_map. destruct (lt_dec k (length c)) as [Hk|Hk].
  - rewrite (nth_error_nth' (seq 0 (length c)) 0%nat) by (rewrite seq_length; exact Hk).
    rewrite seq_nth by exact Hk. cbn [option_map Nat.add instance_fn public_inputs nth]. symmetry. apply nth_error_nth'. exact Hk.
  - rewrite (proj2 (nth_error_None _ _)) by (rewrite seq_length; lia). symmetry. apply nth_error_None. lia.
Qed.

Lemma wrong_memory_accepted :
  exists src p cfg c fuel s cc A0,
    parses src p /\ (1 <= program_words p <= 65535)%Z /\ exec 8 p (initial []) (Done cfg) /\
    compile Wrapping src = Ok c /\ run Wrapping fuel (start c (easygen [])) = Finished s /\
    accepted 512 (mat s) (public_inputs c []) cc A0 /\
    written cfg = [2%Z] /\ output_shown cc A0 1 = map FrZ [1%Z] /\
    ~ memory_bound cc A0 (length (processor_matrix (mat s))).
Proof.
  assert (G : exists s, run Wrapping 20 (start (map FrZ ppw) (easygen [])) = Finished s /\
     (length (processor_matrix (mat s)), length (memory_matrix (mat s)), length (instruction_matrix (mat s)),
      length (output_matrix (mat s)), length (input_matrix (mat s)), length (program (mat s)),
      map (fun x => (fval (instruction_pointer x), fval (current_instruction x), fval (next_instruction x))) (processor_matrix (mat s)),
      local_okb (mkMatrix forged_rows (instruction_matrix (mat s)) forged_memory [] (map FrZ [1%Z]) (program (mat s))),
      map fval (program (mat s))) =
     (8, 8, 15, 1, 0, 7, map (fun x => (fval (instruction_pointer x), fval (current_instruction x), fval (next_instruction x))) forged_rows,
      true, ppw)%nat)
    by (apply fin_ex; vm_compute; reflexivity).
  destruct G as (s & Er & El).
  apply pair_equal_spec in El. destruct El as [El Lpr]. apply pair_equal_spec in El. destruct El as [El Lok].
  apply pair_equal_spec in El. destruct El as [El Lrows].
  injection El as L1 L2 L3 L4 L5 L6.
  assert (Hp : parses ppw pps) by apply P_inc, P_right, P_left, P_inc, P_right, P_left, P_out, P_nil.
  assert (Hw : (1 <= program_words pps <= 65535)%Z) by (split; discriminate).
  assert (Hin : in_range 8 []) by constructor.
  assert (He : exists cfg, exec 8 pps (initial []) (Done cfg) /\ written cfg = [2%Z]).
  { eexists. split.
    - apply E_inc, E_right; [reflexivity|]. apply E_left; [reflexivity|]. apply E_inc, E_right; [reflexivity|].
      apply E_left; [reflexivity|]. apply E_out, E_nil.
    - reflexivity. }
  destruct He as (cfg & He & Ew).
  assert (Hc : compile Wrapping ppw = Ok (map FrZ ppw)) by reflexivity.
  destruct (F_rec Wrapping ppw pps [] (map FrZ ppw) 20%nat s Hp Hw Hin Hc Er) as (W & rows & last & c' & ks & ipf & cf & _ & _ & R);
    [rewrite L1; reflexivity|].
  assert (Erows : map irow_of (processor_matrix (mat s)) = map irow_of forged_rows).
  { clear - Lrows. revert Lrows. generalize forged_rows. induction (processor_matrix (mat s)) as [|x l IH]; intros [|y k] H;
      try discriminate; [reflexivity|]. cbn [map] in *. injection H as H1 H2 H3 H. rewrite (IH _ H). f_equal.
    unfold irow_of. f_equal; apply fe_eq; assumption. }
  assert (Eprog : program (mat s) = map FrZ ppw).
  { clear - Lpr. revert Lpr. generalize (program (mat s)). intros l H. rewrite <- H, map_map.
    rewrite <- (map_id l) at 1. apply map_ext. intros x. symmetry. apply of_Z_fval. }
  set (m := mkMatrix forged_rows (instruction_matrix (mat s)) forged_memory [] (map FrZ [1%Z]) (program (mat s))) in *.
  set (insts := public_inputs (map FrZ ppw) []).
  assert (Ha : accepted 512 (mat s) insts conf (forge m (FrZ 3) (FrZ 9) f0 (instance_fn insts) (fun _ => f0))).
  { apply forge_accepted.
    - apply (key_exists _ _ _ _ _ _ _ _ _ Hp Hw Hin He Hc Er); [reflexivity|lia|rewrite L3; lia].
    - unfold same_sizes. rewrite L1, L2, L4, L5. cbn [m processor_matrix memory_matrix instruction_matrix output_matrix input_matrix program].
      auto 10.
    - apply local_okb_ok. exact Lok.
    - reflexivity.
    - apply small_insts; cbn [length map ppw]; lia.
    - right. cbn [m memory_matrix processor_matrix]. unfold forged_memory, forged_rows, preg, mrow_of.
      cbn [map cycle memory_pointer memory_value].
      apply perm_skip, perm_skip.
      apply (Permutation_cons_app [_; _; _; _]). cbn [app].
      apply (Permutation_cons_app [_; _; _; _]). cbn [app].
      apply (Permutation_cons_app [_]). cbn [app].
      apply (Permutation_cons_app [_]). cbn [app]. reflexivity.
    - intros ch. cbn [m instruction_matrix processor_matrix].
      rewrite <- (recorded_inst_product _ _ _ _ _ _ _ _ _ ch _ R), !fold_h_inst, Erows. reflexivity.
    - intros ch. cbn [m instruction_matrix program]. rewrite (recorded_code_sum _ _ _ _ _ _ _ _ _ ch R).
      f_equal. rewrite Eprog. apply public_code. }
  exists ppw, pps, cfg, (map FrZ ppw), 20%nat, s, conf, (forge m (FrZ 3) (FrZ 9) f0 (instance_fn insts) (fun _ => f0)).
  split; [exact Hp|]. split; [exact Hw|]. split; [exact He|]. split; [exact Hc|]. split; [exact Er|].
  split; [exact Ha|]. split; [exact Ew|]. split; [exact (forge_output m _ _ _ _ _)|].
  intros Hb. destruct (Hb 6%nat) as [H _]; [rewrite L1; lia|]. specialize (H 4%nat). cbv zeta in H.
  rewrite (forge_view m _ _ _ _ _ 4 (preg 4 4 62 60 0 2) eq_refl), (forge_view m _ _ _ _ _ 6 (preg 6 6 46 0 0 1) eq_refl) in H.
  assert (E : v_mv (vrow_of (preg 6 6 46 0 0 1)) = v_mv (vrow_of (preg 4 4 62 60 0 2))).
  { apply H; [lia|reflexivity|]. intros k Hk1 Hk2. assert (k = 5)%nat as -> by lia.
    rewrite (forge_view m _ _ _ _ _ 5 (preg 5 5 60 46 1 0) eq_refl). intros E. apply (f_equal fval) in E. vm_compute in E. discriminate. }
  apply (f_equal fval) in E. vm_compute in E. discriminate.
Qed.
