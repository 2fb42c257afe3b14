(** The advice the prover synthesises, in closed form. *)
From Coq Require Import ZArith List Bool Arith Lia.
From Verif Require Import Base Field FieldFacts VMModel Halo2Model CircuitModel CircuitFacts
  LayoutFacts KeygenFacts.
Import ListNotations.

(** ** The back end run over a list of calls *)
Definition wit_ok (c : cs) (n phase : nat) (insts : list (list Fr)) (h : nat -> nat -> Fr) (o : aop) : Prop :=
  match o with
  | OAdvice col r v =>
      ac_phase col <= phase ->
      r < usable_rows n c /\ ac_index col < num_advice c /\ v = Some (h (ac_index col) r)
  | OQuery ic ir =>
      ir < usable_rows n c /\ exists l x, nth_error insts ic = Some l /\ nth_error l ir = Some x
  | _ => True
  end.
Definition writes (phase : nat) (ops : list aop) (col r : nat) : Prop :=
  exists c v, In (OAdvice c r v) ops /\ ac_phase c <= phase /\ ac_index c = col.

Lemma witness_op_ok c n phase insts h o w :
  wit_ok c n phase insts h o ->
  exists w', witness_op c n phase insts o w = EOk w' /\
    forall col r, (writes phase [o] col r \/ w col r = h col r) -> w' col r = h col r.
Proof.
  assert (Hsame : forall w' : nat -> nat -> Fr, w' = w -> ~ (exists c r v, o = OAdvice c r v /\ ac_phase c <= phase) ->
     forall col r, (writes phase [o] col r \/ w col r = h col r) -> w' col r = h col r).
  { intros w' -> N col r [(c' & v & [Hi|[]] & Hp & _)|E]; [|exact E].
    exfalso. apply N. exists c', r, v. auto. }
  destruct o as [s r|c' r v|ic ir|lc lr rc rr|c' r v|c' r v]; cbn [wit_ok witness_op]; intros H.
  - eexists. split; [reflexivity|]. apply Hsame; [reflexivity|]. intros (? & ? & ? & E & _). discriminate.
  - destruct (phase <? ac_phase c') eqn:Ep.
    + apply Nat.ltb_lt in Ep. eexists. split; [reflexivity|]. apply Hsame; [reflexivity|].
      intros (? & ? & ? & E & Hp). injection E as <- <- <-. lia.
    + apply Nat.ltb_ge in Ep. destruct (H Ep) as (Hr & Hc & ->).
      rewrite (proj2 (Nat.ltb_lt _ _) Hr), (proj2 (Nat.ltb_lt _ _) Hc).
      eexists. split; [reflexivity|]. intros col r' Hw. cbv beta.
      destruct (Nat.eqb col (ac_index c')) eqn:E1; destruct (Nat.eqb r' r) eqn:E2; cbn [andb].
      * apply Nat.eqb_eq in E1, E2. subst. reflexivity.
      * destruct Hw as [(c2 & v2 & [Hi|[]] & _ & Hx)|E]; [|exact E]. injection Hi as -> -> _.
        rewrite Nat.eqb_refl in E2. discriminate.
      * destruct Hw as [(c2 & v2 & [Hi|[]] & _ & Hx)|E]; [|exact E]. injection Hi as <- <- _.
        subst col. rewrite Nat.eqb_refl in E1. discriminate.
      * destruct Hw as [(c2 & v2 & [Hi|[]] & _ & Hx)|E]; [|exact E]. injection Hi as <- <- _.
        subst col. rewrite Nat.eqb_refl in E1. discriminate.
  - destruct H as (Hr & l & x & E1 & E2). rewrite (proj2 (Nat.ltb_lt _ _) Hr), E1, E2.
    eexists. split; [reflexivity|]. apply Hsame; [reflexivity|]. intros (? & ? & ? & E & _). discriminate.
  - eexists. split; [reflexivity|]. apply Hsame; [reflexivity|]. intros (? & ? & ? & E & _). discriminate.
  - eexists. split; [reflexivity|]. apply Hsame; [reflexivity|]. intros (? & ? & ? & E & _). discriminate.
  - eexists. split; [reflexivity|]. apply Hsame; [reflexivity|]. intros (? & ? & ? & E & _). discriminate.
Qed.
Lemma witness_ops_ok c n phase insts h ops w :
  (forall o, In o ops -> wit_ok c n phase insts h o) ->
  exists w', witness_ops c n phase insts ops w = EOk w' /\
    forall col r, (writes phase ops col r \/ w col r = h col r) -> w' col r = h col r.
Proof.
  revert w. induction ops as [|o ops IH]; intros w H; cbn [witness_ops].
  - exists w. split; [reflexivity|]. intros col r [(c' & v & [] & _)|E]. exact E.
  - destruct (witness_op_ok c n phase insts h o w (H o (or_introl eq_refl))) as (w1 & E1 & G1).
    rewrite E1. cbn [ebind].
    destruct (IH w1) as (w2 & E2 & G2); [intros o' Ho; apply H; right; exact Ho|].
    exists w2. split; [exact E2|]. intros col r Hw. apply G2.
    destruct Hw as [(c' & v & [Ho|Hi] & Hp & Hc)|E].
    + right. apply G1. left. exists c', v. split; [left; exact Ho|auto].
    + left. exists c', v. auto.
    + right. apply G1. right. exact E.
Qed.

(** ** The honest advice *)
Definition accF {X} (g : X -> Fr -> Fr) (xs : list X) (init : Fr) (r : nat) : Fr :=
  if r <=? length xs then fold_left (fun s x => g x s) (firstn r xs) init else f0.
Definition cellF {X} (f : X -> Fr) (xs : list X) (r : nat) : Fr :=
  match nth_error xs r with Some x => f x | None => f0 end.

Local Open Scope F_scope.
Definition mem_factor (ch : nat -> Fr) (clk mp mv : Fr) : Fr :=
  ch 0%nat - ch 1%nat * clk - ch 2%nat * mp - ch 3%nat * mv.
Definition inst_factor (ch : nat -> Fr) (ip ci ni : Fr) : Fr :=
  ch 4%nat - ch 5%nat * ip - ch 6%nat * ci - ch 7%nat * ni.

Definition h_mem (ch : nat -> Fr) (x : register * option register) (a : Fr) : Fr :=
  a * mem_factor ch (cycle (fst x)) (memory_pointer (fst x)) (memory_value (fst x)).
Definition h_inst (ch : nat -> Fr) (x : register * option register) (a : Fr) : Fr :=
  a * inst_factor ch (instruction_pointer (fst x)) (current_instruction (fst x)) (next_instruction (fst x)).
Definition h_out (ch : nat -> Fr) (x : register * option register) (a : Fr) : Fr :=
  if feqb (current_instruction (fst x)) (FrZ PUTCHAR) then a * ch 9%nat + memory_value (fst x) else a.
Definition h_in (ch : nat -> Fr) (x : register * option register) (a : Fr) : Fr :=
  if feqb (current_instruction (fst x)) (FrZ GETCHAR) then
    match snd x with Some nx => a * ch 10%nat + memory_value nx | None => a end
  else a.
Definition h_mrow (ch : nat -> Fr) (x : mrow) (a : Fr) : Fr :=
  a * mem_factor ch (m_clk x) (m_mp x) (m_mv x).
Definition h_iprp (ch : nat -> Fr) (x : irow * option irow) (a : Fr) : Fr :=
  if feqb (next_ip x) (i_ip (fst x))
  then a * inst_factor ch (i_ip (fst x)) (i_ci (fst x)) (i_ni (fst x)) else a.
Definition h_irs (ch : nat -> Fr) (x : irow * option irow) (a : Fr) : Fr :=
  if feqb (next_ip x) (i_ip (fst x)) then a else ch 8%nat * a + i_ci (fst x).
Definition h_sum (g : Fr) (x a : Fr) : Fr := g * a + x.

Definition hon (m : matrix) (inst : nat -> nat -> Fr) (ch : nat -> Fr) (col r : nat) : Fr :=
  let P := processor_matrix m in
  let P2 := zipnext P in
  let T := instruction_matrix m in
  let ivals ic len := map (fun i => inst ic (S i)) (seq 0 len) in
  match col with
  | 0 => cellF cycle P r
  | 1 => cellF current_instruction P r
  | 2 => cellF instruction_pointer P r
  | 3 => cellF next_instruction P r
  | 4 => cellF memory_pointer P r
  | 5 => cellF memory_value P r
  | 6 => cellF memory_value_inverse P r
  | 7 => accF (h_mem ch) P2 (FrZ 3) r
  | 8 => accF (h_inst ch) P2 (FrZ 9) r
  | 9 => accF (h_out ch) P2 f0 r
  | 10 => accF (h_in ch) P2 f0 r
  | 11 => cellF m_clk (memory_matrix m) r
  | 12 => cellF m_mp (memory_matrix m) r
  | 13 => cellF m_mv (memory_matrix m) r
  | 14 => accF (h_mrow ch) (memory_matrix m) (FrZ 3) r
  | 15 => cellF i_ip T r
  | 16 => cellF i_ci T r
  | 17 => cellF i_ni T r
  | 18 => accF (h_iprp ch) (zipnext T) (FrZ 9) r
  | 19 => accF (h_irs ch) (zipnext T) f0 r
  | 20 => cellF (fun x => x) (output_matrix m) r
  | 21 => accF (h_sum (ch 9%nat)) (output_matrix m) f0 r
  | 22 => cellF (fun x => x) (ivals 1 (length (input_matrix m))) r
  | 23 => if r =? 0 then FrZ (Z.of_nat (length (input_matrix m))) else f0
  | 24 => accF (h_sum (ch 10%nat)) (ivals 1 (length (input_matrix m))) f0 r
  | 25 => cellF (fun x => x) (ivals 0 (length (program m))) r
  | 26 => if r =? 0 then FrZ (Z.of_nat (length (program m))) else f0
  | 27 => accF (h_sum (ch 8%nat)) (ivals 0 (length (program m))) f0 r
  | _ => f0
  end%nat.
Local Close Scope F_scope.

(** ** The synthesised values are the honest ones *)
Section Values.
Variables (m : matrix) (insts : list (list Fr)) (ch : nat -> Fr).
Let inst := instance_fn insts.
Let env ph := prover_env ph insts ch.
Hypothesis Hcode : length (program m) < length (nth 0 insts []).
Hypothesis Hinput : length (input_matrix m) < length (nth 1 insts []).

Lemma env_instance ph ic r :
  r < length (nth ic insts []) -> ve_instance (env ph) ic r = Some (inst ic r).
Proof.
  intros H. unfold env, prover_env, inst, instance_fn. cbn [ve_instance].
  destruct (nth_error insts ic) as [l|] eqn:E.
  - rewrite (nth_error_nth insts ic [] E) in *. apply nth_error_nth'. exact H.
  - apply nth_error_None in E. rewrite nth_overflow in H by exact E. cbn [length] in H. lia.
Qed.
Lemma env_instances ph ic len :
  len < length (nth ic insts []) ->
  map (fun i => ve_instance (env ph) ic (S i)) (seq 0 len) = map known (map (fun i => inst ic (S i)) (seq 0 len)).
Proof.
  intros H. rewrite map_map. apply map_ext_in. intros i Hi. apply in_seq in Hi.
  apply env_instance. lia.
Qed.

Lemma fold_pstep xs a b o u :
  fold_left (fun s x => pstep (challenges conf) (env 1) x s) xs (Some a, Some b, Some o, Some u) =
  (Some (fold_left (fun s x => h_mem ch x s) xs a), Some (fold_left (fun s x => h_inst ch x s) xs b),
   Some (fold_left (fun s x => h_out ch x s) xs o), Some (fold_left (fun s x => h_in ch x s) xs u)).
Proof.
  revert a b o u. induction xs as [|x xs IH]; intros a b o u; [reflexivity|]. cbn [fold_left].
  rewrite <- IH. f_equal. unfold pstep, h_out, h_in.
  destruct (feqb (current_instruction (fst x)) (FrZ PUTCHAR)),
    (feqb (current_instruction (fst x)) (FrZ GETCHAR)), (snd x); reflexivity.
Qed.
Lemma fold_mstep xs a :
  fold_left (fun s x => mstep (challenges conf) (env 1) x s) xs (Some a) =
  Some (fold_left (fun s x => h_mrow ch x s) xs a).
Proof.
  revert a. induction xs as [|x xs IH]; intros a; [reflexivity|]. cbn [fold_left].
  rewrite <- IH. reflexivity.
Qed.
Lemma fold_istep xs a b :
  fold_left (fun s x => istep (challenges conf) (env 1) x s) xs (Some a, Some b) =
  (Some (fold_left (fun s x => h_iprp ch x s) xs a), Some (fold_left (fun s x => h_irs ch x s) xs b)).
Proof.
  revert a b. induction xs as [|x xs IH]; intros a b; [reflexivity|]. cbn [fold_left].
  rewrite <- IH. f_equal. unfold istep, h_iprp, h_irs. cbn [fst snd].
  destruct (feqb (next_ip x) (i_ip (fst x))); reflexivity.
Qed.
Lemma fold_sum i xs a :
  fold_left (fun s x => sum_step (ve_challenge (env 1) i) x s) (map known xs) (Some a) =
  Some (fold_left (fun s x => h_sum (ch i) x s) xs a).
Proof.
  revert a. induction xs as [|x xs IH]; intros a; [reflexivity|]. cbn [fold_left map].
  rewrite <- IH. reflexivity.
Qed.

Lemma cellF_nth {X} (f : X -> Fr) xs r x : nth_error xs r = Some x -> cellF f xs r = f x.
Proof. intros H. unfold cellF. rewrite H. reflexivity. Qed.
Lemma accF_step {X} (g : X -> Fr -> Fr) xs init r x :
  nth_error xs r = Some x -> accF g xs init (S r) = fold_left (fun s x => g x s) (firstn (S r) xs) init.
Proof.
  intros H. unfold accF. apply nth_error_lt in H.
  rewrite (proj2 (Nat.leb_le _ _)) by lia. reflexivity.
Qed.
Lemma zipnext_fst {A} (l : list A) i x : nth_error (zipnext l) i = Some x -> nth_error l i = Some (fst x).
Proof. destruct x as [x y]. intros H. apply zipnext_nth in H. apply H. Qed.
Definition wval (ph : nat) (o : rop) : Prop :=
  forall c r v, (o = RAdvice c r v \/ exists ic ir, o = RInstance ic ir c r v) -> ac_phase c <= ph ->
  v = Some (hon m inst ch (ac_index c) r).

Lemma wval_p ph o : ph <= 1 -> In o (pops m (env ph)) -> wval ph o.
Proof.
  intros Hph H. apply in_pops in H. destruct H as [H|(i & x & Hx & H)].
  - cbn [In] in H. or_cases H; subst o; intros c r v [E|(ic & ir & E)]; try discriminate E;
      injection E as <- <- <-; intros _; reflexivity.
  - pose proof (zipnext_fst _ _ _ Hx) as Hx1.
    destruct (fold_left _ _ _) as [[[a b] o'] u] eqn:Ef. unfold pblock in H.
    apply in_app_or in H. destruct H as [H|H].
    { destruct (S i <? length (processor_matrix m)); cbn [In] in H; or_cases H; subst o;
      intros c r v [E|(ic & ir & E)]; discriminate E. }
    cbn [In] in H. or_cases H; subst o; intros c r v [E|(ic & ir & E)]; try discriminate E;
      injection E as <- <- <-; cbn [hon ac_index ac_phase conf p_config p_clk p_ip p_ci p_ni p_mp p_mv p_mvi
        p_mem_prp p_inst_prp p_output_rs p_input_rs Nat.add]; intros Hp;
      try (rewrite (cellF_nth _ _ _ _ Hx1); reflexivity).
    all: assert (ph = 1) as -> by lia.
    all: unfold known in Ef; rewrite fold_pstep in Ef; apply pair_equal_spec in Ef; destruct Ef as [Ef E4];
      apply pair_equal_spec in Ef; destruct Ef as [Ef E3]; apply pair_equal_spec in Ef; destruct Ef as [E1 E2].
    all: rewrite (accF_step _ _ _ _ _ Hx).
    + symmetry. exact E1.
    + symmetry. exact E2.
    + symmetry. exact E3.
    + symmetry. exact E4.
Qed.
Lemma wval_m ph o : ph <= 1 -> In o (mops m (env ph)) -> wval ph o.
Proof.
  intros Hph H. unfold mops in H. apply in_app_or in H. destruct H as [H|H].
  - cbn [In] in H. or_cases H; subst o; intros c r v [E|(ic & ir & E)]; try discriminate E;
      injection E as <- <- <-; intros _; reflexivity.
  - apply in_gloop in H. destruct H as (i & x & Hx & H). unfold mblock in H.
    apply in_app_or in H. destruct H as [H|H].
    { destruct (S (0 + i) <? length (memory_matrix m)); cbn [In] in H; or_cases H; subst o;
      intros c r v [E|(ic & ir & E)]; discriminate E. }
    cbn [In Nat.add] in H. or_cases H; subst o; intros c r v [E|(ic & ir & E)]; try discriminate E;
      injection E as <- <- <-; cbn [hon ac_index ac_phase conf m_config t_clk t_mp t_mv t_prp]; intros Hp;
      try (rewrite (cellF_nth _ _ _ _ Hx); reflexivity).
    assert (ph = 1) as -> by lia. unfold known. rewrite fold_mstep. rewrite (accF_step _ _ _ _ _ Hx). reflexivity.
Qed.
Lemma wval_i ph o : ph <= 1 -> In o (iops m (env ph)) -> wval ph o.
Proof.
  intros Hph H. unfold iops in H. apply in_app_or in H. destruct H as [H|H].
  - cbn [In] in H. or_cases H; subst o; intros c r v [E|(ic & ir & E)]; try discriminate E;
      injection E as <- <- <-; intros _; reflexivity.
  - apply in_gloop in H. destruct H as (i & x & Hx & H).
    pose proof (zipnext_fst _ _ _ Hx) as Hx1. unfold iblock in H.
    apply in_app_or in H. destruct H as [H|H].
    { destruct (S (0 + i) <? length (instruction_matrix m)); cbn [In] in H; or_cases H; subst o;
      intros c r v [E|(ic & ir & E)]; discriminate E. }
    cbn [In Nat.add] in H. or_cases H; subst o; intros c r v [E|(ic & ir & E)]; try discriminate E;
      injection E as <- <- <-; cbn [hon ac_index ac_phase conf i_config n_ip n_ci n_ni n_prp n_rs]; intros Hp;
      try (rewrite (cellF_nth _ _ _ _ Hx1); reflexivity).
    all: assert (ph = 1) as -> by lia; unfold known; rewrite fold_istep; cbn [fst snd];
      rewrite (accF_step _ _ _ _ _ Hx); reflexivity.
Qed.
Lemma nth_error_known xs i v : nth_error (map known xs) i = Some v -> exists x, v = Some x /\ nth_error xs i = Some x.
Proof.
  rewrite nth_error_map. destruct (nth_error xs i) as [x|]; cbn [option_map]; [|discriminate].
  intros H. injection H as <-. exists x. split; reflexivity.
Qed.
Lemma wval_o ph o : ph <= 1 -> In o (oops m (env ph)) -> wval ph o.
Proof.
  intros Hph H. unfold oops in H. apply in_app_or in H. destruct H as [H|H].
  - cbn [In] in H. or_cases H; subst o; intros c r v [E|(ic & ir & E)]; try discriminate E;
      injection E as <- <- <-; intros _; reflexivity.
  - apply in_gloop in H. destruct H as (i & v0 & Hx & H).
    apply nth_error_known in Hx. destruct Hx as (x & -> & Hx).
    remember (fold_left _ _ _) as st eqn:Est in H. unfold oblock in H.
    cbn [In Nat.add] in H. or_cases H; subst o; intros c r v [E|(ic & ir & E)]; try discriminate E;
      injection E as <- <- <-; cbn [hon ac_index ac_phase conf out_config o_val o_rs]; intros Hp;
      try (rewrite (cellF_nth _ _ _ _ Hx); reflexivity).
    assert (ph = 1) as -> by lia. rewrite firstn_map in Est. unfold known at 2 in Est.
    rewrite fold_sum in Est. rewrite (accF_step _ _ _ _ _ Hx). exact Est.
Qed.
Lemma wval_u ph o : ph <= 1 -> In o (uops m (env ph)) -> wval ph o.
Proof.
  intros Hph H. unfold uops in H. apply in_app_or in H. destruct H as [H|H].
  - cbn [In] in H. or_cases H; subst o; intros c r v [E|(ic & ir & E)]; try discriminate E;
      injection E as <- <- <-; intros _; reflexivity.
  - rewrite env_instances in H by exact Hinput. apply in_gloop in H. destruct H as (i & v0 & Hx & H).
    apply nth_error_known in Hx. destruct Hx as (x & -> & Hx).
    remember (fold_left _ _ _) as st eqn:Est in H. unfold cblock in H.
    cbn [In Nat.add] in H. or_cases H; subst o; intros c r v [E|(ic & ir & E)]; try discriminate E;
      [injection E as <- <- <- <- <-|injection E as <- <- <-];
      cbn [hon ac_index ac_phase conf in_config u_val u_rs]; intros Hp.
    + rewrite (cellF_nth _ _ _ _ Hx). reflexivity.
    + assert (ph = 1) as -> by lia. rewrite firstn_map in Est. unfold known at 2 in Est.
      rewrite fold_sum in Est. rewrite (accF_step _ _ _ _ _ Hx). exact Est.
Qed.
Lemma wval_g ph o : ph <= 1 -> In o (gops m (env ph)) -> wval ph o.
Proof.
  intros Hph H. unfold gops in H. apply in_app_or in H. destruct H as [H|H].
  - cbn [In] in H. or_cases H; subst o; intros c r v [E|(ic & ir & E)]; try discriminate E;
      injection E as <- <- <-; intros _; reflexivity.
  - rewrite env_instances in H by exact Hcode. apply in_gloop in H. destruct H as (i & v0 & Hx & H).
    apply nth_error_known in Hx. destruct Hx as (x & -> & Hx).
    remember (fold_left _ _ _) as st eqn:Est in H. unfold cblock in H.
    cbn [In Nat.add] in H. or_cases H; subst o; intros c r v [E|(ic & ir & E)]; try discriminate E;
      [injection E as <- <- <- <- <-|injection E as <- <- <-];
      cbn [hon ac_index ac_phase conf prog_config g_code g_rs]; intros Hp.
    + rewrite (cellF_nth _ _ _ _ Hx). reflexivity.
    + assert (ph = 1) as -> by lia. rewrite firstn_map in Est. unfold known at 2 in Est.
      rewrite fold_sum in Est. rewrite (accF_step _ _ _ _ _ Hx). exact Est.
Qed.
Lemma wval_all ph o : ph <= 1 -> In o (region_ops m (env ph)) -> wval ph o.
Proof.
  intros Hph H. unfold region_ops in H. rewrite !in_app_iff in H.
  destruct H as [H|[H|[H|[H|[H|H]]]]].
  - exact (wval_p ph o Hph H). - exact (wval_m ph o Hph H). - exact (wval_i ph o Hph H).
  - exact (wval_o ph o Hph H). - exact (wval_u ph o Hph H). - exact (wval_g ph o Hph H).
Qed.
End Values.

(** ** Rows written *)
Definition rwrites (rops : list rop) (c : advice_col) (r : nat) (v : value) : Prop :=
  In (RAdvice c r v) rops \/ exists ic ir, In (RInstance ic ir c r v) rops.
Definition wrow (n : nat) (o : rop) : Prop :=
  match o with
  | RAdvice c r _ | RInstance _ _ c r _ => r < n - 6 /\ ac_index c < 28
  | _ => True
  end.
Lemma wrow_app n a b : Forall (wrow n) a -> Forall (wrow n) b -> Forall (wrow n) (a ++ b).
Proof. intros Ha Hb. apply Forall_app. split; assumption. Qed.
Lemma wrow_gloop {X St} n f g (xs : list X) (s0 : St) :
  (forall i x s, nth_error xs i = Some x -> Forall (wrow n) (f i x s)) ->
  Forall (wrow n) (gloop f g xs 0 s0).
Proof.
  intros H. apply Forall_forall. intros o Ho. apply in_gloop in Ho. destruct Ho as (i & x & Hx & Ho).
  specialize (H i x (fold_left (fun s x => g x s) (firstn (S i) xs) s0) Hx).
  rewrite Forall_forall in H. apply H. exact Ho.
Qed.
Ltac wrow_list := repeat (apply Forall_cons; [first [exact I|split; [lia|apply Nat.ltb_lt; reflexivity]]|]); apply Forall_nil.
Lemma wrow_all n m ve : fits n (sizes_of m) -> Forall (wrow n) (region_ops m ve).
Proof.
  intros (F0 & F1 & F2 & F3 & F4 & F5 & F6). cbn [sizes_of zp zm zi zo zu zg] in *.
  unfold region_ops.
  apply wrow_app; [|apply wrow_app; [|apply wrow_app; [|apply wrow_app; [|apply wrow_app]]]].
  - apply wrow_app; [wrow_list|]. apply wrow_gloop. intros i x [[[a b] o] u] Hx.
    apply nth_error_lt in Hx. rewrite zipnext_length in Hx. unfold pblock.
    apply wrow_app; [destruct (S i <? length (processor_matrix m))|]; wrow_list.
  - apply wrow_app; [wrow_list|]. apply wrow_gloop. intros i x s Hx.
    apply nth_error_lt in Hx. unfold mblock.
    apply wrow_app; [destruct (S i <? length (memory_matrix m))|]; wrow_list.
  - apply wrow_app; [wrow_list|]. apply wrow_gloop. intros i x s Hx.
    apply nth_error_lt in Hx. rewrite zipnext_length in Hx. unfold iblock.
    apply wrow_app; [destruct (S i <? length (instruction_matrix m))|]; wrow_list.
  - apply wrow_app; [wrow_list|]. apply wrow_gloop. intros i x s Hx.
    apply nth_error_lt in Hx. rewrite map_length in Hx. unfold oblock. wrow_list.
  - apply wrow_app; [wrow_list|]. apply wrow_gloop. intros i x s Hx.
    apply nth_error_lt in Hx. rewrite map_length, seq_length in Hx. unfold cblock. wrow_list.
  - apply wrow_app; [wrow_list|]. apply wrow_gloop. intros i x s Hx.
    apply nth_error_lt in Hx. rewrite map_length, seq_length in Hx. unfold cblock. wrow_list.
Qed.

(** ** Every non-zero honest cell is written *)
Definition covers (rops : list rop) (c : advice_col) (r : nat) : Prop := exists v, rwrites rops c r v.
Lemma covers_cell {X St} (F : X -> Fr) f g (xs : list X) (s0 : St) pre c r :
  (forall i x s, exists v, rwrites (f i x s) c i v) ->
  cellF F xs r = f0 \/ covers (pre ++ gloop f g xs 0 s0) c r.
Proof.
  intros H. unfold cellF. destruct (nth_error xs r) as [x|] eqn:E; [right|left; reflexivity].
  destruct (H r x (fold_left (fun s x => g x s) (firstn (S r) xs) s0)) as (v & [Hv|(ic & ir & Hv)]);
    exists v; [left|right; exists ic, ir]; apply in_or_app; right; apply in_gloop; exists r, x; auto.
Qed.
Lemma covers_cell_zip {Y St} (F : Y -> Fr) f g (xs : list Y) (s0 : St) pre c r :
  (forall i x s, exists v, rwrites (f i x s) c i v) ->
  cellF F xs r = f0 \/ covers (pre ++ gloop f g (zipnext xs) 0 s0) c r.
Proof.
  intros H. destruct (covers_cell (fun x => F (fst x)) f g (zipnext xs) s0 pre c r H) as [E|E]; [left|right; exact E].
  rewrite <- E. unfold cellF. destruct (nth_error xs r) as [x|] eqn:Ex.
  - assert (Ez : nth_error (zipnext xs) r = Some (x, nth_error xs (S r))).
    { apply zipnext_nth. split; [exact Ex|reflexivity]. }
    rewrite Ez. reflexivity.
  - destruct (nth_error (zipnext xs) r) as [[x y]|] eqn:Ez; [|reflexivity].
    apply zipnext_nth in Ez. destruct Ez as [Ez _]. congruence.
Qed.
Lemma covers_acc {X Y St} (G : X -> Fr -> Fr) init f g (xs : list X) (ys : list Y) (s0 : St) pre c r :
  length xs = length ys ->
  (exists v, In (RAdvice c 0 v) pre) ->
  (forall i x s, exists v, In (RAdvice c (S i) v) (f i x s)) ->
  accF G xs init r = f0 \/ covers (pre ++ gloop f g ys 0 s0) c r.
Proof.
  intros L [v0 H0] H. unfold accF. destruct (r <=? length xs) eqn:E; [right|left; reflexivity].
  apply Nat.leb_le in E. destruct r as [|r].
  - exists v0. left. apply in_or_app. left. exact H0.
  - rewrite L in E. destruct (lt_nth_error ys r E) as [y Hy].
    destruct (H r y (fold_left (fun s x => g x s) (firstn (S r) ys) s0)) as [v Hv].
    exists v. left. apply in_or_app. right. apply in_gloop. exists r, y. auto.
Qed.
Lemma covers_incl a b c r : (forall o, In o a -> In o b) -> covers a c r -> covers b c r.
Proof.
  intros H (v & [Hv|(ic & ir & Hv)]); exists v; [left; auto|right; exists ic, ir; auto].
Qed.

Ltac here := first [left; reflexivity|right; here].
Ltac in_blk := eexists; apply in_or_app; right; here.
Lemma hon_covered m inst ch ve col r :
  hon m inst ch col r = f0 \/
  exists c, covers (region_ops m ve) c r /\ ac_index c = col /\ ac_phase c = nth col (advice_phases bcs) 0.
Proof.
  assert (Rp : forall o, In o (pops m ve) -> In o (region_ops m ve))
    by (intros; unfold region_ops; rewrite !in_app_iff; tauto).
  assert (Rm : forall o, In o (mops m ve) -> In o (region_ops m ve))
    by (intros; unfold region_ops; rewrite !in_app_iff; tauto).
  assert (Ri : forall o, In o (iops m ve) -> In o (region_ops m ve))
    by (intros; unfold region_ops; rewrite !in_app_iff; tauto).
  assert (Ro : forall o, In o (oops m ve) -> In o (region_ops m ve))
    by (intros; unfold region_ops; rewrite !in_app_iff; tauto).
  assert (Ru : forall o, In o (uops m ve) -> In o (region_ops m ve))
    by (intros; unfold region_ops; rewrite !in_app_iff; tauto).
  assert (Rg : forall o, In o (gops m ve) -> In o (region_ops m ve))
    by (intros; unfold region_ops; rewrite !in_app_iff; tauto).
  assert (Hrow : forall c ops (x : Fr), (forall o, In o ops -> In o (region_ops m ve)) ->
     ac_index c = col -> ac_phase c = nth col (advice_phases bcs) 0 -> x = f0 \/ covers ops c r ->
     x = f0 \/ exists c, covers (region_ops m ve) c r /\ ac_index c = col /\ ac_phase c = nth col (advice_phases bcs) 0).
  { intros c ops x Hi E1 E2 [E|E]; [left; exact E|right]. exists c. split; [|auto].
    exact (covers_incl _ _ _ _ Hi E). }
  do 28 try destruct col as [|col].
  29: left; reflexivity.
  - apply (Hrow (p_clk (p_config conf)) _ _ Rp eq_refl eq_refl). apply covers_cell_zip.
    intros i x [[[a b] o] u]. unfold pblock. eexists. left. apply in_or_app. right. here.
  - apply (Hrow (p_ci (p_config conf)) _ _ Rp eq_refl eq_refl). apply covers_cell_zip.
    intros i x [[[a b] o] u]. unfold pblock. eexists. left. apply in_or_app. right. here.
  - apply (Hrow (p_ip (p_config conf)) _ _ Rp eq_refl eq_refl). apply covers_cell_zip.
    intros i x [[[a b] o] u]. unfold pblock. eexists. left. apply in_or_app. right. here.
  - apply (Hrow (p_ni (p_config conf)) _ _ Rp eq_refl eq_refl). apply covers_cell_zip.
    intros i x [[[a b] o] u]. unfold pblock. eexists. left. apply in_or_app. right. here.
  - apply (Hrow (p_mp (p_config conf)) _ _ Rp eq_refl eq_refl). apply covers_cell_zip.
    intros i x [[[a b] o] u]. unfold pblock. eexists. left. apply in_or_app. right. here.
  - apply (Hrow (p_mv (p_config conf)) _ _ Rp eq_refl eq_refl). apply covers_cell_zip.
    intros i x [[[a b] o] u]. unfold pblock. eexists. left. apply in_or_app. right. here.
  - apply (Hrow (p_mvi (p_config conf)) _ _ Rp eq_refl eq_refl). apply covers_cell_zip.
    intros i x [[[a b] o] u]. unfold pblock. eexists. left. apply in_or_app. right. here.
  - apply (Hrow (p_mem_prp (p_config conf)) _ _ Rp eq_refl eq_refl). apply covers_acc; [reflexivity|eexists; here|].
    intros i x [[[a b] o] u]. unfold pblock. in_blk.
  - apply (Hrow (p_inst_prp (p_config conf)) _ _ Rp eq_refl eq_refl). apply covers_acc; [reflexivity|eexists; here|].
    intros i x [[[a b] o] u]. unfold pblock. in_blk.
  - apply (Hrow (p_output_rs (p_config conf)) _ _ Rp eq_refl eq_refl). apply covers_acc; [reflexivity|eexists; here|].
    intros i x [[[a b] o] u]. unfold pblock. in_blk.
  - apply (Hrow (p_input_rs (p_config conf)) _ _ Rp eq_refl eq_refl). apply covers_acc; [reflexivity|eexists; here|].
    intros i x [[[a b] o] u]. unfold pblock. in_blk.
  - apply (Hrow (t_clk (m_config conf)) _ _ Rm eq_refl eq_refl). apply covers_cell.
    intros i x s. unfold mblock. eexists. left. apply in_or_app. right. here.
  - apply (Hrow (t_mp (m_config conf)) _ _ Rm eq_refl eq_refl). apply covers_cell.
    intros i x s. unfold mblock. eexists. left. apply in_or_app. right. here.
  - apply (Hrow (t_mv (m_config conf)) _ _ Rm eq_refl eq_refl). apply covers_cell.
    intros i x s. unfold mblock. eexists. left. apply in_or_app. right. here.
  - apply (Hrow (t_prp (m_config conf)) _ _ Rm eq_refl eq_refl). apply covers_acc; [reflexivity|eexists; here|].
    intros i x s. unfold mblock. in_blk.
  - apply (Hrow (n_ip (i_config conf)) _ _ Ri eq_refl eq_refl). apply covers_cell_zip.
    intros i x s. unfold iblock. eexists. left. apply in_or_app. right. here.
  - apply (Hrow (n_ci (i_config conf)) _ _ Ri eq_refl eq_refl). apply covers_cell_zip.
    intros i x s. unfold iblock. eexists. left. apply in_or_app. right. here.
  - apply (Hrow (n_ni (i_config conf)) _ _ Ri eq_refl eq_refl). apply covers_cell_zip.
    intros i x s. unfold iblock. eexists. left. apply in_or_app. right. here.
  - apply (Hrow (n_prp (i_config conf)) _ _ Ri eq_refl eq_refl). apply covers_acc; [reflexivity|eexists; here|].
    intros i x s. unfold iblock. in_blk.
  - apply (Hrow (n_rs (i_config conf)) _ _ Ri eq_refl eq_refl). apply covers_acc; [reflexivity|eexists; here|].
    intros i x s. unfold iblock. in_blk.
  - apply (Hrow (o_val (out_config conf)) _ _ Ro eq_refl eq_refl).
    destruct (covers_cell (fun v : value => match v with Some x => x | None => f0 end)
      (oblock (out_config conf)) (sum_step (ve_challenge ve 9)) (map known (output_matrix m)) (known f0)
      [RAdvice (o_rs (out_config conf)) 0 (known f0)] (o_val (out_config conf)) r) as [E|E];
      [intros i x s; unfold oblock; eexists; left; here| |right; exact E].
    left. rewrite <- E. unfold cellF, hon. rewrite nth_error_map. unfold cellF.
    destruct (nth_error (output_matrix m) r); reflexivity.
  - apply (Hrow (o_rs (out_config conf)) _ _ Ro eq_refl eq_refl).
    apply covers_acc; [rewrite map_length; reflexivity|eexists; here|].
    intros i x s. unfold oblock. eexists. here.
  - apply (Hrow (u_val (in_config conf)) _ _ Ru eq_refl eq_refl). unfold hon, cellF.
    destruct (nth_error _ _) as [x|] eqn:E; [right|left; reflexivity].
    apply nth_error_lt in E. rewrite map_length, seq_length in E. exists (ve_instance ve 1 (S r)). right. exists 1, (S r).
    unfold uops. apply in_or_app. right. apply in_gloop.
    destruct (lt_nth_error (map (fun i => ve_instance ve 1 (S i)) (seq 0 (length (input_matrix m)))) r) as [v Hv];
      [rewrite map_length, seq_length; exact E|].
    assert (Ev : v = ve_instance ve 1 (S r)).
    { rewrite nth_error_map, (nth_error_nth' (seq 0 (length (input_matrix m))) 0), seq_nth in Hv
        by (rewrite ?seq_length; exact E).
      cbn [option_map Nat.add] in Hv. congruence. }
    exists r, v. split; [exact Hv|]. rewrite <- Ev. right. left. reflexivity.
  - cbn [hon]. destruct (r =? 0) eqn:E; [right|left; reflexivity]. apply Nat.eqb_eq in E. subst r.
    exists (u_len (in_config conf)). split; [|split; reflexivity]. eexists. left. apply Ru. right. left. reflexivity.
  - apply (Hrow (u_rs (in_config conf)) _ _ Ru eq_refl eq_refl).
    apply covers_acc; [rewrite !map_length; reflexivity|eexists; here|].
    intros i x s. unfold cblock. eexists. here.
  - apply (Hrow (g_code (prog_config conf)) _ _ Rg eq_refl eq_refl). unfold hon, cellF.
    destruct (nth_error _ _) as [x|] eqn:E; [right|left; reflexivity].
    apply nth_error_lt in E. rewrite map_length, seq_length in E. exists (ve_instance ve 0 (S r)). right. exists 0, (S r).
    unfold gops. apply in_or_app. right. apply in_gloop.
    destruct (lt_nth_error (map (fun i => ve_instance ve 0 (S i)) (seq 0 (length (program m)))) r) as [v Hv];
      [rewrite map_length, seq_length; exact E|].
    assert (Ev : v = ve_instance ve 0 (S r)).
    { rewrite nth_error_map, (nth_error_nth' (seq 0 (length (program m))) 0), seq_nth in Hv
        by (rewrite ?seq_length; exact E).
      cbn [option_map Nat.add] in Hv. congruence. }
    exists r, v. split; [exact Hv|]. rewrite <- Ev. right. left. reflexivity.
  - cbn [hon]. destruct (r =? 0) eqn:E; [right|left; reflexivity]. apply Nat.eqb_eq in E. subst r.
    exists (g_len (prog_config conf)). split; [|split; reflexivity]. eexists. left. apply Rg. left. reflexivity.
  - apply (Hrow (g_rs (prog_config conf)) _ _ Rg eq_refl eq_refl).
    apply covers_acc; [rewrite !map_length; reflexivity|eexists; here|].
    intros i x s. unfold cblock. eexists. here.
Qed.

(** ** The prover's advice *)
Lemma bf_witness_eq n m insts ch :
  bf_witness n m insts ch =
  if existsb (fun l => usable_rows n bcs <? length l) insts then EErr InstanceTooLarge
  else
    elet ops0 := synthesize conf m (prover_env 0 insts ch) in
    elet w0 := witness_phase bcs n 0 insts ops0 in
    elet ops1 := synthesize conf m (prover_env 1 insts ch) in
    elet w1 := witness_phase bcs n 1 insts ops1 in
    EOk (fun col row => if nth col (advice_phases bcs) 0 =? 0 then w0 col row else w1 col row).
Proof. unfold bf_witness. rewrite configure_ok. reflexivity. Qed.

Lemma all_ops_wit n m insts ch ph :
  ph <= 1 -> fits n (sizes_of m) ->
  length (program m) < length (nth 0 insts []) ->
  length (input_matrix m) < length (nth 1 insts []) ->
  forall o, In o (all_ops m (prover_env ph insts ch)) ->
    wit_ok bcs n ph insts (hon m (instance_fn insts) ch) o.
Proof.
  intros Hph F Hc Hi o Ho. unfold all_ops in Ho. rewrite !in_app_iff in Ho.
  pose proof (wrow_all n m (prover_env ph insts ch) F) as HR. rewrite Forall_forall in HR.
  destruct Ho as [Ho|[Ho|Ho]].
  - apply in_table_ops in Ho. destruct Ho as [(i & _ & ->)| ->]; exact I.
  - destruct o as [s r|c r v|ic ir|lc lr rc rr|c r v|c r v]; try exact I.
    + apply in_place_advice in Ho. intros Hp. cbn [wit_ok]. rewrite bcs_usable.
      destruct Ho as [Ho|(ic & ir & Ho)].
      * destruct (HR _ Ho) as [H1 H2]. split; [exact H1|]. split; [exact H2|].
        apply (wval_all m insts ch Hc Hi ph _ Hph Ho c r v); [left; reflexivity|exact Hp].
      * destruct (HR _ Ho) as [H1 H2]. split; [exact H1|]. split; [exact H2|].
        apply (wval_all m insts ch Hc Hi ph _ Hph Ho c r v); [right; exists ic, ir; reflexivity|exact Hp].
    + apply in_place_query in Ho. destruct Ho as (c & r & v & Ho).
      apply in_region_instance in Ho. cbn [wit_ok]. rewrite bcs_usable.
      destruct F as (F0 & F1 & F2 & F3 & F4 & F5 & F6). cbn [sizes_of zu zg] in *.
      assert (G : forall ic r, S r < length (nth ic insts []) -> exists l x, nth_error insts ic = Some l /\ nth_error l (S r) = Some x).
      { intros k j Hl. destruct (nth_error insts k) as [l|] eqn:E.
        - rewrite (nth_error_nth insts k [] E) in Hl. destruct (lt_nth_error l (S j) Hl) as [x Hx].
          exists l, x. auto.
        - apply nth_error_None in E. rewrite nth_overflow in Hl by exact E. cbn [length] in Hl. lia. }
      destruct Ho as [(-> & -> & _ & Hr & _)|(-> & -> & _ & Hr & _)]; (split; [lia|apply G; lia]).
  - unfold copy_ops in Ho. cbn [In] in Ho. or_cases Ho; subst o; exact I.
Qed.

Lemma writes_covered m inst ch ve ph col r :
  nth col (advice_phases bcs) 0 <= ph ->
  hon m inst ch col r = f0 \/ writes ph (all_ops m ve) col r.
Proof.
  intros Hp. destruct (hon_covered m inst ch ve col r) as [E|(c & (v & Hv) & E1 & E2)]; [left; exact E|right].
  exists c, v. split; [|split; [lia|exact E1]].
  unfold all_ops. apply in_or_app. right. apply in_or_app. left. apply in_place_advice. exact Hv.
Qed.

Lemma bf_witness_ok n m insts ch :
  fits n (sizes_of m) -> getchar_ok (processor_matrix m) = true ->
  (forall l, In l insts -> length l <= n - 6) ->
  length (program m) < length (nth 0 insts []) ->
  length (input_matrix m) < length (nth 1 insts []) ->
  exists adv, bf_witness n m insts ch = EOk adv /\
    forall col r, adv col r = if r =? n - 1 then f1 else hon m (instance_fn insts) ch col r.
Proof.
  intros F G HL Hc Hi. rewrite bf_witness_eq.
  assert (E0 : existsb (fun l => usable_rows n bcs <? length l) insts = false).
  { destruct (existsb _ _) eqn:E; [|reflexivity]. apply existsb_exists in E. destruct E as (l & Hl & E).
    apply Nat.ltb_lt in E. rewrite bcs_usable in E. specialize (HL l Hl). lia. }
  rewrite E0. rewrite !synthesize_eq, G. cbn [ebind].
  destruct (witness_ops_ok bcs n 0 insts (hon m (instance_fn insts) ch) (all_ops m (prover_env 0 insts ch))
              (fun _ _ => f0)) as (w0 & W0 & G0); [apply all_ops_wit; auto|].
  destruct (witness_ops_ok bcs n 1 insts (hon m (instance_fn insts) ch) (all_ops m (prover_env 1 insts ch))
              (fun _ _ => f0)) as (w1 & W1 & G1); [apply all_ops_wit; auto|].
  unfold witness_phase. rewrite W0, W1. cbn [ebind]. eexists. split; [reflexivity|].
  intros col r. cbv beta. destruct (r =? n - 1) eqn:Er; [destruct (nth col (advice_phases bcs) 0 =? 0); reflexivity|].
  destruct (nth col (advice_phases bcs) 0 =? 0) eqn:Ep.
  - apply Nat.eqb_eq in Ep. apply G0.
    destruct (writes_covered m (instance_fn insts) ch (prover_env 0 insts ch) 0 col r) as [E|E]; [lia|right; symmetry; exact E|left; exact E].
  - apply G1.
    destruct (writes_covered m (instance_fn insts) ch (prover_env 1 insts ch) 1 col r) as [E|E]; [|right; symmetry; exact E|left; exact E].
    do 29 try destruct col as [|col]; cbn; lia.
Qed.
