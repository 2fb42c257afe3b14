(** Simulation between the Brainfuck semantics and the interpreter model. *)
From Coq Require Import ZArith List Lia Bool.
From Verif Require Import Base Field FieldFacts ListFacts BFSpec BFFacts VMModel VMCompile.
Import ListNotations.
Local Open Scope Z_scope.

(** ** Small field values *)

Lemma r_big : 2 ^ 128 < Zpos r_pos.
Proof. reflexivity. Qed.

Lemma fval_FrZ x : 0 <= x < 2 ^ 64 -> fval (FrZ x) = x.
Proof.
  intros H. apply fval_small. pose proof r_big.
  assert (2 ^ 64 < 2 ^ 128) by reflexivity. lia.
Qed.

Lemma as_usize_FrZ x : 0 <= x < 2 ^ 64 -> as_usize (FrZ x) = x.
Proof. intros H. unfold as_usize. rewrite fval_FrZ by exact H. apply Z.mod_small, H. Qed.

Lemma FrZ_inj x y : 0 <= x < 2 ^ 64 -> 0 <= y < 2 ^ 64 -> FrZ x = FrZ y -> x = y.
Proof.
  intros Hx Hy E. rewrite <- (fval_FrZ x Hx), <- (fval_FrZ y Hy), E. reflexivity.
Qed.

Lemma FrZ_add x y : fadd (FrZ x) (FrZ y) = FrZ (x + y).
Proof. symmetry. apply of_Z_add. Qed.
Lemma FrZ_sub x y : fsub (FrZ x) (FrZ y) = FrZ (x - y).
Proof. symmetry. apply of_Z_sub. Qed.
Lemma f1_FrZ : f1 = FrZ 1. Proof. reflexivity. Qed.
Lemma f0_FrZ : f0 = FrZ 0. Proof. reflexivity. Qed.

Lemma feqb_FrZ x y : 0 <= x < 2 ^ 64 -> 0 <= y < 2 ^ 64 -> feqb (FrZ x) (FrZ y) = (x =? y).
Proof. intros Hx Hy. unfold feqb. rewrite !fval_FrZ by assumption. reflexivity. Qed.

Lemma pow64_le w : 0 <= w < 64 -> 2 ^ w <= 2 ^ 63.
Proof. intros H. apply Z.pow_le_mono_r; lia. Qed.

(** ** Sequences of loop iterations *)

Lemma stepn_trans pr n : forall m s1 s2 s3,
  stepn pr n s1 s2 -> stepn pr m s2 s3 -> stepn pr (n + m) s1 s3.
Proof.
  induction n as [|n IH]; intros m s1 s2 s3 H1 H2; inversion H1; subst; [exact H2|].
  cbn. econstructor; eauto.
Qed.

Lemma stepn_1 pr s s' : halted s = false -> cycle_step pr s = Ok s' -> stepn pr 1 s s'.
Proof. intros. econstructor; eauto. constructor. Qed.

Definition panics (pr : profile) (s : interp) : Prop :=
  exists n s', stepn pr n s s' /\ halted s' = false /\ cycle_step pr s' = Panic.

Lemma run_loop_stepn pr n : forall s s' fuel,
  stepn pr n s s' -> run_loop pr (n + fuel) s = run_loop pr fuel s'.
Proof.
  induction n as [|n IH]; intros s s' fuel H; inversion H; subst; [reflexivity|].
  cbn [run_loop plus]. rewrite H1, H2. apply IH. assumption.
Qed.

Lemma run_loop_out pr n : forall s s' fuel,
  (fuel < n)%nat -> stepn pr n s s' -> run_loop pr fuel s = OutOfFuel.
Proof.
  induction n as [|n IH]; intros s s' fuel Hlt H; [lia|]. inversion H; subst.
  destruct fuel as [|fuel]; cbn [run_loop]; rewrite H1; [reflexivity|].
  rewrite H2. eapply IH; [|eassumption]. lia.
Qed.

(** Fuel monotonicity: a result other than out-of-fuel is final. *)
Lemma run_loop_mono pr f : forall s g r,
  run_loop pr f s = r -> r <> OutOfFuel -> (f <= g)%nat -> run_loop pr g s = r.
Proof.
  induction f as [|f IH]; intros s g r E Hr Hle.
  - cbn in E. destruct g; cbn [run_loop].
    + exact E.
    + destruct (halted s); [exact E|congruence].
  - destruct g as [|g]; [lia|]. cbn [run_loop] in *. destruct (halted s); [exact E|].
    destruct (cycle_step pr s); [|exact E]. eapply IH; [exact E|exact Hr|lia].
Qed.

(** ** The simulation relation *)

Section Sim.
Variables (pr : profile) (w : Z) (W : list Z).
Hypothesis Hw : 0 <= w < 64.
Hypothesis HW : 1 <= lenZ W <= 65535.

Record memrel (mem : list Fr) (c : config) : Prop := {
  mr_pos : 0 <= pos c < lenZ mem;
  mr_cap : lenZ mem <= tape_cells;
  mr_cells : forall i, 0 <= i < lenZ mem ->
      nth_error mem (Z.to_nat i) = Some (FrZ (tape c i));
  mr_fresh : forall i, lenZ mem <= i -> tape c i = 0;
  mr_range : forall i, 0 <= tape c i < 2 ^ w
}.

Record rel (s : interp) (c : config) (ip : Z) : Prop := {
  rl_code : code s = map FrZ W;
  rl_bits : bits s = w;
  rl_ip : instruction_pointer (reg s) = FrZ ip;
  rl_iprange : 0 <= ip <= lenZ W;
  rl_ci : forall op, nth_error W (Z.to_nat ip) = Some op -> current_instruction (reg s) = FrZ op;
  rl_mp : memory_pointer (reg s) = FrZ (pos c);
  rl_mv : memory_value (reg s) = FrZ (cell c);
  rl_mem : memrel (memory s) c;
  rl_input : input s = map FrZ (unread c);
  rl_inrange : in_range w (unread c);
  rl_read : input_matrix (mat s) = map FrZ (read c);
  rl_written : output_matrix (mat s) = map FrZ (written c)
}.

Lemma pow_w_range x : 0 <= x < 2 ^ w -> 0 <= x < 2 ^ 64.
Proof.
  intros H. pose proof (pow64_le w Hw). assert (2 ^ 63 < 2 ^ 64) by reflexivity. lia.
Qed.
Lemma pow_w_pos : 0 < 2 ^ w.
Proof. apply Z.pow_pos_nonneg; lia. Qed.

Lemma tape_cells_lt : tape_cells < 2 ^ 64.
Proof. reflexivity. Qed.

Lemma fr_len_code s c ip : rel s c ip -> Fr_len (code s) = FrZ (lenZ W).
Proof.
  intros R. unfold Fr_len. rewrite (rl_code _ _ _ R), lenZ_map.
  rewrite Z.mod_small; [reflexivity|]. pose proof (lenZ_nonneg W).
  assert (65535 < 2 ^ 64) by reflexivity. lia.
Qed.

Lemma small_W x : 0 <= x <= lenZ W -> 0 <= x < 2 ^ 64.
Proof. intros H. assert (65535 < 2 ^ 64) by reflexivity. lia. Qed.

Lemma halted_iff s c ip : rel s c ip -> halted s = (lenZ W <=? ip).
Proof.
  intros R. unfold halted. rewrite (fr_len_code _ _ _ R), (rl_ip _ _ _ R).
  pose proof (rl_iprange _ _ _ R). pose proof (lenZ_nonneg W).
  unfold fleb. rewrite !fval_FrZ by (apply small_W; lia). reflexivity.
Qed.

(** The register refresh, for any successor machine state. *)
Lemma refresh_ok old st ip' c' :
  s_ip st = FrZ ip' -> 0 <= ip' <= lenZ W ->
  s_mp st = FrZ (pos c') -> memrel (s_mem st) c' ->
  exists r', refresh (map FrZ W) old st = Ok r' /\
    instruction_pointer r' = FrZ ip' /\
    (forall op, nth_error W (Z.to_nat ip') = Some op -> current_instruction r' = FrZ op) /\
    memory_pointer r' = FrZ (pos c') /\ memory_value r' = FrZ (cell c').
Proof.
  intros Eip Hip Emp M. pose proof (lenZ_nonneg W) as HW0.
  assert (EL : Fr_len (map FrZ W) = FrZ (lenZ W)).
  { unfold Fr_len. rewrite lenZ_map, Z.mod_small; [reflexivity|]. apply small_W. lia. }
  unfold refresh. rewrite Eip, EL, f1_FrZ, FrZ_sub.
  assert (Hci : exists ci, (if fltb (FrZ ip') (FrZ (lenZ W))
                 then index (map FrZ W) (as_usize (FrZ ip')) else Ok f0) = Ok ci /\
                 (forall op, nth_error W (Z.to_nat ip') = Some op -> ci = FrZ op)).
  { unfold fltb. rewrite !fval_FrZ by (apply small_W; lia).
    rewrite as_usize_FrZ by (apply small_W; lia).
    destruct (Z.ltb_spec ip' (lenZ W)) as [L|L].
    - destruct (nth_error W (Z.to_nat ip')) as [op|] eqn:E.
      + exists (FrZ op). split.
        * apply index_some; [lia|]. rewrite nth_error_map', E. reflexivity.
        * intros op' E'. congruence.
      + apply nth_error_None in E. unfold lenZ in L. lia.
    - exists f0. split; [reflexivity|]. intros op E.
      assert (Z.to_nat ip' < length W)%nat by (apply nth_error_Some; congruence).
      unfold lenZ in L. lia. }
  destruct Hci as [ci [-> Hci]]. cbn [bind].
  assert (Hni : exists ni, (if fltb (FrZ ip') (FrZ (lenZ W - 1))
                 then index (map FrZ W) (as_usize (FrZ ip') + 1) else Ok f0) = Ok ni).
  { rewrite as_usize_FrZ by (apply small_W; lia).
    unfold fltb. rewrite !fval_FrZ by (apply small_W; lia).
    destruct (Z.ltb_spec ip' (lenZ W - 1)) as [L|L]; [|exists f0; reflexivity].
    destruct (nth_error W (Z.to_nat (ip' + 1))) as [op|] eqn:E.
    + exists (FrZ op). apply index_some; [lia|]. rewrite nth_error_map', E. reflexivity.
    + apply nth_error_None in E. unfold lenZ in L. lia. }
  destruct Hni as [ni ->]. cbn [bind].
  pose proof (mr_pos _ _ M) as Hpos. pose proof (mr_cap _ _ M) as Hcap.
  pose proof tape_cells_lt as Htc.
  rewrite Emp, as_usize_FrZ by lia.
  rewrite (index_some _ _ _ (proj1 Hpos) (mr_cells _ _ M _ Hpos)). cbn [bind].
  fold (cell c').
  assert (Hmvi : exists mvi, (if feqb (FrZ (cell c')) f0 then Ok f0
             else match finvert (FrZ (cell c')) with Some x => Ok x | None => Panic end) = Ok mvi).
  { unfold finvert. destruct (feqb (FrZ (cell c')) f0); eexists; reflexivity. }
  destruct Hmvi as [mvi ->]. cbn [bind].
  eexists. split; [reflexivity|]. cbn. repeat split; assumption || reflexivity.
Qed.

Definition mst (s : interp) : mstate :=
  mkSt (instruction_pointer (reg s)) (memory_pointer (reg s)) (memory s) (input s)
    (input_matrix (mat s)) (output_matrix (mat s)).

Lemma step_from s c ip st ip' c' :
  rel s c ip ->
  exec_instr pr (code s) (bits s) (current_instruction (reg s)) (memory_value (reg s)) (mst s)
    = Ok st ->
  s_ip st = FrZ ip' -> 0 <= ip' <= lenZ W ->
  s_mp st = FrZ (pos c') -> memrel (s_mem st) c' ->
  s_input st = map FrZ (unread c') -> in_range w (unread c') ->
  s_inm st = map FrZ (read c') -> s_outm st = map FrZ (written c') ->
  exists s', cycle_step pr s = Ok s' /\ rel s' c' ip'.
Proof.
  intros R E Eip Hip Emp M Ei Hi Er Ew.
  unfold cycle_step. fold (mst s). rewrite E. cbn [bind].
  rewrite (rl_code _ _ _ R).
  destruct (refresh_ok (reg s) st ip' c' Eip Hip Emp M) as [r' [-> [H1 [H2 [H3 H4]]]]].
  cbn [bind]. eexists. split; [reflexivity|].
  constructor; cbn; try assumption; [reflexivity|apply (rl_bits _ _ _ R)].
Qed.

Lemma decode s c ip op :
  rel s c ip -> nth_error W (Z.to_nat ip) = Some op -> 0 <= op < 256 ->
  fval (current_instruction (reg s)) mod 2 ^ 128 mod 256 = op.
Proof.
  intros R E Hop. rewrite (rl_ci _ _ _ R _ E).
  assert (256 < 2 ^ 64) by reflexivity. assert (256 < 2 ^ 128) by reflexivity.
  rewrite fval_FrZ by lia. rewrite (Z.mod_small op (2 ^ 128)) by lia. apply Z.mod_small. lia.
Qed.

Lemma in_W ip op : nth_error W (Z.to_nat ip) = Some op -> 0 <= ip -> 0 <= ip < lenZ W.
Proof.
  intros E Hip. assert (Z.to_nat ip < length W)%nat by (apply nth_error_Some; congruence).
  unfold lenZ. lia.
Qed.

Lemma not_halted s c ip op :
  rel s c ip -> nth_error W (Z.to_nat ip) = Some op -> halted s = false.
Proof.
  intros R E. rewrite (halted_iff _ _ _ R). apply Z.leb_gt.
  pose proof (rl_iprange _ _ _ R). apply (in_W _ _ E). lia.
Qed.

Lemma s_mp_usize s c ip : rel s c ip -> as_usize (s_mp (mst s)) = pos c.
Proof.
  intros R. cbn. rewrite (rl_mp _ _ _ R). apply as_usize_FrZ.
  pose proof (mr_pos _ _ (rl_mem _ _ _ R)). pose proof (mr_cap _ _ (rl_mem _ _ _ R)).
  pose proof tape_cells_lt. lia.
Qed.

Lemma read_cell s c ip : rel s c ip -> index (memory s) (pos c) = Ok (FrZ (cell c)).
Proof.
  intros R. pose proof (mr_pos _ _ (rl_mem _ _ _ R)) as Hp.
  apply index_some; [lia|]. apply (mr_cells _ _ (rl_mem _ _ _ R)). exact Hp.
Qed.

Lemma memrel_set mem c v :
  memrel mem c -> 0 <= v < 2 ^ w ->
  memrel (upd mem (Z.to_nat (pos c)) (FrZ v)) (set_cell c v).
Proof.
  intros M Hv. pose proof (mr_pos _ _ M) as Hp. constructor; cbn.
  - rewrite lenZ_upd. apply M.
  - rewrite lenZ_upd. apply M.
  - intros i Hi. rewrite lenZ_upd in Hi. destruct (Z.eqb_spec i (pos c)) as [->|N].
    + apply nth_error_upd_eq. unfold lenZ in Hi. lia.
    + rewrite nth_error_upd_neq by lia. apply M, Hi.
  - intros i Hi. rewrite lenZ_upd in Hi. destruct (Z.eqb_spec i (pos c)) as [->|N]; [lia|].
    apply M, Hi.
  - intros i. destruct (i =? pos c); [exact Hv|]. apply M.
Qed.

Lemma store_cell s c ip v :
  rel s c ip -> store (memory s) (pos c) v = Ok (upd (memory s) (Z.to_nat (pos c)) v).
Proof. intros R. apply store_ok, (mr_pos _ _ (rl_mem _ _ _ R)). Qed.

Lemma cell_max_ok : cell_max pr w = Ok (2 ^ w - 1).
Proof. unfold cell_max. destruct (Z.ltb_spec w 64); [reflexivity|lia]. Qed.

Lemma cell_range s c ip : rel s c ip -> 0 <= cell c < 2 ^ w.
Proof. intros R. apply (mr_range _ _ (rl_mem _ _ _ R)). Qed.

Lemma ip_succ s c ip d : rel s c ip -> fadd (s_ip (mst s)) (FrZ d) = FrZ (ip + d).
Proof. intros R. cbn. rewrite (rl_ip _ _ _ R). apply FrZ_add. Qed.

Ltac start_step R E :=
  unfold exec_instr; rewrite (decode _ _ _ _ R E) by (unfold chr_right, chr_left, chr_inc, chr_dec, chr_in, chr_out, chr_open, chr_close; lia).

Lemma step_inc s c ip : rel s c ip -> nth_error W (Z.to_nat ip) = Some chr_inc ->
  exists s', cycle_step pr s = Ok s' /\ rel s' (set_cell c ((cell c + 1) mod 2 ^ w)) (ip + 1).
Proof.
  intros R E. pose proof (rl_iprange _ _ _ R) as Hip. pose proof (in_W _ _ E (proj1 Hip)) as Hlt.
  pose proof (cell_range _ _ _ R) as Hc. pose proof pow_w_pos as Hpw.
  assert (Hm : 0 <= (cell c + 1) mod 2 ^ w < 2 ^ w) by (apply Z.mod_pos_bound; lia).
  assert (Ex : exec_instr pr (code s) (bits s) (current_instruction (reg s)) (memory_value (reg s)) (mst s)
     = Ok (mkSt (FrZ (ip + 1)) (s_mp (mst s))
             (upd (memory s) (Z.to_nat (pos c)) (FrZ ((cell c + 1) mod 2 ^ w)))
             (input s) (s_inm (mst s)) (s_outm (mst s)))).
  { start_step R E.
    change (chr_inc =? SHL) with false. change (chr_inc =? SHR) with false.
    change (chr_inc =? ADD) with true. cbv iota.
    rewrite (s_mp_usize _ _ _ R). change (s_mem (mst s)) with (memory s).
    rewrite (read_cell _ _ _ R). cbn [bind]. rewrite (rl_bits _ _ _ R), cell_max_ok. cbn [bind].
    rewrite feqb_FrZ by (apply pow_w_range; lia).
    rewrite f1_FrZ, (ip_succ _ _ _ _ R), FrZ_add, f0_FrZ.
    assert (Ev : (if cell c =? 2 ^ w - 1 then store (memory s) (pos c) (FrZ 0)
                  else store (memory s) (pos c) (FrZ (cell c + 1))) =
                 store (memory s) (pos c) (FrZ ((cell c + 1) mod 2 ^ w))).
    { destruct (Z.eqb_spec (cell c) (2 ^ w - 1)) as [e|e].
      - replace (cell c + 1) with (2 ^ w) by lia. rewrite Z.mod_same by lia. reflexivity.
      - rewrite Z.mod_small by lia. reflexivity. }
    rewrite Ev, (store_cell _ _ _ _ R). reflexivity. }
  eapply step_from; try eassumption; try reflexivity; cbn; try apply R.
  - lia.
  - apply memrel_set; [apply R|exact Hm].
Qed.

Lemma step_dec s c ip : rel s c ip -> nth_error W (Z.to_nat ip) = Some chr_dec ->
  exists s', cycle_step pr s = Ok s' /\ rel s' (set_cell c ((cell c - 1) mod 2 ^ w)) (ip + 1).
Proof.
  intros R E. pose proof (rl_iprange _ _ _ R) as Hip. pose proof (in_W _ _ E (proj1 Hip)) as Hlt.
  pose proof (cell_range _ _ _ R) as Hc. pose proof pow_w_pos as Hpw.
  assert (Hm : 0 <= (cell c - 1) mod 2 ^ w < 2 ^ w) by (apply Z.mod_pos_bound; lia).
  assert (Ex : exec_instr pr (code s) (bits s) (current_instruction (reg s)) (memory_value (reg s)) (mst s)
     = Ok (mkSt (FrZ (ip + 1)) (s_mp (mst s))
             (upd (memory s) (Z.to_nat (pos c)) (FrZ ((cell c - 1) mod 2 ^ w)))
             (input s) (s_inm (mst s)) (s_outm (mst s)))).
  { start_step R E.
    change (chr_dec =? SHL) with false. change (chr_dec =? SHR) with false.
    change (chr_dec =? ADD) with false. change (chr_dec =? SUB) with true. cbv iota.
    rewrite (s_mp_usize _ _ _ R). change (s_mem (mst s)) with (memory s).
    rewrite (read_cell _ _ _ R). cbn [bind]. rewrite (rl_bits _ _ _ R), cell_max_ok. cbn [bind].
    rewrite f0_FrZ, feqb_FrZ by ((apply pow_w_range; lia) || (split; [lia|reflexivity])).
    rewrite f1_FrZ, (ip_succ _ _ _ _ R), FrZ_sub.
    assert (Ev : (if cell c =? 0 then store (memory s) (pos c) (FrZ (2 ^ w - 1))
                  else store (memory s) (pos c) (FrZ (cell c - 1))) =
                 store (memory s) (pos c) (FrZ ((cell c - 1) mod 2 ^ w))).
    { destruct (Z.eqb_spec (cell c) 0) as [e|e].
      - rewrite e. replace (0 - 1) with (2 ^ w - 1 + (-1) * 2 ^ w) by lia.
        rewrite Z.mod_add, Z.mod_small by lia. reflexivity.
      - rewrite Z.mod_small by lia. reflexivity. }
    rewrite Ev, (store_cell _ _ _ _ R). reflexivity. }
  eapply step_from; try eassumption; try reflexivity; cbn; try apply R.
  - lia.
  - apply memrel_set; [apply R|exact Hm].
Qed.

Lemma step_out s c ip : rel s c ip -> nth_error W (Z.to_nat ip) = Some chr_out ->
  exists s', cycle_step pr s = Ok s' /\ rel s' (emit_cell c) (ip + 1).
Proof.
  intros R E. pose proof (rl_iprange _ _ _ R) as Hip. pose proof (in_W _ _ E (proj1 Hip)) as Hlt.
  assert (Ex : exec_instr pr (code s) (bits s) (current_instruction (reg s)) (memory_value (reg s)) (mst s)
     = Ok (mkSt (FrZ (ip + 1)) (s_mp (mst s)) (memory s)
             (input s) (s_inm (mst s)) (s_outm (mst s) ++ [FrZ (cell c)]))).
  { start_step R E.
    change (chr_out =? SHL) with false. change (chr_out =? SHR) with false.
    change (chr_out =? ADD) with false. change (chr_out =? SUB) with false.
    change (chr_out =? GETCHAR) with false. change (chr_out =? PUTCHAR) with true. cbv iota.
    rewrite f1_FrZ, (ip_succ _ _ _ _ R), (rl_mv _ _ _ R). reflexivity. }
  eapply step_from; try eassumption; try reflexivity; cbn; try apply R.
  - lia.
  - pose proof (rl_mem _ _ _ R) as M. destruct M. constructor; cbn; assumption.
  - rewrite (rl_written _ _ _ R), map_app. reflexivity.
Qed.

Lemma step_in s c ip v rest : rel s c ip -> nth_error W (Z.to_nat ip) = Some chr_in ->
  unread c = v :: rest ->
  exists s', cycle_step pr s = Ok s' /\ rel s' (take_input c v rest) (ip + 1).
Proof.
  intros R E Eu. pose proof (rl_iprange _ _ _ R) as Hip. pose proof (in_W _ _ E (proj1 Hip)) as Hlt.
  pose proof (rl_inrange _ _ _ R) as Hin. rewrite Eu in Hin. inversion Hin; subst.
  assert (Ex : exec_instr pr (code s) (bits s) (current_instruction (reg s)) (memory_value (reg s)) (mst s)
     = Ok (mkSt (FrZ (ip + 1)) (s_mp (mst s)) (upd (memory s) (Z.to_nat (pos c)) (FrZ v))
             (map FrZ rest) (s_inm (mst s) ++ [FrZ v]) (s_outm (mst s)))).
  { start_step R E.
    change (chr_in =? SHL) with false. change (chr_in =? SHR) with false.
    change (chr_in =? ADD) with false. change (chr_in =? SUB) with false.
    change (chr_in =? GETCHAR) with true. cbv iota.
    change (s_input (mst s)) with (input s). rewrite (rl_input _ _ _ R), Eu. cbn [map].
    rewrite (s_mp_usize _ _ _ R). change (s_mem (mst s)) with (memory s).
    rewrite (store_cell _ _ _ _ R). cbn [bind].
    rewrite f1_FrZ, (ip_succ _ _ _ _ R). reflexivity. }
  eapply step_from; try eassumption; try reflexivity; cbn; try apply R.
  - lia.
  - apply (memrel_set (memory s) (Config (tape c) (pos c) rest (read c ++ [v]) (written c)) v);
      [|assumption].
    pose proof (rl_mem _ _ _ R) as M. destruct M. constructor; cbn; assumption.
  - rewrite (rl_read _ _ _ R), map_app. reflexivity.
Qed.

Lemma step_in_fail s c ip : rel s c ip -> nth_error W (Z.to_nat ip) = Some chr_in ->
  unread c = [] -> cycle_step pr s = Panic.
Proof.
  intros R E Eu. unfold cycle_step. fold (mst s). start_step R E.
  change (chr_in =? SHL) with false. change (chr_in =? SHR) with false.
  change (chr_in =? ADD) with false. change (chr_in =? SUB) with false.
  change (chr_in =? GETCHAR) with true. cbv iota.
  change (s_input (mst s)) with (input s). rewrite (rl_input _ _ _ R), Eu. reflexivity.
Qed.

Lemma step_left s c ip : rel s c ip -> nth_error W (Z.to_nat ip) = Some chr_left -> 0 < pos c ->
  exists s', cycle_step pr s = Ok s' /\ rel s' (move c (-1)) (ip + 1).
Proof.
  intros R E Hp. pose proof (rl_iprange _ _ _ R) as Hip. pose proof (in_W _ _ E (proj1 Hip)) as Hlt.
  assert (Ex : exec_instr pr (code s) (bits s) (current_instruction (reg s)) (memory_value (reg s)) (mst s)
     = Ok (mkSt (FrZ (ip + 1)) (FrZ (pos c - 1)) (memory s)
             (input s) (s_inm (mst s)) (s_outm (mst s)))).
  { start_step R E. change (chr_left =? SHL) with true. cbv iota.
    rewrite f1_FrZ, (ip_succ _ _ _ _ R). cbn [s_mp mst]. rewrite (rl_mp _ _ _ R), FrZ_sub.
    reflexivity. }
  eapply step_from; try eassumption; try reflexivity; cbn; try apply R.
  - lia.
  - pose proof (rl_mem _ _ _ R) as M. destruct M. constructor; cbn; try assumption. lia.
Qed.

Lemma refresh_panic old st :
  lenZ (s_mem st) <= as_usize (s_mp st) -> refresh (map FrZ W) old st = Panic.
Proof.
  intros H. unfold refresh.
  destruct (if fltb (s_ip st) (Fr_len (map FrZ W)) then _ else _); [|reflexivity]. cbn [bind].
  destruct (if fltb (s_ip st) (fsub (Fr_len (map FrZ W)) f1) then _ else _); [|reflexivity].
  cbn [bind]. rewrite (proj2 (index_panic_iff (s_mem st) _)) by (right; exact H). reflexivity.
Qed.

Lemma step_left_fail s c ip : rel s c ip -> nth_error W (Z.to_nat ip) = Some chr_left ->
  ~ 0 < pos c -> cycle_step pr s = Panic.
Proof.
  intros R E Hp. pose proof (mr_pos _ _ (rl_mem _ _ _ R)) as Hp'.
  assert (pos c = 0) as P0 by lia.
  unfold cycle_step. fold (mst s). start_step R E. change (chr_left =? SHL) with true. cbv iota.
  cbn [bind]. rewrite (rl_code _ _ _ R). rewrite refresh_panic; [reflexivity|].
  cbn [s_mem s_mp mst]. rewrite (rl_mp _ _ _ R), P0, f1_FrZ, FrZ_sub.
  change (as_usize (FrZ (0 - 1))) with 4891460686036598784.
  pose proof (mr_cap _ _ (rl_mem _ _ _ R)) as Hc. unfold tape_cells in Hc.
  change (2 ^ 57) with 144115188075855872 in Hc. lia.
Qed.

Lemma step_right s c ip : rel s c ip -> nth_error W (Z.to_nat ip) = Some chr_right ->
  pos c + 1 < tape_cells ->
  exists s', cycle_step pr s = Ok s' /\ rel s' (move c 1) (ip + 1).
Proof.
  intros R E Hp. pose proof (rl_iprange _ _ _ R) as Hip. pose proof (in_W _ _ E (proj1 Hip)) as Hlt.
  pose proof (rl_mem _ _ _ R) as M. pose proof (mr_pos _ _ M) as Hpos. pose proof (mr_cap _ _ M) as Hcap.
  pose proof tape_cells_lt as Htc.
  set (mem' := if pos c + 1 =? lenZ (memory s) then memory s ++ [f0] else memory s).
  assert (Ex : exec_instr pr (code s) (bits s) (current_instruction (reg s)) (memory_value (reg s)) (mst s)
     = Ok (mkSt (FrZ (ip + 1)) (FrZ (pos c + 1)) mem'
             (input s) (s_inm (mst s)) (s_outm (mst s)))).
  { start_step R E. change (chr_right =? SHL) with false. change (chr_right =? SHR) with true. cbv iota.
    rewrite f1_FrZ, (ip_succ _ _ _ _ R). cbn [s_mp s_mem mst].
    rewrite (rl_mp _ _ _ R), FrZ_add, as_usize_FrZ by lia.
    subst mem'. destruct (Z.eqb_spec (pos c + 1) (lenZ (memory s))) as [e|e]; [|reflexivity].
    unfold push_cell. change max_cells with tape_cells.
    destruct (Z.ltb_spec (lenZ (memory s)) tape_cells); [reflexivity|lia]. }
  eapply step_from; try eassumption; try reflexivity; cbn; try apply R.
  - lia.
  - subst mem'. destruct (Z.eqb_spec (pos c + 1) (lenZ (memory s))) as [e|e].
    + destruct M as [M1 M2 M3 M4 M5]. constructor; cbn -[Z.pow]; rewrite ?lenZ_snoc; try lia.
      * intros i Hi. destruct (Z.eq_dec i (lenZ (memory s))) as [->|N].
        -- rewrite nth_error_app2 by (unfold lenZ; lia).
           replace (Z.to_nat (lenZ (memory s)) - length (memory s))%nat with 0%nat by (unfold lenZ; lia).
           rewrite M4 by lia. reflexivity.
        -- rewrite nth_error_app1 by (unfold lenZ in *; lia). apply M3. lia.
      * intros i Hi. apply M4. lia.
      * exact M5.
    + destruct M. constructor; cbn; try assumption. lia.
Qed.

Lemma step_right_fail s c ip : rel s c ip -> nth_error W (Z.to_nat ip) = Some chr_right ->
  ~ pos c + 1 < tape_cells -> cycle_step pr s = Panic.
Proof.
  intros R E Hp. pose proof (rl_mem _ _ _ R) as M.
  pose proof (mr_pos _ _ M) as Hpos. pose proof (mr_cap _ _ M) as Hcap. pose proof tape_cells_lt.
  assert (Ep : pos c + 1 = tape_cells) by lia. assert (El : lenZ (memory s) = tape_cells) by lia.
  unfold cycle_step. fold (mst s). start_step R E.
  change (chr_right =? SHL) with false. change (chr_right =? SHR) with true. cbv iota.
  cbn [s_mp s_mem mst]. rewrite (rl_mp _ _ _ R), f1_FrZ, FrZ_add, as_usize_FrZ by lia.
  rewrite El, Ep, Z.eqb_refl. unfold push_cell. change max_cells with tape_cells.
  rewrite El, Z.ltb_irrefl. reflexivity.
Qed.

Lemma code_word k d s c ip : rel s c ip -> nth_error W (Z.to_nat (ip + 1)) = Some d ->
  k = ip + 1 -> index (map FrZ W) k = Ok (FrZ d).
Proof.
  intros R E ->. pose proof (rl_iprange _ _ _ R). apply index_some; [lia|].
  rewrite nth_error_map', E. reflexivity.
Qed.

Lemma step_open s c ip d : rel s c ip -> nth_error W (Z.to_nat ip) = Some chr_open ->
  nth_error W (Z.to_nat (ip + 1)) = Some d -> 0 <= d <= lenZ W ->
  exists s', cycle_step pr s = Ok s' /\ rel s' c (if cell c =? 0 then d else ip + 2).
Proof.
  intros R E Ed Hd. pose proof (rl_iprange _ _ _ R) as Hip. pose proof (in_W _ _ E (proj1 Hip)) as Hlt.
  assert (Hlt' : 0 <= ip + 1 < lenZ W) by (apply (in_W _ _ Ed); lia).
  pose proof (cell_range _ _ _ R) as Hc.
  assert (Ex : exec_instr pr (code s) (bits s) (current_instruction (reg s)) (memory_value (reg s)) (mst s)
     = Ok (mkSt (FrZ (if cell c =? 0 then d else ip + 2)) (s_mp (mst s)) (memory s)
             (input s) (s_inm (mst s)) (s_outm (mst s)))).
  { start_step R E.
    change (chr_open =? SHL) with false. change (chr_open =? SHR) with false.
    change (chr_open =? ADD) with false. change (chr_open =? SUB) with false.
    change (chr_open =? GETCHAR) with false. change (chr_open =? PUTCHAR) with false.
    change (chr_open =? LB) with true. cbv iota.
    rewrite (s_mp_usize _ _ _ R). change (s_mem (mst s)) with (memory s).
    rewrite (read_cell _ _ _ R). cbn [bind].
    rewrite f0_FrZ, feqb_FrZ by ((apply pow_w_range; lia) || (split; [lia|reflexivity])).
    rewrite (ip_succ _ _ _ _ R). cbn [s_ip mst].
    rewrite (rl_ip _ _ _ R), as_usize_FrZ by (apply small_W; lia).
    rewrite (rl_code _ _ _ R), (code_word _ _ _ _ _ R Ed eq_refl).
    destruct (cell c =? 0); reflexivity. }
  eapply step_from; try eassumption; try reflexivity; cbn; try apply R.
  destruct (cell c =? 0); lia.
Qed.

Lemma step_close s c ip d : rel s c ip -> nth_error W (Z.to_nat ip) = Some chr_close ->
  nth_error W (Z.to_nat (ip + 1)) = Some d -> 0 <= d <= lenZ W ->
  exists s', cycle_step pr s = Ok s' /\ rel s' c (if cell c =? 0 then ip + 2 else d).
Proof.
  intros R E Ed Hd. pose proof (rl_iprange _ _ _ R) as Hip. pose proof (in_W _ _ E (proj1 Hip)) as Hlt.
  assert (Hlt' : 0 <= ip + 1 < lenZ W) by (apply (in_W _ _ Ed); lia).
  pose proof (cell_range _ _ _ R) as Hc.
  assert (Ex : exec_instr pr (code s) (bits s) (current_instruction (reg s)) (memory_value (reg s)) (mst s)
     = Ok (mkSt (FrZ (if cell c =? 0 then ip + 2 else d)) (s_mp (mst s)) (memory s)
             (input s) (s_inm (mst s)) (s_outm (mst s)))).
  { start_step R E.
    change (chr_close =? SHL) with false. change (chr_close =? SHR) with false.
    change (chr_close =? ADD) with false. change (chr_close =? SUB) with false.
    change (chr_close =? GETCHAR) with false. change (chr_close =? PUTCHAR) with false.
    change (chr_close =? LB) with false. change (chr_close =? RB) with true. cbv iota.
    rewrite (s_mp_usize _ _ _ R). change (s_mem (mst s)) with (memory s).
    rewrite (read_cell _ _ _ R). cbn [bind].
    rewrite f0_FrZ, feqb_FrZ by ((apply pow_w_range; lia) || (split; [lia|reflexivity])).
    rewrite (ip_succ _ _ _ _ R). cbn [s_ip mst].
    rewrite (rl_ip _ _ _ R), as_usize_FrZ by (apply small_W; lia).
    rewrite (rl_code _ _ _ R), (code_word _ _ _ _ _ R Ed eq_refl).
    destruct (cell c =? 0); reflexivity. }
  eapply step_from; try eassumption; try reflexivity; cbn; try apply R.
  destruct (cell c =? 0); lia.
Qed.

(** ** Programs placed in the code *)

Definition at_code (base : Z) (p : list instr) : Prop :=
  exists pre post, W = pre ++ emit base p ++ post /\ lenZ pre = base.

Lemma at_code_cons base i p : at_code base (i :: p) -> at_code (base + words i) p.
Proof.
  intros [pre [post [E L]]]. exists (pre ++ emit_i base i), post. split.
  - rewrite E. cbn [emit]. rewrite <- !app_assoc. reflexivity.
  - rewrite lenZ_app, L. f_equal.
    pose proof (emit_length [i] base) as H. cbn [emit] in H. rewrite app_nil_r in H.
    unfold lenZ. rewrite H. rewrite program_words_cons. change (program_words []) with 0. lia.
Qed.

Lemma at_code_range base p : at_code base p -> 0 <= base /\ base + program_words p <= lenZ W.
Proof.
  intros [pre [post [E L]]]. pose proof (lenZ_nonneg pre). pose proof (lenZ_nonneg post).
  assert (Le : lenZ (emit base p) = program_words p) by apply emit_length.
  rewrite E, !lenZ_app, L, Le. lia.
Qed.

Lemma nth_app_at {A} (pre l : list A) k z : 0 <= k -> lenZ pre = z ->
  nth_error (pre ++ l) (Z.to_nat (z + k)) = nth_error l (Z.to_nat k).
Proof.
  intros Hk <-. rewrite nth_error_app2 by (unfold lenZ; lia). f_equal. unfold lenZ. lia.
Qed.

Lemma at_code_simple base i p ch : at_code base (i :: p) -> emit_i base i = [ch] ->
  nth_error W (Z.to_nat base) = Some ch.
Proof.
  intros [pre [post [E L]]] Ei. transitivity (nth_error W (Z.to_nat (base + 0))); [f_equal; f_equal; lia|]. rewrite E.
  rewrite nth_app_at by (lia || exact L). cbn [emit]. rewrite Ei. reflexivity.
Qed.

Lemma at_code_loop base b p : at_code base (Loop b :: p) ->
  nth_error W (Z.to_nat base) = Some chr_open /\
  nth_error W (Z.to_nat (base + 1)) = Some (base + 4 + program_words b) /\
  nth_error W (Z.to_nat (base + 2 + program_words b)) = Some chr_close /\
  nth_error W (Z.to_nat (base + 2 + program_words b + 1)) = Some (base + 2) /\
  at_code (base + 2) b.
Proof.
  intros [pre [post [E L]]]. cbn [emit] in E. rewrite emit_loop in E.
  pose proof (program_words_nonneg b) as Hb.
  assert (Le : lenZ (emit (base + 2) b) = program_words b) by apply emit_length.
  repeat rewrite <- app_assoc in E. cbn [app] in E.
  repeat split.
  - transitivity (nth_error W (Z.to_nat (base + 0))); [f_equal; f_equal; lia|]. rewrite E.
    rewrite nth_app_at by (lia || exact L). reflexivity.
  - rewrite E. rewrite nth_app_at by (lia || exact L). reflexivity.
  - rewrite E.
    replace (base + 2 + program_words b) with (base + (2 + program_words b)) by lia.
    rewrite nth_app_at by (lia || exact L).
    change (chr_open :: base + 4 + program_words b :: emit (base + 2) b ++ chr_close :: base + 2 :: emit (base + words (Loop b)) p ++ post)
      with ([chr_open; base + 4 + program_words b] ++ emit (base + 2) b ++ chr_close :: base + 2 :: emit (base + words (Loop b)) p ++ post).
    rewrite nth_app_at by (lia || reflexivity).
    replace (program_words b) with (program_words b + 0) at 1 by lia.
    rewrite nth_app_at by (lia || exact Le). reflexivity.
  - rewrite E.
    replace (base + 2 + program_words b + 1) with (base + (2 + (program_words b + 1))) by lia.
    rewrite nth_app_at by (lia || exact L).
    change (chr_open :: base + 4 + program_words b :: emit (base + 2) b ++ chr_close :: base + 2 :: emit (base + words (Loop b)) p ++ post)
      with ([chr_open; base + 4 + program_words b] ++ emit (base + 2) b ++ chr_close :: base + 2 :: emit (base + words (Loop b)) p ++ post).
    rewrite nth_app_at by (lia || reflexivity).
    rewrite nth_app_at by (lia || exact Le). reflexivity.
  - exists (pre ++ [chr_open; base + 4 + program_words b]).
    eexists (chr_close :: base + 2 :: emit (base + words (Loop b)) p ++ post). split.
    + rewrite E. rewrite <- app_assoc. reflexivity.
    + rewrite lenZ_app, L. reflexivity.
Qed.

Definition goal (o : outcome) (s : interp) (end_ip : Z) : Prop :=
  match o with
  | Done c' => exists n s', stepn pr n s s' /\ rel s' c' end_ip
  | Failed => panics pr s
  end.

Lemma goal_step o s s' e :
  halted s = false -> cycle_step pr s = Ok s' -> goal o s' e -> goal o s e.
Proof.
  intros Hh Hs. destruct o as [c'|]; cbn.
  - intros [n [s2 [Hn R]]]. exists (S n), s2. split; [|exact R]. econstructor; eassumption.
  - intros [n [s2 [Hn R]]]. exists (S n), s2. split; [|exact R]. econstructor; eassumption.
Qed.

Lemma goal_steps o n s s' e : stepn pr n s s' -> goal o s' e -> goal o s e.
Proof. induction 1; [tauto|]. intros G. eapply goal_step; eauto. Qed.

Lemma goal_panic s e : halted s = false -> cycle_step pr s = Panic -> goal Failed s e.
Proof. intros H1 H2. exists 0%nat, s. split; [constructor|]. split; assumption. Qed.

(** Entry points of a program: its first word, and for a leading loop also the
    word of the closing bracket. *)
Definition entry (base : Z) (p : list instr) (ip : Z) : Prop :=
  ip = base \/ match p with Loop b :: _ => ip = base + 2 + program_words b | _ => False end.

Lemma step_loop s c base b p ip :
  at_code base (Loop b :: p) -> entry base (Loop b :: p) ip -> rel s c ip ->
  halted s = false /\
  exists s', cycle_step pr s = Ok s' /\
    rel s' c (if cell c =? 0 then base + words (Loop b) else base + 2).
Proof.
  intros A [->| ->] R; pose proof (at_code_loop _ _ _ A) as [H1 [H2 [H3 [H4 H5]]]];
    pose proof (at_code_range _ _ A) as Hr; rewrite program_words_cons, words_loop in *;
    pose proof (program_words_nonneg b); pose proof (program_words_nonneg p).
  - split; [eapply not_halted; eassumption|].
    destruct (step_open s c base _ R H1 H2 ltac:(lia)) as [s' [Es Rs]]. exists s'. split; [exact Es|].
    destruct (cell c =? 0); [|exact Rs]. replace (base + (4 + program_words b)) with (base + 4 + program_words b) by lia. exact Rs.
  - split; [eapply not_halted; eassumption|].
    destruct (step_close s c _ _ R H3 H4 ltac:(lia)) as [s' [Es Rs]]. exists s'. split; [exact Es|].
    destruct (cell c =? 0); [|exact Rs].
    replace (base + (4 + program_words b)) with (base + 2 + program_words b + 2) by lia. exact Rs.
Qed.

Lemma forward p c o : exec w p c o -> forall s base ip,
  at_code base p -> entry base p ip -> rel s c ip -> goal o s (base + program_words p).
Proof.
  induction 1 as [c|p c o Hp He IH|p c Hp|p c o Hp He IH|p c Hp|p c o He IH|p c o He IH
                 |p c o He IH|p c v rest o Hu He IH|p c Hu|b p c o Hz He IH
                 |b p c c' o Hz Hb IHb Hl IHl|b p c Hz Hb IHb]; intros s base ip A En R.
  - destruct En as [->|[]]. exists 0%nat, s. split; [constructor|].
    change (program_words []) with 0. rewrite Z.add_0_r. exact R.
  - destruct En as [->|[]]. pose proof (at_code_simple _ _ _ _ A eq_refl) as Ew.
    destruct (step_right s c base R Ew Hp) as [s' [Es Rs]].
    eapply goal_step; [eapply not_halted; eassumption|exact Es|].
    rewrite program_words_cons, Z.add_assoc.
    eapply IH; [apply at_code_cons, A|left; reflexivity|exact Rs].
  - destruct En as [->|[]]. pose proof (at_code_simple _ _ _ _ A eq_refl) as Ew.
    apply goal_panic; [eapply not_halted; eassumption|]. eapply step_right_fail; eassumption.
  - destruct En as [->|[]]. pose proof (at_code_simple _ _ _ _ A eq_refl) as Ew.
    destruct (step_left s c base R Ew Hp) as [s' [Es Rs]].
    eapply goal_step; [eapply not_halted; eassumption|exact Es|].
    rewrite program_words_cons, Z.add_assoc.
    eapply IH; [apply at_code_cons, A|left; reflexivity|exact Rs].
  - destruct En as [->|[]]. pose proof (at_code_simple _ _ _ _ A eq_refl) as Ew.
    apply goal_panic; [eapply not_halted; eassumption|]. eapply step_left_fail; eassumption.
  - destruct En as [->|[]]. pose proof (at_code_simple _ _ _ _ A eq_refl) as Ew.
    destruct (step_inc s c base R Ew) as [s' [Es Rs]].
    eapply goal_step; [eapply not_halted; eassumption|exact Es|].
    rewrite program_words_cons, Z.add_assoc.
    eapply IH; [apply at_code_cons, A|left; reflexivity|exact Rs].
  - destruct En as [->|[]]. pose proof (at_code_simple _ _ _ _ A eq_refl) as Ew.
    destruct (step_dec s c base R Ew) as [s' [Es Rs]].
    eapply goal_step; [eapply not_halted; eassumption|exact Es|].
    rewrite program_words_cons, Z.add_assoc.
    eapply IH; [apply at_code_cons, A|left; reflexivity|exact Rs].
  - destruct En as [->|[]]. pose proof (at_code_simple _ _ _ _ A eq_refl) as Ew.
    destruct (step_out s c base R Ew) as [s' [Es Rs]].
    eapply goal_step; [eapply not_halted; eassumption|exact Es|].
    rewrite program_words_cons, Z.add_assoc.
    eapply IH; [apply at_code_cons, A|left; reflexivity|exact Rs].
  - destruct En as [->|[]]. pose proof (at_code_simple _ _ _ _ A eq_refl) as Ew.
    destruct (step_in s c base _ _ R Ew Hu) as [s' [Es Rs]].
    eapply goal_step; [eapply not_halted; eassumption|exact Es|].
    rewrite program_words_cons, Z.add_assoc.
    eapply IH; [apply at_code_cons, A|left; reflexivity|exact Rs].
  - destruct En as [->|[]]. pose proof (at_code_simple _ _ _ _ A eq_refl) as Ew.
    apply goal_panic; [eapply not_halted; eassumption|]. eapply step_in_fail; eassumption.
  - destruct (step_loop _ _ _ _ _ _ A En R) as [Hh [s' [Es Rs]]]. rewrite Hz in Rs. cbn in Rs.
    eapply goal_step; [exact Hh|exact Es|]. rewrite program_words_cons, Z.add_assoc.
    eapply IH; [apply at_code_cons, A|left; reflexivity|exact Rs].
  - destruct (step_loop _ _ _ _ _ _ A En R) as [Hh [s' [Es Rs]]].
    rewrite (proj2 (Z.eqb_neq _ _) Hz) in Rs.
    pose proof (at_code_loop _ _ _ A) as [_ [_ [_ [_ Ab]]]].
    destruct (IHb s' _ _ Ab (or_introl eq_refl) Rs) as [n [s2 [Hn R2]]].
    eapply goal_step; [exact Hh|exact Es|]. eapply goal_steps; [exact Hn|].
    eapply IHl; [exact A|right; reflexivity|exact R2].
  - destruct (step_loop _ _ _ _ _ _ A En R) as [Hh [s' [Es Rs]]].
    rewrite (proj2 (Z.eqb_neq _ _) Hz) in Rs.
    pose proof (at_code_loop _ _ _ A) as [_ [_ [_ [_ Ab]]]].
    eapply goal_step; [exact Hh|exact Es|].
    exact (IHb s' _ _ Ab (or_introl eq_refl) Rs).
Qed.

(** Either the program has an outcome or the interpreter makes arbitrarily many
    steps. *)
Definition goes_on (n : nat) (s : interp) : Prop := exists m s', (n < m)%nat /\ stepn pr m s s'.

Lemma goes_on_step n s s' : halted s = false -> cycle_step pr s = Ok s' -> goes_on n s' -> goes_on (S n) s.
Proof.
  intros H1 H2 [m [s2 [Hm Hs]]]. exists (S m), s2. split; [lia|]. econstructor; eassumption.
Qed.
Lemma goes_on_le n m s : (n <= m)%nat -> goes_on m s -> goes_on n s.
Proof. intros H [k [s' [Hk Hs]]]. exists k, s'. split; [lia|exact Hs]. Qed.
Lemma goes_on_steps k n s s' : stepn pr k s s' -> goes_on n s' -> goes_on n s.
Proof.
  intros H [m [s2 [Hm Hs]]]. exists (k + m)%nat, s2. split; [lia|]. eapply stepn_trans; eassumption.
Qed.

Lemma outcome_or_on p : forall n s c base ip,
  at_code base p -> entry base p ip -> rel s c ip ->
  (exists o, exec w p c o) \/ goes_on n s.
Proof.
  induction p as [|i p Hi IH|b p IHb IHp] using prog_ind.
  - intros n s c base ip A En R. left. exists (Done c). constructor.
  - intros n s c base ip A En R.
    assert (ip = base) as ->.
    { destruct En as [->|En]; [reflexivity|]. destruct i; try contradiction. exfalso. eapply Hi. reflexivity. }
    assert (K : forall c' s', halted s = false -> cycle_step pr s = Ok s' -> rel s' c' (base + words i) ->
              (exists o, exec w p c' o) \/ goes_on n s).
    { intros c' s' Hh Es Rs. destruct (IH n s' c' _ _ (at_code_cons _ _ _ A) (or_introl eq_refl) Rs) as [H|H].
      - left. exact H.
      - right. eapply goes_on_le; [|eapply goes_on_step; eassumption]. lia. }
    destruct i as [| | | | | |b].
    + pose proof (at_code_simple _ _ _ _ A eq_refl) as Ew.
      destruct (Z_lt_dec (pos c + 1) tape_cells) as [Hp|Hp].
      * destruct (step_right s c base R Ew Hp) as [s' [Es Rs]].
        destruct (K _ _ ltac:(eapply not_halted; eassumption) Es Rs) as [[o Ho]|H]; [left|right; exact H].
        exists o. apply E_right; assumption.
      * left. exists Failed. apply E_right_fail. exact Hp.
    + pose proof (at_code_simple _ _ _ _ A eq_refl) as Ew.
      destruct (Z_lt_dec 0 (pos c)) as [Hp|Hp].
      * destruct (step_left s c base R Ew Hp) as [s' [Es Rs]].
        destruct (K _ _ ltac:(eapply not_halted; eassumption) Es Rs) as [[o Ho]|H]; [left|right; exact H].
        exists o. apply E_left; assumption.
      * left. exists Failed. apply E_left_fail. exact Hp.
    + pose proof (at_code_simple _ _ _ _ A eq_refl) as Ew.
      destruct (step_inc s c base R Ew) as [s' [Es Rs]].
      destruct (K _ _ ltac:(eapply not_halted; eassumption) Es Rs) as [[o Ho]|H]; [left|right; exact H].
      exists o. apply E_inc; assumption.
    + pose proof (at_code_simple _ _ _ _ A eq_refl) as Ew.
      destruct (step_dec s c base R Ew) as [s' [Es Rs]].
      destruct (K _ _ ltac:(eapply not_halted; eassumption) Es Rs) as [[o Ho]|H]; [left|right; exact H].
      exists o. apply E_dec; assumption.
    + pose proof (at_code_simple _ _ _ _ A eq_refl) as Ew.
      destruct (step_out s c base R Ew) as [s' [Es Rs]].
      destruct (K _ _ ltac:(eapply not_halted; eassumption) Es Rs) as [[o Ho]|H]; [left|right; exact H].
      exists o. apply E_out; assumption.
    + pose proof (at_code_simple _ _ _ _ A eq_refl) as Ew.
      destruct (unread c) as [|v rest] eqn:Eu.
      * left. exists Failed. apply E_in_fail. exact Eu.
      * destruct (step_in s c base _ _ R Ew Eu) as [s' [Es Rs]].
        destruct (K _ _ ltac:(eapply not_halted; eassumption) Es Rs) as [[o Ho]|H]; [left|right; exact H].
        exists o. eapply E_in; eassumption.
    + exfalso. eapply Hi. reflexivity.
  - induction n as [n IHn] using (well_founded_induction Wf_nat.lt_wf).
    intros s c base ip A En R.
    destruct (step_loop _ _ _ _ _ _ A En R) as [Hh [s' [Es Rs]]].
    pose proof (at_code_loop _ _ _ A) as [_ [_ [_ [_ Ab]]]].
    destruct (Z.eqb_spec (cell c) 0) as [Hz|Hz].
    + destruct (IHp n s' c _ _ (at_code_cons _ _ _ A) (or_introl eq_refl) Rs) as [[o Ho]|H].
      * left. exists o. apply E_loop_exit; assumption.
      * right. eapply goes_on_le; [|eapply goes_on_step; eassumption]. lia.
    + destruct (IHb n s' c _ _ Ab (or_introl eq_refl) Rs) as [[o Ho]|H].
      * destruct o as [c'|].
        -- destruct (forward _ _ _ Ho _ _ _ Ab (or_introl eq_refl) Rs) as [k [s2 [Hk R2]]].
           destruct n as [|n].
           { right. exists 1%nat, s'. split; [lia|]. apply stepn_1; assumption. }
           destruct (IHn n ltac:(lia) s2 c' base _ A (or_intror eq_refl) R2) as [[o Ho2]|H].
           ++ left. exists o. eapply E_loop_iter; eassumption.
           ++ right. eapply goes_on_step; [exact Hh|exact Es|]. eapply goes_on_steps; eassumption.
        -- left. exists Failed. apply E_loop_fail; assumption.
      * right. eapply goes_on_le; [|eapply goes_on_step; eassumption]. lia.
Qed.

End Sim.

(** ** Whole runs *)

Lemma emit_range p : forall base, 0 <= base -> base + program_words p <= 65535 ->
  Forall (fun x => 0 <= x < 65536) (emit base p).
Proof.
  induction p as [|i p Hi IH|b p IHb IHp] using prog_ind; intros base Hb Hl.
  - constructor.
  - rewrite program_words_cons in Hl. pose proof (words_pos i). cbn [emit]. apply Forall_app. split.
    + destruct i; try (repeat constructor; unfold chr_right, chr_left, chr_inc, chr_dec, chr_in, chr_out; lia).
      exfalso. eapply Hi. reflexivity.
    + apply IH; lia.
  - rewrite program_words_cons, words_loop in Hl.
    pose proof (program_words_nonneg b). pose proof (program_words_nonneg p).
    cbn [emit]. rewrite emit_loop, words_loop. repeat (apply Forall_app; split).
    + repeat constructor; unfold chr_open; lia.
    + apply IHb; lia.
    + repeat constructor; unfold chr_close; lia.
    + apply IHp; lia.
Qed.

Definition machine (w : Z) (c : list Fr) (inp : list Z) : interp :=
  set_bits (start c (map FrZ inp)) w.

Section Whole.
Variables (pr : profile) (w : Z) (p : list instr) (inp : list Z).
Hypothesis Hw : 0 <= w < 64.
Hypothesis Hp : 1 <= program_words p <= 65535.
Hypothesis Hin : in_range w inp.

Let W := emit 0 p.

Lemma lenW : lenZ W = program_words p.
Proof. apply emit_length. Qed.
Lemma at_code_whole : at_code W 0 p.
Proof. exists [], []. split; [cbn; rewrite app_nil_r; reflexivity|reflexivity]. Qed.

Lemma prologue_rel : exists s1, prologue (machine w (map FrZ W) inp) = Ok s1 /\
  rel w W s1 (initial inp) 0.
Proof.
  pose proof lenW as LW. unfold prologue, machine, start, set_bits, set_input, set_code, new_interp.
  cbn [code input memory reg mat bits processor_matrix instruction_matrix memory_matrix
       input_matrix output_matrix program matrix0].
  destruct W as [|w0 W'] eqn:EW; [cbn in LW; unfold lenZ in LW; cbn in LW; lia|].
  cbn [map]. unfold index at 1.
  replace (0 <? lenZ (FrZ w0 :: map FrZ W')) with true
    by (symmetry; apply Z.ltb_lt; rewrite lenZ_cons; pose proof (lenZ_nonneg (map FrZ W')); lia).
  cbn [Z.leb andb Z.to_nat nth_error bind Z.compare].
  assert (Hc1 : exists c1, (if lenZ (FrZ w0 :: map FrZ W') =? 1 then Ok f0
       else index (FrZ w0 :: map FrZ W') 1) = Ok c1).
  { destruct (Z.eqb_spec (lenZ (FrZ w0 :: map FrZ W')) 1) as [e|e]; [eexists; reflexivity|].
    destruct W' as [|w1 W'']; [exfalso; apply e; reflexivity|].
    exists (FrZ w1). apply index_some; [lia|]. reflexivity. }
  destruct Hc1 as [c1 ->]. cbn [bind]. eexists. split; [reflexivity|].
  constructor; cbn -[FrZ lenZ]; try reflexivity.
  - rewrite LW. lia.
  - intros op E. injection E as ->. reflexivity.
  - constructor; cbn -[FrZ tape_cells Z.pow lenZ].
    + change (lenZ [f0 : Fr]) with 1. lia.
    + change (lenZ [f0 : Fr]) with 1. discriminate.
    + change (lenZ [f0 : Fr]) with 1. intros i Hi. assert (i = 0) as -> by lia. reflexivity.
    + reflexivity.
    + intros _. pose proof (pow_w_pos w Hw). lia.
  - exact Hin.
Qed.

Lemma HW' : 1 <= lenZ W <= 65535.
Proof. rewrite lenW. exact Hp. Qed.

Lemma run_done c' : exec w p (initial inp) (Done c') ->
  exists fuel s', run pr fuel (machine w (map FrZ W) inp) = Finished s' /\
    output_matrix (mat s') = map FrZ (written c') /\
    input_matrix (mat s') = map FrZ (read c').
Proof.
  intros He. destruct prologue_rel as [s1 [E1 R1]].
  destruct (forward pr w W Hw HW' p _ _ He s1 0 0 at_code_whole (or_introl eq_refl) R1)
    as [n [s2 [Hn R2]]].
  exists n, (epilogue s2). unfold run. rewrite E1.
  replace n with (n + 0)%nat by lia. rewrite (run_loop_stepn _ _ _ _ _ Hn). cbn [run_loop].
  rewrite (halted_iff _ _ HW' _ _ _ R2). rewrite lenW, Z.add_0_l, Z.leb_refl.
  split; [reflexivity|]. cbn. split; [apply (rl_written _ _ _ _ _ R2)|apply (rl_read _ _ _ _ _ R2)].
Qed.

Lemma run_failed : exec w p (initial inp) Failed ->
  exists fuel, run pr fuel (machine w (map FrZ W) inp) = Panicked.
Proof.
  intros He. destruct prologue_rel as [s1 [E1 R1]].
  destruct (forward pr w W Hw HW' p _ _ He s1 0 0 at_code_whole (or_introl eq_refl) R1)
    as [n [s2 [Hn [Hh Hc]]]].
  exists (n + 1)%nat. unfold run. rewrite E1. rewrite (run_loop_stepn _ _ _ _ _ Hn).
  cbn [run_loop]. rewrite Hh, Hc. reflexivity.
Qed.

Lemma run_not_out fuel : run pr fuel (machine w (map FrZ W) inp) <> OutOfFuel ->
  exists o, exec w p (initial inp) o.
Proof.
  intros Hr. destruct prologue_rel as [s1 [E1 R1]]. unfold run in Hr. rewrite E1 in Hr.
  destruct (outcome_or_on pr w W Hw HW' p fuel s1 (initial inp) 0 0 at_code_whole
              (or_introl eq_refl) R1) as [H|[m [s2 [Hm Hs]]]]; [exact H|].
  exfalso. apply Hr. rewrite (run_loop_out _ _ _ _ _ Hm Hs). reflexivity.
Qed.

Lemma run_mono f g s r : run pr f s = r -> r <> OutOfFuel -> (f <= g)%nat -> run pr g s = r.
Proof.
  unfold run. destruct (prologue s) as [s1|]; [|auto]. intros E Hr Hle.
  destruct (run_loop pr f s1) as [s2| |] eqn:EL.
  - rewrite (run_loop_mono _ _ _ _ _ EL ltac:(discriminate) Hle). exact E.
  - rewrite (run_loop_mono _ _ _ _ _ EL ltac:(discriminate) Hle). exact E.
  - congruence.
Qed.

Lemma run_det f g s r r' : run pr f s = r -> run pr g s = r' ->
  r <> OutOfFuel -> r' <> OutOfFuel -> r = r'.
Proof.
  intros E1 E2 H1 H2.
  pose proof (run_mono _ (Nat.max f g) _ _ E1 H1 ltac:(lia)) as E3.
  pose proof (run_mono _ (Nat.max f g) _ _ E2 H2 ltac:(lia)) as E4. congruence.
Qed.

Lemma run_finished_inv fuel s' : run pr fuel (machine w (map FrZ W) inp) = Finished s' ->
  exists c', exec w p (initial inp) (Done c') /\
    output_matrix (mat s') = map FrZ (written c') /\
    input_matrix (mat s') = map FrZ (read c').
Proof.
  intros E. destruct (run_not_out fuel ltac:(congruence)) as [[c'|] Ho].
  - destruct (run_done _ Ho) as [f [s2 [E2 H]]]. exists c'. split; [exact Ho|].
    pose proof (run_det _ _ _ _ _ E E2 ltac:(discriminate) ltac:(discriminate)) as Q.
    injection Q as ->. exact H.
  - destruct (run_failed Ho) as [f E2].
    pose proof (run_det _ _ _ _ _ E E2 ltac:(discriminate) ltac:(discriminate)). discriminate.
Qed.

Lemma run_panicked_inv fuel : run pr fuel (machine w (map FrZ W) inp) = Panicked ->
  exec w p (initial inp) Failed.
Proof.
  intros E. destruct (run_not_out fuel ltac:(congruence)) as [[c'|] Ho]; [|exact Ho].
  destruct (run_done _ Ho) as [f [s2 [E2 H]]].
  pose proof (run_det _ _ _ _ _ E E2 ltac:(discriminate) ltac:(discriminate)). discriminate.
Qed.

Lemma run_diverges : (forall fuel, run pr fuel (machine w (map FrZ W) inp) = OutOfFuel) <->
  (forall o, ~ exec w p (initial inp) o).
Proof.
  split.
  - intros H [c'|] Ho.
    + destruct (run_done _ Ho) as [f [s2 [E2 _]]]. rewrite H in E2. discriminate.
    + destruct (run_failed Ho) as [f E2]. rewrite H in E2. discriminate.
  - intros H fuel. destruct (run pr fuel (machine w (map FrZ W) inp)) eqn:E; [| |reflexivity];
      exfalso; destruct (run_not_out fuel ltac:(congruence)) as [o Ho]; exact (H _ Ho).
Qed.

End Whole.

(** The semantics is deterministic, so "the" outcome of a program makes sense. *)
Lemma exec_det w p c o : exec w p c o -> forall o', exec w p c o' -> o = o'.
Proof.
  induction 1; intros o' H'; inversion H'; subst; try congruence; try contradiction; auto.
  - match goal with H1 : unread ?c = _ :: _, H2 : unread ?c = _ :: _ |- _ =>
      rewrite H1 in H2; injection H2 as <- <- end. auto.
  - match goal with H : exec w b c (Done ?c2) |- _ => pose proof (IHexec1 _ H) as E; injection E as <- end.
    auto.
  - match goal with H : exec w b c Failed |- _ => pose proof (IHexec1 _ H) as E; discriminate E end.
  - match goal with H : exec w b c (Done _) |- _ => pose proof (IHexec _ H) as E; discriminate E end.
Qed.

(** Statement-level forms used by the property files. *)
Lemma compiled_run pr w src p inp :
  0 <= w < 64 -> parses src p -> 1 <= program_words p <= 65535 -> in_range w inp ->
  exists c, compile pr src = Ok c /\
    (forall cfg, exec w p (initial inp) (Done cfg) ->
       exists fuel s, run pr fuel (set_bits (start c (easygen inp)) w) = Finished s /\
         output_matrix (mat s) = map FrZ (written cfg) /\
         input_matrix (mat s) = map FrZ (read cfg)) /\
    (forall fuel s, run pr fuel (set_bits (start c (easygen inp)) w) = Finished s ->
       exists cfg, exec w p (initial inp) (Done cfg) /\
         output_matrix (mat s) = map FrZ (written cfg) /\
         input_matrix (mat s) = map FrZ (read cfg)).
Proof.
  intros Hw Hp Hl Hin. exists (map FrZ (emit 0 p)). split.
  - unfold compile. rewrite (compile_emit pr src p Hp) by lia. reflexivity.
  - split.
    + intros cfg He. exact (run_done pr w p inp Hw Hl Hin cfg He).
    + intros fuel s E. exact (run_finished_inv pr w p inp Hw Hl Hin fuel s E).
Qed.

Lemma compiled_panic pr w src p inp :
  0 <= w < 64 -> parses src p -> 1 <= program_words p <= 65535 -> in_range w inp ->
  exists c, compile pr src = Ok c /\
    ((exists fuel, run pr fuel (set_bits (start c (easygen inp)) w) = Panicked) <->
     exec w p (initial inp) Failed).
Proof.
  intros Hw Hp Hl Hin. exists (map FrZ (emit 0 p)). split.
  - unfold compile. rewrite (compile_emit pr src p Hp) by lia. reflexivity.
  - split.
    + intros [fuel E]. exact (run_panicked_inv pr w p inp Hw Hl Hin fuel E).
    + intros He. exact (run_failed pr w p inp Hw Hl Hin He).
Qed.

Lemma compiled_diverges pr w src p inp :
  0 <= w < 64 -> parses src p -> 1 <= program_words p <= 65535 -> in_range w inp ->
  exists c, compile pr src = Ok c /\
    ((forall fuel, run pr fuel (set_bits (start c (easygen inp)) w) = OutOfFuel) <->
     (forall o, ~ exec w p (initial inp) o)).
Proof.
  intros Hw Hp Hl Hin. exists (map FrZ (emit 0 p)). split.
  - unfold compile. rewrite (compile_emit pr src p Hp) by lia. reflexivity.
  - exact (run_diverges pr w p inp Hw Hl Hin).
Qed.
