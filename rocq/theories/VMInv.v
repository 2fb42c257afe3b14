(** Invariants of the interpreter for arbitrary code vectors (C08, C10, C11). *)
From Coq Require Import ZArith List Lia Bool Permutation Sorted.
From Verif Require Import Base Field FieldFacts ListFacts VMModel SortFacts VMSim CompileSpec TraceSpec.
Import ListNotations.
Local Open Scope Z_scope.

Lemma finv_mul (a : Fr) : a <> f0 -> fmul a (finv a) = f1.
Proof.
  intros H. rewrite (Rmul_comm (fe_ring_theory (p := r_pos))). apply finv_l; [exact r_prime|exact H].
Qed.

(** ** Decomposition of one iteration *)

Lemma cycle_step_split pr s s' : cycle_step pr s = Ok s' ->
  exists st, exec_instr pr (code s) (bits s) (current_instruction (reg s)) (memory_value (reg s)) (mst s) = Ok st /\
  exists r', refresh (code s) (reg s) st = Ok r' /\
  s' = mkInterp (code s) (s_input st) (s_mem st) r'
        (mkMatrix (processor_matrix (mat s) ++ [reg s]) (instruction_matrix (mat s) ++ [irow_of (reg s)])
           (memory_matrix (mat s) ++ [mrow_of (reg s)]) (s_inm st) (s_outm st) (program (mat s)))
        (bits s).
Proof.
  intros E. unfold cycle_step in E. fold (mst s) in E.
  apply bind_ok_inv in E. destruct E as [st [E1 E]].
  apply bind_ok_inv in E. destruct E as [r' [E2 E]]. injection E as <-.
  exists st. split; [exact E1|]. exists r'. split; [exact E2|reflexivity].
Qed.

Lemma refresh_split c old st r' : refresh c old st = Ok r' ->
  cycle r' = fadd (cycle old) f1 /\
  instruction_pointer r' = s_ip st /\
  memory_pointer r' = s_mp st /\
  index (s_mem st) (as_usize (s_mp st)) = Ok (memory_value r') /\
  memory_value_inverse r' = (if feqb (memory_value r') f0 then f0 else finv (memory_value r')) /\
  (if fltb (s_ip st) (Fr_len c) then index c (as_usize (s_ip st)) else Ok f0) = Ok (current_instruction r') /\
  (if fltb (s_ip st) (fsub (Fr_len c) f1) then index c (as_usize (s_ip st) + 1) else Ok f0) = Ok (next_instruction r').
Proof.
  intros E. unfold refresh in E.
  apply bind_ok_inv in E. destruct E as [ci [E1 E]].
  apply bind_ok_inv in E. destruct E as [ni [E2 E]].
  apply bind_ok_inv in E. destruct E as [mv [E3 E]].
  apply bind_ok_inv in E. destruct E as [mvi [E4 E]]. injection E as <-.
  cbn [cycle instruction_pointer memory_pointer memory_value memory_value_inverse current_instruction next_instruction].
  repeat split; try assumption.
  unfold finvert in E4. destruct (feqb mv f0); congruence.
Qed.

(** ** What is recorded *)

Record recorded (c : list Fr) (n : nat) (s : interp) : Prop := {
  rec_code : code s = c;
  rec_len : length (processor_matrix (mat s)) = n;
  rec_mem : memory_matrix (mat s) = map mrow_of (processor_matrix (mat s));
  rec_ins : instruction_matrix (mat s) = program_rows c ++ map irow_of (processor_matrix (mat s));
  rec_prog : program (mat s) = c;
  rec_cycles : forall i r, nth_error (processor_matrix (mat s) ++ [reg s]) i = Some r ->
      cycle r = FrZ (Z.of_nat i)
}.

Lemma prologue_split s s1 : prologue s = Ok s1 ->
  exists c0 c1, index (code s) 0 = Ok c0 /\
  (if lenZ (code s) =? 1 then Ok f0 else index (code s) 1) = Ok c1 /\
  s1 = mkInterp (code s) (input s) (memory s)
        (mkReg (cycle (reg s)) (instruction_pointer (reg s)) c0 c1 (memory_pointer (reg s))
           (memory_value (reg s)) (memory_value_inverse (reg s)))
        (mkMatrix (processor_matrix (mat s)) (instruction_matrix (mat s) ++ program_rows (code s))
           (memory_matrix (mat s)) (input_matrix (mat s)) (output_matrix (mat s)) (program (mat s)))
        (bits s).
Proof.
  intros E. unfold prologue in E.
  apply bind_ok_inv in E. destruct E as [c0 [E0 E]].
  apply bind_ok_inv in E. destruct E as [c1 [E1 E]]. injection E as <-.
  exists c0, c1. auto.
Qed.

Lemma recorded_0 c inp w s1 : prologue (set_bits (start c inp) w) = Ok s1 -> recorded c 0 s1.
Proof.
  intros E. apply prologue_split in E. destruct E as [c0 [c1 [_ [_ ->]]]].
  constructor; cbn; try reflexivity.
  - rewrite app_nil_r. reflexivity.
  - intros [|[|i]] r H; cbn in H; try discriminate. injection H as <-. reflexivity.
Qed.

Lemma recorded_step pr c n s s' : recorded c n s -> cycle_step pr s = Ok s' -> recorded c (S n) s'.
Proof.
  intros R E. apply cycle_step_split in E. destruct E as [st [_ [r' [Er ->]]]].
  apply refresh_split in Er. destruct Er as [Ec _].
  destruct R as [R1 R2 R3 R4 R5 R6]. constructor; cbn [mat reg code processor_matrix memory_matrix instruction_matrix program].
  - exact R1.
  - rewrite app_length, R2. cbn. lia.
  - rewrite R3, map_app. reflexivity.
  - rewrite R4, map_app, app_assoc. reflexivity.
  - exact R5.
  - intros i r H. destruct (Nat.lt_ge_cases i (S n)) as [L|L].
    + rewrite nth_error_app1 in H by (rewrite app_length, R2; cbn; lia). apply R6, H.
    + rewrite nth_error_app2 in H by (rewrite app_length, R2; cbn; lia).
      rewrite app_length, R2 in H. cbn [length] in H.
      destruct (i - (n + 1))%nat as [|k] eqn:Ek; [|destruct k; discriminate].
      cbn in H. injection H as <-. assert (i = S n) as -> by lia.
      assert (Er : cycle (reg s) = FrZ (Z.of_nat n)).
      { apply R6. rewrite nth_error_app2 by lia. rewrite R2, Nat.sub_diag. reflexivity. }
      rewrite Ec, Er, f1_FrZ, FrZ_add. f_equal. lia.
Qed.

Lemma recorded_stepn pr c m : forall n s s',
  recorded c n s -> stepn pr m s s' -> recorded c (n + m) s'.
Proof.
  induction m as [|m IH]; intros n s s' R H; inversion H; subst.
  - rewrite Nat.add_0_r. exact R.
  - replace (n + S m)%nat with (S n + m)%nat by lia.
    eapply IH; [|eassumption]. eapply recorded_step; eassumption.
Qed.

Lemma run_loop_finished pr f : forall s s', run_loop pr f s = Finished s' ->
  exists n, stepn pr n s s' /\ halted s' = true.
Proof.
  induction f as [|f IH]; intros s s' E; cbn [run_loop] in E.
  - destruct (halted s) eqn:Eh; [|discriminate]. injection E as <-.
    exists 0%nat. split; [constructor|exact Eh].
  - destruct (halted s) eqn:Eh.
    + injection E as <-. exists 0%nat. split; [constructor|exact Eh].
    + destruct (cycle_step pr s) as [s1|] eqn:Es; [|discriminate].
      destruct (IH _ _ E) as [n [Hn Hh]]. exists (S n). split; [|exact Hh].
      econstructor; eassumption.
Qed.

Lemma run_finished pr f s s' : run pr f s = Finished s' ->
  exists s1 n s2, prologue s = Ok s1 /\ stepn pr n s1 s2 /\ halted s2 = true /\ s' = epilogue s2.
Proof.
  unfold run. destruct (prologue s) as [s1|]; [|discriminate].
  destruct (run_loop pr f s1) as [s2| |] eqn:E; try discriminate.
  intros H. injection H as <-. destruct (run_loop_finished _ _ _ _ E) as [n [Hn Hh]].
  exists s1, n, s2. auto.
Qed.

Lemma C11_lemma pr fuel c inp w s : run pr fuel (set_bits (start c inp) w) = Finished s ->
  let m := mat s in
  let trace := processor_matrix m in
  let words := map (fun i => mkI (FrZ (Z.of_nat i)) (nth i c f0) (nth (S i) c f0)) (seq 0 (length c)) in
  (Permutation (memory_matrix m) (map mrow_of trace) /\
   StronglySorted (fun x y => fval (m_mp x) <= fval (m_mp y)) (memory_matrix m) /\
   forall k, filter (fun x => fval (m_mp x) =? k) (memory_matrix m) =
             filter (fun x => fval (m_mp x) =? k) (map mrow_of trace)) /\
  (Permutation (instruction_matrix m) (words ++ map irow_of trace) /\
   StronglySorted (fun x y => fval (i_ip x) <= fval (i_ip y)) (instruction_matrix m) /\
   forall k, filter (fun x => fval (i_ip x) =? k) (instruction_matrix m) =
             filter (fun x => fval (i_ip x) =? k) (words ++ map irow_of trace)).
Proof.
  intros E. apply run_finished in E. destruct E as [s1 [n [s2 [E1 [Hn [_ ->]]]]]].
  pose proof (recorded_stepn _ _ _ _ _ _ (recorded_0 _ _ _ _ E1) Hn) as R. cbn [plus] in R.
  cbn [epilogue mat processor_matrix memory_matrix instruction_matrix].
  destruct R as [R1 R2 R3 R4 R5 R6]. rewrite R3, R4. fold (program_rows c).
  replace (map mrow_of (processor_matrix (mat s2)) ++ [mrow_of (reg s2)])
    with (map mrow_of (processor_matrix (mat s2) ++ [reg s2])) by (rewrite map_app; reflexivity).
  rewrite <- app_assoc.
  replace (map irow_of (processor_matrix (mat s2)) ++ [irow_of (reg s2)])
    with (map irow_of (processor_matrix (mat s2) ++ [reg s2])) by (rewrite map_app; reflexivity).
  split; (split; [apply sort_perm|split; [apply sort_sorted|apply sort_stable]]).
Qed.

(** Rows of one cell are in increasing cycle order as long as cycles do not wrap. *)
Lemma cycles_sorted (rows : list register) :
  (forall i r, nth_error rows i = Some r -> cycle r = FrZ (Z.of_nat i)) ->
  Z.of_nat (length rows) <= Zpos r_pos ->
  StronglySorted (fun x y => fval (m_clk x) < fval (m_clk y)) (map mrow_of rows).
Proof.
  intros H L.
  assert (G : forall k rows', (forall i r, nth_error rows' i = Some r -> cycle r = FrZ (Z.of_nat (k + i))) ->
     Z.of_nat (k + length rows') <= Zpos r_pos ->
     StronglySorted (fun x y => fval (m_clk x) < fval (m_clk y)) (map mrow_of rows')).
  { clear. intros k rows'. revert k. induction rows' as [|r t IH]; intros k H L; cbn [map]; constructor.
    - apply (IH (S k)).
      + intros i r0 Hi. rewrite (H (S i) r0 Hi). f_equal. f_equal. lia.
      + cbn [length] in L. lia.
    - apply Forall_forall. intros x Hx. apply in_map_iff in Hx. destruct Hx as [r0 [<- Hr]].
      apply In_nth_error in Hr. destruct Hr as [i Hi].
      assert (Li : (i < length t)%nat) by (apply nth_error_Some; congruence).
      cbn [mrow_of m_clk]. rewrite (H 0%nat r eq_refl), (H (S i) r0 Hi). cbn [length] in L.
      unfold FrZ. rewrite !fval_small by lia. lia. }
  apply (G 0%nat); assumption.
Qed.

Lemma filter_sorted {A} (R : A -> A -> Prop) f l : StronglySorted R l -> StronglySorted R (filter f l).
Proof.
  induction 1 as [|x l H IH Hf]; cbn; [constructor|]. destruct (f x); [|exact IH].
  constructor; [exact IH|]. rewrite Forall_forall in *. intros y Hy. apply Hf.
  apply filter_In in Hy. tauto.
Qed.

Lemma sorted_lex (l : list mrow) :
  StronglySorted (fun x y => fval (m_mp x) <= fval (m_mp y)) l ->
  (forall k, StronglySorted (fun x y => fval (m_clk x) < fval (m_clk y))
               (filter (fun x => fval (m_mp x) =? k) l)) ->
  StronglySorted (fun x y => fval (m_mp x) < fval (m_mp y) \/
     m_mp x = m_mp y /\ fval (m_clk x) < fval (m_clk y)) l.
Proof.
  induction 1 as [|x l H IH Hf]; intros Hk; constructor.
  - apply IH. intros k. specialize (Hk k). cbn [filter] in Hk.
    destruct (fval (m_mp x) =? k); [|exact Hk]. inversion Hk; assumption.
  - rewrite Forall_forall in *. intros y Hy. specialize (Hf y Hy).
    destruct (Z.eq_dec (fval (m_mp x)) (fval (m_mp y))) as [E|E]; [right|left; lia].
    split; [apply fe_eq, E|]. specialize (Hk (fval (m_mp x))). cbn [filter] in Hk.
    rewrite Z.eqb_refl in Hk. inversion Hk as [|? ? _ HF]; subst. rewrite Forall_forall in HF.
    apply HF, filter_In. split; [exact Hy|]. apply Z.eqb_eq. symmetry. exact E.
Qed.

Lemma C11_cycle_order_lemma pr fuel c inp w s : run pr fuel (set_bits (start c inp) w) = Finished s ->
  Z.of_nat (length (processor_matrix (mat s))) <= Zpos r_pos ->
  StronglySorted (fun x y => fval (m_mp x) < fval (m_mp y) \/
     m_mp x = m_mp y /\ fval (m_clk x) < fval (m_clk y)) (memory_matrix (mat s)).
Proof.
  intros E L. pose proof (C11_lemma _ _ _ _ _ _ E) as [[_ [Hs Hf]] _].
  apply sorted_lex; [exact Hs|]. intros k. rewrite Hf. apply filter_sorted.
  apply run_finished in E. destruct E as [s1 [n [s2 [E1 [Hn [_ ->]]]]]].
  pose proof (recorded_stepn _ _ _ _ _ _ (recorded_0 _ _ _ _ E1) Hn) as R.
  apply cycles_sorted; [|exact L]. apply (rec_cycles _ _ _ R).
Qed.

(** ** Inverse column (C10) *)

Definition inverse_ok (r : register) : Prop := inverse_of (memory_value r) (memory_value_inverse r).

Lemma refresh_inverse c old st r' : refresh c old st = Ok r' -> inverse_ok r'.
Proof.
  intros E. apply refresh_split in E. destruct E as [_ [_ [_ [_ [E _]]]]].
  split; intros H; rewrite E.
  - rewrite H, feqb_refl. reflexivity.
  - rewrite (proj2 (feqb_neq _ _) H). apply finv_mul, H.
Qed.

Definition all_rows (P : register -> Prop) (s : interp) : Prop :=
  Forall P (processor_matrix (mat s)) /\ P (reg s).

Lemma stepn_rows pr (P : register -> Prop) (I : interp -> Prop) :
  (forall s s', I s -> cycle_step pr s = Ok s' -> I s' /\ P (reg s')) ->
  forall n s s', I s -> all_rows P s -> stepn pr n s s' -> I s' /\ all_rows P s'.
Proof.
  intros Hstep. induction n as [|n IH]; intros s s' HI [H1 H2] H; inversion H; subst.
  - split; [exact HI|]. split; assumption.
  - destruct (Hstep _ _ HI H4) as [HI' HP'].
    eapply IH; [exact HI'| |eassumption]. split; [|exact HP'].
    apply cycle_step_split in H4. destruct H4 as [st [_ [r' [_ ->]]]]. cbn.
    apply Forall_app. split; [exact H1|]. constructor; [exact H2|constructor].
Qed.

Lemma C10_lemma pr fuel c inp w s : run pr fuel (set_bits (start c inp) w) = Finished s ->
  Forall inverse_ok (processor_matrix (mat s)).
Proof.
  intros E. apply run_finished in E. destruct E as [s1 [n [s2 [E1 [Hn [_ ->]]]]]].
  destruct (stepn_rows pr inverse_ok (fun _ => True)) with (n := n) (s := s1) (s' := s2) as [_ [H1 H2]].
  - intros s s' _ E. split; [exact I|]. apply cycle_step_split in E.
    destruct E as [st [_ [r' [Er ->]]]]. cbn. eapply refresh_inverse, Er.
  - exact I.
  - apply prologue_split in E1. destruct E1 as [c0 [c1 [_ [_ ->]]]]. split; [constructor|].
    cbn. split; [reflexivity|]. intros H. contradiction H. reflexivity.
  - exact Hn.
  - cbn. apply Forall_app. split; [exact H1|]. constructor; [exact H2|constructor].
Qed.

(** ** Cell range (C08) *)

Definition fits (w : Z) (v : Fr) : Prop := 0 <= fval v < 2 ^ w.

Lemma Forall_upd {A} (P : A -> Prop) l i x : Forall P l -> P x -> Forall P (upd l i x).
Proof.
  intros H Hx. revert i. induction H as [|y l Hy H IH]; intros [|i]; cbn; constructor; auto.
Qed.

Lemma index_Forall {A} (P : A -> Prop) l i x : Forall P l -> index l i = Ok x -> P x.
Proof.
  intros H E. apply index_ok_iff in E. destruct E as [_ E]. rewrite Forall_forall in H.
  apply H, nth_error_In with (Z.to_nat i), E.
Qed.

Lemma store_Forall {A} (P : A -> Prop) l i x m : Forall P l -> P x -> store l i x = Ok m -> Forall P m.
Proof. intros H Hx E. apply store_ok_inv in E. destruct E as [_ ->]. apply Forall_upd; assumption. Qed.

Section Cells.
Variables (pr : profile) (w : Z).
Hypothesis Hw : 0 <= w < 64.

Lemma cell_max_w : cell_max pr w = Ok (2 ^ w - 1).
Proof. unfold cell_max. destruct (Z.ltb_spec w 64); [reflexivity|lia]. Qed.

Lemma fits_0 : fits w f0.
Proof. unfold fits. change (fval f0) with 0. pose proof (pow_w_pos w Hw). lia. Qed.

Lemma fits_FrZ v : 0 <= v < 2 ^ w -> fits w (FrZ v).
Proof. intros H. unfold fits. rewrite fval_FrZ; [exact H|]. apply (pow_w_range w Hw), H. Qed.

(** '+' and '-' on a cell in range. *)
Lemma inc_value v : fits w v ->
  (if feqb v (FrZ (2 ^ w - 1)) then f0 else fadd v f1) = FrZ ((fval v + 1) mod 2 ^ w).
Proof.
  intros H. unfold fits in H. pose proof (pow_w_pos w Hw) as Hp.
  assert (Ev : v = FrZ (fval v)) by (symmetry; apply of_Z_fval).
  assert (R1 : 0 <= fval v < 2 ^ 64) by (apply (pow_w_range w Hw); exact H).
  assert (R2 : 0 <= 2 ^ w - 1 < 2 ^ 64) by (apply (pow_w_range w Hw); lia).
  rewrite Ev at 1. rewrite feqb_FrZ by assumption.
  destruct (Z.eqb_spec (fval v) (2 ^ w - 1)) as [e|e].
  - rewrite e. replace (2 ^ w - 1 + 1) with (2 ^ w) by lia. rewrite Z.mod_same by lia. reflexivity.
  - rewrite Z.mod_small by lia. rewrite Ev at 1. rewrite f1_FrZ. apply FrZ_add.
Qed.

Lemma dec_value v : fits w v ->
  (if feqb v f0 then FrZ (2 ^ w - 1) else fsub v f1) = FrZ ((fval v - 1) mod 2 ^ w).
Proof.
  intros H. unfold fits in H. pose proof (pow_w_pos w Hw) as Hp.
  assert (Ev : v = FrZ (fval v)) by (symmetry; apply of_Z_fval).
  assert (R1 : 0 <= fval v < 2 ^ 64) by (apply (pow_w_range w Hw); exact H).
  rewrite Ev at 1. rewrite f0_FrZ, feqb_FrZ by (assumption || (split; [lia|reflexivity])).
  destruct (Z.eqb_spec (fval v) 0) as [e|e].
  - rewrite e. replace (0 - 1) with (2 ^ w - 1 + (-1) * 2 ^ w) by lia.
    rewrite Z.mod_add, Z.mod_small by lia. reflexivity.
  - rewrite Z.mod_small by lia. rewrite Ev at 1. rewrite f1_FrZ. apply FrZ_sub.
Qed.

Definition opcode (s : interp) : Z := fval (current_instruction (reg s)) mod 2 ^ 128 mod 256.

Record cells (s : interp) : Prop := {
  ce_bits : bits s = w;
  ce_mem : Forall (fits w) (memory s);
  ce_in : Forall (fits w) (input s);
  ce_mv : fits w (memory_value (reg s));
  ce_out : Forall (fits w) (output_matrix (mat s));
  ce_inm : Forall (fits w) (input_matrix (mat s))
}.

Lemma exec_cells s st : cells s ->
  exec_instr pr (code s) (bits s) (current_instruction (reg s)) (memory_value (reg s)) (mst s) = Ok st ->
  Forall (fits w) (s_mem st) /\ Forall (fits w) (s_input st) /\
  Forall (fits w) (s_outm st) /\ Forall (fits w) (s_inm st).
Proof.
  intros [C1 C2 C3 C4 C5 C6] E. unfold exec_instr in E. rewrite C1 in E. fold (opcode s) in E.
  destruct (opcode s =? SHL); [injection E as <-; cbn; auto|].
  destruct (opcode s =? SHR).
  { apply bind_ok_inv in E. destruct E as [mem [Em E]]. injection E as <-. cbn.
    split; [|auto]. cbn [mst s_mem] in Em.
    destruct (_ =? _); [|injection Em as <-; exact C2].
    unfold push_cell in Em. destruct (_ <? _); [|discriminate]. injection Em as <-.
    apply Forall_app. split; [exact C2|]. constructor; [exact fits_0|constructor]. }
  destruct (opcode s =? ADD).
  { apply bind_ok_inv in E. destruct E as [v [Ev E]]. rewrite cell_max_w in E. cbn [bind] in E.
    apply bind_ok_inv in E. destruct E as [mem [Em E]]. injection E as <-. cbn [mst s_mp s_mem s_input s_outm s_inm] in *.
    pose proof (index_Forall _ _ _ _ C2 Ev) as Fv.
    replace (if feqb v (FrZ (2 ^ w - 1)) then store (memory s) (as_usize (memory_pointer (reg s))) f0
             else store (memory s) (as_usize (memory_pointer (reg s))) (fadd v f1))
      with (store (memory s) (as_usize (memory_pointer (reg s)))
              (if feqb v (FrZ (2 ^ w - 1)) then f0 else fadd v f1)) in Em
      by (destruct (feqb v (FrZ (2 ^ w - 1))); reflexivity).
    rewrite inc_value in Em by exact Fv.
    split; [|auto]. eapply store_Forall; [exact C2| |exact Em].
    apply fits_FrZ, Z.mod_pos_bound, (pow_w_pos w Hw). }
  destruct (opcode s =? SUB).
  { apply bind_ok_inv in E. destruct E as [v [Ev E]]. rewrite cell_max_w in E. cbn [bind] in E.
    apply bind_ok_inv in E. destruct E as [mem [Em E]]. injection E as <-. cbn [mst s_mp s_mem s_input s_outm s_inm] in *.
    pose proof (index_Forall _ _ _ _ C2 Ev) as Fv.
    replace (if feqb v f0 then store (memory s) (as_usize (memory_pointer (reg s))) (FrZ (2 ^ w - 1))
             else store (memory s) (as_usize (memory_pointer (reg s))) (fsub v f1))
      with (store (memory s) (as_usize (memory_pointer (reg s)))
              (if feqb v f0 then FrZ (2 ^ w - 1) else fsub v f1)) in Em
      by (destruct (feqb v f0); reflexivity).
    rewrite dec_value in Em by exact Fv.
    split; [|auto]. eapply store_Forall; [exact C2| |exact Em].
    apply fits_FrZ, Z.mod_pos_bound, (pow_w_pos w Hw). }
  destruct (opcode s =? GETCHAR).
  { cbn [mst s_input s_mem s_mp] in E. destruct (input s) as [|v rest] eqn:Ei; [discriminate|].
    apply Forall_cons_iff in C3. destruct C3 as [Hv Hr].
    apply bind_ok_inv in E. destruct E as [mem [Em E]]. injection E as <-. cbn.
    split; [exact (store_Forall _ _ _ _ _ C2 Hv Em)|]. split; [exact Hr|]. split; [exact C5|].
    apply Forall_app. split; [exact C6|]. constructor; [exact Hv|constructor]. }
  destruct (opcode s =? PUTCHAR).
  { injection E as <-. cbn. repeat split; try assumption.
    apply Forall_app. split; [exact C5|]. constructor; [exact C4|constructor]. }
  destruct (opcode s =? LB).
  { apply bind_ok_inv in E. destruct E as [v [Ev E]].
    apply bind_ok_inv in E. destruct E as [ip' [Eip E]]. injection E as <-. cbn. auto. }
  destruct (opcode s =? RB); [|discriminate].
  { apply bind_ok_inv in E. destruct E as [v [Ev E]].
    apply bind_ok_inv in E. destruct E as [ip' [Eip E]]. injection E as <-. cbn. auto. }
Qed.

Lemma cells_step s s' : cells s -> cycle_step pr s = Ok s' -> cells s'.
Proof.
  intros C E. apply cycle_step_split in E. destruct E as [st [Ex [r' [Er ->]]]].
  destruct (exec_cells _ _ C Ex) as [H1 [H2 [H3 H4]]].
  apply refresh_split in Er. destruct Er as [_ [_ [_ [Emv _]]]].
  constructor; cbn; try assumption; [apply C|]. exact (index_Forall _ _ _ _ H1 Emv).
Qed.

Lemma cells_0 c inp s1 : Forall (fits w) inp -> prologue (set_bits (start c inp) w) = Ok s1 -> cells s1.
Proof.
  intros Hi E. apply prologue_split in E. destruct E as [c0 [c1 [_ [_ ->]]]].
  pose proof fits_0 as F0.
  constructor; cbn; [reflexivity|constructor; [exact F0|constructor]|exact Hi|exact F0|constructor|constructor].
Qed.

Lemma cells_stepn n : forall s s', cells s -> stepn pr n s s' -> cells s'.
Proof.
  induction n as [|n IH]; intros s s' C H; inversion H; subst; [exact C|].
  eapply IH; [|eassumption]. eapply cells_step; eassumption.
Qed.

(** The effect of one iteration on the cell under the pointer and on the others. *)
Lemma step_cells s s' : cells s -> cycle_step pr s = Ok s' ->
  let a := reg_mp (reg s) in
  (opcode s = ADD -> exists v, index (memory s) a = Ok v /\
      index (memory s') a = Ok (FrZ ((fval v + 1) mod 2 ^ w)) /\
      forall b, b <> a -> index (memory s') b = index (memory s) b) /\
  (opcode s = SUB -> exists v, index (memory s) a = Ok v /\
      index (memory s') a = Ok (FrZ ((fval v - 1) mod 2 ^ w)) /\
      forall b, b <> a -> index (memory s') b = index (memory s) b).
Proof.
  intros C E a. apply cycle_step_split in E. destruct E as [st [Ex [r' [_ ->]]]]. cbn [memory].
  unfold exec_instr in Ex. rewrite (ce_bits _ C) in Ex. fold (opcode s) in Ex.
  assert (Hst : forall x mem, store (memory s) a x = Ok mem ->
      index mem a = Ok x /\ forall b, b <> a -> index mem b = index (memory s) b).
  { intros x mem Es. apply store_ok_inv in Es. destruct Es as [Ha ->]. split.
    - apply index_some; [lia|]. apply nth_error_upd_eq. unfold lenZ in Ha. lia.
    - intros b Hb. unfold index. rewrite lenZ_upd.
      destruct ((0 <=? b) && (b <? lenZ (memory s))) eqn:Eb; [|reflexivity].
      apply andb_true_iff in Eb. destruct Eb as [Eb _]. apply Z.leb_le in Eb.
      rewrite nth_error_upd_neq by lia. reflexivity. }
  split; intros Eo; rewrite Eo in Ex.
  - change (ADD =? SHL) with false in Ex. change (ADD =? SHR) with false in Ex. rewrite Z.eqb_refl in Ex.
    apply bind_ok_inv in Ex. destruct Ex as [v [Ev E]]. rewrite cell_max_w in E. cbn [bind] in E.
    apply bind_ok_inv in E. destruct E as [mem [Em E]]. injection E as <-. cbn [mst s_mem s_mp] in *.
    fold (reg_mp (reg s)) in Ev, Em. fold a in Ev, Em.
    pose proof (index_Forall _ _ _ _ (ce_mem _ C) Ev) as Fv.
    replace (if feqb v (FrZ (2 ^ w - 1)) then store (memory s) a f0
             else store (memory s) a (fadd v f1))
      with (store (memory s) a (if feqb v (FrZ (2 ^ w - 1)) then f0 else fadd v f1)) in Em
      by (destruct (feqb v (FrZ (2 ^ w - 1))); reflexivity).
    rewrite inc_value in Em by exact Fv. exists v. split; [exact Ev|]. apply Hst, Em.
  - change (SUB =? SHL) with false in Ex. change (SUB =? SHR) with false in Ex.
    change (SUB =? ADD) with false in Ex. rewrite Z.eqb_refl in Ex.
    apply bind_ok_inv in Ex. destruct Ex as [v [Ev E]]. rewrite cell_max_w in E. cbn [bind] in E.
    apply bind_ok_inv in E. destruct E as [mem [Em E]]. injection E as <-. cbn [mst s_mem s_mp] in *.
    fold (reg_mp (reg s)) in Ev, Em. fold a in Ev, Em.
    pose proof (index_Forall _ _ _ _ (ce_mem _ C) Ev) as Fv.
    replace (if feqb v f0 then store (memory s) a (FrZ (2 ^ w - 1))
             else store (memory s) a (fsub v f1))
      with (store (memory s) a (if feqb v f0 then FrZ (2 ^ w - 1) else fsub v f1)) in Em
      by (destruct (feqb v f0); reflexivity).
    rewrite dec_value in Em by exact Fv. exists v. split; [exact Ev|]. apply Hst, Em.
Qed.

End Cells.

Lemma C08_lemma pr w c inp s1 n s :
  0 <= w < 64 -> Forall (fun v : Fr => 0 <= fval v < 2 ^ w) inp ->
  prologue (set_bits (start c inp) w) = Ok s1 -> stepn pr n s1 s ->
  Forall (fun v => 0 <= fval v < 2 ^ w) (memory s) /\
  Forall (fun r => 0 <= fval (memory_value r) < 2 ^ w) (processor_matrix (mat s) ++ [reg s]) /\
  Forall (fun v => 0 <= fval v < 2 ^ w) (output_matrix (mat s)) /\
  forall s', cycle_step pr s = Ok s' ->
    let a := reg_mp (reg s) in
    let op := fval (current_instruction (reg s)) mod 2 ^ 128 mod 256 in
    (op = ADD -> exists v, index (memory s) a = Ok v /\
        index (memory s') a = Ok (FrZ ((fval v + 1) mod 2 ^ w)) /\
        forall b, b <> a -> index (memory s') b = index (memory s) b) /\
    (op = SUB -> exists v, index (memory s) a = Ok v /\
        index (memory s') a = Ok (FrZ ((fval v - 1) mod 2 ^ w)) /\
        forall b, b <> a -> index (memory s') b = index (memory s) b).
Proof.
  intros Hw Hi E Hn. pose proof (cells_0 w Hw _ _ _ Hi E) as C0.
  pose proof (cells_stepn pr w Hw _ _ _ C0 Hn) as C.
  split; [apply C|]. split; [|split; [apply C|]].
  - destruct (stepn_rows pr (fun r => fits w (memory_value r)) (cells w)) with (n := n) (s := s1) (s' := s)
      as [_ [H1 H2]].
    + intros a b Ca E'. pose proof (cells_step pr w Hw _ _ Ca E') as Cb. split; [exact Cb|apply Cb].
    + exact C0.
    + apply prologue_split in E. destruct E as [c0 [c1 [_ [_ ->]]]]. split; [constructor|apply C0].
    + exact Hn.
    + apply Forall_app. split; [exact H1|]. constructor; [exact H2|constructor].
  - intros s' E'. exact (step_cells pr w Hw s s' C E').
Qed.

(** Helpers for evaluating concrete runs. *)
Lemma fin_ex r (P : interp -> Prop) :
  match r with Finished s => P s | _ => False end -> exists s, r = Finished s /\ P s.
Proof. destruct r; try contradiction. eauto. Qed.
Lemma ok_ex {A} (r : res A) (P : A -> Prop) :
  match r with Ok s => P s | _ => False end -> exists s, r = Ok s /\ P s.
Proof. destruct r; try contradiction. eauto. Qed.
