(** What the synthesis of the circuit asks from its back end: the region
    closures as per-row blocks, and their placement by the floor planner. *)
From Coq Require Import ZArith List Bool Arith Lia.
From Verif Require Import Base Field FieldFacts VMModel Halo2Model CircuitModel CircuitFacts.
Import ListNotations.

(** ** Loops over rows with an accumulator *)
Section Loop.
Context {X St : Type} (f : nat -> X -> St -> list rop) (g : X -> St -> St).
Fixpoint gloop (xs : list X) (idx : nat) (s : St) : list rop :=
  match xs with
  | [] => []
  | x :: r => f idx x (g x s) ++ gloop r (S idx) (g x s)
  end.
Lemma in_gloop o xs idx s :
  In o (gloop xs idx s) <->
  exists i x, nth_error xs i = Some x /\
    In o (f (idx + i) x (fold_left (fun s x => g x s) (firstn (S i) xs) s)).
Proof.
  revert idx s. induction xs as [|x xs IH]; intros idx s; cbn [gloop].
  - split; [intros []|]. intros (i & y & H & _). destruct i; discriminate.
  - rewrite in_app_iff, IH. split.
    + intros [H|(i & y & H & Hin)].
      * exists 0, x. rewrite Nat.add_0_r. split; [reflexivity|exact H].
      * exists (S i), y. split; [exact H|]. replace (idx + S i) with (S idx + i) by lia. exact Hin.
    + intros (i & y & H & Hin). destruct i as [|i].
      * injection H as <-. left. rewrite Nat.add_0_r in Hin. exact Hin.
      * right. exists i, y. split; [exact H|].
        replace (idx + S i) with (S idx + i) in Hin by lia. exact Hin.
Qed.
End Loop.

(** Rows paired with the following one. *)
Fixpoint zipnext {A} (l : list A) : list (A * option A) :=
  match l with
  | [] => []
  | x :: r => (x, match r with [] => None | y :: _ => Some y end) :: zipnext r
  end.
Lemma zipnext_length {A} (l : list A) : length (zipnext l) = length l.
Proof. induction l as [|x l IH]; cbn [zipnext length]; [reflexivity|now rewrite IH]. Qed.
Lemma zipnext_nth {A} (l : list A) i x y :
  nth_error (zipnext l) i = Some (x, y) <-> nth_error l i = Some x /\ nth_error l (S i) = y.
Proof.
  revert i. induction l as [|a l IH]; intros i; cbn [zipnext].
  - destruct i; cbn [nth_error]; split; [discriminate|intros [H _]; discriminate H|discriminate|intros [H _]; discriminate H].
  - destruct i as [|i]; cbn [nth_error].
    + destruct l as [|b l]; cbn [nth_error]; split.
      * intros H. injection H as <- <-. split; reflexivity.
      * intros [H <-]. injection H as <-. reflexivity.
      * intros H. injection H as <- <-. split; reflexivity.
      * intros [H <-]. injection H as <-. reflexivity.
    + rewrite IH. reflexivity.
Qed.

(** ** The six loops as instances *)

(** No GETCHAR row without a successor. *)
Fixpoint getchar_ok (rows : list register) : bool :=
  match rows with
  | [] => true
  | [r] => negb (feqb (current_instruction r) (FrZ GETCHAR))
  | _ :: rest => getchar_ok rest
  end.

Definition pstate : Type := value * value * value * value.
Definition pstep (chs : bf_challenge) (ve : venv) (x : register * option register) (s : pstate)
    : pstate :=
  let '(a, b, o, u) := s in
  let reg := fst x in
  let c i := get_chv ve (get_ch chs i) in
  (vmul a (prp_factor (c 0) (c 1) (c 2) (c 3) (known (cycle reg)) (known (memory_pointer reg))
             (known (memory_value reg))),
   vmul b (prp_factor (c 4) (c 5) (c 6) (c 7) (known (instruction_pointer reg))
             (known (current_instruction reg)) (known (next_instruction reg))),
   (if feqb (current_instruction reg) (FrZ PUTCHAR)
    then vadd (vmul o (get_chv ve (output_rs_ch chs))) (known (memory_value reg)) else o),
   (if feqb (current_instruction reg) (FrZ GETCHAR) then
      match snd x with
      | Some nxt => vadd (vmul u (get_chv ve (input_rs_ch chs))) (known (memory_value nxt))
      | None => u
      end
    else u)).
Definition pblock (p : processor_config) (len idx : nat) (x : register * option register)
    (s : pstate) : list rop :=
  let '(a, b, o, u) := s in
  let reg := fst x in
  (if S idx <? len then [REnable (p_s_p p) idx; REnable (p_s_rs p) idx] else [])
  ++ [REnable (p_s_c p) idx; REnable (p_s_lookup p) idx; REnable (p_s_prp p) idx;
      RAdvice (p_clk p) idx (known (cycle reg)); RAdvice (p_ip p) idx (known (instruction_pointer reg));
      RAdvice (p_ci p) idx (known (current_instruction reg));
      RAdvice (p_ni p) idx (known (next_instruction reg));
      RAdvice (p_mp p) idx (known (memory_pointer reg));
      RAdvice (p_mv p) idx (known (memory_value reg));
      RAdvice (p_mvi p) idx (known (memory_value_inverse reg));
      RAdvice (p_mem_prp p) (S idx) a; RAdvice (p_inst_prp p) (S idx) b;
      RAdvice (p_output_rs p) (S idx) o; RAdvice (p_input_rs p) (S idx) u].

Lemma processor_loop_eq p chs ve len rows idx a b o u :
  processor_loop p chs ve len rows idx a b o u =
  if getchar_ok rows
  then Ok (gloop (pblock p len) (pstep chs ve) (zipnext rows) idx (a, b, o, u))
  else Panic.
Proof.
  revert idx a b o u. induction rows as [|r rows IH]; intros idx a b o u; [reflexivity|].
  cbn [processor_loop zipnext gloop]. unfold pstep at 1. unfold pstep at 2. cbn [fst snd].
  destruct rows as [|r' rows].
  - cbn [getchar_ok]. destruct (feqb (current_instruction r) (FrZ GETCHAR)) eqn:E; cbn [negb bind].
    + reflexivity.
    + cbn [processor_loop bind]. unfold pblock. cbn [fst gloop zipnext].
      rewrite ?app_nil_r. reflexivity.
  - change (getchar_ok (r :: r' :: rows)) with (getchar_ok (r' :: rows)).
    destruct (feqb (current_instruction r) (FrZ GETCHAR)) eqn:E; cbn [bind]; rewrite IH;
      destruct (getchar_ok (r' :: rows)); cbn [bind]; try reflexivity;
      unfold pblock at 2; cbn [fst]; rewrite app_assoc; reflexivity.
Qed.

Definition mstep (chs : bf_challenge) (ve : venv) (row : mrow) (prp : value) : value :=
  let c i := get_chv ve (get_ch chs i) in
  vmul prp (prp_factor (c 0) (c 1) (c 2) (c 3) (known (m_clk row)) (known (m_mp row))
              (known (m_mv row))).
Definition mblock (t : memory_config) (len idx : nat) (row : mrow) (prp : value) : list rop :=
  (if S idx <? len then [REnable (t_s_m t) idx] else [])
  ++ [REnable (t_s_prp t) idx; RAdvice (t_clk t) idx (known (m_clk row));
      RAdvice (t_mp t) idx (known (m_mp row)); RAdvice (t_mv t) idx (known (m_mv row));
      RAdvice (t_prp t) (S idx) prp].
Lemma memory_loop_eq t chs ve len rows idx prp :
  memory_loop t chs ve len rows idx prp = gloop (mblock t len) (mstep chs ve) rows idx prp.
Proof.
  revert idx prp. induction rows as [|r rows IH]; intros idx prp; [reflexivity|].
  cbn [memory_loop gloop]. rewrite IH. unfold mblock at 2. rewrite app_assoc. reflexivity.
Qed.

Definition next_ip (x : irow * option irow) : Fr :=
  match snd x with None => i_ip (fst x) | Some nxt => i_ip nxt end.
Definition istep (chs : bf_challenge) (ve : venv) (x : irow * option irow) (s : value * value)
    : value * value :=
  let c i := get_chv ve (get_ch chs i) in
  (if feqb (next_ip x) (i_ip (fst x))
   then vmul (fst s) (prp_factor (c 4) (c 5) (c 6) (c 7) (known (i_ip (fst x)))
                        (known (i_ci (fst x))) (known (i_ni (fst x))))
   else fst s,
   if negb (feqb (next_ip x) (i_ip (fst x)))
   then vadd (vmul (get_chv ve (inst_rs_ch chs)) (snd s)) (known (i_ci (fst x)))
   else snd s).
Definition iblock (t : instruction_config) (len idx : nat) (x : irow * option irow)
    (s : value * value) : list rop :=
  (if S idx <? len
   then [REnable (n_s_i t) idx; REnable (n_s_prp t) idx; REnable (n_s_rs t) idx] else [])
  ++ [RAdvice (n_ip t) idx (known (i_ip (fst x))); RAdvice (n_ci t) idx (known (i_ci (fst x)));
      RAdvice (n_ni t) idx (known (i_ni (fst x)));
      RAdvice (n_prp t) (S idx) (fst s); RAdvice (n_rs t) (S idx) (snd s)].
Lemma instruction_loop_eq t chs ve len rows idx prp rs :
  instruction_loop t chs ve len rows idx prp rs
  = gloop (iblock t len) (istep chs ve) (zipnext rows) idx (prp, rs).
Proof.
  revert idx prp rs. induction rows as [|r rows IH]; intros idx prp rs; [reflexivity|].
  cbn [instruction_loop zipnext gloop]. rewrite IH. unfold istep at 2 4. unfold next_ip.
  unfold iblock at 2. cbn [fst snd]. destruct rows as [|r' rows]; rewrite app_assoc; reflexivity.
Qed.

Definition sum_step (gamma : value) (x : value) (rs : value) : value := vadd (vmul gamma rs) x.
Definition oblock (t : output_config) (idx : nat) (x rs : value) : list rop :=
  [REnable (o_s_rs t) idx; RAdvice (o_val t) idx x; RAdvice (o_rs t) (S idx) rs].
Lemma output_loop_eq t gamma vals idx rs :
  output_loop t gamma vals idx rs
  = gloop (oblock t) (sum_step gamma) (map known vals) idx rs.
Proof.
  revert idx rs. induction vals as [|v vals IH]; intros idx rs; [reflexivity|].
  cbn [output_loop map gloop]. rewrite IH. reflexivity.
Qed.

Definition cblock (s_rs : selector) (val rs_col : advice_col) (ic idx : nat) (x rs : value)
    : list rop :=
  [REnable s_rs idx; RInstance ic (S idx) val idx x; RAdvice rs_col (S idx) rs].
Lemma copy_loop_eq s_rs val rs_col ic ve gamma len idx rs :
  copy_loop s_rs val rs_col ic ve gamma len idx rs
  = gloop (cblock s_rs val rs_col ic) (sum_step gamma)
      (map (fun i => ve_instance ve ic (S i)) (seq idx len)) idx rs.
Proof.
  revert idx rs. induction len as [|len IH]; intros idx rs; [reflexivity|].
  cbn [copy_loop seq map gloop]. rewrite IH. reflexivity.
Qed.

(** ** Placement *)

Lemma acol_eqb_eq a b : acol_eqb a b = true <-> a = b.
Proof.
  unfold acol_eqb. destruct a as [i p], b as [j q]. cbn [ac_index ac_phase].
  rewrite andb_true_iff, !Nat.eqb_eq. split; [intros [-> ->]; reflexivity|].
  intros H. injection H as -> ->. split; reflexivity.
Qed.
Lemma column_eqb_eq a b : column_eqb a b = true <-> a = b.
Proof.
  destruct a as [x|x|x], b as [y|y|y]; cbn [column_eqb];
    rewrite ?acol_eqb_eq, ?Nat.eqb_eq; split; intros H; try discriminate; try congruence.
Qed.
Lemma selector_eqb_eq a b : selector_eqb a b = true <-> a = b.
Proof.
  unfold selector_eqb. destruct a as [i p], b as [j q]. cbn [sel_index sel_simple].
  rewrite andb_true_iff, Nat.eqb_eq, Bool.eqb_true_iff. split; [intros [-> ->]; reflexivity|].
  intros H. injection H as -> ->. split; reflexivity.
Qed.
Lemma rcol_eqb_eq a b : rcol_eqb a b = true <-> a = b.
Proof.
  destruct a as [x|x], b as [y|y]; cbn [rcol_eqb]; rewrite ?column_eqb_eq, ?selector_eqb_eq;
    split; intros H; try discriminate; try congruence.
Qed.

(** The columns of a region's shape are those its operations touch. *)
Definition touches (ops : list rop) (c : rcol) : Prop :=
  exists o i, In o ops /\ rop_touch o = Some (c, i).
Lemma insert_col_in c l x : In x (insert_col c l) <-> x = c \/ In x l.
Proof.
  unfold insert_col. destruct (existsb (rcol_eqb c) l) eqn:E.
  - split; [right; assumption|]. intros [->|H]; [|exact H].
    apply existsb_exists in E. destruct E as (y & Hy & Ey). apply rcol_eqb_eq in Ey.
    subst y. exact Hy.
  - rewrite in_app_iff. cbn [In]. firstorder congruence.
Qed.
Lemma shape_cols ops sh x :
  In x (fst (fold_left shape_step ops sh)) <-> In x (fst sh) \/ touches ops x.
Proof.
  revert sh. induction ops as [|o ops IH]; intros sh; cbn [fold_left].
  - split; [left; assumption|]. intros [H|(o & i & [] & _)]. exact H.
  - rewrite IH. unfold shape_step at 1. destruct (rop_touch o) as [[c i]|] eqn:E; cbn [fst].
    + rewrite insert_col_in. split.
      * intros [[->|H]|(o' & j & H & Hj)].
        -- right. exists o, i. split; [left; reflexivity|exact E].
        -- left. exact H.
        -- right. exists o', j. split; [right; exact H|exact Hj].
      * intros [H|(o' & j & [<-|H] & Hj)].
        -- left. right. exact H.
        -- rewrite E in Hj. injection Hj as <- <-. left. left. reflexivity.
        -- right. exists o', j. split; assumption.
    + split.
      * intros [H|(o' & j & H & Hj)]; [left; exact H|].
        right. exists o', j. split; [right; exact H|exact Hj].
      * intros [H|(o' & j & [<-|H] & Hj)]; [left; exact H|congruence|].
        right. exists o', j. split; assumption.
Qed.
Lemma region_shape_cols ops x : In x (fst (region_shape ops)) <-> touches ops x.
Proof. unfold region_shape. rewrite shape_cols. cbn [fst In]. intuition. Qed.

Lemma col_start_notin m c : (forall r, ~ In (c, r) m) -> col_start m c = 0.
Proof.
  induction m as [|[c' r] m IH]; intros H; [reflexivity|]. cbn [col_start].
  destruct (rcol_eqb c c') eqn:E.
  - apply rcol_eqb_eq in E. subst c'. exfalso. apply (H r). left. reflexivity.
  - apply IH. intros r' Hr. apply (H r'). right. exact Hr.
Qed.
Lemma fold_max_zero {A} (h : A -> nat) l :
  (forall c, In c l -> h c = 0) -> fold_left (fun acc c => Nat.max acc (h c)) l 0 = 0.
Proof.
  induction l as [|c l IH]; intros H; [reflexivity|]. cbn [fold_left].
  rewrite (H c) by (left; reflexivity). apply IH. intros d Hd. apply H. right. exact Hd.
Qed.
Lemma fold_cols_in {B} (cols : list rcol) (b : B) m c r :
  In (c, r) (fold_left (fun m c => (c, b) :: m) cols m) -> In c cols \/ In (c, r) m.
Proof.
  revert m. induction cols as [|d cols IH]; intros m H; cbn [fold_left] in H; [right; exact H|].
  apply IH in H. destruct H as [H|[H|H]].
  - left. right. exact H.
  - injection H as -> _. left. left. reflexivity.
  - right. exact H.
Qed.

(** Columns used so far. *)
Definition uses (l : lay) (c : rcol) : Prop := exists r, In (c, r) (lay_columns l).
Lemma assign_region_fresh ops l :
  (forall c, touches ops c -> ~ uses l c) ->
  let l' := assign_region ops l in
  lay_regions l' = lay_regions l ++ [0] /\ lay_tables l' = lay_tables l /\
  lay_ops l' = lay_ops l ++ flat_map (place (lay_regions l ++ [0]) 0) ops /\
  (forall c, uses l' c -> touches ops c \/ uses l c).
Proof.
  intros H. unfold assign_region. destruct (region_shape ops) as [cols rows] eqn:E.
  assert (Hc : forall c, In c cols <-> touches ops c).
  { intros c. rewrite <- region_shape_cols, E. reflexivity. }
  assert (H0 : fold_left (fun acc c => Nat.max acc (col_start (lay_columns l) c)) cols 0 = 0).
  { apply fold_max_zero. intros c Hin. apply col_start_notin. intros r Hr.
    apply Hc in Hin. apply (H c Hin). exists r. exact Hr. }
  rewrite H0. cbn [lay_regions lay_columns lay_tables lay_ops].
  repeat split. intros c [r Hr]. apply fold_cols_in in Hr. destruct Hr as [Hr|Hr].
  - left. apply Hc. exact Hr.
  - right. exists r. exact Hr.
Qed.

(** Region operations without copy constraints are placed independently of the
    other regions. *)
Definition no_equal (o : rop) : Prop := match o with REqual _ _ => False | _ => True end.
Lemma place_indep s1 s2 start ops :
  (forall o, In o ops -> no_equal o) ->
  flat_map (place s1 start) ops = flat_map (place s2 start) ops.
Proof.
  intros H. induction ops as [|o ops IH]; [reflexivity|]. cbn [flat_map].
  rewrite IH by (intros o' Ho; apply H; right; exact Ho). f_equal.
  specialize (H o (or_introl eq_refl)). destruct o; try reflexivity. destruct H.
Qed.

(** ** The circuit's six regions *)

(** The region a column or selector belongs to. *)
Definition owner (c : rcol) : nat :=
  match c with
  | RCol (CAdvice a) =>
      let i := ac_index a in
      if i <? 11 then 0 else if i <? 15 then 1 else if i <? 20 then 2 else if i <? 22 then 3
      else if i <? 25 then 4 else 5
  | RCol _ => 6
  | RSel s =>
      let i := sel_index s in
      if i <? 6 then 0 else if i <? 8 then 1 else if i <? 12 then 2 else if i <? 13 then 3
      else if i <? 14 then 4 else 5
  end.
(** All operations touch columns of region [k] and declare no equality. *)
Definition owned (k : nat) (ops : list rop) : Prop :=
  forall o, In o ops -> no_equal o /\ forall c i, rop_touch o = Some (c, i) -> owner c = k.

Lemma owned_touches k ops c : owned k ops -> touches ops c -> owner c = k.
Proof. intros H (o & i & Hin & Ht). exact (proj2 (H o Hin) c i Ht). Qed.
Lemma owned_app k a b : owned k a -> owned k b -> owned k (a ++ b).
Proof. intros Ha Hb o Ho. apply in_app_or in Ho. destruct Ho; [now apply Ha|now apply Hb]. Qed.
Lemma owned_gloop {X St} k f g (xs : list X) idx (s : St) :
  (forall i x s, owned k (f i x s)) -> owned k (gloop f g xs idx s).
Proof.
  intros H. revert idx s. induction xs as [|x xs IH]; intros idx s; cbn [gloop].
  - intros o [].
  - apply owned_app; [apply H|apply IH].
Qed.
Ltac owned_block :=
  intros ? Ho; cbn [In app oblock cblock] in Ho;
  repeat match type of Ho with
  | False => destruct Ho
  | _ \/ _ => destruct Ho as [<-|Ho]
  end;
  (split; [exact I|cbn [rop_touch]; let E := fresh in intros ? ? E; injection E as <- <-; reflexivity]).

Definition pops (m : matrix) (ve : venv) : list rop :=
  [RAdvice (p_mem_prp (p_config conf)) 0 (known (FrZ 3));
   RAdvice (p_inst_prp (p_config conf)) 0 (known (FrZ 9));
   RAdvice (p_output_rs (p_config conf)) 0 (known f0);
   RAdvice (p_input_rs (p_config conf)) 0 (known f0);
   REnable (p_s_b (p_config conf)) 0]
  ++ gloop (pblock (p_config conf) (length (processor_matrix m))) (pstep (challenges conf) ve)
       (zipnext (processor_matrix m)) 0 (known (FrZ 3), known (FrZ 9), known f0, known f0).
Definition mops (m : matrix) (ve : venv) : list rop :=
  [RAdvice (t_prp (m_config conf)) 0 (known (FrZ 3))]
  ++ gloop (mblock (m_config conf) (length (memory_matrix m))) (mstep (challenges conf) ve)
       (memory_matrix m) 0 (known (FrZ 3)).
Definition iops (m : matrix) (ve : venv) : list rop :=
  [RAdvice (n_prp (i_config conf)) 0 (known (FrZ 9)); RAdvice (n_rs (i_config conf)) 0 (known f0);
   REnable (n_s_prp_adhoc (i_config conf)) (length (instruction_matrix m))]
  ++ gloop (iblock (i_config conf) (length (instruction_matrix m))) (istep (challenges conf) ve)
       (zipnext (instruction_matrix m)) 0 (known (FrZ 9), known f0).
Definition oops (m : matrix) (ve : venv) : list rop :=
  [RAdvice (o_rs (out_config conf)) 0 (known f0)]
  ++ gloop (oblock (out_config conf)) (sum_step (ve_challenge ve 9))
       (map known (output_matrix m)) 0 (known f0).
Definition uops (m : matrix) (ve : venv) : list rop :=
  [RAdvice (u_rs (in_config conf)) 0 (known f0);
   RAdvice (u_len (in_config conf)) 0 (known (FrZ (Z.of_nat (length (input_matrix m)))))]
  ++ gloop (cblock (u_s_rs (in_config conf)) (u_val (in_config conf)) (u_rs (in_config conf)) 1)
       (sum_step (ve_challenge ve 10))
       (map (fun i => ve_instance ve 1 (S i)) (seq 0 (length (input_matrix m)))) 0 (known f0).
Definition gops (m : matrix) (ve : venv) : list rop :=
  [RAdvice (g_len (prog_config conf)) 0 (known (FrZ (Z.of_nat (length (program m)))));
   RAdvice (g_rs (prog_config conf)) 0 (known f0)]
  ++ gloop (cblock (g_s_rs (prog_config conf)) (g_code (prog_config conf)) (g_rs (prog_config conf)) 0)
       (sum_step (ve_challenge ve 8))
       (map (fun i => ve_instance ve 0 (S i)) (seq 0 (length (program m)))) 0 (known f0).

Lemma pops_owned m ve : owned 0 (pops m ve).
Proof.
  apply owned_app; [owned_block|]. apply owned_gloop. intros i [r x] [[[a b] o] u].
  unfold pblock. apply owned_app; [destruct (S i <? length (processor_matrix m))|]; owned_block.
Qed.
Lemma mops_owned m ve : owned 1 (mops m ve).
Proof.
  apply owned_app; [owned_block|]. apply owned_gloop. intros i r s.
  unfold mblock. apply owned_app; [destruct (S i <? length (memory_matrix m))|]; owned_block.
Qed.
Lemma iops_owned m ve : owned 2 (iops m ve).
Proof.
  apply owned_app; [owned_block|]. apply owned_gloop. intros i r s.
  unfold iblock. apply owned_app; [destruct (S i <? length (instruction_matrix m))|]; owned_block.
Qed.
Lemma oops_owned m ve : owned 3 (oops m ve).
Proof. apply owned_app; [owned_block|]. apply owned_gloop. intros i r s. owned_block. Qed.
Lemma uops_owned m ve : owned 4 (uops m ve).
Proof. apply owned_app; [owned_block|]. apply owned_gloop. intros i r s. owned_block. Qed.
Lemma gops_owned m ve : owned 5 (gops m ve).
Proof. apply owned_app; [owned_block|]. apply owned_gloop. intros i r s. owned_block. Qed.

(** All calls made by the synthesis. *)
Definition table_ops : list aop :=
  map (fun iv => OFixed 0 (fst iv) (snd iv)) (combine (seq 0 256) (range_values DOMAIN))
  ++ [OFill 0 256 (known (FrZ 0))].
Definition copy_ops (m : matrix) : list aop :=
  let np := length (processor_matrix m) in
  [OCopy (CAdvice (g_len (prog_config conf))) 0 (CInstance 0) 0;
   OCopy (CAdvice (u_len (in_config conf))) 0 (CInstance 1) 0;
   OCopy (CAdvice (p_mem_prp (p_config conf))) np
     (CAdvice (t_prp (m_config conf))) (length (memory_matrix m));
   OCopy (CAdvice (o_rs (out_config conf))) (length (output_matrix m))
     (CAdvice (p_output_rs (p_config conf))) np;
   OCopy (CAdvice (u_rs (in_config conf))) (length (input_matrix m))
     (CAdvice (p_input_rs (p_config conf))) np;
   OCopy (CAdvice (p_inst_prp (p_config conf))) np
     (CAdvice (n_prp (i_config conf))) (length (instruction_matrix m));
   OCopy (CAdvice (g_rs (prog_config conf))) (length (program m))
     (CAdvice (n_rs (i_config conf))) (length (instruction_matrix m))].
Definition region_ops (m : matrix) (ve : venv) : list rop :=
  pops m ve ++ mops m ve ++ iops m ve ++ oops m ve ++ uops m ve ++ gops m ve.
Definition all_ops (m : matrix) (ve : venv) : list aop :=
  table_ops ++ flat_map (place [] 0) (region_ops m ve) ++ copy_ops m.

(** One more region of owner [k] after the first [k]. *)
Lemma assign_owned k ops l s :
  owned k ops -> (forall c, uses l c -> owner c < k) ->
  lay_regions l = repeat 0 k -> lay_ops l = s ->
  let l' := assign_region ops l in
  lay_regions l' = repeat 0 (S k) /\ lay_ops l' = s ++ flat_map (place [] 0) ops /\
  (forall c, uses l' c -> owner c < S k).
Proof.
  intros Ho Hu Hr Hs.
  destruct (assign_region_fresh ops l) as (R & _ & O & U).
  { intros c Ht Huc. apply Hu in Huc. rewrite (owned_touches _ _ _ Ho Ht) in Huc. lia. }
  split; [|split].
  - rewrite R, Hr. change [0] with (repeat 0 1). rewrite <- repeat_app. f_equal. lia.
  - rewrite O, Hs. f_equal. apply place_indep. intros o Hin. exact (proj1 (Ho o Hin)).
  - intros c Huc. apply U in Huc. destruct Huc as [Ht|Huc].
    + rewrite (owned_touches _ _ _ Ho Ht). lia.
    + apply Hu in Huc. lia.
Qed.

Lemma synthesize_eq m ve :
  synthesize conf m ve =
  if getchar_ok (processor_matrix m) then EOk (all_ops m ve) else EPanic.
Proof.
  unfold synthesize, load_table.
  assert (T : assign_table (p_table (p_config conf)) (range_values DOMAIN) lay_new
              = EOk (mkLay [] [] [0] table_ops)) by reflexivity.
  rewrite T. clear T. cbn [ebind].
  unfold processor_region. rewrite processor_loop_eq.
  destruct (getchar_ok (processor_matrix m)) eqn:Hg; cbn [bind]; [|reflexivity].
  change (([RAdvice (p_mem_prp (p_config conf)) 0 (known (mem_prp_init (challenges conf)));
            RAdvice (p_inst_prp (p_config conf)) 0 (known (inst_prp_init (challenges conf)));
            RAdvice (p_output_rs (p_config conf)) 0 (known f0);
            RAdvice (p_input_rs (p_config conf)) 0 (known f0);
            REnable (p_s_b (p_config conf)) 0] ++ _)) with (pops m ve).
  set (l0 := mkLay [] [] [0] table_ops).
  destruct (assign_owned 0 (pops m ve) l0 table_ops (pops_owned m ve)) as (R1 & O1 & U1);
    [intros c [r []]|reflexivity|reflexivity|].
  set (l1 := assign_region (pops m ve) l0) in *.
  replace (memory_region (m_config conf) (challenges conf) ve (memory_matrix m)) with (mops m ve)
    by (unfold memory_region; rewrite memory_loop_eq; reflexivity).
  destruct (assign_owned 1 (mops m ve) l1 _ (mops_owned m ve) U1 R1 O1) as (R2 & O2 & U2).
  set (l2 := assign_region (mops m ve) l1) in *.
  replace (instruction_region (i_config conf) (challenges conf) ve (instruction_matrix m))
    with (iops m ve)
    by (unfold instruction_region; rewrite instruction_loop_eq; reflexivity).
  destruct (assign_owned 2 (iops m ve) l2 _ (iops_owned m ve) U2 R2 O2) as (R3 & O3 & U3).
  set (l3 := assign_region (iops m ve) l2) in *.
  replace (output_region (out_config conf) (challenges conf) ve (output_matrix m))
    with (oops m ve)
    by (unfold output_region; rewrite output_loop_eq; reflexivity).
  destruct (assign_owned 3 (oops m ve) l3 _ (oops_owned m ve) U3 R3 O3) as (R4 & O4 & U4).
  set (l4 := assign_region (oops m ve) l3) in *.
  replace (input_region (in_config conf) (input_inst conf) (challenges conf) ve
             (length (input_matrix m))) with (uops m ve)
    by (unfold input_region; rewrite copy_loop_eq; reflexivity).
  destruct (assign_owned 4 (uops m ve) l4 _ (uops_owned m ve) U4 R4 O4) as (R5 & O5 & U5).
  set (l5 := assign_region (uops m ve) l4) in *.
  replace (program_region (prog_config conf) (code_inst conf) (challenges conf) ve
             (length (program m))) with (gops m ve)
    by (unfold program_region; rewrite copy_loop_eq; reflexivity).
  destruct (assign_owned 5 (gops m ve) l5 _ (gops_owned m ve) U5 R5 O5) as (R6 & O6 & U6).
  set (l6 := assign_region (gops m ve) l5) in *.
  unfold ebind. unfold assign_region. cbn [region_shape fold_left shape_step rop_touch].
  cbn [lay_ops constrain_instance]. unfold next_region.
  cbn [lay_regions constrain_instance].
  rewrite R1, R2, R3, R4, R5, R6. rewrite O6. unfold all_ops, region_ops.
  rewrite !flat_map_app. rewrite !app_assoc. rewrite <- !app_assoc. reflexivity.
Qed.
