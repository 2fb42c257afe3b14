(** Forged assignments: advice built from tables that need not come from a run. *)
From Coq Require Import ZArith List Bool Arith Lia Permutation.
From Verif Require Import Base Field FieldFacts BFSpec VMModel VMSim TraceSpec ListFacts Halo2Model CircuitModel
  CircuitFacts LayoutFacts KeygenFacts CircuitSpec LocalSound WitnessFacts HonestFacts Completeness.
Import List ListNotations.
Local Open Scope F_scope.

(** ** What the gates ask of consecutive rows *)
Definition proc_step (x y : register) : Prop :=
  let ci := current_instruction x in
  cycle y - cycle x - f1 = f0 /\
  (desel ci ADD + desel ci SUB + desel ci SHR + desel ci SHL + desel ci GETCHAR + desel ci PUTCHAR)
     * (instruction_pointer y - instruction_pointer x - f1)
    + desel ci LB * (memory_value x * (instruction_pointer y - instruction_pointer x - FrZ 2) +
        (memory_value x * memory_value_inverse x - f1) * (instruction_pointer y - next_instruction x))
    + desel ci RB * ((memory_value x * memory_value_inverse x - f1) * (instruction_pointer y - instruction_pointer x - FrZ 2)
        + memory_value x * (instruction_pointer y - next_instruction x)) = f0 /\
  (desel ci ADD + desel ci SUB + desel ci LB + desel ci RB + desel ci GETCHAR + desel ci PUTCHAR)
     * (memory_pointer y - memory_pointer x)
    + desel ci SHL * (memory_pointer y - memory_pointer x + f1)
    + desel ci SHR * (memory_pointer y - memory_pointer x - f1) = f0 /\
  (desel ci LB + desel ci RB + desel ci PUTCHAR) * (memory_value y - memory_value x)
    + desel ci ADD * (memory_value y - memory_value x - f1) * (memory_value y - memory_value x + FrZ 255)
    + desel ci SUB * (memory_value y - memory_value x + f1) * (memory_value y - memory_value x - FrZ 255) = f0.
Definition mem_step (x y : mrow) : Prop :=
  (m_mp y - m_mp x - f1) * (m_mp y - m_mp x) = f0 /\
  (m_mp y - m_mp x - f1) * (m_mv x - m_mv y) * (m_clk y - m_clk x - f1) = f0 /\
  (m_mp y - m_mp x) * m_mv y = f0.
Definition inst_step (x y : irow) : Prop :=
  (i_ip y = i_ip x /\ i_ci y = i_ci x /\ i_ni y = i_ni x) \/ i_ip y = i_ip x + f1.

Record local_ok (m : matrix) : Prop := mkLocal {
  lo_first : exists x, nth_error (processor_matrix m) 0 = Some x /\
     cycle x = f0 /\ instruction_pointer x = f0 /\ memory_pointer x = f0 /\ memory_value x = f0;
  lo_row : forall r x, nth_error (processor_matrix m) r = Some x ->
     (exists k, (0 <= k < 256)%Z /\ memory_value x = FrZ k) /\ inverse_of (memory_value x) (memory_value_inverse x);
  lo_step : forall r x y, nth_error (processor_matrix m) r = Some x ->
     nth_error (processor_matrix m) (S r) = Some y ->
     proc_step x y /\ exists o, current_instruction x = FrZ o /\ In o OPCODES;
  lo_mem : forall r x y, nth_error (memory_matrix m) r = Some x -> nth_error (memory_matrix m) (S r) = Some y ->
     mem_step x y;
  lo_inst : forall r x y, nth_error (instruction_matrix m) r = Some x ->
     nth_error (instruction_matrix m) (S r) = Some y -> inst_step x y;
  lo_T : (0 < length (instruction_matrix m))%nat
}.

(** ** Advice from tables [m], accumulators started at [i3], [i9] and [i0], final
    output and input sums copied from the tables they are compared with *)
Section Forge.
Variables (m : matrix) (i3 i9 i0 : Fr) (inst : nat -> nat -> Fr).
Let P := processor_matrix m.
Let T := instruction_matrix m.
Let ivals ic len := map (fun i => inst ic (S i)) (seq 0 len).

Definition forge (ch : nat -> Fr) (col r : nat) : Fr :=
  match col with
  | 0 => cellF cycle P r
  | 1 => cellF current_instruction P r
  | 2 => cellF instruction_pointer P r
  | 3 => cellF next_instruction P r
  | 4 => cellF memory_pointer P r
  | 5 => cellF memory_value P r
  | 6 => cellF memory_value_inverse P r
  | 7 => accF (h_mem ch) (zipnext P) i3 r
  | 8 => accF (h_inst ch) (zipnext P) i9 r
  | 9 => if r =? length P then accF (h_sum (ch 9%nat)) (output_matrix m) i0 (length (output_matrix m))
         else accF (h_out ch) (zipnext P) i0 r
  | 10 => if r =? length P
          then accF (h_sum (ch 10%nat)) (ivals 1%nat (length (input_matrix m))) i0 (length (input_matrix m))
          else accF (h_in ch) (zipnext P) i0 r
  | 11 => cellF m_clk (memory_matrix m) r
  | 12 => cellF m_mp (memory_matrix m) r
  | 13 => cellF m_mv (memory_matrix m) r
  | 14 => accF (h_mrow ch) (memory_matrix m) i3 r
  | 15 => cellF i_ip T r
  | 16 => cellF i_ci T r
  | 17 => cellF i_ni T r
  | 18 => accF (h_iprp ch) (zipnext T) i9 r
  | 19 => accF (h_irs ch) (zipnext T) f0 r
  | 20 => cellF (fun x => x) (output_matrix m) r
  | 21 => accF (h_sum (ch 9%nat)) (output_matrix m) i0 r
  | 22 => cellF (fun x => x) (ivals 1%nat (length (input_matrix m))) r
  | 23 => if r =? 0 then inst 1%nat 0%nat else f0
  | 24 => accF (h_sum (ch 10%nat)) (ivals 1%nat (length (input_matrix m))) i0 r
  | 25 => cellF (fun x => x) (ivals 0%nat (length (program m))) r
  | 26 => if r =? 0 then inst 0%nat 0%nat else f0
  | 27 => accF (h_sum (ch 8%nat)) (ivals 0%nat (length (program m))) f0 r
  | _ => f0
  end%nat.

(** First-phase columns do not depend on the challenges. *)
Lemma forge_phase0 ch ch' col r : nth col (advice_phases bcs) 0%nat = 0%nat -> forge ch col r = forge ch' col r.
Proof. do 28 try destruct col as [|col]; try reflexivity; intros H; discriminate H. Qed.

Variables (n : nat) (ch : nat -> Fr).
Hypothesis L : local_ok m.
Hypothesis Hfit : fits n (sizes_of m).
Let A := forge ch.

Lemma ivals_nth ic len r : (r < len)%nat -> nth_error (ivals ic len) r = Some (inst ic (S r)).
Proof.
  intros H. unfold ivals. rewrite nth_error_map, (nth_error_nth' _ 0%nat) by (rewrite seq_length; exact H).
  rewrite seq_nth by exact H. reflexivity.
Qed.

Ltac sizes H := cbn [sizes_of zp zm zi zo zu zg] in H.
Ltac two l r x y Hx Hy :=
  destruct (lt_nth_error l r) as [x Hx]; [first [lia|unfold P, T in *; lia]|];
  destruct (lt_nth_error l (S r)) as [y Hy]; [first [lia|unfold P, T in *; lia]|].
Ltac at1 Hx := unfold A, forge; rewrite ?(cellF_nth' _ _ _ _ Hx).
Ltac at2 Hx Hy := unfold A, forge; rewrite ?(cellF_nth' _ _ _ _ Hx), ?(cellF_nth' _ _ _ _ Hy).

Lemma forge_rows r : row_eqs (fun s => sel_spec (sizes_of m) s r) (fun c => A c r) (fun c => A c (S r))
                               (fun c => A c (prev_row n r)) ch.
Proof.
  constructor; cbv beta; intros Hon; unfold sel_spec in Hon; sizes Hon; fold P T in Hon;
    apply Nat.ltb_lt in Hon || apply Nat.eqb_eq in Hon.
  - subst r. destruct (lo_first _ L) as (x & Hx & E0 & E1 & E2 & E3). fold P in Hx. at1 Hx. exact E0.
  - subst r. destruct (lo_first _ L) as (x & Hx & E0 & E1 & E2 & E3). fold P in Hx. at1 Hx. exact E1.
  - subst r. destruct (lo_first _ L) as (x & Hx & E0 & E1 & E2 & E3). fold P in Hx. at1 Hx. exact E2.
  - subst r. destruct (lo_first _ L) as (x & Hx & E0 & E1 & E2 & E3). fold P in Hx. at1 Hx. exact E3.
  - two P r x y Hx Hy. at2 Hx Hy. apply (lo_step _ L r x y Hx Hy).
  - destruct (lt_nth_error P r Hon) as [x Hx]. at1 Hx. apply inverse_gates. apply (lo_row _ L r x Hx).
  - destruct (lt_nth_error P r Hon) as [x Hx]. at1 Hx. apply inverse_gates. apply (lo_row _ L r x Hx).
  - two P r x y Hx Hy. at2 Hx Hy. exact (proj1 (proj2 (proj1 (lo_step _ L r x y Hx Hy)))).
  - two P r x y Hx Hy. at2 Hx Hy. exact (proj1 (proj2 (proj2 (proj1 (lo_step _ L r x y Hx Hy))))).
  - two P r x y Hx Hy. at2 Hx Hy. exact (proj2 (proj2 (proj2 (proj1 (lo_step _ L r x y Hx Hy))))).
  - two (memory_matrix m) r x y Hx Hy. at2 Hx Hy. exact (proj1 (lo_mem _ L r x y Hx Hy)).
  - two (memory_matrix m) r x y Hx Hy. at2 Hx Hy. exact (proj1 (proj2 (lo_mem _ L r x y Hx Hy))).
  - two (memory_matrix m) r x y Hx Hy. at2 Hx Hy. exact (proj2 (proj2 (lo_mem _ L r x y Hx Hy))).
  - two T r x y Hx Hy. at2 Hx Hy. destruct (lo_inst _ L r x y Hx Hy) as [(E1 & E2 & E3)|E1]; rewrite E1, ?E2, ?E3; fring.
  - two T r x y Hx Hy. at2 Hx Hy. destruct (lo_inst _ L r x y Hx Hy) as [(E1 & E2 & E3)|E1]; rewrite E1, ?E2, ?E3; fring.
  - two T r x y Hx Hy. at2 Hx Hy. destruct (lo_inst _ L r x y Hx Hy) as [(E1 & E2 & E3)|E1]; rewrite E1, ?E2, ?E3; fring.
  - destruct (lt_nth_error (memory_matrix m) r Hon) as [x Hx]. at1 Hx. rewrite (accF_S _ _ _ _ _ Hx).
    unfold h_mrow, mem_factor. fring.
  - destruct (lt_nth_error P r Hon) as [x Hx]. at1 Hx. rewrite (accF_S _ _ _ _ _ (zip_at _ _ _ Hx)).
    unfold h_mem, mem_factor. cbn [fst]. fring.
  - destruct (lt_nth_error P r Hon) as [x Hx]. at1 Hx. rewrite (accF_S _ _ _ _ _ (zip_at _ _ _ Hx)).
    unfold h_inst, inst_factor. cbn [fst]. fring.
  - two P r x y Hx Hy. at2 Hx Hy. rewrite !(proj2 (Nat.eqb_neq _ _)) by lia.
    rewrite (accF_S _ _ _ _ _ (zip_at _ _ _ Hx)). unfold h_out. cbn [fst]. apply out_gate.
    apply (lo_step _ L r x y Hx Hy).
  - two P r x y Hx Hy. at2 Hx Hy. rewrite !(proj2 (Nat.eqb_neq _ _)) by lia.
    rewrite (accF_S _ _ _ _ _ (zip_at _ _ _ Hx)). unfold h_in. cbn [fst snd]. rewrite Hy. apply in_gate.
    apply (lo_step _ L r x y Hx Hy).
  - two T r x y Hx Hy. at2 Hx Hy. rewrite (accF_S _ _ _ _ _ (zip_at _ _ _ Hx)). unfold h_irs, next_ip. cbn [fst snd].
    rewrite Hy. destruct (feqb (i_ip y) (i_ip x)) eqn:E.
    + apply feqb_eq in E. rewrite E. fring.
    + apply feqb_neq in E. destruct (lo_inst _ L r x y Hx Hy) as [(E' & _)| ->]; [contradiction|fring].
  - two T r x y Hx Hy. at2 Hx Hy. rewrite (accF_S _ _ _ _ _ (zip_at _ _ _ Hx)). unfold h_iprp, next_ip, inst_factor.
    cbn [fst snd]. rewrite Hy. destruct (feqb (i_ip y) (i_ip x)) eqn:E.
    + apply feqb_eq in E. rewrite E. fring.
    + apply feqb_neq in E. destruct (lo_inst _ L r x y Hx Hy) as [(E' & _)| ->]; [contradiction|fring].
  - pose proof (lo_T _ L) as HT. fold T in HT. destruct r as [|r]; [lia|]. cbn [prev_row].
    destruct (lt_nth_error T r) as [x Hx]; [lia|]. at1 Hx.
    rewrite (accF_S _ _ _ _ _ (zip_at _ _ _ Hx)). unfold h_iprp, next_ip, inst_factor. cbn [fst snd].
    rewrite (proj2 (nth_error_None _ _)) by lia. rewrite feqb_refl. fring.
  - destruct (lt_nth_error (output_matrix m) r Hon) as [x Hx]. at1 Hx. rewrite (accF_S _ _ _ _ _ Hx).
    unfold h_sum. fring.
  - pose proof (ivals_nth 1 _ _ Hon) as Hx. at1 Hx. rewrite (accF_S _ _ _ _ _ Hx). unfold h_sum. fring.
  - pose proof (ivals_nth 0 _ _ Hon) as Hx. at1 Hx. rewrite (accF_S _ _ _ _ _ Hx). unfold h_sum. fring.
Qed.

Hypothesis Hmem : i3 = f0 \/ Permutation (memory_matrix m) (map mrow_of P).
Hypothesis Hinst : fold_left (fun s x => h_inst ch x s) (zipnext P) i9 =
                   fold_left (fun s x => h_iprp ch x s) (zipnext T) i9.
Hypothesis Hcode : fold_left (fun s x => h_sum (ch 8%nat) x s) (ivals 0%nat (length (program m))) f0 =
                   fold_left (fun s x => h_irs ch x s) (zipnext T) f0.

Lemma prodF_0 {X} (f : X -> Fr) l : prodF f l f0 = f0.
Proof.
  unfold prodF. induction l as [|x l IH]; cbn [fold_left]; [reflexivity|].
  replace (f0 * f x) with (f0 : Fr) by fring. exact IH.
Qed.
Lemma ivals_len ic len : length (ivals ic len) = len.
Proof. unfold ivals. rewrite map_length, seq_length. reflexivity. Qed.
Lemma forge_sat : sat n (sizes_of m) inst ch A.
Proof.
  assert (Hz : zp (sizes_of m) = length (zipnext P)) by (rewrite zipnext_length; reflexivity).
  assert (Hzi : zi (sizes_of m) = length (zipnext T)) by (rewrite zipnext_length; reflexivity).
  constructor.
  - exact forge_rows.
  - intros r Hr. destruct (lt_nth_error P r Hr) as [x Hx]. at1 Hx. apply (lo_row _ L r x Hx).
  - reflexivity.
  - reflexivity.
  - intros r Hr. unfold A, forge. exact (cellF_nth' (fun x => x) _ _ _ (ivals_nth 0 _ _ Hr)).
  - intros r Hr. unfold A, forge. exact (cellF_nth' (fun x => x) _ _ _ (ivals_nth 1 _ _ Hr)).
  - unfold A, forge. rewrite Hz. change (zm (sizes_of m)) with (length (memory_matrix m)). rewrite !accF_end.
    unfold P. rewrite fold_h_mem. fold P. destruct Hmem as [->|HP].
    + rewrite prodF_0. symmetry. exact (prodF_0 (fun x => mem_factor ch (m_clk x) (m_mp x) (m_mv x)) _).
    + symmetry. exact (prodF_perm (fun x => mem_factor ch (m_clk x) (m_mp x) (m_mv x)) _ _ _ HP).
  - unfold A, forge. change (zp (sizes_of m)) with (length P). rewrite Nat.eqb_refl. reflexivity.
  - unfold A, forge. change (zp (sizes_of m)) with (length P). rewrite Nat.eqb_refl. reflexivity.
  - unfold A, forge. rewrite Hz, Hzi, !accF_end. exact Hinst.
  - unfold A, forge. rewrite Hzi, accF_end. rewrite <- Hcode.
    change (zg (sizes_of m)) with (length (program m)).
    rewrite <- (ivals_len 0 (length (program m))) at 2. apply accF_end.
Qed.
End Forge.

Lemma fold_h_inst_0 ch P : fold_left (fun s x => h_inst ch x s) (zipnext P) f0 = f0.
Proof.
  induction (zipnext P) as [|x l IH]; cbn [fold_left]; [reflexivity|].
  replace (h_inst ch x f0) with (f0 : Fr) by (unfold h_inst; fring). exact IH.
Qed.
Lemma fold_h_iprp_0 ch T : fold_left (fun s x => h_iprp ch x s) (zipnext T) f0 = f0.
Proof.
  induction (zipnext T) as [|x l IH]; cbn [fold_left]; [reflexivity|].
  replace (h_iprp ch x f0) with (f0 : Fr) by (unfold h_iprp; destruct (feqb _ _); [fring|reflexivity]). exact IH.
Qed.
