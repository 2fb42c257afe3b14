(** Key generation on the circuit: when it succeeds, and which selectors, fixed
    cells and copy constraints the key holds; the constraints as equations. *)
From Coq Require Import ZArith List Bool Arith Lia.
From Verif Require Import Base Field FieldFacts VMModel Halo2Model CircuitModel CircuitFacts LayoutFacts.
Import ListNotations.

(** ** The back end run over a list of calls *)
Definition kg_ok (c : cs) (n : nat) (o : aop) : Prop :=
  let u := usable_rows n c in
  match o with
  | OEnable _ r => r < u
  | OAdvice _ _ _ => True
  | OQuery _ r => r < u
  | OCopy lc lr rc rr =>
      lr < u /\ rr < u /\ existsb (column_eqb lc) (perm_columns c) = true /\
      existsb (column_eqb rc) (perm_columns c) = true
  | OFixed col row v | OFill col row v => row < u /\ col < num_fixed c /\ v <> None
  end.

Definition fixed_step (u : nat) (F : nat -> nat -> Fr) (o : aop) : nat -> nat -> Fr :=
  match o with
  | OFixed col row (Some x) =>
      fun c' r' => if Nat.eqb c' col && Nat.eqb r' row then x else F c' r'
  | OFill col row (Some x) =>
      fun c' r' => if Nat.eqb c' col && (row <=? r') && (r' <? u) then x else F c' r'
  | _ => F
  end.

Lemma keygen_op_ok c n o a :
  kg_ok c n o ->
  exists a', keygen_op c n o a = EOk a' /\
    (forall s r, In (s, r) (asm_enabled a') <->
                 (exists sel, o = OEnable sel r /\ sel_index sel = s) \/ In (s, r) (asm_enabled a)) /\
    (forall x y, In (x, y) (asm_copies a') <->
                 o = OCopy (fst x) (snd x) (fst y) (snd y) \/ In (x, y) (asm_copies a)) /\
    asm_fixed a' = fixed_step (usable_rows n c) (asm_fixed a) o.
Proof.
  destruct o as [s r|col r v|ic ir|lc lr rc rr|col r v|col r v]; cbn [kg_ok keygen_op fixed_step];
    intros H.
  - apply Nat.ltb_lt in H. rewrite H. eexists. split; [reflexivity|].
    cbn [asm_enabled asm_copies asm_fixed In]. split; [|split; [|reflexivity]].
    + intros s' r'. split.
      * intros [E|E]; [left|right; exact E]. injection E as <- <-. exists s. split; reflexivity.
      * intros [(sel & E & <-)|E]; [left|right; exact E]. injection E as <- <-. reflexivity.
    + intros x y. split; [right; assumption|]. intros [E|E]; [discriminate|exact E].
  - eexists. split; [reflexivity|]. split; [|split; [|reflexivity]].
    + intros s' r'. split; [right; assumption|]. intros [(sel & E & _)|E]; [discriminate|exact E].
    + intros x y. split; [right; assumption|]. intros [E|E]; [discriminate|exact E].
  - apply Nat.ltb_lt in H. rewrite H. eexists. split; [reflexivity|]. split; [|split; [|reflexivity]].
    + intros s' r'. split; [right; assumption|]. intros [(sel & E & _)|E]; [discriminate|exact E].
    + intros x y. split; [right; assumption|]. intros [E|E]; [discriminate|exact E].
  - destruct H as (H1 & H2 & H3 & H4). apply Nat.ltb_lt in H1, H2. rewrite H1, H2, H3, H4.
    cbn [andb]. eexists. split; [reflexivity|].
    cbn [asm_enabled asm_copies asm_fixed In]. split; [|split; [|reflexivity]].
    + intros s' r'. split; [right; assumption|]. intros [(sel & E & _)|E]; [discriminate|exact E].
    + intros x y. split.
      * intros [E|E]; [left|right; exact E]. injection E as <- <-. reflexivity.
      * intros [E|E]; [left|right; exact E]. injection E as -> -> -> ->.
        destruct x, y. reflexivity.
  - destruct H as (H1 & H2 & H3). apply Nat.ltb_lt in H1, H2. rewrite H1, H2.
    destruct v as [x|]; [|congruence]. eexists. split; [reflexivity|].
    cbn [asm_enabled asm_copies asm_fixed In]. split; [|split; [|reflexivity]].
    + intros s' r'. split; [right; assumption|]. intros [(sel & E & _)|E]; [discriminate|exact E].
    + intros x' y. split; [right; assumption|]. intros [E|E]; [discriminate|exact E].
  - destruct H as (H1 & H2 & H3). apply Nat.ltb_lt in H1, H2. rewrite H1, H2.
    destruct v as [x|]; [|congruence]. eexists. split; [reflexivity|].
    cbn [asm_enabled asm_copies asm_fixed In]. split; [|split; [|reflexivity]].
    + intros s' r'. split; [right; assumption|]. intros [(sel & E & _)|E]; [discriminate|exact E].
    + intros x' y. split; [right; assumption|]. intros [E|E]; [discriminate|exact E].
Qed.
Lemma keygen_op_inv c n o a a' : keygen_op c n o a = EOk a' -> kg_ok c n o.
Proof.
  destruct o as [s r|col r v|ic ir|lc lr rc rr|col r v|col r v]; cbn [kg_ok keygen_op]; intros H.
  - destruct (r <? usable_rows n c) eqn:E; [apply Nat.ltb_lt; exact E|discriminate].
  - exact I.
  - destruct (ir <? usable_rows n c) eqn:E; [apply Nat.ltb_lt; exact E|discriminate].
  - destruct (lr <? usable_rows n c) eqn:E1; [|discriminate].
    destruct (rr <? usable_rows n c) eqn:E2; [|discriminate]. cbn [andb] in H.
    destruct (existsb (column_eqb lc) (perm_columns c)); [|discriminate].
    destruct (existsb (column_eqb rc) (perm_columns c)); [|discriminate].
    apply Nat.ltb_lt in E1, E2. auto.
  - destruct (r <? usable_rows n c) eqn:E1; [|discriminate].
    destruct (col <? num_fixed c) eqn:E2; [|discriminate]. destruct v; [|discriminate].
    apply Nat.ltb_lt in E1, E2. repeat split; try assumption. discriminate.
  - destruct (r <? usable_rows n c) eqn:E1; [|discriminate].
    destruct (col <? num_fixed c) eqn:E2; [|discriminate]. destruct v; [|discriminate].
    apply Nat.ltb_lt in E1, E2. repeat split; try assumption. discriminate.
Qed.

Lemma keygen_ops_ok c n ops a :
  (forall o, In o ops -> kg_ok c n o) ->
  exists a', keygen_ops c n ops a = EOk a' /\
    (forall s r, In (s, r) (asm_enabled a') <->
                 (exists sel, In (OEnable sel r) ops /\ sel_index sel = s) \/ In (s, r) (asm_enabled a)) /\
    (forall x y, In (x, y) (asm_copies a') <->
                 In (OCopy (fst x) (snd x) (fst y) (snd y)) ops \/ In (x, y) (asm_copies a)) /\
    asm_fixed a' = fold_left (fixed_step (usable_rows n c)) ops (asm_fixed a).
Proof.
  revert a. induction ops as [|o ops IH]; intros a H; cbn [keygen_ops fold_left].
  - exists a. split; [reflexivity|]. split; [|split; [|reflexivity]].
    + intros s r. split; [right; assumption|]. intros [(sel & [] & _)|E]. exact E.
    + intros x y. split; [right; assumption|]. intros [[]|E]. exact E.
  - destruct (keygen_op_ok c n o a) as (a1 & E1 & S1 & C1 & F1); [apply H; left; reflexivity|].
    rewrite E1. cbn [ebind].
    destruct (IH a1) as (a2 & E2 & S2 & C2 & F2); [intros o' Ho; apply H; right; exact Ho|].
    exists a2. split; [exact E2|]. split; [|split].
    + intros s r. rewrite S2, S1. cbn [In]. split.
      * intros [(sel & Hi & Hs)|[(sel & -> & Hs)|Hi]]; [left; exists sel; tauto|left; exists sel; tauto|right; exact Hi].
      * intros [(sel & [->|Hi] & Hs)|Hi]; [right; left; exists sel; tauto|left; exists sel; tauto|right; right; exact Hi].
    + intros x y. rewrite C2, C1. cbn [In]. split; [intros [?|[?|?]]|intros [[?|?]|?]]; auto.
    + rewrite F2, F1. reflexivity.
Qed.
Lemma keygen_ops_inv c n ops a a' :
  keygen_ops c n ops a = EOk a' -> forall o, In o ops -> kg_ok c n o.
Proof.
  revert a. induction ops as [|o ops IH]; intros a H o' Ho; [destruct Ho|].
  cbn [keygen_ops] in H. destruct (keygen_op c n o a) as [a1| |] eqn:E; cbn [ebind] in H; try discriminate.
  destruct Ho as [<-|Ho]; [exact (keygen_op_inv _ _ _ _ _ E)|exact (IH a1 H o' Ho)].
Qed.

(** ** Placed operations *)
(** Splits a disjunction of equations ending in [False]. *)
Ltac or_cases H :=
  repeat match type of H with
  | False => destruct H
  | _ \/ _ => destruct H as [H|H]
  end; try discriminate H.

Lemma in_place_enable s r rops :
  In (OEnable s r) (flat_map (place [] 0) rops) <-> In (REnable s r) rops.
Proof.
  rewrite in_flat_map. split.
  - intros (o & Ho & Hp). destruct o; cbn [place In] in Hp; or_cases Hp.
    injection Hp as <- <-. exact Ho.
  - intros H. exists (REnable s r). split; [exact H|left; reflexivity].
Qed.
Lemma in_place_advice c r v rops :
  In (OAdvice c r v) (flat_map (place [] 0) rops) <->
  In (RAdvice c r v) rops \/ exists ic ir, In (RInstance ic ir c r v) rops.
Proof.
  rewrite in_flat_map. split.
  - intros (o & Ho & Hp). destruct o; cbn [place In] in Hp; or_cases Hp.
    + injection Hp as <- <- <-. left. exact Ho.
    + injection Hp as <- <- <-. right. eexists. eexists. exact Ho.
  - intros [H|(ic & ir & H)].
    + eexists. split; [exact H|left; reflexivity].
    + eexists. split; [exact H|right; left; reflexivity].
Qed.
Lemma in_place_query ic ir rops :
  In (OQuery ic ir) (flat_map (place [] 0) rops) <-> exists c r v, In (RInstance ic ir c r v) rops.
Proof.
  rewrite in_flat_map. split.
  - intros (o & Ho & Hp). destruct o; cbn [place In] in Hp; or_cases Hp.
    injection Hp as <- <-. eexists. eexists. eexists. exact Ho.
  - intros (c & r & v & H). eexists. split; [exact H|left; reflexivity].
Qed.
Lemma in_place_copy lc lr rc rr rops :
  (forall o, In o rops -> no_equal o) ->
  In (OCopy lc lr rc rr) (flat_map (place [] 0) rops) <->
  exists ic c v, In (RInstance ic rr c lr v) rops /\ lc = CAdvice c /\ rc = CInstance ic.
Proof.
  intros N. rewrite in_flat_map. split.
  - intros (o & Ho & Hp). pose proof (N o Ho) as No. destruct o; cbn [place In] in Hp; or_cases Hp; [|destruct No].
    injection Hp as <- <- <- <-. exists ic, c, v. split; [exact Ho|split; reflexivity].
  - intros (ic & c & v & H & -> & ->). eexists. split; [exact H|right; right; left; reflexivity].
Qed.
Lemma in_place_fixed c r v rops :
  In (OFixed c r v) (flat_map (place [] 0) rops) <-> In (RFixed c r v) rops.
Proof.
  rewrite in_flat_map. split.
  - intros (o & Ho & Hp). destruct o; cbn [place In] in Hp; or_cases Hp.
    injection Hp as <- <- <-. exact Ho.
  - intros H. eexists. split; [exact H|left; reflexivity].
Qed.
Lemma in_place_fill c r v rops : ~ In (OFill c r v) (flat_map (place [] 0) rops).
Proof.
  rewrite in_flat_map. intros (o & Ho & Hp). destruct o; cbn [place In] in Hp; or_cases Hp.
Qed.

(** ** The table sizes and what the key holds *)
Record sizes := mkSizes { zp : nat; zm : nat; zi : nat; zo : nat; zu : nat; zg : nat }.
Definition sizes_of (m : matrix) : sizes :=
  mkSizes (length (processor_matrix m)) (length (memory_matrix m)) (length (instruction_matrix m))
    (length (output_matrix m)) (length (input_matrix m)) (length (program m)).

(** Rows on which each selector is enabled. *)
Definition sel_spec (z : sizes) (s r : nat) : bool :=
  match s with
  | 0 | 1 | 4 => r <? zp z
  | 2 | 5 => S r <? zp z
  | 3 => r =? 0
  | 6 => S r <? zm z
  | 7 => r <? zm z
  | 8 | 9 | 11 => S r <? zi z
  | 10 => r =? zi z
  | 12 => r <? zo z
  | 13 => r <? zu z
  | 14 => r <? zg z
  | _ => false
  end.

(** All six tables and the range table fit. *)
Definition fits (n : nat) (z : sizes) : Prop :=
  256 < n - 6 /\ zp z < n - 6 /\ zm z < n - 6 /\ zi z < n - 6 /\ zo z < n - 6 /\ zu z < n - 6 /\
  zg z < n - 6.

Lemma region_no_equal m ve o : In o (region_ops m ve) -> no_equal o.
Proof.
  unfold region_ops. rewrite !in_app_iff. intros [H|[H|[H|[H|[H|H]]]]].
  - exact (proj1 (pops_owned m ve o H)).
  - exact (proj1 (mops_owned m ve o H)).
  - exact (proj1 (iops_owned m ve o H)).
  - exact (proj1 (oops_owned m ve o H)).
  - exact (proj1 (uops_owned m ve o H)).
  - exact (proj1 (gops_owned m ve o H)).
Qed.

Lemma nth_error_lt {A} (l : list A) i x : nth_error l i = Some x -> i < length l.
Proof. intros H. apply nth_error_Some. congruence. Qed.
Lemma lt_nth_error {A} (l : list A) i : i < length l -> exists x, nth_error l i = Some x.
Proof.
  intros H. destruct (nth_error l i) as [x|] eqn:E; [exists x; reflexivity|].
  apply nth_error_Some in H. congruence.
Qed.

(** Splits [H : In o block] into its cases. *)
Ltac in_cases H :=
  cbn [In app pblock mblock iblock oblock cblock] in H;
  repeat match type of H with
  | False => destruct H
  | _ \/ _ => destruct H as [H|H]
  end.

Lemma in_pops o m ve :
  In o (pops m ve) <->
  In o [RAdvice (p_mem_prp (p_config conf)) 0 (known (FrZ 3));
        RAdvice (p_inst_prp (p_config conf)) 0 (known (FrZ 9));
        RAdvice (p_output_rs (p_config conf)) 0 (known f0);
        RAdvice (p_input_rs (p_config conf)) 0 (known f0);
        REnable (p_s_b (p_config conf)) 0] \/
  exists i x, nth_error (zipnext (processor_matrix m)) i = Some x /\
    In o (pblock (p_config conf) (length (processor_matrix m)) i x
            (fold_left (fun s x => pstep (challenges conf) ve x s)
               (firstn (S i) (zipnext (processor_matrix m)))
               (known (FrZ 3), known (FrZ 9), known f0, known f0))).
Proof. unfold pops. rewrite in_app_iff, in_gloop. reflexivity. Qed.

Definition enabled_in (ops : list rop) (s r : nat) : Prop :=
  exists sel, In (REnable sel r) ops /\ sel_index sel = s.
Lemma enabled_app a b s r : enabled_in (a ++ b) s r <-> enabled_in a s r \/ enabled_in b s r.
Proof.
  unfold enabled_in. split.
  - intros (sel & H & E). apply in_app_or in H. destruct H; [left|right]; exists sel; tauto.
  - intros [(sel & H & E)|(sel & H & E)]; exists sel; rewrite in_app_iff; tauto.
Qed.
Lemma enabled_gloop {X St} f g (xs : list X) (s0 : St) s r P :
  (forall i x st, enabled_in (f i x st) s r <-> P i /\ r = i) ->
  enabled_in (gloop f g xs 0 s0) s r <-> r < length xs /\ P r.
Proof.
  intros H. unfold enabled_in. split.
  - intros (sel & Hi & E). apply in_gloop in Hi. destruct Hi as (i & x & Hx & Hi).
    cbn [Nat.add] in Hi. destruct (H i x (fold_left (fun s x => g x s) (firstn (S i) xs) s0)) as [H1 _].
    destruct H1 as [HP ->]; [exists sel; tauto|]. split; [exact (nth_error_lt _ _ _ Hx)|exact HP].
  - intros [Hr HP]. destruct (lt_nth_error xs r Hr) as [x Hx].
    destruct (H r x (fold_left (fun s x => g x s) (firstn (S r) xs) s0)) as [_ H1].
    destruct H1 as (sel & Hi & E); [split; [exact HP|reflexivity]|].
    exists sel. split; [|exact E]. apply in_gloop. exists r, x. split; [exact Hx|exact Hi].
Qed.
Lemma enabled_gloop_none {X St} f g (xs : list X) (s0 : St) s r :
  (forall i x st, ~ enabled_in (f i x st) s r) -> ~ enabled_in (gloop f g xs 0 s0) s r.
Proof.
  intros H (sel & Hi & E). apply in_gloop in Hi. destruct Hi as (i & x & Hx & Hi).
  apply (H _ _ _ (ex_intro _ sel (conj Hi E))).
Qed.

Ltac in_tac := cbn [In app]; solve [repeat first [left; reflexivity | right]].

Ltac sel_tac :=
  match goal with |- enabled_in _ ?k _ =>
    first [exists (Sel k true); split; [in_tac|reflexivity]
          |exists (Sel k false); split; [in_tac|reflexivity]] end.

Lemma enabled_pops m ve s r :
  let np := length (processor_matrix m) in
  enabled_in (pops m ve) s r <->
  (s = 3 /\ r = 0) \/
  (r < np /\ ((s = 0 \/ s = 1 \/ s = 4) \/ ((s = 2 \/ s = 5) /\ S r < np))).
Proof.
  intros np. unfold pops. rewrite enabled_app.
  rewrite (enabled_gloop _ _ _ _ s r
    (fun i => (s = 0 \/ s = 1 \/ s = 4) \/ ((s = 2 \/ s = 5) /\ S i < np))).
  - rewrite zipnext_length. fold np. apply or_iff_compat_r. split.
    + intros (sel & H & E). cbn [In] in H. or_cases H. injection H as <- <-. subst s. split; reflexivity.
    + intros [-> ->]. eexists. split; [do 4 right; left; reflexivity|reflexivity].
  - intros i x [[[a b] o] u]. unfold pblock. fold np. destruct (S i <? np) eqn:Ei.
    + apply Nat.ltb_lt in Ei. split.
      * intros (sel & H & E). cbn [In app] in H. or_cases H; injection H as <- <-; subst s; cbn; auto.
      * intros [[[H|[H|H]]|[[H|H] _]] ->]; subst s; sel_tac.
    + apply Nat.ltb_ge in Ei. split.
      * intros (sel & H & E). cbn [In app] in H. or_cases H; injection H as <- <-; subst s; cbn; auto.
      * intros [[[H|[H|H]]|[_ H]] ->]; [| | |lia]; subst s; sel_tac.
Qed.
Lemma enabled_mops m ve s r :
  let nm := length (memory_matrix m) in
  enabled_in (mops m ve) s r <-> r < nm /\ (s = 7 \/ (s = 6 /\ S r < nm)).
Proof.
  intros nm. unfold mops. rewrite enabled_app.
  rewrite (enabled_gloop _ _ _ _ s r (fun i => s = 7 \/ (s = 6 /\ S i < nm))).
  - fold nm. split; [|right; assumption]. intros [(sel & H & E)|H]; [|exact H].
    cbn [In] in H. or_cases H.
  - intros i x st. unfold mblock. fold nm. destruct (S i <? nm) eqn:Ei.
    + apply Nat.ltb_lt in Ei. split.
      * intros (sel & H & E). cbn [In app] in H. or_cases H; injection H as <- <-; subst s; cbn; auto.
      * intros [[H|[H _]] ->]; subst s; sel_tac.
    + apply Nat.ltb_ge in Ei. split.
      * intros (sel & H & E). cbn [In app] in H. or_cases H; injection H as <- <-; subst s; cbn; auto.
      * intros [[H|[_ H]] ->]; [|lia]. subst s; sel_tac.
Qed.
Lemma enabled_iops m ve s r :
  let ni := length (instruction_matrix m) in
  enabled_in (iops m ve) s r <->
  (s = 10 /\ r = ni) \/ (r < ni /\ ((s = 8 \/ s = 9 \/ s = 11) /\ S r < ni)).
Proof.
  intros ni. unfold iops. fold ni. rewrite enabled_app.
  rewrite (enabled_gloop _ _ _ _ s r (fun i => (s = 8 \/ s = 9 \/ s = 11) /\ S i < ni)).
  - rewrite zipnext_length. fold ni. apply or_iff_compat_r. split.
    + intros (sel & H & E). cbn [In] in H. or_cases H. injection H as <- <-. subst s. split; reflexivity.
    + intros [-> ->]. eexists. split; [do 2 right; left; reflexivity|reflexivity].
  - intros i x st. unfold iblock. fold ni. destruct (S i <? ni) eqn:Ei.
    + apply Nat.ltb_lt in Ei. split.
      * intros (sel & H & E). cbn [In app] in H. or_cases H; injection H as <- <-; subst s; cbn; auto.
      * intros [[[H|[H|H]] _] ->]; subst s; sel_tac.
    + apply Nat.ltb_ge in Ei. split.
      * intros (sel & H & E). cbn [In app] in H. or_cases H.
      * intros [[_ H] ->]. lia.
Qed.
Lemma enabled_oops m ve s r :
  enabled_in (oops m ve) s r <-> r < length (output_matrix m) /\ s = 12.
Proof.
  unfold oops. rewrite enabled_app.
  rewrite (enabled_gloop _ _ _ _ s r (fun i => s = 12)).
  - rewrite map_length. split; [|right; assumption]. intros [(sel & H & E)|H]; [|exact H].
    cbn [In] in H. or_cases H.
  - intros i x st. unfold oblock. split.
    + intros (sel & H & E). cbn [In app] in H. or_cases H; injection H as <- <-; subst s; cbn; auto.
    + intros [-> ->]; sel_tac.
Qed.
Lemma enabled_uops m ve s r :
  enabled_in (uops m ve) s r <-> r < length (input_matrix m) /\ s = 13.
Proof.
  unfold uops. rewrite enabled_app.
  rewrite (enabled_gloop _ _ _ _ s r (fun i => s = 13)).
  - rewrite map_length, seq_length. split; [|right; assumption].
    intros [(sel & H & E)|H]; [|exact H]. cbn [In] in H. or_cases H.
  - intros i x st. unfold cblock. split.
    + intros (sel & H & E). cbn [In app] in H. or_cases H; injection H as <- <-; subst s; cbn; auto.
    + intros [-> ->]; sel_tac.
Qed.
Lemma enabled_gops m ve s r :
  enabled_in (gops m ve) s r <-> r < length (program m) /\ s = 14.
Proof.
  unfold gops. rewrite enabled_app.
  rewrite (enabled_gloop _ _ _ _ s r (fun i => s = 14)).
  - rewrite map_length, seq_length. split; [|right; assumption].
    intros [(sel & H & E)|H]; [|exact H]. cbn [In] in H. or_cases H.
  - intros i x st. unfold cblock. split.
    + intros (sel & H & E). cbn [In app] in H. or_cases H; injection H as <- <-; subst s; cbn; auto.
    + intros [-> ->]; sel_tac.
Qed.

Lemma region_enabled m ve s r :
  enabled_in (region_ops m ve) s r <-> sel_spec (sizes_of m) s r = true.
Proof.
  unfold region_ops. rewrite !enabled_app.
  rewrite enabled_pops, enabled_mops, enabled_iops, enabled_oops, enabled_uops, enabled_gops.
  unfold sel_spec, sizes_of. cbn [zp zm zi zo zu zg].
  do 15 (destruct s as [|s];
         [rewrite ?Nat.ltb_lt, ?Nat.eqb_eq; split;
          [intros H; repeat match goal with
             | H : _ \/ _ |- _ => destruct H | H : _ /\ _ |- _ => destruct H end;
           try discriminate; try assumption; try lia
          |intros H; lia]|]).
  split; [|discriminate]. intros H.
  repeat match goal with H : _ \/ _ |- _ => destruct H | H : _ /\ _ |- _ => destruct H end;
    discriminate.
Qed.

(** ** Instance copies *)
Lemma in_region_instance ic ir c r v m ve :
  In (RInstance ic ir c r v) (region_ops m ve) <->
  (ic = 1 /\ ir = S r /\ c = u_val (in_config conf) /\ r < length (input_matrix m) /\
   v = ve_instance ve 1 (S r)) \/
  (ic = 0 /\ ir = S r /\ c = g_code (prog_config conf) /\ r < length (program m) /\
   v = ve_instance ve 0 (S r)).
Proof.
  assert (Hc : forall s_rs val rs_col k len gam init,
    In (RInstance ic ir c r v)
       (gloop (cblock s_rs val rs_col k) (sum_step gam)
          (map (fun i => ve_instance ve k (S i)) (seq 0 len)) 0 init) <->
    ic = k /\ ir = S r /\ c = val /\ r < len /\ v = ve_instance ve k (S r)).
  { intros. rewrite in_gloop. split.
    - intros (i & x & Hx & H). unfold cblock in H. cbn [In Nat.add] in H. or_cases H.
      injection H as <- <- <- <- <-.
      pose proof (nth_error_lt _ _ _ Hx) as Hl. rewrite map_length, seq_length in Hl.
      rewrite nth_error_map in Hx.
      rewrite (nth_error_nth' (seq 0 len) 0) in Hx by (rewrite seq_length; exact Hl).
      rewrite seq_nth in Hx by exact Hl. cbn [option_map Nat.add] in Hx. injection Hx as <-. auto.
    - intros (-> & -> & -> & Hr & ->). exists r, (ve_instance ve k (S r)). split.
      + rewrite nth_error_map, (nth_error_nth' (seq 0 len) 0) by (rewrite seq_length; exact Hr).
        rewrite seq_nth by exact Hr. reflexivity.
      + right. left. reflexivity. }
  unfold region_ops. rewrite !in_app_iff. split.
  - intros [H|[H|[H|[H|[H|H]]]]].
    + exfalso. apply in_pops in H. destruct H as [H|(i & x & _ & H)]; [cbn [In] in H; or_cases H|].
      destruct (fold_left _ _ _) as [[[a b] o] u]. unfold pblock in H.
      destruct (S i <? length (processor_matrix m)); cbn [In app] in H; or_cases H.
    + exfalso. unfold mops in H. apply in_app_or in H. destruct H as [H|H]; [cbn [In] in H; or_cases H|].
      apply in_gloop in H. destruct H as (i & x & _ & H). unfold mblock in H. cbn [Nat.add] in H.
      destruct (S i <? length (memory_matrix m)); cbn [In app] in H; or_cases H.
    + exfalso. unfold iops in H. apply in_app_or in H. destruct H as [H|H]; [cbn [In] in H; or_cases H|].
      apply in_gloop in H. destruct H as (i & x & _ & H). unfold iblock in H. cbn [Nat.add] in H.
      destruct (S i <? length (instruction_matrix m)); cbn [In app] in H; or_cases H.
    + exfalso. unfold oops in H. apply in_app_or in H. destruct H as [H|H]; [cbn [In] in H; or_cases H|].
      apply in_gloop in H. destruct H as (i & x & _ & H). unfold oblock in H.
      cbn [In app] in H; or_cases H.
    + unfold uops in H. apply in_app_or in H. destruct H as [H|H]; [cbn [In] in H; or_cases H|].
      apply Hc in H. left. exact H.
    + unfold gops in H. apply in_app_or in H. destruct H as [H|H]; [cbn [In] in H; or_cases H|].
      apply Hc in H. right. exact H.
  - intros [H|H].
    + do 4 right. left. unfold uops. apply in_or_app. right. apply Hc. exact H.
    + do 5 right. unfold gops. apply in_or_app. right. apply Hc. exact H.
Qed.

Lemma region_no_fixed m ve c r v : ~ In (RFixed c r v) (region_ops m ve).
Proof.
  unfold region_ops. rewrite !in_app_iff. intros H.
  assert (G : forall k ops, owned k ops -> k < 6 -> ~ In (RFixed c r v) ops).
  { intros k ops Ho Hk Hi. pose proof (proj2 (Ho _ Hi) _ _ eq_refl) as E. cbn [owner] in E. lia. }
  destruct H as [H|[H|[H|[H|[H|H]]]]].
  - exact (G 0 _ (pops_owned m ve) ltac:(lia) H).
  - exact (G 1 _ (mops_owned m ve) ltac:(lia) H).
  - exact (G 2 _ (iops_owned m ve) ltac:(lia) H).
  - exact (G 3 _ (oops_owned m ve) ltac:(lia) H).
  - exact (G 4 _ (uops_owned m ve) ltac:(lia) H).
  - exact (G 5 _ (gops_owned m ve) ltac:(lia) H).
Qed.

(** ** Key generation *)
Lemma in_table_ops o :
  In o table_ops <->
  (exists i, i < 256 /\ o = OFixed 0 i (known (FrZ (Z.of_nat i)))) \/ o = OFill 0 256 (known (FrZ 0)).
Proof.
  unfold table_ops. rewrite in_app_iff. cbn [In].
  assert (G : forall len k,
    In o (map (fun iv => OFixed 0 (fst iv) (snd iv))
            (combine (seq k len) (map (fun i => known (FrZ (Z.of_nat i))) (seq k len)))) <->
    exists i, k <= i < k + len /\ o = OFixed 0 i (known (FrZ (Z.of_nat i)))).
  { induction len as [|len IH]; intros k; cbn [seq map combine In].
    - split; [intros []|]. intros (i & Hi & _). lia.
    - rewrite IH. cbn [fst snd]. split.
      + intros [<-|(i & Hi & ->)]; [exists k|exists i]; (split; [lia|reflexivity]).
      + intros (i & Hi & ->). destruct (Nat.eq_dec i k) as [->|Ne]; [left; reflexivity|].
        right. exists i. split; [lia|reflexivity]. }
  change (range_values DOMAIN) with (map (fun i => known (FrZ (Z.of_nat i))) (seq 0 256)).
  rewrite G. split.
  - intros [(i & Hi & ->)|[<-|[]]]; [left; exists i; split; [lia|reflexivity]|right; reflexivity].
  - intros [(i & Hi & ->)| ->]; [left; exists i; split; [lia|reflexivity]|right; left; reflexivity].
Qed.

Lemma kg_all n m ve :
  (forall o, In o (all_ops m ve) -> kg_ok bcs n o) <-> fits n (sizes_of m).
Proof.
  unfold fits, sizes_of. cbn [zp zm zi zo zu zg]. unfold all_ops. split.
  - intros H.
    assert (Hf : kg_ok bcs n (OFill 0 256 (known (FrZ 0)))).
    { apply H. apply in_or_app. left. apply in_table_ops. right. reflexivity. }
    assert (Hcp : forall o, In o (copy_ops m) -> kg_ok bcs n o).
    { intros o Ho. apply H. apply in_or_app. right. apply in_or_app. right. exact Ho. }
    cbn [kg_ok] in Hf. rewrite bcs_usable in Hf.
    assert (G : forall lc lr rc rr, In (OCopy lc lr rc rr) (copy_ops m) -> lr < n - 6 /\ rr < n - 6).
    { intros lc lr rc rr Ho. apply Hcp in Ho. cbn [kg_ok] in Ho. rewrite bcs_usable in Ho. tauto. }
    pose proof (G _ _ _ _ (or_intror (or_intror (or_introl eq_refl)))) as G1.
    pose proof (G _ _ _ _ (or_intror (or_intror (or_intror (or_introl eq_refl))))) as G2.
    pose proof (G _ _ _ _ (or_intror (or_intror (or_intror (or_intror (or_introl eq_refl)))))) as G3.
    pose proof (G _ _ _ _ (or_intror (or_intror (or_intror (or_intror (or_intror (or_intror
                             (or_introl eq_refl)))))))) as G4.
    tauto.
  - intros (F0 & F1 & F2 & F3 & F4 & F5 & F6) o Ho.
    rewrite !in_app_iff in Ho. destruct Ho as [Ho|[Ho|Ho]].
    + apply in_table_ops in Ho. destruct Ho as [(i & Hi & ->)| ->]; cbn [kg_ok];
        rewrite bcs_usable; cbn [num_fixed bcs]; (repeat split; [lia|lia|discriminate]).
    + destruct o as [s r|c r v|ic ir|lc lr rc rr|c r v|c r v]; cbn [kg_ok]; rewrite ?bcs_usable.
      * apply in_place_enable in Ho.
        assert (E : sel_spec (sizes_of m) (sel_index s) r = true).
        { apply (region_enabled m ve). exists s. split; [exact Ho|reflexivity]. }
        unfold sel_spec, sizes_of in E. cbn [zp zm zi zo zu zg] in E. revert E.
        generalize (sel_index s). intros k.
        do 15 (destruct k as [|k]; [rewrite ?Nat.ltb_lt, ?Nat.eqb_eq; intros; lia|]).
        discriminate.
      * exact I.
      * apply in_place_query in Ho. destruct Ho as (c & r & v & Ho).
        apply in_region_instance in Ho. destruct Ho as [(_ & -> & _ & Hr & _)|(_ & -> & _ & Hr & _)]; lia.
      * apply in_place_copy in Ho; [|apply region_no_equal].
        destruct Ho as (ic & c & v & Ho & -> & ->). apply in_region_instance in Ho.
        destruct Ho as [(-> & -> & -> & Hr & _)|(-> & -> & -> & Hr & _)];
          (split; [lia|split; [lia|split; reflexivity]]).
      * apply in_place_fixed in Ho. destruct (region_no_fixed _ _ _ _ _ Ho).
      * destruct (in_place_fill _ _ _ _ Ho).
    + unfold copy_ops in Ho. cbn [In] in Ho.
      repeat match type of Ho with False => destruct Ho | _ \/ _ => destruct Ho as [<-|Ho] end;
        cbn [kg_ok]; rewrite bcs_usable; (split; [lia|split; [lia|split; reflexivity]]).
Qed.

(** The fixed column holds 0..255 and then zeros. *)
Lemma fixed_fold u m ve :
  256 < u ->
  fold_left (fixed_step u) (all_ops m ve) (fun _ _ => f0) 0 =
  fold_left (fixed_step u) table_ops (fun _ _ => f0) 0.
Proof.
  intros Hu. unfold all_ops. rewrite fold_left_app.
  assert (G : forall ops F, (forall c r v, ~ In (OFixed c r v) ops) -> (forall c r v, ~ In (OFill c r v) ops) ->
     fold_left (fixed_step u) ops F = F).
  { induction ops as [|o ops IH]; intros F H1 H2; [reflexivity|]. cbn [fold_left].
    rewrite IH.
    - destruct o; try reflexivity.
      + destruct (H1 _ _ _ (or_introl eq_refl)).
      + destruct (H2 _ _ _ (or_introl eq_refl)).
    - intros c r v H. apply (H1 c r v). right. exact H.
    - intros c r v H. apply (H2 c r v). right. exact H. }
  rewrite G; [reflexivity| |].
  - intros c r v H. apply in_app_or in H. destruct H as [H|H].
    + apply in_place_fixed in H. exact (region_no_fixed _ _ _ _ _ H).
    + unfold copy_ops in H. cbn [In] in H. or_cases H.
  - intros c r v H. apply in_app_or in H. destruct H as [H|H].
    + exact (in_place_fill _ _ _ _ H).
    + unfold copy_ops in H. cbn [In] in H. or_cases H.
Qed.
Lemma table_fold u r :
  256 < u ->
  fold_left (fixed_step u) table_ops (fun _ _ => f0) 0 r
  = if r <? 256 then FrZ (Z.of_nat r) else f0.
Proof.
  intros Hu. unfold table_ops. rewrite fold_left_app. cbn [fold_left fixed_step known].
  assert (G : forall len k F,
    fold_left (fixed_step u)
      (map (fun iv => OFixed 0 (fst iv) (snd iv))
         (combine (seq k len) (map (fun i => known (FrZ (Z.of_nat i))) (seq k len)))) F 0 r
    = if (k <=? r) && (r <? k + len) then FrZ (Z.of_nat r) else F 0 r).
  { induction len as [|len IH]; intros k F; cbn [seq map combine fold_left].
    - destruct (k <=? r) eqn:E1; [|reflexivity]. apply Nat.leb_le in E1.
      destruct (r <? k + 0) eqn:E2; [apply Nat.ltb_lt in E2; lia|reflexivity].
    - rewrite IH. cbn [fixed_step known fst snd]. rewrite Nat.eqb_refl. cbn [andb].
      destruct (S k <=? r) eqn:E1; destruct (r <? S k + len) eqn:E2;
      destruct (k <=? r) eqn:E3; destruct (r <? k + S len) eqn:E4; destruct (r =? k) eqn:E5;
      cbn [andb];
      rewrite ?Nat.leb_le, ?Nat.leb_gt, ?Nat.ltb_lt, ?Nat.ltb_ge, ?Nat.eqb_eq, ?Nat.eqb_neq in *;
      try reflexivity; try lia; subst; try reflexivity. }
  change (range_values DOMAIN) with (map (fun i => known (FrZ (Z.of_nat i))) (seq 0 256)).
  rewrite G. cbn [Nat.eqb andb]. change (0 + 256) with 256.
  destruct (r <? 256) eqn:E3.
  - apply Nat.ltb_lt in E3. rewrite (proj2 (Nat.leb_gt 256 r) E3). reflexivity.
  - apply Nat.ltb_ge in E3. rewrite (proj2 (Nat.leb_le 256 r) E3). destruct (r <? u); [reflexivity|].
    cbn [andb]. destruct (0 <=? r); reflexivity.
Qed.

Lemma fixed_all n m ve r :
  256 < n - 6 ->
  fold_left (fixed_step (usable_rows n bcs)) (all_ops m ve) (asm_fixed asm_new) 0 r
  = if r <? 256 then FrZ (Z.of_nat r) else f0.
Proof.
  intros Hu. rewrite bcs_usable. unfold asm_new, asm_fixed. rewrite fixed_fold by exact Hu.
  exact (table_fold _ r Hu).
Qed.

(** What key generation fixes. *)
Record key_for (m : matrix) (asm : assembly) : Prop := mkKey {
  key_sel : forall s r, In (s, r) (asm_enabled asm) <-> sel_spec (sizes_of m) s r = true;
  key_fixed : forall r, asm_fixed asm 0 r = if r <? 256 then FrZ (Z.of_nat r) else f0;
  key_copies : forall x y, In (x, y) (asm_copies asm) <->
    In (OCopy (fst x) (snd x) (fst y) (snd y)) (all_ops m unknown_env)
}.
Lemma bf_keygen_eq n m :
  bf_keygen n m =
  elet ops := synthesize conf m unknown_env in elet a := keygen bcs n ops in EOk (conf, bcs, a).
Proof. unfold bf_keygen. rewrite configure_ok. reflexivity. Qed.
Lemma keygen_iff n m :
  (exists k, bf_keygen n m = EOk k) <->
  fits n (sizes_of m) /\ getchar_ok (processor_matrix m) = true.
Proof.
  rewrite bf_keygen_eq, synthesize_eq. split.
  - intros [k H]. destruct (getchar_ok (processor_matrix m)); cbn [ebind] in H; [|discriminate].
    split; [|reflexivity]. unfold keygen in H. destruct (n <? minimum_rows bcs); [discriminate|].
    destruct (keygen_ops bcs n (all_ops m unknown_env) asm_new) as [a| |] eqn:E;
      cbn [ebind] in H; try discriminate.
    apply (kg_all n m unknown_env). exact (keygen_ops_inv _ _ _ _ _ E).
  - intros [F ->]. cbn [ebind]. unfold keygen.
    assert (Hn : (n <? minimum_rows bcs) = false).
    { apply Nat.ltb_ge. rewrite bcs_min. destruct F. lia. }
    rewrite Hn. destruct (keygen_ops_ok bcs n (all_ops m unknown_env) asm_new) as (a & E & _).
    { apply kg_all. exact F. }
    rewrite E. cbn [ebind]. eexists. reflexivity.
Qed.
Lemma eok_inj {A} (x y : A) : EOk x = EOk y -> x = y.
Proof. intros H. injection H as ->. reflexivity. Qed.
Lemma keygen_asm n m c s asm :
  bf_keygen n m = EOk (c, s, asm) ->
  c = conf /\ s = bcs /\ keygen_ops bcs n (all_ops m unknown_env) asm_new = EOk asm.
Proof.
  intros H. assert (F : fits n (sizes_of m) /\ getchar_ok (processor_matrix m) = true).
  { apply keygen_iff. eexists. exact H. }
  destruct F as [F G]. rewrite bf_keygen_eq, synthesize_eq, G in H.
  cbn [ebind] in H. unfold keygen in H. destruct (n <? minimum_rows bcs); [discriminate|].
  destruct (keygen_ops bcs n (all_ops m unknown_env) asm_new) as [a| |] eqn:E; [|discriminate|discriminate].
  cbn [ebind] in H. apply eok_inj in H. apply pair_equal_spec in H. destruct H as [H E3].
  apply pair_equal_spec in H. destruct H as [E1 E2].
  split; [symmetry; exact E1|]. split; [symmetry; exact E2|]. rewrite E3. reflexivity.
Qed.
Lemma enabled_all m s r :
  (exists sel, In (OEnable sel r) (all_ops m unknown_env) /\ sel_index sel = s) <->
  enabled_in (region_ops m unknown_env) s r.
Proof.
  unfold enabled_in, all_ops. split.
  - intros (sel & Hi & Hs). exists sel. split; [|exact Hs].
    rewrite !in_app_iff in Hi. destruct Hi as [Hi|[Hi|Hi]].
    + apply in_table_ops in Hi. destruct Hi as [(i & _ & Hi)|Hi]; discriminate.
    + apply in_place_enable. exact Hi.
    + unfold copy_ops in Hi. cbn [In] in Hi. or_cases Hi.
  - intros (sel & Hi & Hs). exists sel. split; [|exact Hs].
    rewrite !in_app_iff. right. left. apply in_place_enable. exact Hi.
Qed.
Lemma keygen_spec n m c s asm :
  bf_keygen n m = EOk (c, s, asm) ->
  c = conf /\ s = bcs /\ fits n (sizes_of m) /\ getchar_ok (processor_matrix m) = true /\
  key_for m asm.
Proof.
  intros H. assert (F : fits n (sizes_of m) /\ getchar_ok (processor_matrix m) = true).
  { apply keygen_iff. eexists. exact H. }
  destruct F as [F G]. apply keygen_asm in H. destruct H as (-> & -> & H).
  destruct (keygen_ops_ok bcs n (all_ops m unknown_env) asm_new) as (a & E & S1 & C1 & F1).
  { apply kg_all. exact F. }
  rewrite H in E. injection E as <-.
  split; [reflexivity|]. split; [reflexivity|]. split; [exact F|]. split; [exact G|]. constructor.
  - intros s r. rewrite S1, enabled_all, region_enabled. cbn [asm_new asm_enabled In]. tauto.
  - intros r. rewrite F1. apply fixed_all. destruct F. assumption.
  - intros x y. rewrite C1. cbn [asm_new asm_copies In]. tauto.
Qed.

(** ** The constraints as equations *)
Definition prev_row (n r : nat) : nat := match r with O => n - 1 | S r => r end.
Record sat (n : nat) (z : sizes) (inst : nat -> nat -> Fr) (ch : nat -> Fr) (A : nat -> nat -> Fr) : Prop := mkSat {
  sat_rows : forall r, row_eqs (fun s => sel_spec z s r) (fun c => A c r) (fun c => A c (S r))
                               (fun c => A c (prev_row n r)) ch;
  sat_range : forall r, r < zp z -> exists k, (0 <= k < 256)%Z /\ A 5 r = FrZ k;
  sat_code_len : A 26 0 = inst 0 0;
  sat_input_len : A 23 0 = inst 1 0;
  sat_code : forall r, r < zg z -> A 25 r = inst 0 (S r);
  sat_input : forall r, r < zu z -> A 22 r = inst 1 (S r);
  sat_mem_prp : A 7 (zp z) = A 14 (zm z);
  sat_out_rs : A 21 (zo z) = A 9 (zp z);
  sat_in_rs : A 24 (zu z) = A 10 (zp z);
  sat_inst_prp : A 8 (zp z) = A 18 (zi z);
  sat_code_rs : A 27 (zg z) = A 19 (zi z)
}.

Lemma row_eqs_ext on on' A B P ch B' P' :
  (forall s, on s = on' s) ->
  (forall s, on s = true -> s <> 3 -> s <> 10 -> forall c, B c = B' c) ->
  (on 10 = true -> forall c, P c = P' c) ->
  row_eqs on A B P ch -> row_eqs on' A B' P' ch.
Proof.
  intros Ho HB HP H. destruct H. constructor; intros Hon; rewrite <- Ho in Hon;
    try (rewrite <- !(HB _ Hon) by discriminate); try (rewrite <- !(HP Hon)); auto.
Qed.

Lemma sel_spec_small n z s r : fits n z -> sel_spec z s r = true -> s <> 3 -> s <> 10 -> S r < n.
Proof.
  intros (F0 & F1 & F2 & F3 & F4 & F5 & F6) E N3 N10. unfold sel_spec in E. revert E.
  do 15 (destruct s as [|s]; [rewrite ?Nat.ltb_lt; intros; try lia|]). discriminate.
Qed.

Lemma satisfied_iff n m c s asm A insts ch :
  bf_keygen n m = EOk (c, s, asm) ->
  satisfied s (asm_copies asm) (assign_with n asm A insts ch) <->
  sat n (sizes_of m) (instance_fn insts) ch A.
Proof.
  intros H. apply keygen_spec in H. destruct H as (-> & -> & F & G & K).
  set (z := sizes_of m) in *.
  assert (Hsel : forall s r,
     existsb (fun e => Nat.eqb (fst e) s && Nat.eqb (snd e) r) (asm_enabled asm) = sel_spec z s r).
  { intros s r. destruct (sel_spec z s r) eqn:E.
    - apply existsb_exists. exists (s, r). split; [apply (key_sel _ _ K); exact E|].
      cbn [fst snd]. rewrite !Nat.eqb_refl. reflexivity.
    - destruct (existsb _ _) eqn:E2; [|reflexivity]. apply existsb_exists in E2.
      destruct E2 as ([s' r'] & Hi & E2). cbn [fst snd] in E2. apply andb_true_iff in E2.
      rewrite !Nat.eqb_eq in E2. destruct E2 as [-> ->]. apply (key_sel _ _ K) in Hi. fold z in Hi. congruence. }
  pose proof F as F'. destruct F' as (F0 & F1 & F2 & F3 & F4 & F5 & F6).
  unfold satisfied. rewrite gates_hold_iff. unfold eqs_at. cbn [as_n as_sel as_advice as_challenge assign_with].
  split.
  - intros (Hg & Hl & Hc).
    assert (Hcp : forall lc lr rc rr, In (OCopy lc lr rc rr) (all_ops m unknown_env) ->
       cell_value (assign_with n asm A insts ch) (lc, lr) = cell_value (assign_with n asm A insts ch) (rc, rr)).
    { intros lc lr rc rr Hi. apply Hc. apply (key_copies _ _ K). exact Hi. }
    assert (Hcp1 : forall lc lr rc rr, In (OCopy lc lr rc rr) (copy_ops m) ->
       cell_value (assign_with n asm A insts ch) (lc, lr) = cell_value (assign_with n asm A insts ch) (rc, rr)).
    { intros. apply Hcp. unfold all_ops. rewrite !in_app_iff. right. right. assumption. }
    assert (Hcp2 : forall lc lr rc rr v c ic, In (RInstance ic rr c lr v) (region_ops m unknown_env) ->
       lc = CAdvice c -> rc = CInstance ic ->
       cell_value (assign_with n asm A insts ch) (lc, lr) = cell_value (assign_with n asm A insts ch) (rc, rr)).
    { intros lc lr rc rr v c ic Hi -> ->. apply Hcp. unfold all_ops. rewrite !in_app_iff. right. left.
      apply in_place_copy; [apply region_no_equal|]. exists ic, c, v. auto. }
    constructor.
    + intros r. destruct (lt_dec r n) as [Hr|Hr].
      * refine (row_eqs_ext _ _ _ _ _ _ _ _ _ _ _ (Hg r Hr)).
        -- intros s. apply Hsel.
        -- cbv beta. intros s Hs N3 N10 c. rewrite Hsel in Hs.
           rewrite rotate_1; [reflexivity|]. exact (sel_spec_small _ _ _ _ F Hs N3 N10).
        -- cbv beta. intros Hs c. rewrite Hsel in Hs. cbn [sel_spec] in Hs. apply Nat.eqb_eq in Hs.
           destruct r as [|r]; [rewrite rotate_m1_0 by lia|rewrite rotate_m1 by lia]; reflexivity.
      * assert (Off : forall s, sel_spec z s r = false).
        { intros s. destruct (sel_spec z s r) eqn:E; [|reflexivity]. exfalso.
          destruct (Nat.eq_dec s 3) as [->|N3]; [cbn [sel_spec] in E; apply Nat.eqb_eq in E; lia|].
          destruct (Nat.eq_dec s 10) as [->|N10]; [cbn [sel_spec] in E; apply Nat.eqb_eq in E; lia|].
          pose proof (sel_spec_small _ _ _ _ F E N3 N10). lia. }
        constructor; intros Hs; rewrite Off in Hs; discriminate.
    + intros r Hr.
      destruct (Hl (nth 0 (lookups bcs) ([], [])) r) as (r' & Hr' & E).
      { left. reflexivity. }
      { cbn [as_n assign_with]. rewrite bcs_usable. lia. }
      cbn [as_n assign_with] in Hr'. rewrite bcs_usable in Hr'.
      unfold bcs in E. cbn [lookups nth fst snd map] in E. unfold eval in E.
      cbn [evaluate sel_index sel_simple q_col q_rot as_sel as_advice as_fixed as_n assign_with] in E.
      rewrite Hsel in E. cbn [sel_spec] in E. rewrite (proj2 (Nat.ltb_lt _ _) Hr) in E.
      rewrite !rotate_0 in E by lia. injection E as E. rewrite (key_fixed _ _ K) in E.
      assert (E1 : A 5 r = if r' <? 256 then FrZ (Z.of_nat r') else f0) by (rewrite <- E; ring).
      destruct (r' <? 256) eqn:Er.
      * apply Nat.ltb_lt in Er. exists (Z.of_nat r'). split; [lia|exact E1].
      * exists 0%Z. split; [lia|exact E1].
    + exact (Hcp1 _ _ _ _ (or_introl eq_refl)).
    + exact (Hcp1 _ _ _ _ (or_intror (or_introl eq_refl))).
    + intros r Hr. refine (Hcp2 _ _ _ _ (ve_instance unknown_env 0 (S r)) (g_code (prog_config conf)) 0 _ eq_refl eq_refl).
      apply in_region_instance. right.
      split; [reflexivity|]. split; [reflexivity|]. split; [reflexivity|]. split; [exact Hr|reflexivity].
    + intros r Hr. refine (Hcp2 _ _ _ _ (ve_instance unknown_env 1 (S r)) (u_val (in_config conf)) 1 _ eq_refl eq_refl).
      apply in_region_instance. left.
      split; [reflexivity|]. split; [reflexivity|]. split; [reflexivity|]. split; [exact Hr|reflexivity].
    + exact (Hcp1 _ _ _ _ (or_intror (or_intror (or_introl eq_refl)))).
    + exact (Hcp1 _ _ _ _ (or_intror (or_intror (or_intror (or_introl eq_refl))))).
    + exact (Hcp1 _ _ _ _ (or_intror (or_intror (or_intror (or_intror (or_introl eq_refl)))))).
    + exact (Hcp1 _ _ _ _ (or_intror (or_intror (or_intror (or_intror (or_intror (or_introl eq_refl))))))).
    + exact (Hcp1 _ _ _ _ (or_intror (or_intror (or_intror (or_intror (or_intror (or_intror
         (or_introl eq_refl)))))))).
  - intros Hs. split; [|split].
    + intros r Hr. refine (row_eqs_ext _ _ _ _ _ _ _ _ _ _ _ (sat_rows _ _ _ _ _ Hs r)).
      -- intros s. symmetry. apply Hsel.
      -- cbv beta. intros s Hon N3 N10 c. rewrite rotate_1; [reflexivity|].
         exact (sel_spec_small _ _ _ _ F Hon N3 N10).
      -- cbv beta. intros Hon c. cbn [sel_spec] in Hon. apply Nat.eqb_eq in Hon.
         destruct r as [|r]; [rewrite rotate_m1_0 by lia|rewrite rotate_m1 by lia]; reflexivity.
    + intros l r Hl Hr. cbn [as_n assign_with] in *. rewrite bcs_usable in *.
      unfold bcs in Hl. cbn [lookups In] in Hl. destruct Hl as [<-|[]].
      cbn [fst snd map]. unfold eval.
      cbn [evaluate sel_index sel_simple q_col q_rot as_sel as_advice as_fixed as_n assign_with].
      rewrite Hsel. cbn [sel_spec].
      assert (E : exists k, k < 256 /\ (if r <? zp z then A 5 r else f0) = FrZ (Z.of_nat k)).
      { destruct (r <? zp z) eqn:Er.
        - apply Nat.ltb_lt in Er. destruct (sat_range _ _ _ _ _ Hs r Er) as (k & Hk & E).
          exists (Z.to_nat k). rewrite Z2Nat.id by lia. split; [lia|exact E].
        - exists 0. split; [lia|reflexivity]. }
      destruct E as (k & Hk & E). exists k. split; [lia|]. f_equal.
      rewrite !rotate_0 by lia. rewrite (key_fixed _ _ K), (proj2 (Nat.ltb_lt _ _) Hk), <- E.
      destruct (r <? zp z); fring.
    + intros x y Hi. apply (key_copies _ _ K) in Hi. unfold all_ops in Hi. rewrite !in_app_iff in Hi.
      destruct x as [lc lr], y as [rc rr]. cbn [fst snd] in Hi. destruct Hi as [Hi|[Hi|Hi]].
      * apply in_table_ops in Hi. destruct Hi as [(i & _ & Hi)|Hi]; discriminate.
      * apply in_place_copy in Hi; [|apply region_no_equal]. destruct Hi as (ic & c & v & Hi & -> & ->).
        apply in_region_instance in Hi.
        destruct Hi as [(-> & -> & -> & Hr & _)|(-> & -> & -> & Hr & _)].
        -- exact (sat_input _ _ _ _ _ Hs _ Hr).
        -- exact (sat_code _ _ _ _ _ Hs _ Hr).
      * unfold copy_ops in Hi. cbn [In] in Hi. or_cases Hi; injection Hi as <- <- <- <-.
        -- exact (sat_code_len _ _ _ _ _ Hs).
        -- exact (sat_input_len _ _ _ _ _ Hs).
        -- exact (sat_mem_prp _ _ _ _ _ Hs).
        -- exact (sat_out_rs _ _ _ _ _ Hs).
        -- exact (sat_in_rs _ _ _ _ _ Hs).
        -- exact (sat_inst_prp _ _ _ _ _ Hs).
        -- exact (sat_code_rs _ _ _ _ _ Hs).
Qed.
