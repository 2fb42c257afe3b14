(** How many challenges are unfortunate, and a run whose proof the on-chain
    program accepts. *)
From Coq Require Import ZArith List Arith Bool Lia.
From Verif Require Import Base Moduli Field FieldFacts LimbModel LimbSpec LimbBytes PolyFacts RootFacts Halo2Model SelectorSpec CircuitModel CircuitFacts VMInv Attack VMModel BFSpec CompileSpec
  SerdeModel SerdeSpec DomainModel DomainSpec DomainFacts VkModel VkSpec VkFacts EntryModel EntrySpec IopModel IopSpec IopFull ArithSpec KzgModel KzgFacts ShplonkSpec
  TranscriptModel TranscriptFacts VerifierModel VerifierSpec VerifierFacts VerifierThms VerifierBind VerifierProject VerifierCases RunKey CreateProject ProverModel ProverSpec GraphModel CreateModel
  CreateMessages CreateSpec CreateThms.
Import List ListNotations IopSpec.
Local Open Scope nat_scope.

Lemma lucky_few v n a (S_ : nat -> list Fr) theta :
  exists bad, length bad <= length (lookups (vk_cs v)) * n /\
  forall beta, ~ In beta bad -> exists bad', length bad' <= (length (lookups (vk_cs v)) + length (perm_columns (vk_cs v))) * n /\
  forall gamma, ~ In gamma bad' -> lucky v n a S_ theta beta gamma.
Proof.
  set (c := vk_cs v). set (u := usable_rows n c). set (w := d_omega (vk_domain v)). assert (Hu : u <= n) by (unfold u, usable_rows; lia).
  exists (flat_map (fun l => map (fun r => (- compressed_row (eval a) theta (fst l) r)%F) (seq 0 u)) (lookups c)).
  split. { rewrite (flat_length u) by (intros; rewrite map_length, seq_length; reflexivity). apply Nat.mul_le_mono_l, Hu. }
  intros beta Nb.
  exists (flat_map (fun l => map (fun r => (- compressed_row (eval a) theta (snd l) r)%F) (seq 0 u)) (lookups c) ++
    flat_map (fun i => map (fun r => (- (cell_value a (nth i (perm_columns c) (CFixed 0), r) + beta * peval (S_ i) (fpow w (Z.of_nat r))))%F) (seq 0 u)) (seq 0 (length (perm_columns c)))).
  split. { rewrite app_length, !(flat_length u) by (intros; rewrite map_length, seq_length; reflexivity). rewrite seq_length, <- Nat.mul_add_distr_r. apply Nat.mul_le_mono_l, Hu. }
  intros gamma Ng. split.
  - intros i col r Ei Hr X. apply Ng. apply in_app_iff. right. apply in_flat_map. exists i.
    split; [apply in_seq; assert (i < length (perm_columns c)) by (apply nth_error_Some; intros N; fold c in Ei; rewrite N in Ei; discriminate); lia|].
    apply in_map_iff. exists r. split; [|apply in_seq; exact (conj (Nat.le_0_l _) Hr)]. rewrite (nth_error_nth _ _ _ Ei). symmetry. apply add_opp. exact X.
  - intros l r Il Hr. split; intros X.
    + apply Nb. apply in_flat_map. exists l. split; [exact Il|]. apply in_map_iff. exists r. split; [|apply in_seq; exact (conj (Nat.le_0_l _) Hr)].
      symmetry. apply add_opp. etransitivity; [|exact X]; fring.
    + apply Ng. apply in_app_iff. left. apply in_flat_map. exists l. split; [exact Il|]. apply in_map_iff. exists r. split; [|apply in_seq; exact (conj (Nat.le_0_l _) Hr)].
      symmetry. apply add_opp. etransitivity; [|exact X]; fring.
Qed.

(** ** A hash that looks at lengths only *)
Definition hash_at (f : nat -> Fr) (st : list Z) : list Z := le_bytes 64 (fval (f (length st))).
Lemma hash_at_digest f : digest64 (hash_at f).
Proof. intros st. split; [apply le_bytes_byte|apply le_bytes_length]. Qed.
Lemma hash_at_is f st : challenge_of (hash_at f) st = f (length st).
Proof.
  unfold challenge_of, hash_at. pose proof (fval_range (f (length st))) as R. rewrite le_bytes_int by lia.
  rewrite Z.mod_small; [apply of_Z_fval|]. split; [lia|]. eapply Z.lt_trans; [apply R|reflexivity].
Qed.
Lemma draws f st b a st' rest : squeeze (hash_at f) st b = TOk a st' rest -> a = f (S (length st)) /\ length st' = S (length st) /\ rest = b.
Proof.
  rewrite squeeze_is by apply hash_at_digest. intros [= <- <- <-]. rewrite hash_at_is, app_length. cbn [length]. rewrite Nat.add_1_r. auto.
Qed.
Lemma bind_inv {A B} (t : transcript A) (f : A -> transcript B) st b x st' rest : tbind t f st b = TOk x st' rest ->
  exists a s1 b1, t st b = TOk a s1 b1 /\ f a s1 b1 = TOk x st' rest.
Proof. unfold tbind. destruct (t st b) as [a s1 b1| |]; try discriminate. eauto. Qed.
Lemma sized {A} (t : transcript A) n m st b a st' rest : exactly t n m -> Forall byte b -> t st b = TOk a st' rest -> length st' = length st + n /\ Forall byte rest.
Proof.
  intros E F H. destruct (ex_sizes _ _ _ E _ _ _ _ _ F H) as (s & c & -> & -> & L & _). rewrite app_length, L. split; [reflexivity|]. apply Forall_app in F. apply F.
Qed.

Section Drawn.
Variable f : nat -> Fr.
Lemma zero_phase ph : forall phs xs st b a st' rest, read_phase (squeeze (hash_at f)) ph phs xs st b = TOk a st' rest ->
  (forall l, l <= length st' -> f l = f0) -> Forall (eq f0) xs -> Forall (eq f0) a /\ length st <= length st'.
Proof.
  induction phs as [|q phs IH]; intros xs st b a st' rest H Z0 F.
  - cbn [read_phase] in H. injection H as <- <- <-. auto.
  - destruct xs as [|x xs]; cbn [read_phase] in H; [injection H as <- <- <-; auto|].
    apply bind_inv in H as (y & s1 & b1 & E1 & H). apply bind_inv in H as (ys & s2 & b2 & E2 & H). injection H as <- <- <-.
    inversion F as [|? ? Fx Fxs]. subst. destruct (IH _ _ _ _ _ _ E2 Z0 Fxs) as [F2 L2].
    destruct (Nat.eqb ph q).
    + apply draws in E1 as (-> & L1 & _). split; [|lia]. constructor; [|exact F2]. symmetry. apply Z0. lia.
    + injection E1 as <- <- <-. split; [constructor; [reflexivity|exact F2]|exact L2].
Qed.
Lemma zero_phases c : forall phs advice chs st b a st' rest, Forall byte b -> read_phases (hash_at f) c phs advice chs st b = TOk a st' rest ->
  (forall l, l <= length st' -> f l = f0) -> Forall (eq f0) chs -> Forall (eq f0) (snd a) /\ length st <= length st'.
Proof.
  induction phs as [|ph phs IH]; intros advice chs st b a st' rest Fb H Z0 F; cbn [read_phases] in H.
  - injection H as <- <- <-. auto.
  - apply bind_inv in H as (ad & s1 & b1 & E1 & H). apply bind_inv in H as (ch & s2 & b2 & E2 & H).
    destruct (sized _ _ _ _ _ _ _ _ (exactly_phase read_point 65 32 ph exactly_point (advice_phases c) advice) Fb E1) as [L1 F1].
    destruct (sized _ _ _ _ _ _ _ _ (exactly_phase (squeeze (hash_at f)) 1 0 ph (exactly_squeeze _) (challenge_phases c) chs) F1 E2) as [L2 F2].
    destruct (sized _ _ _ _ _ _ _ _ (exactly_phases (hash_at f) c phs ad ch) F2 H) as [L3 _].
    destruct (zero_phase ph _ _ _ _ _ _ _ E2) as [Fc _]; [intros l Hl; apply Z0; lia|exact F|].
    destruct (IH _ _ _ _ _ _ _ F2 H Z0 Fc) as [X Y]. split; [exact X|lia].
Qed.

Definition before_theta (v : vkey) (insts : list (list Fr)) : nat := 33 * (1 + length (concat insts)) + 65 * advice_reads v + challenge_reads v.
Definition at_beta (v : vkey) (insts : list (list Fr)) : nat := S (S (before_theta v insts) + 130 * length (lookups (vk_cs v))).
Definition at_x (v : vkey) (insts : list (list Fr)) : nat := 33 * (1 + length (concat insts)) + 65 * points_count v + challenge_reads v + 5.
Lemma drawn tr v insts bytes ms st rest : Forall byte bytes -> read_messages (hash_at f) tr v insts [] bytes = TOk ms st rest ->
  (forall l, l <= before_theta v insts -> f l = f0) ->
  Forall (eq f0) (ms_challenges ms) /\ ms_theta ms = f (S (before_theta v insts)) /\ ms_beta ms = f (at_beta v insts) /\ ms_gamma ms = f (S (at_beta v insts)) /\
  ms_x ms = f (at_x v insts) /\ length st = at_x v insts.
Proof.
  intros F H Z0. pose proof H as H0. destruct (sized _ _ _ _ _ _ _ _ (exactly_messages (hash_at f) tr v insts) F H0) as [Ls _].
  cbn [length Nat.add] in Ls. pose proof (messages_x _ _ _ _ (hash_at_digest f) _ _ _ _ _ H0) as Ex. cbv beta in Ex. rewrite hash_at_is, Ls in Ex.
  unfold read_messages in H. apply bind_inv in H as (? & s1 & b1 & E1 & H). destruct (sized _ _ _ _ _ _ _ _ (exactly_common _) F E1) as [L1 F1].
  apply bind_inv in H as (? & s2 & b2 & E2 & H). destruct (sized _ _ _ _ _ _ _ _ (exactly_absorb _) F1 E2) as [L2 F2].
  apply bind_inv in H as ([advice chs] & s3 & b3 & E3 & H). destruct (sized _ _ _ _ _ _ _ _ (exactly_phases _ _ _ _ _) F2 E3) as [L3 F3].
  rewrite !repeat_length in L3. fold (advice_reads v) (challenge_reads v) in L3.
  assert (LB : length s3 = before_theta v insts) by (unfold before_theta; cbn [length] in L1; lia).
  destruct (zero_phases _ _ _ _ _ _ _ _ _ F2 E3) as [Fc _]; [intros l Hl; apply Z0; lia|apply Forall_forall; intros ? I; apply repeat_spec in I; congruence|]. cbn [snd] in Fc.
  apply bind_inv in H as (theta & s4 & b4 & E4 & H). apply draws in E4 as (Et & L4 & ->).
  apply bind_inv in H as (lks & s5 & b5 & E5 & H).
  assert (EX : exactly (trepeat (length (lookups (vk_cs v))) (get! a <- read_point; get! b <- read_point; tret (a, b))) (length (lookups (vk_cs v)) * (65 + (65 + 0))) (length (lookups (vk_cs v)) * (32 + (32 + 0)))).
  { apply exactly_repeat. apply exactly_bind; [apply exactly_point|intros ?]. apply exactly_bind; [apply exactly_point|intros ?]. apply exactly_ret. }
  destruct (sized _ _ _ _ _ _ _ _ EX F3 E5) as [L5 F5].
  apply bind_inv in H as (beta & s6 & b6 & E6 & H). apply draws in E6 as (Eb & L6 & ->).
  apply bind_inv in H as (gamma & s7 & b7 & E7 & H). apply draws in E7 as (Eg & L7 & ->).
  apply bind_inv in H as (? & s8 & b8 & _ & H). apply bind_inv in H as (? & s9 & b9 & _ & H). apply bind_inv in H as (? & s10 & b10 & _ & H).
  apply bind_inv in H as (? & s11 & b11 & _ & H). apply bind_inv in H as (? & s12 & b12 & _ & H). apply bind_inv in H as (? & s13 & b13 & _ & H).
  apply bind_inv in H as (? & s14 & b14 & _ & H). injection H as <- _ _. cbn [ms_challenges ms_theta ms_beta ms_gamma ms_x] in *.
  split; [exact Fc|]. split; [rewrite Et, LB; reflexivity|]. assert (LB2 : S (length s5) = at_beta v insts) by (unfold at_beta; lia).
  split; [rewrite Eb, LB2; reflexivity|]. split; [rewrite Eg, L6, LB2; reflexivity|]. split; [exact Ex|exact Ls].
Qed.
End Drawn.

(** ** The case: ",+." on "a" with 512 rows, and commitments in the group of one element *)
Definition one_group (_ : unit) : g1 := g1_identity.
Definition one_g2 : g2 := G2 (Fq2 lzero lzero) (Fq2 lzero lzero).
Definition one_params : kzg := Kzg 9 512 (repeat g1_identity (Z.to_nat (2 ^ 9))) (repeat g1_identity (Z.to_nat (2 ^ 9))) one_g2 one_g2.
Definition no_coins : coins := Coins (fun _ _ => f0) (fun _ _ => f0) (fun _ _ => f0) (fun _ _ => f0).
Notation plus1 := (fun _ _ : unit => Datatypes.tt).
Notation scale1 := (fun (_ : Fr) (_ : unit) => Datatypes.tt).
Notation scale1' := (fun (_ : Fr) (g : g2) => g).
Notation lift1 := (fun _ : g1 => Datatypes.tt).

Lemma one_module : is_module Datatypes.tt plus1 plus1 scale1.
Proof. constructor; intros; try reflexivity; match goal with a : unit |- _ => destruct a; reflexivity end. Qed.
Lemma one_points g : exists x y, g1_point (one_group g) x y.
Proof.
  exists f0, f0. unfold one_group, g1_identity. cbn [g1_x g1_y].
  assert (R : represents lzero (f0 : Fq)) by (split; [vm_compute; repeat split; intros; discriminate|reflexivity]).
  split; [exact R|]. split; [exact R|]. left. split; reflexivity.
Qed.
Lemma one_pairing : is_pairing scale1 scale1' one_g2 (pairing_check (fun _ : unit => true) (fun _ => true)).
Proof. intros s l r. split; [destruct r; reflexivity|]. intros _. unfold pairing_check. reflexivity. Qed.
Lemma unit_lists (a b : list unit) : length a = length b -> a = b.
Proof. revert b. induction a as [|[] a IH]; intros [|[] b] H; try discriminate; [reflexivity|]. f_equal. apply IH. injection H as H. exact H. Qed.
Lemma one_setup : setup scale1 Datatypes.tt scale1' one_g2 9 f0 = Ok (srs_of lift1 one_params).
Proof.
  rewrite setup_ok.
  - apply f_equal. unfold srs_of, one_params. cbn [kz_k kz_n kz_g kz_gl kz_g2 kz_sg2]. change (2 ^ 9)%Z with 512%Z.
    rewrite (unit_lists (map _ (seq 0 (Z.to_nat 512))) (map lift1 (repeat g1_identity (Z.to_nat 512)))) at 1 by (rewrite !map_length, seq_length, repeat_length; reflexivity).
    rewrite (unit_lists (map _ (seq 0 (Z.to_nat 512))) (map lift1 (repeat g1_identity (Z.to_nat 512)))) by (rewrite !map_length, seq_length, repeat_length; reflexivity).
    reflexivity.
  - lia.
  - rewrite <- pow_vartime_is by lia. apply zero_power. lia.
Qed.
Lemma one_valid : valid_params one_params.
Proof.
  constructor; unfold one_params; cbn [kz_k kz_n kz_g kz_gl kz_g2 kz_sg2]; try reflexivity; try apply repeat_length.
  - intros a [I|I]; apply repeat_spec in I; subst a; apply identity_coords.
  - split; (split; apply (proj1 identity_coords)).
  - split; (split; apply (proj1 identity_coords)).
Qed.

Definition case_hash (v : vkey) (insts : list (list Fr)) (beta gamma : Fr) (l : nat) : Fr :=
  if l =? at_beta v insts then beta else if l =? S (at_beta v insts) then gamma else if l <=? at_x v insts then f0 else f1.
Lemma order_at v insts : before_theta v insts + 1 < at_beta v insts /\ S (at_beta v insts) < at_x v insts.
Proof. unfold at_x, at_beta, before_theta, points_count. lia. Qed.
Lemma case_drawn tr v insts beta gamma bytes ms st rest : Forall byte bytes -> read_messages (hash_at (case_hash v insts beta gamma)) tr v insts [] bytes = TOk ms st rest ->
  ms_challenges ms = repeat f0 (num_challenges (vk_cs v)) /\ ms_theta ms = f0 /\ ms_beta ms = beta /\ ms_gamma ms = gamma /\ ms_x ms = f0 /\ length st = at_x v insts.
Proof.
  intros F H. destruct (order_at v insts) as [O1 O2].
  assert (Z0 : forall l, l < at_beta v insts -> case_hash v insts beta gamma l = f0).
  { intros l Hl. unfold case_hash. rewrite (proj2 (Nat.eqb_neq l (at_beta v insts))) by lia. rewrite (proj2 (Nat.eqb_neq l (S (at_beta v insts)))) by lia.
    rewrite (proj2 (Nat.leb_le l (at_x v insts))) by lia. reflexivity. }
  destruct (drawn _ _ _ _ _ _ _ _ F H) as (C & T & B & Gm & X & L); [intros l Hl; apply Z0; lia|].
  assert (N : length (ms_challenges ms) = num_challenges (vk_cs v)) by exact (mf_challenges _ _ (yields_messages _ _ _ _ _ _ _ _ _ H)).
  split. { rewrite <- N. clear - C. induction C as [|x l <- _ IH]; cbn [length repeat]; congruence. }
  rewrite T, B, Gm, X. split; [apply Z0; lia|]. unfold case_hash. rewrite Nat.eqb_refl. split; [reflexivity|].
  rewrite (proj2 (Nat.eqb_neq (S (at_beta v insts)) (at_beta v insts))) by lia. rewrite Nat.eqb_refl. split; [reflexivity|]. split; [|exact L].
  rewrite (proj2 (Nat.eqb_neq (at_x v insts) (at_beta v insts))) by lia. rewrite (proj2 (Nat.eqb_neq (at_x v insts) (S (at_beta v insts)))) by lia. rewrite Nat.leb_refl. reflexivity.
Qed.
Lemma case_not_unlucky tr {G} (of_affine : g1 -> G) p v insts beta gamma bytes : Forall byte bytes -> (0 < kz_n p)%Z ->
  ~ unlucky (hash_at (case_hash v insts beta gamma)) tr of_affine p v insts bytes.
Proof.
  intros F Hn [(m & st & rest & R & X)|(m & ops & y & vv & h1 & u & st & rest & R & t & Eu)].
  - destruct (case_drawn _ _ _ _ _ _ _ _ _ F R) as (_ & _ & _ & _ & Ex & _). rewrite Ex in X. exact (zero_power _ Hn X).
  - destruct (sized _ _ _ _ _ _ _ _ (exactly_opening _ tr of_affine p v insts) F R) as [Ls _].
    unfold read_opening in R. apply bind_inv in R as (mo & s1 & b1 & E1 & R). apply bind_inv in R as (y0 & s2 & b2 & _ & R). apply bind_inv in R as (v0 & s3 & b3 & _ & R).
    apply bind_inv in R as (h0 & s4 & b4 & _ & R). apply bind_inv in R as (u0 & s5 & b5 & E5 & R). unfold tret in R. injection R as -> <- <- <- <- <- _.
    apply draws in E5 as (Eu5 & L5 & _). unfold read_claims in E1. apply bind_inv in E1 as (m0 & s6 & b6 & E6 & E1).
    destruct (case_drawn _ _ _ _ _ _ _ _ _ F E6) as (_ & _ & _ & _ & Ex & _).
    assert (m0 = m).
    { apply bind_inv in E1 as (? & s7 & b7 & _ & E1). apply bind_inv in E1 as (sc & s8 & b8 & _ & E1). destruct (read_evals v sc) as [[e ?]|]; [|discriminate].
      match type of E1 with match ?o with _ => _ end _ _ = _ => destruct o as [| |ops'] end; [discriminate|discriminate|].
      apply bind_inv in E1 as (? & s9 & b9 & _ & E1). injection E1 as E1 _ _ _. exact E1. }
    subst m0. destruct (order_at v insts) as [O1 O2].
    assert (U1 : u0 = f1).
    { rewrite Eu5, <- L5, Ls. unfold case_hash. rewrite (proj2 (Nat.eqb_neq _ (at_beta v insts))) by (unfold at_x in *; cbn [length]; lia).
      rewrite (proj2 (Nat.eqb_neq _ (S (at_beta v insts)))) by (unfold at_x in *; cbn [length]; lia). rewrite (proj2 (Nat.leb_gt _ (at_x v insts))) by (unfold at_x in *; cbn [length]; lia). reflexivity. }
    rewrite Ex, U1 in Eu. apply Fr_1_neq_0. rewrite Eu. unfold rotate_omega. destruct (0 <=? t)%Z; fring.
Qed.

Lemma avoid_one (bad : list Fr) : (Z.of_nat (length bad) < 2 ^ 64)%Z -> exists x, ~ In x bad.
Proof.
  intros H. destruct (many_avoid 1 bad) as (l & _ & L & F).
  - eapply Z.lt_trans; [|exact (eq_refl : (2 ^ 65 < 2 ^ 128)%Z)]. change (2 ^ 65)%Z with (2 * 2 ^ 64)%Z. lia.
  - destruct l as [|x l]; [cbn [length] in L; lia|]. exists x. apply F. left. reflexivity.
Qed.
(** whatever the groups *)
Lemma small_accepted_in {G : Type} (zero : G) add sub scale gen scale2 gen2 of_affine to_affine is_zero pairing_product p t :
  is_module zero add sub scale -> (forall g, exists x y, g1_point (to_affine g) x y) -> (forall g, of_affine (to_affine g) = g) ->
  is_pairing scale scale2 gen2 (pairing_check is_zero pairing_product) -> setup scale gen scale2 gen2 9 t = Ok (srs_of of_affine p) -> valid_params p ->
  exists hash s p' v pk proof,
  let insts := statement [44; 43; 46]%Z [97%Z] in
  digest64 hash /\ VMModel.run Wrapping 10 (start (map FrZ [44; 43; 46]%Z) (easygen [97%Z])) = Finished s /\ shrink p SHRINK_K = Ok p' /\
  keygen_vk (commit_or_identity zero add of_affine to_affine p) Wrapping 9 (mat s) = EOk v /\ keygen_pk Wrapping 9 v (mat s) = EOk pk /\
  create_proof hash (fun _ => f0) zero add of_affine to_affine Wrapping p pk (bf_synth v (Z.to_nat (2 ^ 9)) (mat s) insts) insts no_coins = POk proof /\
  bf_program hash (fun _ => f0) zero add of_affine is_zero pairing_product Wrapping 18
    (tx_witness (write_kzg p') (write_vk RawBytes v) proof (code_bytes [44; 43; 46]%Z) [97%Z]) = Exit 0.
Proof.
  intros HM HA HO HI HS HV.
  assert (GG : exists s, VMModel.run Wrapping 10 (start (map FrZ [44; 43; 46]%Z) (easygen [97%Z])) = Finished s /\
     (length (instruction_matrix (mat s)), length (output_matrix (mat s))) = (7, 1)%nat)
    by (apply fin_ex; vm_compute; reflexivity).
  destruct GG as (s & Er & El). pose proof (f_equal fst El) as El1. cbn [fst] in El1.
  assert (Hp : parses [44; 43; 46]%Z [BFSpec.In; Inc; Out]) by apply P_in, P_inc, P_out, P_nil.
  assert (Hwd : (1 <= program_words [BFSpec.In; Inc; Out] < 1024)%Z) by (split; [discriminate|reflexivity]).
  assert (Hin : in_range 8 [97%Z]) by (repeat constructor; discriminate).
  assert (He : exists cfg, exec 8 [BFSpec.In; Inc; Out] (initial [97%Z]) (Done cfg) /\ unread cfg = []).
  { eexists. split; [eapply E_in; [reflexivity|]; apply E_inc, E_out, E_nil|reflexivity]. }
  destruct He as (cfg & He & Hu).
  assert (Hc : compile_to_u16 Wrapping [44; 43; 46]%Z = Ok [44; 43; 46]%Z) by reflexivity.
  assert (Hl : (lenZ (instruction_matrix (mat s)) + 6 < 2 ^ 9)%Z) by (unfold lenZ; rewrite El1; reflexivity).
  assert (Hk : kz_k p = 9%Z) by (apply setup_rows in HS; exact (proj2 HS)).
  assert (Hsh : exists p', shrink p SHRINK_K = Ok p') by (unfold shrink; rewrite Hk; eexists; reflexivity). destruct Hsh as (p' & Hsh).
  set (insts := statement [44; 43; 46]%Z [97%Z]).
  set (com := commit_or_identity zero add of_affine to_affine p).
  assert (K9 : (9 <= 9 <= 24)%Z) by lia.
  destruct (run_keys com Wrapping _ _ _ _ _ _ _ 9 Hp ltac:(lia) Hin He Hu (eq_refl : compile Wrapping [44; 43; 46]%Z = Ok (map FrZ [44; 43; 46]%Z)) Er K9 Hl)
    as (v & pk & fixed & copies & Ev & Ek & _ & _ & HW).
  rewrite public_statement in HW. fold insts in HW.
  destruct (HW (repeat f0 (num_challenges (vk_cs v))) (repeat_length _ _)) as (adv & EW & _). clear HW.
  destruct (key_sizes com Wrapping 9 (mat s) v Ev ltac:(lia)) as [NL NP].
  pose (n := Z.to_nat (2 ^ 9)). assert (Hn : Z.of_nat n = 512%Z) by reflexivity.
  pose (a := mkAssign n (fun _ _ => false) (fun i r => nth r (nth i (pk_fixed_values pk) []) f0) adv (instance_fn insts) (fun i => nth i (repeat f0 (num_challenges (vk_cs v))) f0)).
  destruct (lucky_few v n a (fun i => nth i (pk_sigma_polys pk) []) f0) as (bad & Lb & HB). rewrite NL in Lb.
  destruct (avoid_one bad) as (beta & Nb). { eapply Z.le_lt_trans; [apply inj_le, Lb|]. rewrite Nat2Z.inj_mul, Hn. reflexivity. }
  destruct (HB beta Nb) as (bad' & Lb' & HB'). rewrite NL, NP in Lb'.
  destruct (avoid_one bad') as (gamma & Ng). { eapply Z.le_lt_trans; [apply inj_le, Lb'|]. rewrite Nat2Z.inj_mul, Hn. reflexivity. }
  specialize (HB' gamma Ng). set (hash := hash_at (case_hash v insts beta gamma)).
  assert (Dh : digest64 hash) by apply hash_at_digest.
  destruct (run_accepted hash (fun _ => f0) zero add sub scale gen scale2 gen2 of_affine to_affine is_zero pairing_product p 9 t
    Dh HM HA HO HI HS K9 Wrapping 18 _ _ _ _ _ _ _ p' Hp Hwd Hin ltac:(cbn [length]; lia) He Hu Hc Er Hl HV Hsh (le_n 18))
    as (v' & pk' & Ev' & Ek' & H).
  assert (E : v' = v) by (apply eok_inj; etransitivity; [symmetry; exact Ev'|exact Ev]). subst v'.
  assert (E : pk' = pk) by (apply eok_inj; etransitivity; [symmetry; exact Ek'|exact Ek]). subst pk'. clear Ev' Ek'.
  specialize (H no_coins). cbv zeta in H. fold insts in H. destruct H as (ac & st & bytes & _ & Fb & (ms & st' & rest & R) & H).
  destruct H as [H|(last & EC & H)]; [exfalso; revert H; apply case_not_unlucky; [exact Fb|]; change (0 < sr_n (srs_of of_affine p))%Z; rewrite (proj1 (setup_rows _ _ _ _ _ _ _ HS)); reflexivity|].
  exists hash, s, p', v, pk, (bytes ++ last). cbv zeta. split; [exact Dh|]. split; [exact Er|]. split; [exact Hsh|]. split; [exact Ev|]. split; [exact Ek|].
  split; [exact EC|]. apply H. assert (PV : pk_vk pk = v).
  { destruct (GraphProject.project_facts com Wrapping 9 (mat s) v Ev ltac:(lia)) as (pk' & cols & sigma & fixed' & copies' & E' & HP & _).
    assert (E : pk' = pk) by (apply eok_inj; etransitivity; [symmetry; exact E'|exact Ek]). subst pk'. exact (PkFacts.pk_has_vk _ _ _ _ _ HP). } unfold fortunate. rewrite PV. exists ms, st', rest, adv. split; [exact R|].
  destruct (case_drawn _ _ _ _ _ _ _ _ _ Fb R) as (-> & -> & -> & -> & _ & _). split; [exact EW|]. exact HB'.
Qed.
Lemma small_accepted : exists hash s p' v pk proof,
  let insts := statement [44; 43; 46]%Z [97%Z] in
  digest64 hash /\ VMModel.run Wrapping 10 (start (map FrZ [44; 43; 46]%Z) (easygen [97%Z])) = Finished s /\
  setup scale1 Datatypes.tt scale1' one_g2 9 f0 = Ok (srs_of lift1 one_params) /\ shrink one_params SHRINK_K = Ok p' /\
  keygen_vk (commit_or_identity Datatypes.tt plus1 lift1 one_group one_params) Wrapping 9 (mat s) = EOk v /\ keygen_pk Wrapping 9 v (mat s) = EOk pk /\
  create_proof hash (fun _ => f0) Datatypes.tt plus1 lift1 one_group Wrapping one_params pk (bf_synth v (Z.to_nat (2 ^ 9)) (mat s) insts) insts no_coins = POk proof /\
  bf_program hash (fun _ => f0) Datatypes.tt plus1 lift1 (fun _ => true) (fun _ => true) Wrapping 18
    (tx_witness (write_kzg p') (write_vk RawBytes v) proof (code_bytes [44; 43; 46]%Z) [97%Z]) = Exit 0.
Proof.
  destruct (small_accepted_in Datatypes.tt plus1 plus1 scale1 Datatypes.tt scale1' one_g2 lift1 one_group (fun _ => true) (fun _ => true) one_params f0
    one_module one_points ltac:(intros []; reflexivity) one_pairing one_setup one_valid) as (hash & s & p' & v & pk & proof & H).
  exists hash, s, p', v, pk, proof. destruct H as (H1 & H2 & H3 & H4 & H5 & H6). exact (conj H1 (conj H2 (conj one_setup (conj H3 (conj H4 (conj H5 H6)))))).
Qed.
