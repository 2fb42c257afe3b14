(** A run whose proof can be computed: ",+." on "a" with 512 rows. *)
From Coq Require Import ZArith List Arith Bool Lia.
From Verif Require Import Base Moduli Field FieldFacts LimbSpec LimbModel PolyFacts RootFacts Halo2Model SelectorModel SelectorSpec SelectorClaims CircuitModel
  CircuitFacts LayoutFacts WitnessFacts VMInv Attack VMModel BFSpec CompileSpec PermModel PermSpec PermFacts SerdeModel DomainModel DomainSpec DomainFacts VkModel VkFacts IopModel
  IopPoly IopSpec IopLagrange IopTotal IopAccept IopComplete IopRows IopMain IopFull IopKey IopProject IopClaims ProverModel ProverSpec ProverFacts ArithModel KzgModel
  VerifierModel VerifierSpec VerifierProject GraphModel GraphSpec CreateModel PkFacts Agree GraphThms RunKey.
Import List ListNotations IopPoly.
Local Open Scope nat_scope.

Lemma permuted_same v n a theta li lt li' lt' :
  (forall i x, i < length (lookups (vk_cs v)) -> peval (li' i) x = peval (li i) x /\ peval (lt' i) x = peval (lt i) x) ->
  permuted v n a theta li lt -> permuted v n a theta li' lt'.
Proof.
  intros E H i l El. destruct (H i l El) as (a' & s' & fa & fs & P & O1 & O2). exists a', s', fa, fs. split; [exact P|].
  assert (Hi : i < length (lookups (vk_cs v))) by (apply nth_error_Some; congruence).
  split; intros r Hr; [rewrite (proj1 (E i _ Hi))|rewrite (proj2 (E i _ Hi))]; [apply O1|apply O2]; exact Hr.
Qed.
Lemma perm_sets_length w n bf beta gamma random : forall cs ss i dl z, length (perm_sets w n bf beta gamma random cs ss i dl z) <= length cs.
Proof. induction cs as [|c cs IH]; intros [|s ss] i dl z; cbn [perm_sets length]; try lia. apply le_n_S, IH. Qed.
Lemma products_same v n a S li lt theta beta gamma pr lp li' lt' pr' lp' :
  (forall i x, i < length (lookups (vk_cs v)) -> peval (li' i) x = peval (li i) x /\ peval (lt' i) x = peval (lt i) x /\ peval (lp' i) x = peval (lp i) x) ->
  (forall i x, i < VerifierModel.sets_count v -> peval (pr' i) x = peval (pr i) x) ->
  products v n a S li lt theta beta gamma pr lp -> products v n a S li' lt' theta beta gamma pr' lp'.
Proof.
  intros E1 E2 [(random & zs & Ez & Hz) HL]. split.
  - exists random, zs. split; [exact Ez|]. intros i z Ei r Hr.
    assert (Hi : i < VerifierModel.sets_count v).
    { assert (i < length zs) by (apply nth_error_Some; congruence). revert Ez. unfold perm_commit. destruct (_ <? _); [discriminate|].
      intro X. injection X as X. rewrite <- X in H. eapply Nat.lt_le_trans; [exact H|]. eapply Nat.le_trans; [apply perm_sets_length|].
      unfold VerifierModel.sets_count. rewrite chunks_map, map_length. apply le_n. }
    rewrite E2 by exact Hi. apply (Hz i z Ei r Hr).
  - intros i l El. destruct (HL i l El) as (rnd & O). assert (Hi : i < length (lookups (vk_cs v))) by (apply nth_error_Some; congruence).
    exists rnd. intros r Hr. rewrite (proj2 (proj2 (E1 i _ Hi))). rewrite (O r Hr).
    apply product_ext; [lia|..]; intros q Hq; symmetry; apply (E1 i _ Hi).
Qed.
Definition filled (n : nat) (p : list Fr) : list Fr := p ++ repeat f0 (n - length p).
Lemma filled_eval n p x : peval (filled n p) x = peval p x.
Proof.
  unfold filled. rewrite peval_app', (peval_zeros (repeat f0 _)); [fring|]. apply Forall_forall. intros a I. exact (repeat_spec _ _ _ I).
Qed.
Lemma filled_length n p : length p <= n -> length (filled n p) = n.
Proof. intros H. unfold filled. rewrite app_length, repeat_length. change (fe r_pos) with Fr in *. lia. Qed.
Lemma seq_nth_map {A} (f : nat -> A) N i d : i < N -> nth i (map f (seq 0 N)) d = f i.
Proof. intros H. apply map_nth_seq'. exact H. Qed.

Lemma small_quotient : exists m v pk insts chs theta beta gamma advice instance sets lks fixed copies,
  insts = public_inputs (map FrZ [44; 43; 46]%Z) [97%Z] /\
  keygen_vk (fun _ => g1_identity) Wrapping 9 m = EOk v /\ keygen_pk Wrapping 9 v m = EOk pk /\
  length insts = num_instance (vk_cs v) /\ (forall l, In l insts -> (Z.of_nat (length l) <= 2 ^ 9)%Z) /\ length chs = num_challenges (vk_cs v) /\
  polys_of 512 (num_advice (vk_cs v)) advice /\ Forall2 (takes v 512) (padded 512 insts) instance /\
  polys_of 512 (VerifierModel.sets_count v) sets /\ lookup_polys_of 512 (length (lookups (vk_cs v))) lks /\
  key_for v 9 fixed copies (fun i => nth i (pk_fixed_polys pk) []) (fun i => nth i (pk_sigma_polys pk) []) /\
  let P := commitments pk advice sets lks [f1] [] in
  let a := assigned 512 (d_omega (vk_domain v)) fixed (cm_advice P) insts chs in
  satisfied (vk_cs v) copies a /\ permuted v 512 a theta (cm_linput P) (cm_ltable P) /\
  products v 512 a (cm_sigma P) (cm_linput P) (cm_ltable P) theta beta gamma (cm_product P) (cm_lproduct P) /\
  lucky v 512 a (cm_sigma P) theta beta gamma.
Proof.
  assert (G : exists s, VMModel.run Wrapping 10 (start (map FrZ [44; 43; 46]%Z) (easygen [97%Z])) = Finished s /\
     (length (instruction_matrix (mat s)), length (output_matrix (mat s))) = (7, 1)%nat)
    by (apply fin_ex; vm_compute; reflexivity).
  destruct G as (s & Er & El). pose proof (f_equal fst El) as El1. cbn [fst] in El1.
  assert (Hp : parses [44; 43; 46]%Z [BFSpec.In; Inc; Out]) by apply P_in, P_inc, P_out, P_nil.
  assert (Hwd : (1 <= program_words [BFSpec.In; Inc; Out] <= 65535)%Z) by (split; discriminate).
  assert (Hin : in_range 8 [97%Z]) by (repeat constructor; discriminate).
  assert (He : exists cfg, exec 8 [BFSpec.In; Inc; Out] (initial [97%Z]) (Done cfg) /\ unread cfg = []).
  { eexists. split; [eapply E_in; [reflexivity|]; apply E_inc, E_out, E_nil|reflexivity]. }
  destruct He as (cfg & He & Hu).
  assert (Hc : compile Wrapping [44; 43; 46]%Z = Ok (map FrZ [44; 43; 46]%Z)) by reflexivity.
  destruct (run_keys (fun _ => g1_identity) Wrapping _ _ _ _ _ _ _ 9 Hp Hwd Hin He Hu Hc Er) as (v & pk & fixed & copies & Ev & Ek & HK & NI & HW).
  { lia. }
  { unfold lenZ. rewrite El1. reflexivity. }
  set (insts := public_inputs (map FrZ [44; 43; 46]%Z) [97%Z]) in *.
  set (chs := repeat (f0 : Fr) (num_challenges (vk_cs v))). assert (Hch : length chs = num_challenges (vk_cs v)) by apply repeat_length.
  destruct (HW chs Hch) as (adv & EW & HS). clear HW.
  assert (K0 : (0 <= 9 < 63)%Z) by lia. assert (K1 : (0 <= 9)%Z) by lia.
  destruct (key_domain _ _ _ _ _ Ev K0) as [Hd _].
  change (Z.to_nat (2 ^ 9)) with 512 in *.
  assert (Hn : Z.of_nat 512 = (2 ^ 9)%Z) by reflexivity.
  destruct (to_coeffs_ok v 11 9 512 K1 Hn Hd (map (fun i => map (adv i) (seq 0 512)) (seq 0 (num_advice (vk_cs v))))) as (advice & _ & VA).
  { intros col I. apply in_map_iff in I as (i & <- & _). rewrite map_length, seq_length. reflexivity. }
  destruct (to_coeffs_ok v 11 9 512 K1 Hn Hd (padded 512 insts)) as (instance & _ & VI).
  { intros col I. apply in_map_iff in I as (l & <- & _). rewrite map_length, seq_length. reflexivity. }
  assert (LA : polys_of 512 (num_advice (vk_cs v)) advice).
  { pose proof (column_polys v 9 _ _ VA) as X. rewrite map_length, seq_length in X. exact X. }
  assert (SAT : satisfied (vk_cs v) copies (assigned 512 (d_omega (vk_domain v)) fixed (fun i => nth i advice []) insts chs)).
  { apply HS. intros i r Hi Hr. pose proof (GraphThms.Forall2_nth _ _ _ i [] [] VA) as X. rewrite map_length, seq_length in X.
    destruct (X Hi) as [_ Y]. etransitivity; [exact (Y r Hr)|].
    rewrite (seq_nth_map (fun i => map (adv i) (seq 0 512))) by exact Hi. apply seq_nth_map, Hr. }
  assert (Hl : forall l, In l insts -> (Z.of_nat (length l) <= 2 ^ 9)%Z) by (intros l [<-|[<-|[]]]; cbn [length map]; lia).
  assert (Sm := key_small _ _ _ _ _ Ev K0).
  destruct (project_pk _ _ _ _ _ Ev K0) as (pk' & asm & c' & polys & asgs & sigma & Ek' & _ & _ & _ & X).
  rewrite Ek in Ek'. injection Ek' as <-. cbv zeta in X. destruct X as (_ & _ & _ & _ & _ & _ & _ & PK & _ & _).
  assert (HbF : forall i, length (nth i (pk_fixed_polys pk) []) <= 512).
  { intros i. apply nth_bound. apply (column_polys v 9 _ _ (pk_fixed_ok _ _ _ _ _ PK)). }
  assert (HbS : forall i, length (nth i (pk_sigma_polys pk) []) <= 512).
  { intros i. apply nth_bound. apply (column_polys v 9 _ _ (pk_sigma_ok _ _ _ _ _ PK)). }
  assert (Hba : forall i, length (nth i advice []) <= 512) by (intros i; apply nth_bound; apply LA).
  pose proof (mostly_lucky v 9 fixed copies _ _ HK insts chs (fun i => nth i advice []) Hch NI SAT HbF HbS Hba Sm) as ML.
  apply many_one in ML as (theta & li & lt & HPm & ML); [|apply Nat.le_add_l].
  apply many_one in ML as (beta & ML); [|apply Nat.le_add_l].
  apply many_one in ML as (gamma & pr & lp & HPr & HLk & HB); [|apply Nat.le_add_l].
  change (Z.to_nat (2 ^ 9)) with 512 in *.
  set (NL := length (lookups (vk_cs v))) in *. set (NS := VerifierModel.sets_count v) in *.
  set (sets := map (fun i => filled 512 (pr i)) (seq 0 NS)).
  set (lks := map (fun i => LPolys (filled 512 (lp i)) (filled 512 (li i)) (filled 512 (lt i))) (seq 0 NL)).
  assert (EL : forall i, i < NL -> nth i lks no_lookup = LPolys (filled 512 (lp i)) (filled 512 (li i)) (filled 512 (lt i))).
  { intros i Hi. unfold lks. apply (seq_nth_map (fun i => LPolys (filled 512 (lp i)) (filled 512 (li i)) (filled 512 (lt i)))), Hi. }
  exists (mat s), v, pk, insts, chs, theta, beta, gamma, advice, instance, sets, lks, fixed, copies.
  split; [reflexivity|]. split; [exact Ev|]. split; [exact Ek|]. split; [exact NI|]. split; [exact Hl|]. split; [exact Hch|]. split; [exact LA|].
  split; [exact VI|]. destruct HB.
  split. { split; [unfold sets; rewrite map_length, seq_length; reflexivity|]. intros p I. apply in_map_iff in I as (i & <- & _). apply filled_length, bd_product. }
  split.
  { unfold lookup_polys_of, polys_of, lks. rewrite !map_length, !seq_length, !map_map.
    repeat apply conj; try reflexivity; intros p I; apply in_map_iff in I as (i & <- & _); apply filled_length; [apply bd_lproduct|apply bd_linput|apply bd_ltable]. }
  split; [exact HK|]. cbv zeta. cbn [commitments cm_advice cm_sigma cm_linput cm_ltable cm_product cm_lproduct].
  split; [exact SAT|]. split; [|split; [|exact HLk]].
  - revert HPm. apply permuted_same. intros i x Hi. rewrite EL by exact Hi. cbn [lp_input lp_table]. rewrite !filled_eval. auto.
  - revert HPr. apply products_same.
    + intros i x Hi. rewrite EL by exact Hi. cbn [lp_input lp_table lp_product]. rewrite !filled_eval. auto.
    + intros i x Hi. unfold sets. rewrite (seq_nth_map (fun i => filled 512 (pr i))) by exact Hi. apply filled_eval.
Qed.
