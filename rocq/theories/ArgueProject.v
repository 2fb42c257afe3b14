(** The project's keys: which statements the verifier of proof bytes can be made
    to accept. *)
From Coq Require Import ZArith List Arith Bool Lia.
From Verif Require Import Base Moduli Field FieldFacts ListFacts LimbSpec PolyFacts RootFacts SerdeModel Halo2Model VMModel CircuitSpec CircuitModel CircuitFacts SelectorModel SelectorSpec SelectorFacts SelectorClaims SelectorMain VkModel VkSpec VkFacts DomainModel
  PermSpec SoundSpec IopModel IopRows IopSpec IopKey IopFull IopProject ArithSpec KzgModel ShplonkModel ShplonkSpec ShplonkVerify VerifierModel VerifierSpec VerifierProject KeygenFacts TranscriptModel VerifierFacts VerifierThms VerifierTotal ArgueSpec ArgueFacts ArgueThms.
Import ListNotations IopSpec.
Local Open Scope nat_scope.

(** ** Bytes *)
Section Bytes.
Variable hash : list Z -> list Z.
Variable transcript_repr : vkey -> Fr.
Context {G : Type}.
Variables (zero : G) (add : G -> G -> G) (of_affine : g1 -> G) (is_zero : G -> bool) (pairing_product : list (G * g2) -> bool).
Notation decide := (decide zero add of_affine is_zero pairing_product).
Lemma bind_to {A B} (t : transcript A) (f : A -> transcript B) st b a s1 b1 : t st b = TOk a s1 b1 -> tbind t f st b = f a s1 b1.
Proof. intros E. unfold tbind. rewrite E. reflexivity. Qed.
Theorem decides_iff p v insts proof : complete_key v -> verify_proof hash transcript_repr zero add of_affine is_zero pairing_product p v insts proof = Ok true <->
  length insts = num_instance (vk_cs v) /\ exists m scalars y vv h1 u h2, heard hash transcript_repr v insts proof m scalars y vv h1 u h2 /\ decide p v insts m scalars y vv h1 u h2 = Ok true.
Proof.
  intros K. unfold verify_proof. destruct (Nat.eqb_spec (length insts) (num_instance (vk_cs v))) as [HI|HI]; cbn [negb]; [|split; [discriminate|intros [? _]; contradiction]].
  split.
  - destruct (verify_transcript hash transcript_repr zero add of_affine is_zero pairing_product p v insts [] proof) as [r st rest| |] eqn:E; try discriminate. intros [= ->]. split; [exact HI|].
    unfold verify_transcript in E. apply bind_done in E as ([[m ops] [[[y vv] h1] u]] & s6 & b6 & EO & E). apply bind_done in E as (h2 & s7 & b7 & E7 & E).
    unfold read_opening in EO. apply bind_done in EO as ([m0 ops0] & s2 & b2 & EC & EO).
    apply bind_done in EO as (y0 & s3 & b3 & E3 & EO). apply bind_done in EO as (vv0 & s4 & b4 & E4 & EO). apply bind_done in EO as (h0 & s5 & b5 & E5 & EO). apply bind_done in EO as (u0 & s6' & b6' & E6 & EO).
    unfold tret in EO. injection EO as -> -> -> -> -> -> -> ->.
    unfold read_claims in EC. apply bind_done in EC as (m1 & s1 & b1 & E1 & EC). apply bind_done in EC as (il & s1' & b1' & EI & EC).
    unfold tlift in EI. destruct (instance_evals v (kz_n p) insts (ms_x m1)); [|discriminate EI]. injection EI as _ <- <-.
    apply bind_done in EC as (sc & s2' & b2' & E2 & EC). destruct (read_evals v sc) as [[e rest']|] eqn:ER; [|discriminate EC].
    match type of EC with (match ?o with _ => _ end) _ _ = _ => destruct o as [| |ops1] eqn:O end; [discriminate EC|discriminate EC|].
    apply bind_done in EC as (cs & s2'' & b2'' & EK & EC). unfold tlift in EK. destruct (rmap _ _); [|discriminate EK]. injection EK as _ <- <-. unfold tret in EC. injection EC as -> -> -> ->.
    exists m, sc, y, vv, h1, u, h2. split; [exists s1, b1, s2, b2, s3, b3, s4, b4, s5, b5, s6, b6, s7, b7; repeat apply conj; assumption|].
    unfold ArgueSpec.decide. rewrite ER, O. unfold tlift in E. match type of E with match ?r with _ => _ end = _ => destruct r as [b|] end; [|discriminate E]. injection E as -> _ _. reflexivity.
  - intros (_ & m & sc & y & vv & h1 & u & h2 & (s1 & b1 & s2 & b2 & s3 & b3 & s4 & b4 & s5 & b5 & s6 & b6 & s7 & b7 & E1 & E2 & E3 & E4 & E5 & E6 & E7) & D).
    unfold ArgueSpec.decide in D. destruct (read_evals v sc) as [[e rest]|] eqn:ER; [|discriminate D].
    match type of D with match ?o with _ => _ end = _ => destruct o as [| |ops] eqn:O end; [discriminate D|discriminate D|].
    unfold verify_transcript, read_opening, read_claims.
    pose proof (yields_messages _ _ _ _ _ _ _ _ _ E1) as MF.
    destruct (instance_evals_ok v (kz_n p) insts (ms_x m)) as (il & Ei & _). { intros q I. rewrite HI. apply (wf_instance _ (ck_cs _ K)), I. }
    pose proof (yields_repeat _ _ _ _ _ _ _ E2) as L2. cbn beta in L2. destruct (read_evals_ok v sc L2) as (e' & Ee & He). rewrite ER in Ee. injection Ee as <- _.
    destruct (openings_total v (kz_n p) insts (ms_challenges m) (ms_theta m) (ms_beta m) (ms_gamma m) (ms_y m) (ms_x m) e K HI (mf_challenges _ _ MF) He (open_off _ _ _ _ _ _ _ _ _ _ _ O)) as (ops' & Eo & R).
    rewrite O in Eo. injection Eo as <-. destruct (rmap_ok (fun o : opening => commitment of_affine v m (pow_vartime (ms_x m) (kz_n p)) (fst (fst o))) ops) as (cs & Ec).
    { intros o I. apply commitment_ok; [exact K|exact MF|apply R, I]. }
    unfold tbind at 1. unfold tbind at 1. unfold tbind at 1. rewrite E1. unfold tbind at 1. rewrite Ei. unfold tlift at 1. unfold tbind at 1. rewrite E2, ER, O. unfold tbind at 1. rewrite Ec. unfold tlift at 1. unfold tret at 1.
    unfold tbind at 1. rewrite E3. unfold tbind at 1. rewrite E4. unfold tbind at 1. rewrite E5. unfold tbind at 1. rewrite E6. unfold tret at 1. unfold tbind at 1. rewrite E7. unfold tlift. rewrite D. reflexivity.
Qed.
End Bytes.

(** ** Compression keeps queries in order *)
Definition tidy (lo hi : Z) (c : cs) : Prop := NoDup (fixed_queries c) /\ forall q, In q (fixed_queries c) -> fst q < num_fixed c /\ (lo <= snd q <= hi)%Z.
Lemma alloc_tidy lo hi s e s' : (lo <= 0 <= hi)%Z -> alloc_column s = Ok (e, s') -> tidy lo hi (fst s) -> tidy lo hi (fst s').
Proof.
  destruct s as [c cols]. intros Hz. unfold alloc_column, fixed_column, query_fixed_index. cbn [bind fixed_queries fst].
  destruct (position _ _) as [j|]; cbn [bind]; intros [= _ <-] [N H]; cbn [fst]; unfold tidy; cbn [fixed_queries num_fixed].
  - split; [exact N|]. intros q I. destruct (H q I). split; [lia|assumption].
  - split.
    + apply NoDup_app_intro; [exact N|repeat constructor; intros []|]. intros q I [<-|[]]. apply H in I as [I _]. cbn [fst] in I. lia.
    + intros q I. apply in_app_iff in I as [I|[<-|[]]]; [destruct (H q I); split; [lia|assumption]|]. cbn [fst snd]. split; [lia|unfold cur; lia].
Qed.
Section Process.
Variable J : cs -> Prop.
Hypothesis HJ : forall s e s', alloc_column s = Ok (e, s') -> J (fst s) -> J (fst s').
Lemma alone_keeps sels : forall combs asgs s rest combs' asgs' s', alone alloc_column sels combs asgs s = Ok (rest, combs', asgs', s') -> J (fst s) -> J (fst s').
Proof.
  induction sels as [|d sels IH]; intros combs asgs s rest combs' asgs' s' H; cbn [alone] in H; [injection H as <- <- <- <-; auto|].
  destruct (sd_deg d =? 0).
  - apply bind_ok in H as ([e s1] & EA & H). intros X. apply IH in H; [exact H|]. exact (HJ _ _ _ EA X).
  - apply bind_ok in H as ([[[r1 c1] a1] s1] & EA & H). intros X. apply IH in EA; [|exact X]. injection H as <- <- <- <-. exact EA.
Qed.
Lemma combine_keeps n md sels : forall i added combs asgs s combs' asgs' s', combine_all alloc_column n md sels i added combs asgs s = Ok (combs', asgs', s') -> J (fst s) -> J (fst s').
Proof.
  induction sels as [|d sels IH]; intros i added combs asgs s combs' asgs' s' H; cbn [combine_all] in H; [injection H as <- <- <-; auto|].
  destruct (nth i added false); [exact (IH _ _ _ _ _ _ _ _ H)|]. destruct (md <? sd_deg d); [discriminate|].
  destruct (try_selectors md sels (i + 1) (sd_deg d - 1) [d] (upd added i true)) as [comb added'].
  apply bind_ok in H as ([q s1] & EA & H). destruct (assign_comb _ _ _ _ _ _) as [col new]. intros X. apply IH in H; [exact H|]. exact (HJ _ _ _ EA X).
Qed.
End Process.
Lemma compress_tidy lo hi c acts c' polys asgs : (lo <= 0 <= hi)%Z -> compress_selectors c acts = Ok (c', polys, asgs) -> tidy lo hi c -> tidy lo hi c'.
Proof.
  intros Hz H T. unfold compress_selectors in H. destruct (negb _); [discriminate|].
  apply bind_ok in H as (ds & ED & H). apply bind_ok in H as ([[p1 a1] [c1 cols]] & EP & H).
  apply bind_ok in H as ([m r] & _ & H). apply bind_ok in H as (m' & _ & H). apply bind_ok in H as (r' & _ & H). apply bind_ok in H as (c2 & ES & H).
  injection H as <- <- <-. unfold substitute in ES. apply bind_ok in ES as (gs & _ & ES). apply bind_ok in ES as (ls & _ & ES). injection ES as <-.
  change (tidy lo hi c1). unfold process in EP. destruct (describe 0 acts ds) as [|d0 rest] eqn:Ed; [injection EP as _ _ <- _; exact T|].
  destruct (negb _); [discriminate|]. apply bind_ok in EP as ([[[rest1 cb] a2] s2] & EA & EP).
  apply (combine_keeps _ (fun s e s' => alloc_tidy lo hi s e s' Hz)) in EP; [exact EP|]. exact (alone_keeps _ (fun s e s' => alloc_tidy lo hi s e s' Hz) _ _ _ _ _ _ _ _ EA T).
Qed.
Lemma nodup_mod {A} (f : A -> nat) (g : A -> Z) (l : list A) n : NoDup (map (fun a => (f a, g a)) l) -> (forall a, In a l -> (-1 <= g a <= 1)%Z) -> 3 <= n ->
  NoDup (map (fun a => (f a, (g a mod Z.of_nat n)%Z)) l).
Proof.
  intros N B Hn. apply (NoDup_map_via _ _ _ N). intros a b Ia Ib E. injection E as E1 E2. pose proof (B a Ia). pose proof (B b Ib). rewrite E1. f_equal.
  assert (D : ((g a - g b) mod Z.of_nat n = 0)%Z) by (rewrite Zminus_mod, E2, Z.sub_diag; reflexivity). apply Z.mod_divide in D; [|lia]. destruct D as (q & D). assert (q = 0)%Z by nia. nia.
Qed.
Lemma keys_orderly commit pr k m v : keygen_vk commit pr k m = EOk v -> (0 <= k < 63)%Z -> orderly_queries v (Z.to_nat (2 ^ k)) /\ (Z.of_nat (scalars_count v) < 2 ^ 60)%Z /\
  (Z.of_nat (need_y v + lookup_width (vk_cs v)) < 2 ^ 60)%Z.
Proof.
  intros H Hk. destruct (keygen_complete _ _ _ _ _ H Hk) as (K & _ & SZ).
  destruct (project_key _ _ _ _ _ H Hk) as (asm & c' & polys & asgs & sigma & EK & Ec & Ecs & EF & EP & LF & LS & _ & _ & KF).
  destruct (project_compressed _ _ _ _ _ EK) as (c3 & polys3 & asgs3 & Ec3 & CP & _). rewrite Ec in Ec3. apply ok_inj in Ec3. injection Ec3 as <- <- <-.
  destruct (compressed_rest _ _ _ _ _ _ CP) as (_ & _ & R4 & _). pose proof H as H0. apply keygen_vk_parts in H0 as (d & a & c2 & polys2 & asgs2 & p & sigma2 & _ & _ & Ec2 & _ & _ & Ev).
  assert (DG : vk_degree v = cs_degree (vk_cs v)) by (rewrite Ev; reflexivity).
  assert (Hn : 3 <= Z.to_nat (2 ^ k)).
  { assert (X : exists x, bf_keygen (Z.to_nat (2 ^ k)) m = EOk x) by eauto. apply keygen_iff in X. destruct X as [[X _] _]. lia. }
  split; [|split].
  - split; [exact (ck_advice _ K)|]. split.
    + rewrite Ecs, R4. apply nodup_mod; [|intros q I|exact Hn].
      * assert (X : forallb (fun i => forallb (fun j => (i =? j) || negb (match nth_error (advice_queries bcs) i, nth_error (advice_queries bcs) j with Some p, Some q => (ac_index (fst p) =? ac_index (fst q)) && (snd p =? snd q)%Z | _, _ => false end)) (seq 0 52)) (seq 0 52) = true) by (vm_compute; reflexivity).
        assert (L : length (advice_queries bcs) = 52) by (vm_compute; reflexivity).
        apply NoDup_nth_error. intros i j Hi E. rewrite map_length, L in Hi. rewrite !nth_error_map in E. rewrite forallb_forall in X.
        destruct (nth_error (advice_queries bcs) i) as [qi|] eqn:Ei; [|apply nth_error_None in Ei; lia]. destruct (nth_error (advice_queries bcs) j) as [qj|] eqn:Ej; [|discriminate E].
        assert (Hj : j < 52) by (rewrite <- L; apply nth_error_Some; congruence). specialize (X i ltac:(apply in_seq; lia)). rewrite forallb_forall in X. specialize (X j ltac:(apply in_seq; lia)).
        rewrite Ei, Ej in X. cbn [option_map] in E. injection E as E1 E2. rewrite E1, E2, Nat.eqb_refl, Z.eqb_refl in X. cbn [andb negb] in X. rewrite orb_false_r in X. apply Nat.eqb_eq, X.
      * assert (X : forallb (fun q => (-1 <=? snd q)%Z && (snd q <=? 1)%Z) (advice_queries bcs) = true) by (vm_compute; reflexivity).
        rewrite forallb_forall in X. specialize (X q I). apply andb_true_iff in X as [X1 X2]. apply Z.leb_le in X1, X2. lia.
    + assert (T : tidy 0 0 c').
      { apply (compress_tidy 0 0 _ _ _ _ _ ltac:(lia) Ec). assert (X : fixed_queries bcs = [(0, 0%Z)] /\ num_fixed bcs = 1) by (split; vm_compute; reflexivity).
        destruct X as [X1 X2]. unfold tidy. rewrite X1, X2. split; [repeat constructor; intros []|]. intros q [<-|[]]. cbn [fst snd]. lia. }
      destruct T as [N T]. rewrite Ecs. apply (nodup_mod fst snd); [|intros q I; destruct (T q I); lia|exact Hn].
      rewrite (map_ext _ (fun q => q)), map_id; [exact N|]. intros [? ?]; reflexivity.
  - unfold proof_size in SZ. lia.
  - apply (small_key _ _ _ _ _ _ _ EK Ec v Ecs). rewrite DG, Ecs. reflexivity.
Qed.

Section Groups.
Context {G : Type}.
Variables (zero : G) (add sub : G -> G -> G) (scale : Fr -> G -> G) (gen : G) (scale2 : Fr -> g2 -> g2) (gen2 : g2).
Variables (of_affine : g1 -> G) (to_affine : G -> g1) (is_zero : G -> bool) (pairing_product : list (G * g2) -> bool).
Hypothesis M : is_module zero add sub scale.
Hypothesis Hg : gen <> zero.
Hypothesis Hp : is_pairing scale scale2 gen2 (pairing_check is_zero pairing_product).
Hypothesis Hback : forall g, of_affine (to_affine g) = g.
Theorem argue_iff commit pr k m v : keygen_vk commit pr k m = EOk v -> (0 <= k < 63)%Z ->
  exists cols sigma,
    vk_fixed v = map commit cols /\ vk_permutation v = map commit sigma /\
    (forall col, In col cols \/ In col sigma -> length col = Z.to_nat (2 ^ k)) /\
    forall F S insts A0,
      interpolates (d_omega (vk_domain v)) cols F -> interpolates (d_omega (vk_domain v)) sigma S ->
      (forall i, length (F i) <= Z.to_nat (2 ^ k) /\ length (S i) <= Z.to_nat (2 ^ k)) ->
      (forall l, In l insts -> length l <= usable_rows (Z.to_nat (2 ^ k)) (vk_cs v)) ->
      (can_argue zero add scale gen scale2 gen2 of_affine is_zero pairing_product v k insts F S A0 <-> accepted (Z.to_nat (2 ^ k)) m insts conf A0).
Proof.
  intros H Hk. destruct (keys_orderly _ _ _ _ _ H Hk) as (OQ & SC & SM). destruct (accepted_iff commit pr k m v H Hk) as (cols & sigma & E1 & E2 & L & HKF & HI).
  exists cols, sigma. split; [exact E1|]. split; [exact E2|]. split; [exact L|]. intros F S insts A0 HF HS HB HL.
  etransitivity; [|exact (HI F S insts A0 HF HS HB HL)]. destruct (HKF F S HF HS) as (fixed & copies & KF).
  assert (HL' : forall l, In l insts -> (Z.of_nat (length l) <= 2 ^ k)%Z).
  { intros l I. specialize (HL l I). unfold usable_rows in HL. pose proof (kf_k _ _ _ _ _ _ KF). assert (0 < 2 ^ k)%Z by (apply Z.pow_pos_nonneg; lia). lia. }
  split; intros HA chs Hc; destruct (HA chs Hc) as (advice & LA & AG & CV); exists advice; (split; [exact LA|]); (split; [exact AG|]).
  - exact (arguing_convincing zero add sub scale gen scale2 gen2 of_affine is_zero pairing_product M Hp v k fixed copies F S KF OQ insts chs advice Hg CV).
  - destruct (iop_sound v k fixed copies F S insts chs advice KF Hc HL' CV) as [X Y].
    exact (argue_complete zero add sub scale gen scale2 gen2 of_affine is_zero pairing_product M Hp v k fixed copies F S KF OQ insts chs to_affine Hback SC advice Hc Y HL' X
      (fun i => proj1 (HB i)) (fun i => proj2 (HB i)) LA SM).
Qed.
End Groups.
