(** What a prover with a satisfying assignment sends, and what the verifier reads. *)
From Coq Require Import ZArith List Arith Bool Lia.
From Verif Require Import Base Moduli Field FieldFacts ListFacts LimbSpec LimbField LimbConst LimbBytes PolyFacts RootFacts LimbModel Halo2Model
  SelectorModel PermModel PermSpec PermFacts SelectorSpec SelectorFacts SelectorClaims SelectorMain PermClaims SerdeModel SerdeSpec DomainModel DomainSpec DomainFacts VkModel VkFacts IopModel IopPoly IopRows
  IopSpec IopLagrange IopTotal IopHonest IopFull Agree ArithModel ArithSpec FftFacts TransformFacts KzgModel KzgFacts ShplonkModel TranscriptModel TranscriptFacts
  VerifierModel VerifierSpec IopAccept IopDegree IopComplete ProverModel ProverSpec ProverFacts GraphModel GraphSpec GraphFacts CreateModel PiecesFacts PkFacts GraphThms
  CreateFacts CreateValues ShplonkSpec VerifierFacts VerifierTotal CreateOpen.
Import ListNotations IopPoly IopSpec.
Local Open Scope nat_scope.

Lemma nth_ext_error {A} (l l' : list A) : (forall i, nth_error l i = nth_error l' i) -> l = l'.
Proof.
  revert l'. induction l as [|a l IH]; intros [|b l'] H; [reflexivity|discriminate (H 0)..|]. specialize (H 0) as H0. injection H0 as ->.
  f_equal. apply IH. intros i. apply (H (S i)).
Qed.
Lemma Forall2_maps {A B C} (R : C -> C -> Prop) (f : A -> C) (g : B -> C) l l' : Forall2 (fun b a => R (f a) (g b)) l' l -> Forall2 R (map f l) (map g l').
Proof. induction 1; cbn [map]; constructor; assumption. Qed.
Lemma chunks_same {A B} len (l : list A) (l' : list B) : length l = length l' -> length (chunks len l) = length (chunks len l').
Proof.
  intros L. transitivity (length (chunks len (map (fun _ => 0) l))); [rewrite chunks_map, map_length; reflexivity|].
  transitivity (length (chunks len (map (fun _ => 0) l'))); [|rewrite chunks_map, map_length; reflexivity].
  do 2 f_equal. revert l' L. induction l as [|a l IH]; intros [|b l'] L; try discriminate; [reflexivity|]. cbn [map]. f_equal. apply IH. injection L as L. exact L.
Qed.
Lemma enum_at {A} (l : list A) i a : nth_error l i = Some a -> nth_error (enum l) i = Some (i, a).
Proof.
  unfold enum. intros E. rewrite <- (Nat.add_0_l i) at 2. revert i E. generalize 0. induction l as [|b l IH]; intros m i E; [destruct i; discriminate|].
  destruct i as [|i]; cbn [length seq combine nth_error] in *; [rewrite Nat.add_0_r; congruence|]. rewrite Nat.add_succ_r. exact (IH (S m) i E).
Qed.
Lemma list_is_map' {A} (f : nat -> A) l : (forall i x, nth_error l i = Some x -> x = f i) -> l = map f (seq 0 (length l)).
Proof.
  intros H. destruct l as [|a0 l0] eqn:E; [reflexivity|]. rewrite <- E in *. rewrite <- (map_nth_seq l a0) at 1.
  apply map_ext_in. intros i I. apply in_seq in I. apply H. apply nth_error_nth'. lia.
Qed.
Lemma setup_rows {G1 G2} (scale : Fr -> G1 -> G1) gen (scale2 : Fr -> G2 -> G2) gen2 k s p : setup scale gen scale2 gen2 k s = Ok p -> sr_n p = (2 ^ k)%Z /\ sr_k p = k.
Proof. unfold setup. destruct (k <=? S_)%Z; [|discriminate]. destruct (map_res _ _); cbn [bind]; [|discriminate]. intros [= <-]. auto. Qed.

(** the same conversation, with something kept from before *)
Lemma opening_tail {A B C} (sq : transcript B) (rp : transcript C) (mo : A) st b y vv h1 u st' rest :
  (get! y <- sq; get! vv <- sq; get! h1 <- rp; get! u <- sq; tret (y, vv, h1, u)) st b = TOk (y, vv, h1, u) st' rest ->
  (get! y <- sq; get! vv <- sq; get! h1 <- rp; get! u <- sq; tret (mo, (y, vv, h1, u))) st b = TOk (mo, (y, vv, h1, u)) st' rest.
Proof.
  unfold tbind, tret. destruct (sq st b) as [y0 s0 r0| |]; try discriminate. destruct (sq s0 r0) as [v0 s1 r1| |]; try discriminate.
  destruct (rp s1 r1) as [h0 s2 r2| |]; try discriminate. destruct (sq s2 r2) as [u0 s3 r3| |]; try discriminate. intros E. injection E as -> -> -> -> -> ->. reflexivity.
Qed.

Section Create.
Variables (hash : list Z -> list Z) (transcript_repr : vkey -> Fr).
Context {G : Type}.
Variables (zero : G) (add sub : G -> G -> G) (scale : Fr -> G -> G) (gen : G) (scale2 : Fr -> g2 -> g2) (gen2 : g2).
Variables (of_affine : g1 -> G) (to_affine : G -> g1) (p : kzg) (pk : pkey) (j k : Z) (s : Fr).
Local Notation v := (pk_vk pk).
Local Notation d := (vk_domain (pk_vk pk)).
Local Notation c := (vk_cs (pk_vk pk)).
Local Notation n := (Z.to_nat (2 ^ k)).
Local Notation w := (d_omega (vk_domain (pk_vk pk))).
Hypothesis Hhash : digest64 hash.
Hypothesis M : is_module zero add sub scale.
Hypothesis Hpoint : forall g, exists x y, g1_point (to_affine g) x y.
Hypothesis Hsetup : setup scale gen scale2 gen2 k s = Ok (srs_of of_affine p).
Variables (fixed : nat -> nat -> Fr) (copies : list (acell * acell)) (cols sigma : list (list Fr)).
Hypothesis HK : key_for v k fixed copies (fun i => nth i (pk_fixed_polys pk) []) (fun i => nth i (pk_sigma_polys pk) []).
Hypothesis HP : proving_key v n cols sigma pk.
Hypothesis Hd : domain_for j k d.
Hypothesis Hj : (1 <= j)%Z.
Hypothesis Hw : w = omega_c k.
Hypothesis Hg : d_g_coset d = ZETA.
Hypothesis Hadv : forall q, In q (advice_queries c) -> ac_index (fst q) < num_advice c.
Hypothesis Lc : length cols = num_fixed c.
Hypothesis Ls : length sigma = length (perm_columns c).
Hypothesis Lcols : forall col, In col cols -> length col = n.
Hypothesis Lsigma : forall col, In col sigma -> length col = n.

Lemma k_range : (0 <= k <= 28)%Z.
Proof. exact (kf_k _ _ _ _ _ _ HK). Qed.
Lemma n_pow : Z.of_nat n = (2 ^ k)%Z.
Proof. apply Z2Nat.id, Z.pow_nonneg. lia. Qed.
Lemma n_pos : 0 < n.
Proof. pose proof n_pow. pose proof k_range. assert (0 < 2 ^ k)%Z by (apply Z.pow_pos_nonneg; lia). lia. Qed.
Lemma rows_n : kz_n p = (2 ^ k)%Z.
Proof. exact (proj1 (setup_rows _ _ _ _ _ _ _ Hsetup)). Qed.
Lemma empty_n : length (empty d) = n.
Proof. exact (empty_length v j k n n_pow Hd). Qed.
Lemma W_cs : well_formed c.
Proof. exact (kf_cs _ _ _ _ _ _ HK). Qed.

(** ** Polynomials and commitments *)
Definition poly_of_column (col : list Fr) : list Fr := match to_coeff d col with Ok q => q | Panic => [] end.
Definition com (q : list Fr) : g1 := to_affine (scale (peval q s) gen).
Lemma to_coeff_is col : length col = n -> to_coeff d col = Ok (poly_of_column col).
Proof. intros L. destruct (to_coeff_ok v j k n (proj1 k_range) n_pow Hd col L) as (q & E & _). unfold poly_of_column. rewrite E. reflexivity. Qed.
Lemma column_takes col : length col = n -> takes v n col (poly_of_column col).
Proof. intros L. destruct (to_coeff_ok v j k n (proj1 k_range) n_pow Hd col L) as (q & E & H). unfold poly_of_column. rewrite E. exact H. Qed.
Lemma column_length col : length col = n -> length (poly_of_column col) = n.
Proof. intros L. exact (proj1 (column_takes col L)). Qed.
Lemma to_coeffs_are l : (forall col, In col l -> length col = n) -> rmap (to_coeff d) l = Ok (map poly_of_column l).
Proof. intros H. apply rmap_map. intros col I. apply to_coeff_is, H, I. Qed.
Lemma column_rows (f : nat -> Fr) : on_rows v n (poly_of_column (map f (seq 0 n))) f.
Proof.
  intros r Hr. assert (L : length (map f (seq 0 n)) = n) by (rewrite map_length, seq_length; reflexivity).
  rewrite (proj2 (column_takes _ L) r Hr). apply map_nth_seq', Hr.
Qed.
Lemma values_commit col q : length col = n -> takes v n col q -> commit_values zero add of_affine to_affine p col = Ok (com q).
Proof.
  intros L [Lq T]. unfold commit_values, com. rewrite (commit_lagrange_ok zero add sub scale gen scale2 gen2 M k s _ col q k_range Hsetup); [reflexivity|..].
  - rewrite L. exact n_pow.
  - change (length (A := fe r_pos)) with (length (A := Fr)). rewrite Lq. exact n_pow.
  - intros r Hr. rewrite <- Hw. apply T. rewrite L in Hr. exact Hr.
Qed.
Lemma values_com col : length col = n -> commit_values zero add of_affine to_affine p col = Ok (com (poly_of_column col)).
Proof. intros L. apply values_commit; [exact L|apply column_takes, L]. Qed.
Lemma poly_com q : length q <= n -> commit_poly zero add of_affine to_affine p q = Ok (com q).
Proof.
  intros L. unfold commit_poly, com. rewrite (commit_ok zero add sub scale gen scale2 gen2 M k s _ q k_range Hsetup); [reflexivity|].
  pose proof n_pow. change (length (A := fe r_pos)) with (length (A := Fr)). lia.
Qed.
Lemma goes_values col : length col = n -> goes (send_values zero add of_affine to_affine p col) read_point (fun _ b => b = com (poly_of_column col)).
Proof.
  intros L. unfold send_values. apply (goes_res _ _ _ _ _ (values_com col L)). destruct (Hpoint (scale (peval (poly_of_column col) s) gen)) as (x & y & H).
  exact (goes_point _ x y H).
Qed.
Lemma goes_poly q : length q <= n -> goes (send_poly zero add of_affine to_affine p q) read_point (fun _ b => b = com q).
Proof.
  intros L. unfold send_poly. apply (goes_res _ _ _ _ _ (poly_com q L)). destruct (Hpoint (scale (peval q s) gen)) as (x & y & H).
  exact (goes_point _ x y H).
Qed.

(** ** Public columns *)
Variable insts : list (list Fr).
Hypothesis Hinst : length insts = num_instance c.
Hypothesis Hfit : forall l, In l insts -> length l <= usable_rows n c.
Lemma goes_public : goes (wmap (public_column p pk) insts) (absorb_scalars (concat insts)) (fun a _ => a = padded n insts).
Proof.
  clear Hinst. induction insts as [|l ls IH]; cbn [wmap concat]; [apply goes_ret; reflexivity|].
  apply (goes_ext _ _ _ _ (absorb_app l (concat ls))).
  apply (goes_bind _ _ (fun a _ => a = map (fun r => nth r l f0) (seq 0 n))).
  - unfold public_column. rewrite rows_n, empty_n.
    apply (goes_lift _ Datatypes.tt); [rewrite Nat.eqb_refl; reflexivity|].
    apply (goes_lift _ Datatypes.tt).
    { destruct (Nat.ltb_spec (n - (blinding_factors c + 1)) (length l)) as [X|X]; [|reflexivity].
      specialize (Hfit l (or_introl eq_refl)). unfold usable_rows in Hfit. lia. }
    apply (goes_end_left _ _ (fun _ _ => True)); [apply goes_absorbs|]. intros xs [] _. apply goes_ret. reflexivity.
  - intros a b ->. apply (goes_end_left _ _ (fun a _ => a = padded n ls)); [apply IH; intros; apply Hfit; right; assumption|].
    intros a [] ->. apply goes_ret. reflexivity.
Qed.

(** ** Phases *)
Variable synth : nat -> (nat -> option Fr) -> pres (nat -> nat -> Fr).
Variables (W0 : nat -> nat -> Fr) (W1 : list Fr -> nat -> nat -> Fr).
Hypothesis Hs0 : synth 0 (fun i => nth i (repeat None (num_challenges c)) None) = POk W0.
Hypothesis Hs1 : forall chs, length chs = num_challenges c -> synth 1 (fun i => nth i (map Some chs) None) = POk (W1 chs).
Hypothesis Hphases : phases c = [0; 1].
Hypothesis Hchp : challenge_phases c = repeat 0 (num_challenges c).
Hypothesis Hap : length (advice_phases c) = num_advice c.
Hypothesis Hap01 : forall i q, nth_error (advice_phases c) i = Some q -> q = 0 \/ q = 1.
Definition adv (chs : list Fr) (i r : nat) : Fr := if nth i (advice_phases c) 0 =? 0 then W0 i r else W1 chs i r.
Definition advice_values (chs : list Fr) : list (list Fr) := map (fun i => map (adv chs i) (seq 0 n)) (seq 0 (num_advice c)).
Lemma advice_values_length chs col : In col (advice_values chs) -> length col = n.
Proof. intros I. apply in_map_iff in I as (i & <- & _). rewrite map_length, seq_length. reflexivity. Qed.
Lemma goes_column (f : nat -> nat -> Fr) i : goes (put! _ <- send_values zero add of_affine to_affine p (map (f i) (seq 0 n)); wret (map (f i) (seq 0 n))) read_point
  (fun x y => x = map (f i) (seq 0 n) /\ y = com (poly_of_column x)).
Proof.
  assert (L : length (map (f i) (seq 0 n)) = n) by (rewrite map_length, seq_length; reflexivity).
  apply (goes_end_left _ _ _ _ _ (goes_values _ L)). intros a b ->. apply goes_ret. auto.
Qed.
Lemma repeat_nth {A} (x : A) m i : i < m -> nth_error (repeat x m) i = Some x.
Proof. revert i. induction m as [|m IH]; intros i H; [lia|]. destruct i as [|i]; [reflexivity|]. apply IH. lia. Qed.
Lemma some_lists (xs : list (option Fr)) ys : length xs = length ys -> (forall i x y, nth_error xs i = Some x -> nth_error ys i = Some y -> x = Some y) -> xs = map Some ys.
Proof.
  revert ys. induction xs as [|x xs IH]; intros [|y ys] L H; try discriminate; [reflexivity|]. cbn [map]. f_equal; [apply (H 0); reflexivity|].
  apply IH; [injection L as L; exact L|]. intros i. apply (H (S i)).
Qed.
Lemma goes_phases : goes
  (write_phases hash zero add of_affine to_affine p pk synth (phases c) (repeat (empty d) (num_advice c)) (repeat None (num_challenges c)))
  (read_phases hash c (phases c) (repeat g1_identity (num_advice c)) (repeat f0 (num_challenges c)))
  (fun a b => length (snd b) = num_challenges c /\ a = (advice_values (snd b), map Some (snd b)) /\
    fst b = map (fun col => com (poly_of_column col)) (advice_values (snd b))).
Proof.
  rewrite Hphases. cbn [write_phases read_phases]. rewrite rows_n.
  (* phase 0 *)
  apply (goes_lift _ W0); [exact Hs0|].
  eapply goes_bind.
  { apply (goes_phase _ _ (fun i x y => x = map (W0 i) (seq 0 n) /\ y = com (poly_of_column x))).
    - intros i _. apply (goes_column W0).
    - rewrite repeat_length. symmetry. exact Hap.
    - rewrite repeat_length. symmetry. exact Hap. }
  cbn [Nat.add]. intros xs ys (Lx & Ly & H0).
  eapply goes_bind.
  { apply (goes_phase _ _ (fun _ x y => x = Some y)).
    - intros i _. apply (goes_end_left _ _ _ _ _ (goes_draw hash Hhash)). intros x y ->. apply goes_ret. reflexivity.
    - rewrite Hchp, !repeat_length. reflexivity.
    - rewrite Hchp, !repeat_length. reflexivity. }
  cbv beta. intros cx cy (Lcx & Lcy & HC). rewrite Hchp, repeat_length in Lcx, Lcy.
  assert (Ec : cx = map Some cy).
  { apply some_lists; [congruence|]. intros i x y Ex Ey.
    assert (Hi : i < num_challenges c) by (rewrite <- Lcy; apply nth_error_Some; congruence).
    specialize (HC i 0 x y). rewrite Hchp in HC. specialize (HC (repeat_nth _ _ _ Hi) Ex Ey). exact HC. }
  subst cx. clear HC Lcx.
  (* phase 1 *)
  apply (goes_lift _ (W1 cy)); [apply Hs1, Lcy|].
  eapply goes_bind.
  { apply (goes_phase _ _ (fun i x y => x = map (W1 cy i) (seq 0 n) /\ y = com (poly_of_column x))).
    - intros i _. apply (goes_column (W1 cy)).
    - exact Lx.
    - exact Ly. }
  cbn [Nat.add]. intros xs' ys' (Lx' & Ly' & H1).
  eapply goes_bind.
  { apply (goes_phase _ _ (fun _ x y => x = Some y)).
    - intros i E. rewrite Hchp in E. apply nth_error_In, repeat_spec in E. discriminate.
    - rewrite Hchp, repeat_length, map_length. exact Lcy.
    - rewrite Hchp, repeat_length. exact Lcy. }
  cbv beta. intros cx' cy' (Lcx' & Lcy' & HC). rewrite Hchp, repeat_length in Lcx', Lcy'.
  assert (E1 : cx' = map Some cy /\ cy' = cy).
  { assert (X : forall i x y, nth_error cx' i = Some x -> nth_error cy' i = Some y -> nth_error (map Some cy) i = Some x /\ nth_error cy i = Some y).
    { intros i x y Ex Ey. assert (Hi : i < num_challenges c) by (rewrite <- Lcy'; apply nth_error_Some; congruence).
      specialize (HC i 0 x y). rewrite Hchp in HC. exact (HC (repeat_nth _ _ _ Hi) Ex Ey). }
    split; apply nth_ext_error; intros i.
    - destruct (nth_error cx' i) as [x|] eqn:Ex.
      + destruct (nth_error cy' i) as [y|] eqn:Ey; [destruct (X i x y Ex Ey); congruence|].
        exfalso. apply nth_error_None in Ey. assert (i < length cx') by (apply nth_error_Some; congruence). lia.
      + symmetry. apply nth_error_None. apply nth_error_None in Ex. rewrite map_length. lia.
    - destruct (nth_error cy' i) as [y|] eqn:Ey.
      + destruct (nth_error cx' i) as [x|] eqn:Ex; [destruct (X i x y Ex Ey); congruence|].
        exfalso. apply nth_error_None in Ex. assert (i < length cy') by (apply nth_error_Some; congruence). lia.
      + symmetry. apply nth_error_None. apply nth_error_None in Ey. lia. }
  destruct E1 as [-> ->]. apply goes_ret. cbn [fst snd]. split; [exact Lcy|].
  assert (Q : forall i x y, nth_error xs' i = Some x -> nth_error ys' i = Some y -> x = map (adv cy i) (seq 0 n) /\ y = com (poly_of_column x)).
  { intros i x y Ex Ey. assert (Hi : i < length (advice_phases c)) by (rewrite <- Lx'; apply nth_error_Some; congruence).
    pose proof (nth_error_nth' (advice_phases c) 0 Hi) as Eq. specialize (H1 i _ x y Eq Ex Ey).
    destruct (Hap01 i _ Eq) as [Q|Q]; rewrite Q in H1, Eq; cbn [Nat.eqb] in H1; unfold adv; rewrite Q; cbn [Nat.eqb]; [|exact H1].
    destruct H1 as [Ex1 Ey1]. specialize (H0 i 0 x y Eq Ex1 Ey1). exact H0. }
  assert (EX : xs' = advice_values cy).
  { unfold advice_values. rewrite <- Hap, <- Lx'. apply list_is_map'. intros i x Ex.
    assert (Hi : i < length ys') by (rewrite Ly', <- Lx'; apply nth_error_Some; congruence).
    destruct (nth_error ys' i) as [y|] eqn:Ey; [|apply nth_error_None in Ey; lia]. apply (Q i x y Ex Ey). }
  split; [rewrite EX; reflexivity|].
  assert (EY : ys' = map (fun i => com (poly_of_column (nth i xs' []))) (seq 0 (length ys'))).
  { apply list_is_map'. intros i y Ey. assert (Hi : i < length xs') by (rewrite Lx', <- Ly'; apply nth_error_Some; congruence).
    destruct (nth_error xs' i) as [x|] eqn:Ex; [|apply nth_error_None in Ex; lia]. rewrite (nth_error_nth _ _ _ Ex). apply (Q i x y Ex Ey). }
  rewrite EY, <- EX. rewrite Ly', <- Lx'. transitivity (map (fun col => com (poly_of_column col)) (map (fun i => nth i xs' []) (seq 0 (length xs')))).
  - rewrite map_map. reflexivity.
  - rewrite map_nth_seq. reflexivity.
Qed.

(** ** The environment *)
Definition env_of (chs : list Fr) (beta gamma theta y : Fr) : env := Env (pk_fixed_values pk) (advice_values chs) (padded n insts) chs beta gamma theta y.
Definition advice_polys (chs : list Fr) : list (list Fr) := map poly_of_column (advice_values chs).
Definition asg (chs : list Fr) : assignment := assigned n w fixed (fun i => nth i (advice_polys chs) []) insts chs.
Lemma nth_map' {A B} (f : A -> B) l i a b : i < length l -> nth i (map f l) b = f (nth i l a).
Proof. intros H. rewrite nth_indep with (d' := f a) by (rewrite map_length; exact H). apply map_nth. Qed.
Lemma fixed_row i r : i < num_fixed c -> r < n -> nth r (nth i (pk_fixed_values pk) []) f0 = fixed i r.
Proof.
  intros Hi Hr. rewrite <- (kf_fixed _ _ _ _ _ _ HK i r Hi Hr). rewrite (pk_has_fixed _ _ _ _ _ HP). symmetry.
  refine (proj2 (Forall2_nth _ _ _ i [] [] (pk_fixed_ok _ _ _ _ _ HP) _) r Hr). rewrite Lc. exact Hi.
Qed.
Lemma sigma_row i r : i < length (perm_columns c) -> r < n -> nth r (nth i (pk_permutations pk) []) f0 = peval (nth i (pk_sigma_polys pk) []) (fpow w (Z.of_nat r)).
Proof.
  intros Hi Hr. rewrite (pk_has_sigma _ _ _ _ _ HP). symmetry.
  refine (proj2 (Forall2_nth _ _ _ i [] [] (pk_sigma_ok _ _ _ _ _ HP) _) r Hr). rewrite Ls. exact Hi.
Qed.
Lemma advice_length chs : length (advice_values chs) = num_advice c.
Proof. unfold advice_values. rewrite map_length, seq_length. reflexivity. Qed.
Lemma advice_row chs i r : i < num_advice c -> r < n -> nth r (nth i (advice_values chs) []) f0 = peval (nth i (advice_polys chs) []) (fpow w (Z.of_nat r)).
Proof.
  intros Hi Hr. unfold advice_polys. rewrite (nth_map' _ _ _ []) by (rewrite advice_length; exact Hi). symmetry.
  refine (proj2 (column_takes _ _) r Hr). apply (advice_values_length chs), nth_In. rewrite advice_length. exact Hi.
Qed.
Lemma public_row i r : i < num_instance c -> r < n -> nth r (nth i (padded n insts) []) f0 = instance_fn insts i r.
Proof.
  intros Hi Hr. rewrite <- Hinst in Hi. unfold padded. rewrite (nth_map' _ _ _ []) by exact Hi. rewrite map_nth_seq' by exact Hr. reflexivity.
Qed.
Lemma agree_env chs beta gamma theta y : agree c (table (env_of chs beta gamma theta y) n) (asg chs).
Proof.
  constructor; cbn [table asg assigned env_of as_n as_fixed as_advice as_instance as_challenge en_fixed en_advice en_instance en_challenges]; try reflexivity; intros i r Hi Hr.
  - apply fixed_row; assumption.
  - apply advice_row; assumption.
  - apply public_row; assumption.
Qed.
Lemma fixed_values_length : length (pk_fixed_values pk) = num_fixed c.
Proof. rewrite (pk_has_fixed _ _ _ _ _ HP). exact Lc. Qed.
Lemma padded_len : length (padded n insts) = num_instance c.
Proof. unfold padded. rewrite map_length. exact Hinst. Qed.
Lemma padded_col col : In col (padded n insts) -> length col = n.
Proof. intros I. apply in_map_iff in I as (l & <- & _). rewrite map_length, seq_length. reflexivity. Qed.
Lemma some_column (l : list (list Fr)) i : (forall col, In col l -> length col = n) -> i < length l -> exists col, nth_error l i = Some col /\ length col = n.
Proof. intros H Hi. destruct (nth_error l i) as [col|] eqn:E; [|apply nth_error_None in E; lia]. exists col. split; [reflexivity|]. apply H, (nth_error_In _ _ E). Qed.
Lemma covered_env chs beta gamma theta y e : length chs = num_challenges c -> registered c e -> covered (env_of chs beta gamma theta y) n e.
Proof.
  intros Lchs. induction e; cbn [registered covered env_of en_fixed en_advice en_instance en_challenges]; intros R; auto.
  - apply some_column; [rewrite (pk_has_fixed _ _ _ _ _ HP); exact Lcols|]. rewrite fixed_values_length. apply (wf_fixed _ W_cs _ (nth_error_In _ _ R)).
  - apply some_column; [apply advice_values_length|]. rewrite advice_length. apply (Hadv _ (nth_error_In _ _ R)).
  - apply some_column; [apply padded_col|]. rewrite padded_len. apply (wf_instance _ W_cs _ (nth_error_In _ _ R)).
  - rewrite Lchs. exact R.
  - destruct R. auto.
  - destruct R. auto.
Qed.
Lemma eval_env chs beta gamma theta y r e : registered c e -> eval (table (env_of chs beta gamma theta y) n) r e = eval (asg chs) r e.
Proof. intros R. apply (eval_agree c (table (env_of chs beta gamma theta y) n) (asg chs) W_cs Hadv n_pos (agree_env chs beta gamma theta y) r e R). Qed.
Lemma compressed_env chs beta gamma theta y es : length chs = num_challenges c -> (forall e, In e es -> registered c e) ->
  compressed_values p pk (env_of chs beta gamma theta y) theta es = Ok (map (compressed_row (eval (asg chs)) theta es) (seq 0 n)).
Proof.
  intros Lchs R. pose proof (compressed_values_ok p pk (env_of chs beta gamma theta y) theta es) as X. cbv zeta in X. rewrite rows_n in X.
  rewrite X; [|exact n_pos|exact empty_n|intros e I; apply covered_env; [exact Lchs|apply R, I]].
  f_equal. apply map_ext. intros r. apply compressed_ext. intros e I. apply eval_env, R, I.
Qed.
Lemma lookup_registered l e : In l (lookups c) -> In e (fst l) \/ In e (snd l) -> registered c e.
Proof. intros I J. apply (wf_exprs _ W_cs). right. apply in_lookup_exprs. eauto. Qed.

(** ** Lookups *)
Hypothesis HSat : forall chs, length chs = num_challenges c -> satisfied c copies (asg chs).
Variable co : coins.
Local Notation u := (usable_rows n c).
Local Notation cr chs theta := (compressed_row (eval (asg chs)) theta).
Definition permuted_is (chs : list Fr) (theta : Fr) (i : nat) (l : list expr * list expr) (pl : permuted_lookup) : Prop := exists a' t',
  permute_pair u (cr chs theta (fst l)) (cr chs theta (snd l)) = POk (a', t') /\
  let x := map (with_random u a' (co_input co i)) (seq 0 n) in let y := map (with_random u t' (co_table co i)) (seq 0 n) in
  pl = PermutedLookup (map (cr chs theta (fst l)) (seq 0 n)) (map (cr chs theta (snd l)) (seq 0 n)) x y (poly_of_column x) (poly_of_column y).
Lemma goes_permuted chs theta i l : length chs = num_challenges c -> In l (lookups c) ->
  goes (commit_permuted zero add of_affine to_affine p pk co (env_of chs f0 f0 theta f0) theta (i, l)) (get! a <- read_point; get! b <- read_point; tret (a, b))
    (fun pl b => permuted_is chs theta i l pl /\ b = (com (pl_input_poly pl), com (pl_table_poly pl))).
Proof.
  intros Lchs Il. unfold commit_permuted. cbn [fst snd]. rewrite rows_n. replace (usable p pk) with u by (unfold usable, usable_rows; rewrite rows_n; reflexivity).
  apply (goes_res _ _ _ _ _ (compressed_env chs f0 f0 theta f0 (fst l) Lchs (fun e I => lookup_registered l e Il (or_introl I)))).
  apply (goes_res _ _ _ _ _ (compressed_env chs f0 f0 theta f0 (snd l) Lchs (fun e I => lookup_registered l e Il (or_intror I)))).
  rewrite (permute_ext u _ (cr chs theta (fst l)) _ (cr chs theta (snd l))) by (intros r Hr; apply (row_of_map _ n); unfold usable_rows in Hr; lia).
  pose proof (permute_pair_is u (cr chs theta (fst l)) (cr chs theta (snd l))) as PP.
  destruct (permute_pair u (cr chs theta (fst l)) (cr chs theta (snd l))) as [[a' t']| |] eqn:EP.
  2:{ exfalso. destruct (HSat chs Lchs) as (_ & HL & _). destruct PP as (r & Hr & N). destruct (HL l r Il Hr) as (r' & Hr' & E).
      apply (N r' Hr'). rewrite !compressed_is. f_equal. exact E. }
  2:{ contradiction. }
  apply (goes_lift _ (a', t')); [reflexivity|]. cbv zeta.
  assert (Lx : forall f, length (map f (seq 0 n) : list Fr) = n) by (intros f; rewrite map_length, seq_length; reflexivity).
  apply (goes_res _ _ _ _ _ (to_coeff_is _ (Lx _))). apply (goes_res _ _ _ _ _ (to_coeff_is _ (Lx _))).
  apply (goes_bind _ _ _ _ _ _ (goes_values _ (Lx _))). intros [] b ->. apply (goes_bind _ _ _ _ _ _ (goes_values _ (Lx _))). intros [] b ->.
  apply goes_ret. split; [|reflexivity]. exists a', t'. split; [exact EP|]. reflexivity.
Qed.

(** ** Running products *)
Definition sets_ok (chs : list Fr) (beta gamma : Fr) (sets : list (list Fr)) : Prop := polys_of n (sets_count v) sets /\ exists zs,
  perm_commit v n beta gamma (co_product co) (map (table_column (asg chs)) (perm_columns c))
    (map (fun i r => peval (nth i (pk_sigma_polys pk) []) (fpow w (Z.of_nat r))) (seq 0 (length (perm_columns c)))) = POk zs /\
  forall i z, nth_error zs i = Some z -> on_rows v n (nth i sets []) z.
Lemma perm_column_env chs beta gamma theta y col : In col (perm_columns c) -> exists l, env_column (env_of chs beta gamma theta y) col = Ok l /\
  same_rows n (row_of l) (table_column (asg chs) col).
Proof.
  intros I. pose proof (wf_perm _ W_cs _ I) as Q.
  assert (R : forall l, row_of l = row_of l) by reflexivity.
  assert (X : exists l, env_column (env_of chs beta gamma theta y) col = Ok l /\ forall r, row_of l r = cell_value (table (env_of chs beta gamma theta y) n) (col, r)).
  { unfold env_column, cell_value, at_. cbn [fst snd]. destruct col as [a|i|i]; cbn [queried] in Q; cbn [env_of en_advice en_fixed en_instance table as_advice as_fixed as_instance].
    - pose proof (Hadv _ Q) as B. cbn [fst] in B. destruct (some_column (advice_values chs) (ac_index a)) as (l & E & _); [apply advice_values_length|rewrite advice_length; exact B|].
      exists l. rewrite E. split; [reflexivity|]. intros r. unfold row_of. rewrite (nth_error_nth _ _ _ E). reflexivity.
    - pose proof (wf_fixed _ W_cs _ Q) as B. cbn [fst] in B. destruct (some_column (pk_fixed_values pk) i) as (l & E & _).
      { rewrite (pk_has_fixed _ _ _ _ _ HP); exact Lcols. } { rewrite fixed_values_length; exact B. }
      exists l. rewrite E. split; [reflexivity|]. intros r. unfold row_of. rewrite (nth_error_nth _ _ _ E). reflexivity.
    - pose proof (wf_instance _ W_cs _ Q) as B. cbn [fst] in B. destruct (some_column (padded n insts) i) as (l & E & _); [apply padded_col|rewrite padded_len; exact B|].
      exists l. rewrite E. split; [reflexivity|]. intros r. unfold row_of. rewrite (nth_error_nth _ _ _ E). reflexivity. }
  destruct X as (l & E & X). exists l. split; [exact E|]. intros r Hr. rewrite X. exact (cell_agree c _ _ W_cs Hadv (agree_env chs beta gamma theta y) col r Q Hr).
Qed.
Lemma rmap_exists {A B} (f : A -> res B) (Q : A -> B -> Prop) l : (forall a, In a l -> exists b, f a = Ok b /\ Q a b) -> exists bs, rmap f l = Ok bs /\ Forall2 Q l bs.
Proof.
  induction l as [|a l IH]; intros H; [exists []; split; [reflexivity|constructor]|].
  destruct (H a (or_introl eq_refl)) as (b & E & X). destruct IH as (bs & Es & Xs); [intros; apply H; right; assumption|].
  exists (b :: bs). cbn [rmap]. rewrite E. cbn [bind]. rewrite Es. split; [reflexivity|constructor; assumption].
Qed.
Lemma degree_pos : vk_degree v <? 3 = false.
Proof. apply Nat.ltb_ge. rewrite (kf_degree _ _ _ _ _ _ HK). unfold cs_degree. cbv zeta. lia. Qed.
Lemma goes_sets chs theta beta gamma : length chs = num_challenges c ->
  goes (commit_sets zero add of_affine to_affine p pk co (env_of chs beta gamma theta f0) beta gamma) (trepeat (sets_count v) read_point)
    (fun sets pts => pts = map com sets /\ sets_ok chs beta gamma sets).
Proof.
  intros Lchs. unfold commit_sets. rewrite rows_n.
  destruct (rmap_exists (env_column (env_of chs beta gamma theta f0)) (fun col l => same_rows n (row_of l) (table_column (asg chs) col)) (perm_columns c)) as (cl & Ec & Fc).
  { intros col I. apply perm_column_env, I. }
  apply (goes_res _ _ _ _ _ Ec).
  set (sg := map (fun i r => peval (nth i (pk_sigma_polys pk) []) (fpow w (Z.of_nat r))) (seq 0 (length (perm_columns c)))).
  assert (F1 : Forall2 (same_rows n) (map row_of cl) (map (table_column (asg chs)) (perm_columns c))).
  { exact (Forall2_maps _ _ _ _ _ Fc). }
  assert (F2 : Forall2 (same_rows n) (map row_of (pk_permutations pk)) sg).
  { pose proof (pk_has_sigma _ _ _ _ _ HP) as Es. unfold sg. rewrite <- Ls, <- Es. rewrite <- (map_nth_seq (pk_permutations pk) []) at 1. rewrite map_map.
    assert (X : forall i, In i (seq 0 (length (pk_permutations pk))) -> i < length (perm_columns c)) by (intros i I; apply in_seq in I; rewrite Es, Ls in I; lia).
    revert X. generalize (seq 0 (length (pk_permutations pk))). induction l as [|i l IH]; intros X; [constructor|]. cbn [map]. constructor; [|apply IH; intros; apply X; right; assumption].
    intros r Hr. unfold row_of. apply sigma_row; [apply X; left; reflexivity|exact Hr]. }
  pose proof (commit_ext v n beta gamma (co_product co) _ _ _ _ n_pos F1 F2) as CE.
  assert (EL : exists zs', perm_commit v n beta gamma (co_product co) (map (table_column (asg chs)) (perm_columns c)) sg = POk zs' /\ length zs' = sets_count v).
  { unfold perm_commit. rewrite degree_pos. eexists. split; [reflexivity|]. rewrite sets_length by (apply chunks_same; unfold sg; rewrite !map_length, seq_length; reflexivity).
    apply chunks_same. apply map_length. }
  destruct EL as (zs' & EZ & LZ). rewrite EZ in CE.
  destruct (perm_commit v n beta gamma (co_product co) (map row_of cl) (map row_of (pk_permutations pk))) as [zs| |] eqn:EZ0; try contradiction.
  apply (goes_lift _ zs); [reflexivity|]. pose proof (Forall2_length _ _ _ CE) as Lzs. rewrite <- LZ, <- Lzs.
  eapply goes_weaken.
  { apply (goes_map _ _ (fun z q pt => q = poly_of_column (map z (seq 0 n)) /\ pt = com (poly_of_column (map z (seq 0 n))))). intros z _. cbv zeta.
    assert (Lx : length (map z (seq 0 n) : list Fr) = n) by (rewrite map_length, seq_length; reflexivity).
    apply (goes_end_left _ _ _ _ _ (goes_values _ Lx)). intros [] b ->.
    rewrite (to_coeff_is _ Lx). unfold wres. cbn [of_res]. intros st out. exists (poly_of_column (map z (seq 0 n))), (com (poly_of_column (map z (seq 0 n)))), st, [].
    rewrite app_nil_r. unfold wlift, tret. cbn [pbind]. auto. }
  intros sets pts H. destruct (all3_map _ _ _ _ _ H) as [-> ->]. split; [rewrite map_map; reflexivity|]. split.
  - split; [rewrite map_length; congruence|]. intros q I. apply in_map_iff in I as (z & <- & _). apply column_length. rewrite map_length, seq_length. reflexivity.
  - exists zs'. split; [exact EZ|]. intros i z Ez. assert (Hi : i < length zs) by (rewrite Lzs; apply nth_error_Some; congruence).
    rewrite (nth_map' (fun z => poly_of_column (map z (seq 0 n))) zs i (fun _ => f0) [] Hi). intros r Hr. rewrite column_rows by exact Hr.
    pose proof (Forall2_nth _ _ _ i (fun _ => f0) (fun _ => f0) CE Hi) as X. rewrite (nth_error_nth _ _ _ Ez) in X. apply X, Hr.
Qed.

Definition lookup_of (beta gamma : Fr) (ip : nat * permuted_lookup) : lookup_polys :=
  let l := snd ip in
  LPolys (poly_of_column (map (lookup_product n (blinding_factors c) beta gamma (row_of (pl_input l)) (row_of (pl_table l))
     (row_of (pl_perm_input l)) (row_of (pl_perm_table l)) (co_lproduct co (fst ip))) (seq 0 n))) (pl_input_poly l) (pl_table_poly l).
Lemma goes_lookups beta gamma (pls : list permuted_lookup) : goes (wmap (commit_lookup zero add of_affine to_affine p pk co beta gamma) (enum pls))
  (trepeat (length pls) read_point) (fun lks pts => lks = map (lookup_of beta gamma) (enum pls) /\ pts = map (fun l => com (lp_product l)) lks).
Proof.
  rewrite <- (enum_length pls). eapply goes_weaken.
  { apply (goes_map _ _ (fun ip lk pt => lk = lookup_of beta gamma ip /\ pt = com (lp_product (lookup_of beta gamma ip)))). intros ip _. unfold commit_lookup. cbv zeta.
    rewrite rows_n.
    assert (Lx : forall f, length (map f (seq 0 n) : list Fr) = n) by (intros f; rewrite map_length, seq_length; reflexivity).
    apply (goes_end_left _ _ _ _ _ (goes_values _ (Lx _))). intros [] b ->. apply (goes_res _ _ _ _ _ (to_coeff_is _ (Lx _))).
    apply goes_ret. split; reflexivity. }
  intros lks pts H. destruct (all3_map _ _ _ _ _ H) as [-> ->]. split; [reflexivity|]. rewrite map_map. reflexivity.
Qed.
Definition lookups_ok (chs : list Fr) (theta beta gamma : Fr) (lks : list lookup_polys) : Prop :=
  lookup_polys_of n (length (lookups c)) lks /\
  (let linput i := lp_input (nth i lks no_lookup) in let ltable i := lp_table (nth i lks no_lookup) in
   let row q r := peval q (fpow w (Z.of_nat r)) in
   permuted v n (asg chs) theta linput ltable /\
   forall i l, nth_error (lookups c) i = Some l -> exists random,
    on_rows v n (lp_product (nth i lks no_lookup)) (lookup_product n (blinding_factors c) beta gamma
      (cr chs theta (fst l)) (cr chs theta (snd l)) (row (linput i)) (row (ltable i)) random)).
Lemma lookups_are chs theta beta gamma pls pts : all3 (fun (il : nat * (list expr * list expr)) pl (b : g1 * g1) => permuted_is chs theta (fst il) (snd il) pl /\
    b = (com (pl_input_poly pl), com (pl_table_poly pl))) (enum (lookups c)) pls pts ->
  let lks := map (lookup_of beta gamma) (enum pls) in
  length pls = length (lookups c) /\ lookups_ok chs theta beta gamma lks /\ pts = map (fun l => (com (lp_input l), com (lp_table l))) lks.
Proof.
  intros H lks. pose proof (all3_lengths _ _ _ _ H) as [L1 L2]. rewrite enum_length in L1, L2.
  assert (Ll : length lks = length (lookups c)) by (unfold lks; rewrite map_length, enum_length; exact L1).
  assert (Lx : forall f, length (map f (seq 0 n) : list Fr) = n) by (intros f; rewrite map_length, seq_length; reflexivity).
  assert (X : forall i l, nth_error (lookups c) i = Some l -> exists pl, nth_error pls i = Some pl /\ permuted_is chs theta i l pl /\
    nth_error lks i = Some (lookup_of beta gamma (i, pl)) /\ nth_error pts i = Some (com (pl_input_poly pl), com (pl_table_poly pl))).
  { intros i l El. assert (Hi : i < length (lookups c)) by (apply nth_error_Some; congruence).
    destruct (nth_error pls i) as [pl|] eqn:Ep; [|apply nth_error_None in Ep; lia].
    destruct (nth_error pts i) as [b|] eqn:Eb; [|apply nth_error_None in Eb; lia].
    assert (En : nth_error (enum (lookups c)) i = Some (i, l)) by (apply enum_at, El).
    destruct (all3_nth _ _ _ _ i _ _ _ H En Ep Eb) as [PI ->]. exists pl. repeat apply conj; [reflexivity|exact PI| |reflexivity].
    unfold lks. rewrite nth_error_map', (enum_at pls i pl Ep). reflexivity. }
  assert (Z : forall i lk, nth_error lks i = Some lk -> exists l pl, nth_error (lookups c) i = Some l /\ nth_error pls i = Some pl /\ permuted_is chs theta i l pl /\ lk = lookup_of beta gamma (i, pl)).
  { intros i lk E. assert (Hi : i < length (lookups c)) by (rewrite <- Ll; apply nth_error_Some; congruence).
    destruct (nth_error (lookups c) i) as [l|] eqn:El; [|apply nth_error_None in El; lia]. destruct (X i l El) as (pl & A & B & C & _). exists l, pl. repeat apply conj; auto; congruence. }
  split; [exact L1|]. split; [split; [|split]|].
  - repeat apply conj; try (rewrite map_length; exact Ll); intros q I; apply in_map_iff in I as (lk & <- & I); apply In_nth_error in I as (i & I);
    destruct (Z i lk I) as (l & pl & _ & _ & (a' & t' & _ & ->) & ->); cbn [lookup_of fst snd lp_product lp_input lp_table pl_input_poly pl_table_poly]; apply column_length, Lx.
  - intros i l El. destruct (X i l El) as (pl & _ & (a' & t' & EP & ->) & En & _). exists a', t', (co_input co i), (co_table co i).
    rewrite (nth_error_nth _ _ no_lookup En). cbn [lookup_of fst snd lp_input lp_table pl_input_poly pl_table_poly]. split; [exact EP|]. split; apply column_rows.
  - intros i l El. destruct (X i l El) as (pl & _ & (a' & t' & EP & ->) & En & _). exists (co_lproduct co i).
    rewrite (nth_error_nth _ _ no_lookup En).
    cbn [lookup_of fst snd lp_product lp_input lp_table pl_input pl_table pl_perm_input pl_perm_table pl_input_poly pl_table_poly].
    intros r Hr. rewrite column_rows by exact Hr. apply lookup_ext; try exact Hr; try apply row_of_map.
    + intros q Hq. rewrite row_of_map by exact Hq. symmetry. apply column_rows, Hq.
    + intros q Hq. rewrite row_of_map by exact Hq. symmetry. apply column_rows, Hq.
  - apply nth_ext_error. intros i. rewrite nth_error_map'. destruct (nth_error lks i) as [lk|] eqn:E; cbn [option_map].
    + destruct (Z i lk E) as (l & pl & El & Ep & _ & ->). destruct (X i l El) as (pl' & Ep' & _ & _ & ->). cbn [lookup_of snd lp_input lp_table]. congruence.
    + apply nth_error_None. apply nth_error_None in E. lia.
Qed.

(** ** All messages *)
Local Notation qd := (Z.to_nat (d_quotient_poly_degree d)).
(** what the prover holds and the verifier has read *)
Record linked (po : polys) (x : Fr) (m : messages) : Prop := {
  lk_challenges : length (ms_challenges m) = num_challenges c;
  lk_x : ms_x m = x;
  lk_advice : po_advice po = advice_polys (ms_challenges m) /\ ms_advice m = map com (po_advice po);
  lk_lookups : lookups_ok (ms_challenges m) (ms_theta m) (ms_beta m) (ms_gamma m) (po_lookups po) /\
    ms_lookups m = map (fun l => (com (lp_input l), com (lp_table l))) (po_lookups po) /\ ms_lproducts m = map (fun l => com (lp_product l)) (po_lookups po);
  lk_sets : sets_ok (ms_challenges m) (ms_beta m) (ms_gamma m) (po_sets po) /\ ms_products m = map com (po_sets po);
  lk_random : length (po_random po) = n /\ ms_random m = com (po_random po);
  lk_quotient : exists h b q,
    evaluate_h pk (po_advice po) (map poly_of_column (padded n insts)) (ms_challenges m) (ms_y m) (ms_beta m) (ms_gamma m) (ms_theta m) (po_lookups po) (po_sets po) = Ok h /\
    divide_by_vanishing_poly fmul d h = Ok b /\ extended_to_coeff fadd fsub fmul d b = Ok q /\ length q = qd * n /\ po_pieces po = split_pieces n qd q;
  lk_pieces : length (po_pieces po) = qd /\ (forall h, In h (po_pieces po) -> length h = n) /\ ms_h m = map com (po_pieces po) }.

Lemma unwrap_some {A} (l : list A) : unwrap_all (map Some l) = Ok l.
Proof. induction l as [|a l IH]; [reflexivity|]. cbn [map unwrap_all]. rewrite IH. reflexivity. Qed.
Lemma split_exact m q : forall l : list Fr, length l = q * m -> forall h, In h (split_pieces m q l) -> length h = m.
Proof.
  induction q as [|q IH]; intros l L h I; [contradiction|]. cbn [split_pieces] in I. destruct I as [<-|I].
  - rewrite firstn_length. change (fe r_pos) with Fr in *. lia.
  - apply (IH (skipn m l)); [|exact I]. rewrite skipn_length. change (fe r_pos) with Fr in *. lia.
Qed.
Lemma qd_is : qd = Z.to_nat (j - 1).
Proof. destruct (df_size _ _ _ Hd) as (_ & _ & ->). reflexivity. Qed.
Lemma advice_polys_of chs : polys_of n (num_advice c) (advice_polys chs).
Proof.
  split; [unfold advice_polys; rewrite map_length; apply advice_length|]. intros q I. apply in_map_iff in I as (col & <- & I).
  apply column_length, (advice_values_length chs), I.
Qed.
Lemma public_polys : Forall2 (column_poly v n) (padded n insts) (map poly_of_column (padded n insts)).
Proof.
  pose proof padded_col as H. revert H. generalize (padded n insts). induction l as [|col l IH]; intros H; cbn [map]; constructor.
  - apply column_takes, H. left. reflexivity.
  - apply IH. intros. apply H. right. assumption.
Qed.
Lemma public_bound l : In l insts -> (Z.of_nat (length l) <= 2 ^ k)%Z.
Proof. intros I. specialize (Hfit l I). unfold usable_rows in Hfit. pose proof n_pow. lia. Qed.

Theorem goes_messages : goes (write_messages hash transcript_repr zero add of_affine to_affine p pk synth insts co)
  (read_messages hash transcript_repr v insts) (fun a m => linked (fst a) (snd a) m).
Proof.
  unfold write_messages, read_messages. cbv zeta.
  apply (goes_lift _ Datatypes.tt); [rewrite Hinst, Nat.eqb_refl; reflexivity|].
  apply (goes_bind _ _ _ _ _ _ (goes_absorb _)). intros [] [] _.
  apply (goes_bind _ _ _ _ _ _ goes_public). intros a [] ->.
  apply (goes_res _ _ _ _ _ (to_coeffs_are (padded n insts) padded_col)).
  apply (goes_bind _ _ _ _ _ _ goes_phases). intros [av cs] [pts chs]. cbn [fst snd]. intros (Lchs & E & ->). injection E as -> ->.
  apply (goes_res _ _ _ _ _ (unwrap_some chs)).
  apply (goes_bind _ _ _ _ _ _ (goes_draw hash Hhash)). intros theta ? <-.
  rewrite <- (enum_length (lookups c)) at 1.
  eapply goes_bind.
  { apply (goes_map _ _ (fun (il : nat * (list expr * list expr)) pl (b : g1 * g1) => permuted_is chs theta (fst il) (snd il) pl /\
      b = (com (pl_input_poly pl), com (pl_table_poly pl)))).
    intros [i l] I. apply enum_nth, nth_error_In in I. exact (goes_permuted chs theta i l Lchs I). }
  intros pls lpts Hpl.
  apply (goes_bind _ _ _ _ _ _ (goes_draw hash Hhash)). intros beta ? <-.
  apply (goes_bind _ _ _ _ _ _ (goes_draw hash Hhash)). intros gamma ? <-.
  assert (Ecl : (chunk_len v =? 0) = false) by (apply Nat.eqb_neq; unfold chunk_len; pose proof degree_pos as D; apply Nat.ltb_ge in D; lia).
  rewrite Ecl. apply goes_tret.
  apply (goes_bind _ _ _ _ _ _ (goes_sets chs theta beta gamma Lchs)). intros sets ? [-> Hsets].
  destruct (lookups_are chs theta beta gamma pls lpts Hpl) as (Lpls & Hlks & ->).
  rewrite <- Lpls. apply (goes_bind _ _ _ _ _ _ (goes_lookups beta gamma pls)). intros lks lpp [-> ->].
  set (lks := map (lookup_of beta gamma) (enum pls)) in *.
  assert (Lone : length (repeat (f1 : Fr) (length (empty d))) = n) by (rewrite repeat_length; exact empty_n).
  apply (goes_res _ _ _ _ _ (to_coeff_is _ Lone)).
  set (random := poly_of_column (repeat f1 (length (empty d)))).
  assert (Lr : length random = n) by (apply column_length, Lone).
  apply (goes_bind _ _ _ _ _ _ (goes_poly random (Nat.eq_le_incl _ _ Lr))). intros [] ? ->.
  apply (goes_bind _ _ _ _ _ _ (goes_draw hash Hhash)). intros y ? <-.
  apply (goes_res _ _ _ _ _ (to_coeffs_are (advice_values chs) (advice_values_length chs))). fold (advice_polys chs).
  destruct (numerator_ok v k cols sigma pk fixed copies _ _ HK HP Hg Hadv Lc Ls insts chs theta beta gamma y Hinst public_bound Lchs
    (advice_polys chs) (map poly_of_column (padded n insts)) sets lks random (advice_polys_of chs) public_polys (proj1 Hsets) (proj1 Hlks)) as (h & Eh & Lh & _).
  apply (goes_res _ _ _ _ _ Eh).
  assert (Lh' : length h = 2 ^ Z.to_nat (d_extended_k d)).
  { apply Nat2Z.inj. rewrite Lh, Nat2Z.inj_pow, Z2Nat.id; [reflexivity|]. destruct (df_extended _ _ _ Hd) as (X & _). pose proof k_range. lia. }
  destruct (divide_total j k d Hd (proj1 k_range) h Lh') as (b & Eb & Lb). destruct (extended_total j k d Hd (proj1 k_range) b Hj Lb) as (q & Eq & Lq).
  assert (Lq' : length q = qd * n).
  { rewrite Lq, qd_is, Z2Nat.inj_mul by (try apply Z.pow_nonneg; lia). apply Nat.mul_comm. }
  assert (Ech : chunks_exact p (length q) q = split_pieces n qd q).
  { rewrite <- rows_n. apply chunks_exact_is; [rewrite rows_n; exact n_pos|apply le_n|rewrite rows_n; exact Lq']. }
  unfold construct. rewrite rows_n.
  eapply goes_bind.
  { apply (goes_res _ _ _ _ _ Eb). apply (goes_res _ _ _ _ _ Eq).
    apply (goes_lift _ Datatypes.tt); [destruct (Nat.eqb_spec n 0) as [X|X]; [pose proof n_pos; lia|reflexivity]|].
    cbv zeta. rewrite Ech. rewrite <- (split_length n qd q) at 2.
    eapply goes_end_left.
    { apply (goes_map _ _ (fun h _ pt => pt = com h)). intros pc I. apply goes_poly. rewrite (split_exact n qd q Lq' pc I). apply le_n. }
    cbv beta. intros us ps H. apply (goes_ret _ _ (fun a b => a = split_pieces n qd q /\ b = map com a)). split; [reflexivity|].
    revert H. generalize (split_pieces n qd q). clear. intros l H. induction H as [|x1 x2 x3 l1 l2 l3 E _ IH]; [reflexivity|]. cbn [map]. rewrite E, IH. reflexivity. }
  intros ? ? [-> ->].
  apply (goes_bind _ _ _ _ _ _ (goes_draw hash Hhash)). intros x ? <-.
  apply goes_ret. cbn [fst snd]. constructor; cbn [ms_challenges ms_x ms_advice ms_lookups ms_lproducts ms_products ms_random ms_h ms_theta ms_beta ms_gamma ms_y po_advice po_sets po_lookups po_pieces po_random].
  - exact Lchs.
  - reflexivity.
  - split; [reflexivity|]. unfold advice_polys. rewrite map_map. reflexivity.
  - split; [exact Hlks|]. split; reflexivity.
  - split; [exact Hsets|reflexivity].
  - split; [exact Lr|reflexivity].
  - exists h, b, q. repeat apply conj; auto.
  - split; [apply split_length|]. split; [|reflexivity]. intros pc I. exact (split_exact n qd q Lq' pc I).
Qed.

(** ** From the challenge x to the end *)
Local Notation commit_or_identity := (commit_or_identity zero add of_affine to_affine p).
Hypothesis Hback : forall g, of_affine (to_affine g) = g.
Hypothesis HVf : vk_fixed v = map commit_or_identity cols.
Hypothesis HVp : vk_permutation v = map commit_or_identity sigma.
Variables (is_zero : G -> bool) (pairing_product : list (G * g2) -> bool) (p' : kzg).
Local Notation check := (pairing_check is_zero pairing_product).
Hypothesis Hcheck : is_pairing scale scale2 gen2 check.
Hypothesis Hshrink : exists i, (0 <= i <= k)%Z /\ srs_shrink (srs_of of_affine p) i = Ok (srs_of of_affine p').
Lemma columns_com cs ps : (forall col, In col cs -> length col = n) -> Forall2 (column_poly v n) cs ps -> map commit_or_identity cs = map com ps.
Proof.
  intros L H. induction H as [|col q cs ps T _ IH]; [reflexivity|]. cbn [map]. f_equal; [|apply IH; intros; apply L; right; assumption].
  unfold commit_or_identity. rewrite (values_commit col q); [reflexivity|apply L; left; reflexivity|exact T].
Qed.
Lemma polys_of_columns cs ps : Forall2 (column_poly v n) cs ps -> polys_of n (length cs) ps.
Proof. intros H. exact (column_polys v k cs ps H). Qed.
Lemma fixed_known : polys_of n (num_fixed c) (pk_fixed_polys pk) /\ vk_fixed v = map (fun q => com q) (pk_fixed_polys pk).
Proof.
  rewrite <- Lc. split; [apply polys_of_columns, (pk_fixed_ok _ _ _ _ _ HP)|]. rewrite HVf. apply (columns_com _ _ Lcols), (pk_fixed_ok _ _ _ _ _ HP).
Qed.
Lemma sigma_known : polys_of n (length (perm_columns c)) (pk_sigma_polys pk) /\ vk_permutation v = map (fun q => com q) (pk_sigma_polys pk).
Proof.
  rewrite <- Ls. split; [apply polys_of_columns, (pk_sigma_ok _ _ _ _ _ HP)|]. rewrite HVp. apply (columns_com _ _ Lsigma), (pk_sigma_ok _ _ _ _ _ HP).
Qed.
Lemma shrunk_n : kz_n p' = kz_n p.
Proof. destruct Hshrink as (i & _ & E). unfold srs_shrink in E. destruct (i <=? _)%Z; [|discriminate]. injection E as _ E _ _ _ _. symmetry. exact E. Qed.

Section After.
Variables (po : polys) (x : Fr) (m : messages).
Hypothesis Hl : linked po x m.
Local Notation P := (commitments pk (po_advice po) (po_sets po) (po_lookups po) (po_random po) (po_pieces po)).
Local Notation scalars := (write_evals (evalsx v P (ms_x m))).
Lemma advice_known : polys_of n (num_advice c) (po_advice po) /\ ms_advice m = map (fun q => com q) (po_advice po).
Proof. destruct (lk_advice _ _ _ Hl) as [E1 E2]. split; [rewrite E1; apply advice_polys_of|exact E2]. Qed.
Lemma sets_known : polys_of n (sets_count v) (po_sets po) /\ ms_products m = map (fun q => com q) (po_sets po).
Proof. destruct (lk_sets _ _ _ Hl) as [[E1 _] E2]. auto. Qed.
Lemma lookups_known : lookup_polys_of n (length (lookups c)) (po_lookups po) /\
  ms_lookups m = map (fun l => (com (lp_input l), com (lp_table l))) (po_lookups po) /\ ms_lproducts m = map (fun l => com (lp_product l)) (po_lookups po).
Proof. destruct (lk_lookups _ _ _ Hl) as [[E1 _] E2]. auto. Qed.
Lemma pieces_known : (forall h, In h (po_pieces po) -> length h = n) /\ ms_h m = map (fun q => com q) (po_pieces po).
Proof. exact (proj2 (lk_pieces _ _ _ Hl)). Qed.
Lemma scalars_known : proof_scalars pk po x = Ok scalars.
Proof.
  rewrite <- (lk_x _ _ _ Hl). rewrite (scalars_are scale gen to_affine pk k s W_cs Hadv fixed_known po m advice_known). do 2 f_equal.
  exact (evaluations_are v k cols sigma pk HP Ls (po_advice po) (po_sets po) (po_lookups po) (po_random po) (proj1 sets_known) (proj1 lookups_known) (po_pieces po) (ms_x m)).
Qed.

Local Notation the_poly := (poly p pk po m).
Local Notation lucky_now := (lucky v n (asg (ms_challenges m)) (fun i => nth i (pk_sigma_polys pk) []) (ms_theta m) (ms_beta m) (ms_gamma m)).
Lemma xn_is : pow_vartime (ms_x m) (kz_n p) = fpow (ms_x m) (2 ^ k).
Proof. rewrite rows_n. apply pow_vartime_is, Z.pow_nonneg. lia. Qed.
Lemma quotient_now : lucky_now -> fpow (ms_x m) (2 ^ k) <> f1 ->
  compress (ms_y m) (map (fun f => f (ms_x m)) (all_fs v n insts (ms_challenges m) P (ms_theta m) (ms_beta m) (ms_gamma m))) =
  (quotient_at k P (ms_x m) * (fpow (ms_x m) (2 ^ k) - f1))%F.
Proof.
  intros Lk N. destruct (lk_quotient _ _ _ Hl) as (h & b & q & Eh & Eb & Eq & Lq & Ep). pose proof (lk_challenges _ _ _ Hl) as Lchs.
  destruct (lk_lookups _ _ _ Hl) as ((_ & HPm & HPl) & _). destruct (lk_sets _ _ _ Hl) as ((_ & HPs) & _). destruct (lk_advice _ _ _ Hl) as (Ea & _).
  destruct (quotient_ok v k cols sigma pk fixed copies _ _ HK HP Hg Hadv Lc Ls insts (ms_challenges m) (ms_theta m) (ms_beta m) (ms_gamma m) (ms_y m) Hinst public_bound Lchs
    (po_advice po) (map poly_of_column (padded n insts)) (po_sets po) (po_lookups po) (po_random po) (proj1 advice_known) public_polys (proj1 sets_known) (proj1 lookups_known) HK)
    with (p := p) as (h' & b' & q' & Eh' & Eb' & Eq' & _ & _ & EE & _).
  - rewrite Ea. apply HSat, Lchs.
  - rewrite Ea. exact HPm.
  - rewrite Ea. split; [exists (co_product co); exact HPs|exact HPl].
  - rewrite Ea. exact Lk.
  - rewrite (proj1 (lk_random _ _ _ Hl)). apply le_n.
  - exact rows_n.
  - rewrite Eh in Eh'. injection Eh' as <-. rewrite Eb in Eb'. injection Eb' as <-. rewrite Eq in Eq'. injection Eq' as <-.
    etransitivity; [exact (EE (ms_x m) N)|]. unfold quotient_at. cbn [poly_of commitments cm_quotient]. rewrite h_combine_is, Ep.
    pose proof (split_eval n qd (ms_x m) q (Nat.eq_le_incl _ _ Lq)) as SE. rewrite n_pow in SE. rewrite SE.
    generalize (fpow (ms_x m) (2 ^ k)) (peval q (ms_x m)). intros. fring.
Qed.
Lemma claims_now : fpow (ms_x m) (2 ^ k) <> f1 -> exists ops, read_evals v scalars = Some (evalsx v P (ms_x m), []) /\
  verify_openings v (2 ^ k) insts (ms_challenges m) (ms_theta m) (ms_beta m) (ms_gamma m) (ms_y m) (ms_x m) (evalsx v P (ms_x m)) = VOpen ops /\
  map fst ops = places v (ms_x m) /\ (lucky_now -> ops = map (fun q => (fst q, snd q, peval (the_poly (fst q)) (snd q))) (places v (ms_x m))).
Proof.
  intros N. destruct (openings_exist v j k n (proj1 k_range) n_pow Hd (kf_rows _ _ _ _ _ _ HK) W_cs (kf_degree _ _ _ _ _ _ HK) (kf_perm _ _ _ _ _ _ HK) insts (ms_challenges m)
    P (ms_theta m) (ms_beta m) (ms_gamma m) (lk_challenges _ _ _ Hl) Hinst (ms_y m) (ms_x m) N) as (ops & A & B & C & V).
  exists ops. split; [exact A|]. split; [exact B|]. split; [exact C|]. intros Lk. specialize (V (quotient_now Lk N)).
  rewrite <- C, map_map. rewrite <- (map_id ops) at 1. apply map_ext_in. intros [[h z] e] I. cbn [fst snd]. f_equal.
  rewrite (poly_values scale gen to_affine p pk j k s Hd po m (lk_random _ _ _ Hl) pieces_known). rewrite xn_is. symmetry. exact (V h z e I).
Qed.
End After.

(** ** All bytes *)
Local Notation read_messages_ := (read_messages hash transcript_repr v insts).
Definition fortunate_now (bytes : list Z) : Prop := exists m st rest, read_messages_ [] bytes = TOk m st rest /\
  lucky v n (asg (ms_challenges m)) (fun i => nth i (pk_sigma_polys pk) []) (ms_theta m) (ms_beta m) (ms_gamma m).
Theorem created pr : exists a st bytes,
  write_first hash transcript_repr zero add of_affine to_affine p pk synth insts co ([], []) = POk (a, (st, bytes)) /\ Forall byte bytes /\
  (exists m st rest, read_messages hash transcript_repr v insts [] bytes = TOk m st rest) /\
  (unlucky hash transcript_repr of_affine p v insts bytes \/
   exists last, create_proof hash transcript_repr zero add of_affine to_affine pr p pk synth insts co = POk (bytes ++ last) /\ Forall byte last /\
     (fortunate_now bytes -> length (bytes ++ last) = proof_size v /\
        verify_proof hash transcript_repr zero add of_affine is_zero pairing_product p' v insts (bytes ++ last) = Ok true)).
Proof.
  destruct (goes_messages [] []) as ([po x] & m & st1 & n1 & E1 & F1 & R1 & Hl). cbn [fst snd app] in *.
  pose proof (lk_x _ _ _ Hl) as Ex. subst x.
  set (P := commitments pk (po_advice po) (po_sets po) (po_lookups po) (po_random po) (po_pieces po)).
  pose proof (scalars_known po _ m Hl) as Es. fold P in Es.
  pose proof (scalars_length scale gen to_affine pk k s sigma_known po m (sets_known po _ m Hl) (lookups_known po _ m Hl) (lk_random _ _ _ Hl) _ Es) as Ln.
  destruct (goes_scalars pk _ Ln st1 n1) as (a2 & b2 & st2 & n2 & E2 & F2 & R2 & ->).
  destruct (goes_open hash zero add sub scale gen scale2 gen2 of_affine to_affine p pk j k s Hhash M Hpoint Hback Hsetup k_range Hd W_cs Hadv fixed_known sigma_known po m
    (advice_known po _ m Hl) (sets_known po _ m Hl) (lookups_known po _ m Hl) (lk_random _ _ _ Hl) (pieces_known po _ m Hl)
    check (srs_of of_affine p') Hcheck Hshrink st2 (n1 ++ n2)) as (a3 & b3 & st3 & n3 & E3 & F3 & R3 & (y & vv & h & u & h1 & -> & -> & Fin)).
  pose proof (h_poly_ok scale gen to_affine p pk j k s Hd po m (lk_random _ _ _ Hl) (pieces_known po _ m Hl)) as (Eh & _).
  pose proof (queries_are scale gen to_affine pk k s sigma_known po m (sets_known po _ m Hl) (lookups_known po _ m Hl)) as Eq.
  pose proof (places_ok scale gen of_affine to_affine p pk k s k_range W_cs Hadv fixed_known sigma_known po m
    (advice_known po _ m Hl) (sets_known po _ m Hl) (lookups_known po _ m Hl) (lk_random _ _ _ Hl) (pieces_known po _ m Hl)) as PO.
  assert (EW : write_first hash transcript_repr zero add of_affine to_affine p pk synth insts co ([], []) =
    POk (poly p pk po m, places v (ms_x m), (y, vv, h, u), (st3, (n1 ++ n2) ++ n3))).
  { unfold write_first, wbind. rewrite E1. cbn [pbind fst snd]. rewrite Es. unfold wres at 1, wlift at 1. cbn [of_res pbind fst snd]. rewrite E2. cbn [pbind fst snd].
    rewrite Eh. unfold wres at 1, wlift at 1. cbn [of_res pbind fst snd]. rewrite Eq.
    destruct (rmap_exists (fun q => proof_poly pk po (h_poly p pk po m) (fst q)) (fun _ _ => True) (places v (ms_x m))) as (ps & Eps & _).
    { intros q I. destruct (PO q I) as (_ & (pl & Epl) & _). eauto. }
    rewrite Eps. unfold wres at 1, wlift at 1. cbn [of_res pbind fst snd]. unfold poly in E3. rewrite E3. cbn [pbind fst snd]. reflexivity. }
  exists (poly p pk po m, places v (ms_x m), (y, vv, h, u)), st3, ((n1 ++ n2) ++ n3). split; [exact EW|].
  split; [apply Forall_app; split; [apply Forall_app; split|]; assumption|].
  split; [exists m, st1, (n2 ++ n3); rewrite <- app_assoc; apply R1|].
  pose proof (xn_is m) as Exn.
  destruct (fe_dec (fpow (ms_x m) (2 ^ k)) f1) as [C|N].
  { left. left. exists m, st1, (n2 ++ n3). split; [rewrite <- app_assoc; apply R1|]. rewrite Exn. exact C. }
  destruct (claims_now po _ m Hl N) as (ops & A & B & CO & V). fold P in A, B.
  assert (RO : forall p'' rest, kz_n p'' = kz_n p -> read_opening hash transcript_repr of_affine p'' v insts [] (((n1 ++ n2) ++ n3) ++ rest) = TOk (m, ops, (y, vv, h1, u)) st3 rest).
  { intros p'' rest Ep. unfold read_opening, read_claims. rewrite Ep, rows_n. unfold tbind at 1 2. rewrite <- !app_assoc, R1.
    destruct (instance_evals_ok v (2 ^ k) insts (ms_x m)) as (ie & Eie & _); [intros q I; rewrite Hinst; apply (wf_instance _ W_cs _ I)|].
    unfold tbind at 1. rewrite Eie. cbn [tlift]. unfold tbind at 1. rewrite R2, A, B.
    destruct (rmap_exists (fun o : opening => commitment of_affine v m (pow_vartime (ms_x m) (2 ^ k)) (fst (fst o))) (fun _ _ => True) ops) as (rs & Ers & _).
    { intros o I. destruct (PO (fst o)) as (_ & _ & (r & Er)); [rewrite <- CO; apply in_map, I|]. rewrite rows_n in Er. eauto. }
    unfold tbind at 1. rewrite Ers. cbn [tlift tret].
    exact (opening_tail (squeeze hash) read_point (m, ops) _ _ _ _ _ _ _ _ (R3 rest)). }
  destruct (in_dec fe_dec u (map snd (places v (ms_x m)))) as [I|I].
  { left. right. exists m, ops, y, vv, h1, u, st3, []. split; [rewrite <- (app_nil_r ((n1 ++ n2) ++ n3)); apply RO; reflexivity|].
    apply in_map_iff in I as (q & <- & I). exact (proj1 (PO q I)). }
  right. destruct (Fin pr I) as (h2 & g & Eh2 & Eg & Ev).
  destruct (goes_commit zero add of_affine to_affine p Hpoint _ _ Eg st3 ((n1 ++ n2) ++ n3)) as (a4 & b4 & st4 & n4 & E4 & F4 & R4 & ->).
  exists n4. split; [|split; [exact F4|]].
  - unfold create_proof, write_proof, wbind. rewrite EW. cbn [pbind fst snd]. rewrite Eh2. unfold wres at 1, wlift at 1. cbn [of_res pbind fst snd]. rewrite E4. cbn [pbind fst snd]. reflexivity.
  - intros (m' & st' & rest' & ER & LK). rewrite <- app_assoc, R1 in ER. injection ER as <- _ _.
    assert (VT : verify_transcript hash transcript_repr zero add of_affine is_zero pairing_product p' v insts [] (((n1 ++ n2) ++ n3) ++ n4) = TOk true st4 []).
    { unfold verify_transcript, tbind at 1. rewrite (RO p' n4 shrunk_n). specialize (R4 []). rewrite app_nil_r in R4. unfold tbind at 1. rewrite R4.
      rewrite shrunk_n, Hback, (V LK). unfold tlift. rewrite Ev. reflexivity. }
    split.
    + assert (Fb : Forall byte (((n1 ++ n2) ++ n3) ++ n4)) by (apply Forall_app; split; [apply Forall_app; split; [apply Forall_app; split|]|]; assumption).
      destruct (ex_sizes _ _ _ (exactly_verify hash transcript_repr zero add of_affine is_zero pairing_product p' v insts) _ _ _ _ _ Fb VT) as (s0 & c0 & _ & Ec & _ & L).
      rewrite Ec, app_nil_r. unfold proof_size. exact L.
    + unfold verify_proof. rewrite Hinst, Nat.eqb_refl. cbn [negb]. rewrite VT. reflexivity.
Qed.
End Create.
