(** The evaluations and the openings of a prover whose messages the verifier has read. *)
From Coq Require Import ZArith List Arith Bool Lia.
From Verif Require Import Base Moduli Field FieldFacts ListFacts LimbSpec LimbConst PolyFacts RootFacts LimbModel Halo2Model
  SelectorModel SerdeModel SerdeSpec DomainModel DomainSpec DomainFacts VkModel IopModel IopPoly IopRows
  IopSpec IopLagrange IopTotal Agree ArithModel ArithSpec TransformFacts ArithFacts KzgModel KzgFacts ShplonkModel ShplonkSpec ShplonkVerify ShplonkThms ArithThms TranscriptModel TranscriptFacts
  VerifierModel VerifierSpec VerifierThms VerifierTotal IopAccept IopDegree IopComplete ProverModel ProverSpec GraphModel GraphSpec GraphFacts CreateModel
  CreateFacts CreateValues.
Import ListNotations IopPoly IopSpec.
Local Open Scope nat_scope.

Lemma at_map {A B} (f : A -> B) l i : at_ (map f l) i = match at_ l i with Ok a => Ok (f a) | Panic => Panic end.
Proof. unfold at_. rewrite nth_error_map'. destruct (nth_error l i); reflexivity. Qed.
Lemma at_in {A} (l : list A) i : i < length l -> exists a, at_ l i = Ok a /\ In a l.
Proof.
  intros H. unfold at_. destruct (nth_error l i) as [a|] eqn:E; [exists a; split; [reflexivity|apply (nth_error_In _ _ E)]|]. apply nth_error_None in E. lia.
Qed.
Lemma at_nth {A} (l : list A) i x : i < length l -> at_ l i = Ok (nth i l x).
Proof. intros H. unfold at_. rewrite (nth_error_nth' _ x H). reflexivity. Qed.
Lemma at_ok_in {A} (l : list A) i a : at_ l i = Ok a -> In a l.
Proof. unfold at_. destruct (nth_error l i) as [b|] eqn:E; [|discriminate]. intros [= <-]. exact (nth_error_In _ _ E). Qed.
Lemma at_ok_nth {A} (l : list A) i a x : at_ l i = Ok a -> nth i l x = a.
Proof. unfold at_. destruct (nth_error l i) as [b|] eqn:E; [|discriminate]. intros [= <-]. exact (nth_error_nth _ _ _ E). Qed.
Lemma zip_left_length f (a b : list Fr) : length (zip_left f a b) = length a.
Proof. revert b. induction a as [|x a IH]; intros [|y b]; cbn [zip_left length]; [reflexivity..|]. f_equal. apply IH. Qed.
Lemma zip_left_peval (a b : list Fr) x : length b = length a -> peval (zip_left fadd a b) x = (peval a x + peval b x)%F.
Proof.
  revert b. induction a as [|y a IH]; intros [|z b] L; try discriminate; cbn [zip_left PolyFacts.peval].
  - fring.
  - rewrite IH by (injection L as L; exact L). fring.
Qed.
Lemma poly_scale_peval (a : list Fr) t x : peval (poly_scale a t) x = (peval a x * t)%F.
Proof. induction a as [|y a IH]; cbn [poly_scale map PolyFacts.peval]; [fring|]. unfold poly_scale in IH. rewrite IH. fring. Qed.
Lemma zeros_peval n x : peval (repeat (f0 : Fr) n) x = f0.
Proof. induction n as [|n IH]; cbn [repeat PolyFacts.peval]; [reflexivity|]. rewrite IH. fring. Qed.
(** the scalars of the running products *)
Lemma set_scalars_are (f g h : list Fr -> Fr) x xn xl : forall sets i N, (forall z, eval_polynomial z x = f z) -> (forall z, eval_polynomial z xn = g z) ->
  (forall z, eval_polynomial z xl = h z) -> i + length sets = N ->
  set_scalars x xn xl sets = flat_map write_set (map (fun iz : nat * list Fr => PSet (f (snd iz)) (g (snd iz))
         (if S (fst iz) <? N then Some (h (snd iz)) else None)) (combine (seq i (length sets)) sets)).
Proof.
  intros sets i N F G H. revert i. induction sets as [|z sets IH]; intros i E; [reflexivity|].
  cbn [length seq combine map flat_map fst snd write_set ps_eval ps_next ps_last]. rewrite <- (IH (S i)) by (cbn [length] in E; lia).
  destruct sets as [|z' sets]; cbn [set_scalars].
  - rewrite F, G. destruct (Nat.ltb_spec (S i) N) as [X|X]; [cbn [length] in E; lia|reflexivity].
  - rewrite F, G, H. destruct (Nat.ltb_spec (S i) N) as [X|X]; [reflexivity|cbn [length] in E; lia].
Qed.
Lemma set_scalars_length x xn xl sets : length (set_scalars x xn xl sets) = 3 * length sets - (if length sets =? 0 then 0 else 1).
Proof.
  induction sets as [|z [|z' sets] IH]; [reflexivity|reflexivity|]. cbn [set_scalars length] in *.
  cbn [Nat.eqb] in *. lia.
Qed.
Lemma tl_rev_seq s : tl (rev (seq 0 s)) = rev (seq 0 (s - 1)).
Proof.
  destruct s as [|s]; [reflexivity|]. rewrite seq_S, rev_app_distr. cbn [rev app tl]. rewrite Nat.sub_succ, Nat.sub_0_r. reflexivity.
Qed.
Lemma flat_map_const_length {A B} (f : A -> list B) q l : (forall a, length (f a) = q) -> length (flat_map f l) = q * length l.
Proof. intros H. induction l as [|a l IH]; cbn [flat_map length]; [lia|]. rewrite app_length, H, IH. lia. Qed.

Lemma rmap_length {A B} (f : A -> res B) l bs : rmap f l = Ok bs -> length bs = length l.
Proof.
  revert bs. induction l as [|a l IH]; cbn [rmap]; intros bs; [intros [= <-]; reflexivity|].
  destruct (f a); cbn [bind]; [|discriminate]. destruct (rmap f l); cbn [bind]; [|discriminate]. intros [= <-]. cbn [length]. f_equal. apply IH. reflexivity.
Qed.

Section Open.
Variables (hash : list Z -> list Z).
Context {G : Type}.
Variables (zero : G) (add sub : G -> G -> G) (scale : Fr -> G -> G) (gen : G) (scale2 : Fr -> g2 -> g2) (gen2 : g2).
Variables (of_affine : g1 -> G) (to_affine : G -> g1) (p : kzg) (pk : pkey) (j k : Z) (s : Fr).
Local Notation v := (pk_vk pk).
Local Notation d := (vk_domain (pk_vk pk)).
Local Notation c := (vk_cs (pk_vk pk)).
Local Notation n := (Z.to_nat (2 ^ k)).
Local Notation cm q := (to_affine (scale (peval q s) gen)).
Hypothesis Hhash : digest64 hash.
Hypothesis M : is_module zero add sub scale.
Hypothesis Hpoint : forall g, exists x y, g1_point (to_affine g) x y.
Hypothesis Hback : forall g, of_affine (to_affine g) = g.
Hypothesis Hsetup : setup scale gen scale2 gen2 k s = Ok (srs_of of_affine p).
Hypothesis Hk : (0 <= k <= 28)%Z.
Hypothesis Hd : domain_for j k d.
Hypothesis Hcs : well_formed c.
Hypothesis Hadv : forall q, In q (advice_queries c) -> ac_index (fst q) < num_advice c.
Hypothesis Hfix : polys_of n (num_fixed c) (pk_fixed_polys pk) /\ vk_fixed v = map (fun q => cm q) (pk_fixed_polys pk).
Hypothesis Hsig : polys_of n (length (perm_columns c)) (pk_sigma_polys pk) /\ vk_permutation v = map (fun q => cm q) (pk_sigma_polys pk).
Variables (po : polys) (m : messages).
Local Notation x := (ms_x m).
Local Notation xn := (pow_vartime (ms_x m) (kz_n p)).
Hypothesis Had : polys_of n (num_advice c) (po_advice po) /\ ms_advice m = map (fun q => cm q) (po_advice po).
Hypothesis Hset : polys_of n (sets_count v) (po_sets po) /\ ms_products m = map (fun q => cm q) (po_sets po).
Hypothesis Hlk : lookup_polys_of n (length (lookups c)) (po_lookups po) /\
  ms_lookups m = map (fun l => (cm (lp_input l), cm (lp_table l))) (po_lookups po) /\ ms_lproducts m = map (fun l => cm (lp_product l)) (po_lookups po).
Hypothesis Hran : length (po_random po) = n /\ ms_random m = cm (po_random po).
Hypothesis Hpc : (forall h, In h (po_pieces po) -> length h = n) /\ ms_h m = map (fun q => cm q) (po_pieces po).
Local Notation P := (commitments pk (po_advice po) (po_sets po) (po_lookups po) (po_random po) (po_pieces po)).

Lemma size_n : Z.of_nat n = (2 ^ k)%Z.
Proof. apply Z2Nat.id, Z.pow_nonneg. lia. Qed.
Lemma size_pos : 0 < n.
Proof. assert (0 < 2 ^ k)%Z by (apply Z.pow_pos_nonneg; lia). pose proof size_n. lia. Qed.
Lemma lks_length : length (po_lookups po) = length (lookups c).
Proof. destruct Hlk as (((L & _) & _) & _). rewrite map_length in L. exact L. Qed.
Lemma empty_zeros : empty d = repeat f0 n.
Proof. unfold empty. destruct (df_size _ _ _ Hd) as (_ & -> & _). reflexivity. Qed.

(** ** Evaluations *)
Lemma scalars_are : proof_scalars pk po x = Ok (write_evals (evaluations v (po_advice po) (pk_fixed_polys pk) (pk_sigma_polys pk) (po_sets po) (po_lookups po) (po_random po) x)).
Proof.
  unfold proof_scalars. cbv zeta.
  rewrite (rmap_map _ (fun q : advice_col * Z => at_rotation v (nth (ac_index (fst q)) (po_advice po) []) x (snd q))).
  2:{ intros q I. unfold eval_column. rewrite (at_nth _ _ []); [|rewrite (proj1 (proj1 Had)); apply Hadv, I]. cbn [bind]. rewrite eval_polynomial_is. reflexivity. }
  cbn [bind]. rewrite (rmap_map _ (fun q : nat * Z => at_rotation v (nth (fst q) (pk_fixed_polys pk) []) x (snd q))).
  2:{ intros q I. unfold eval_column. rewrite (at_nth _ _ []); [|rewrite (proj1 (proj1 Hfix)); apply (wf_fixed _ Hcs), I]. cbn [bind]. rewrite eval_polynomial_is. reflexivity. }
  cbn [bind]. unfold write_evals, evaluations. cbn [ev_advice ev_fixed ev_random ev_sigma ev_sets ev_lookups].
  apply f_equal. apply (f_equal2 (@app Fr)); [reflexivity|]. apply (f_equal2 (@app Fr)); [reflexivity|]. apply f_equal2; [apply eval_polynomial_is|].
  apply (f_equal2 (@app Fr)); [apply map_ext; intros q; apply eval_polynomial_is|].
  apply (f_equal2 (@app Fr)).
  - exact (set_scalars_are (fun z => peval z x) (fun z => at_rotation v z x 1) (fun z => at_rotation v z x (- (Z.of_nat (blinding_factors c) + 1)))
      x _ _ (po_sets po) 0 (length (po_sets po)) (fun z => eval_polynomial_is z _) (fun z => eval_polynomial_is z _) (fun z => eval_polynomial_is z _) eq_refl).
  - rewrite flat_map_map. apply flat_map_ext. intros l. cbn [write_lookup le_product le_product_next le_input le_input_inv le_table].
    rewrite !eval_polynomial_is. reflexivity.
Qed.
Lemma scalars_length l : proof_scalars pk po x = Ok l -> length l = scalars_count v.
Proof.
  unfold proof_scalars. cbv zeta. destruct (rmap _ (advice_queries c)) as [a|] eqn:Ea; cbn [bind]; [|discriminate].
  destruct (rmap _ (fixed_queries c)) as [f|] eqn:Ef; cbn [bind]; [|discriminate]. intros [= <-].
  apply rmap_length in Ea, Ef. rewrite !app_length. cbn [length]. rewrite !app_length, map_length, set_scalars_length, (flat_map_const_length _ 5) by reflexivity.
  unfold scalars_count. rewrite lks_length, (proj1 (proj1 Hset)), (proj2 Hsig), map_length. change (fe r_pos) with Fr in *. rewrite Ea, Ef. lia.
Qed.
Lemma goes_scalars l : length l = scalars_count v -> goes (wmap send_scalar l) (trepeat (scalars_count v) read_scalar) (fun _ b => b = l).
Proof.
  intros <-. apply (goes_weaken _ _ (all3 (fun a _ b => b = a) l)); [apply goes_map; intros a _; apply goes_scalar|].
  intros a b H. clear - H. induction H as [|a b e la lb lc E _ IH]; [reflexivity|]. rewrite E, IH. reflexivity.
Qed.

(** ** The quotient *)
Lemma assemble_ok t : exists h, assemble pk t (po_pieces po) = Ok h /\ length h = n /\ forall z, peval h z = pieces (po_pieces po) z t.
Proof.
  unfold assemble. rewrite <- fold_left_rev_right, rev_involutive. destruct Hpc as [L _]. revert L. generalize (po_pieces po).
  induction l as [|q l IH]; intros L; cbn [fold_right].
  - exists (empty d). rewrite empty_zeros. split; [reflexivity|]. split; [apply repeat_length|]. intros z. apply zeros_peval.
  - destruct IH as (h & E & Lh & V); [intros; apply L; right; assumption|]. rewrite E. cbn [bind].
    assert (Lq : length q = n) by (apply L; left; reflexivity).
    assert (Ls : length (poly_scale h t) = n) by (unfold poly_scale; rewrite map_length; exact Lh).
    exists (zip_left fadd (poly_scale h t) q). unfold poly_add. change (fe r_pos) with Fr in *. rewrite Ls, Lq.
    destruct (Nat.leb_spec n (S n)) as [_|X]; [|lia]. split; [reflexivity|]. split; [rewrite zip_left_length; exact Ls|].
    intros z. rewrite zip_left_peval by (change (fe r_pos) with Fr; congruence). rewrite poly_scale_peval, V. cbn [pieces]. fring.
Qed.
Definition h_poly : list Fr := match assemble pk xn (po_pieces po) with Ok h => h | Panic => [] end.
Lemma h_poly_ok : assemble pk xn (po_pieces po) = Ok h_poly /\ length h_poly = n /\ forall z, peval h_poly z = pieces (po_pieces po) z xn.
Proof. unfold h_poly. destruct (assemble_ok xn) as (h & E & L & V). rewrite E. auto. Qed.
Lemma h_msm_ok t : element zero add scale (RMsm (h_msm of_affine t (map (fun q => cm q) (po_pieces po)))) = scale (pieces (po_pieces po) s t) gen.
Proof.
  change (mval zero add scale (h_msm of_affine t (map (fun q => cm q) (po_pieces po))) = scale (pieces (po_pieces po) s t) gen).
  unfold h_msm, h_combine. rewrite <- fold_left_rev_right, rev_involutive, map_map. clear Hpc. induction (po_pieces po) as [|q l IH]; cbn [map fold_right pieces].
  - symmetry. apply (mod_zero_scale _ _ _ _ M).
  - rewrite (mval_app zero add sub scale M), (mval_scale zero add sub scale gen M), IH, mval_cons, Hback, (mod_one_scale _ _ _ _ M).
    replace (mval zero add scale []) with zero by reflexivity. rewrite (mod_comm _ _ _ _ M _ zero), (mod_zero _ _ _ _ M), <- (mod_mul_scale _ _ _ _ M), <- (mod_add_scale _ _ _ _ M).
    apply f_equal2; [fring|reflexivity].
Qed.

(** ** Polynomials and commitments *)
Definition poly (h : handle) : list Fr := match proof_poly pk po h_poly h with Ok q => q | Panic => empty d end.
Lemma resolve_ok h : length (poly h) = n /\ element zero add scale (resolve of_affine v m xn h) = scale (peval (poly h) s) gen.
Proof.
  assert (Z : length (empty d) = n /\ zero = scale (peval (empty d) s) gen).
  { rewrite empty_zeros. split; [apply repeat_length|]. rewrite zeros_peval. symmetry. apply (mod_zero_scale _ _ _ _ M). }
  destruct Hlk as (((_ & L1) & (_ & L2) & (_ & L3)) & ML & MP).
  unfold poly, resolve, proof_poly, commitment. destruct h as [i|i|i|i|i|i|i| |].
  - rewrite (proj2 Had), at_map. destruct (at_ (po_advice po) i) as [q|] eqn:E; cbn [bind].
    + split; [apply (proj2 (proj1 Had)), (at_ok_in _ _ _ E)|apply Hback].
    + exact Z.
  - rewrite (proj2 Hfix), at_map. destruct (at_ (pk_fixed_polys pk) i) as [q|] eqn:E; cbn [bind].
    + split; [apply (proj2 (proj1 Hfix)), (at_ok_in _ _ _ E)|apply Hback].
    + exact Z.
  - rewrite (proj2 Hsig), at_map. destruct (at_ (pk_sigma_polys pk) i) as [q|] eqn:E; cbn [bind].
    + split; [apply (proj2 (proj1 Hsig)), (at_ok_in _ _ _ E)|apply Hback].
    + exact Z.
  - rewrite (proj2 Hset), at_map. destruct (at_ (po_sets po) i) as [q|] eqn:E; cbn [bind].
    + split; [apply (proj2 (proj1 Hset)), (at_ok_in _ _ _ E)|apply Hback].
    + exact Z.
  - rewrite MP, at_map. destruct (at_ (po_lookups po) i) as [q|] eqn:E; cbn [bind].
    + split; [apply L1, in_map, (at_ok_in _ _ _ E)|apply Hback].
    + exact Z.
  - rewrite ML, at_map. destruct (at_ (po_lookups po) i) as [q|] eqn:E; cbn [bind].
    + split; [apply L2, in_map, (at_ok_in _ _ _ E)|apply Hback].
    + exact Z.
  - rewrite ML, at_map. destruct (at_ (po_lookups po) i) as [q|] eqn:E; cbn [bind].
    + split; [apply L3, in_map, (at_ok_in _ _ _ E)|apply Hback].
    + exact Z.
  - destruct h_poly_ok as (_ & L & V). split; [exact L|]. rewrite (proj2 Hpc), V. apply h_msm_ok.
  - split; [exact (proj1 Hran)|]. rewrite (proj2 Hran). apply Hback.
Qed.
Lemma poly_commit h : commit zero add (srs_of of_affine p) (poly h) = Ok (element zero add scale (resolve of_affine v m xn h)).
Proof.
  destruct (resolve_ok h) as [L E]. rewrite E. apply (commit_ok zero add sub scale gen scale2 gen2 M k s _ _ Hk Hsetup).
  pose proof size_n. change (length (A := fe r_pos)) with (length (A := Fr)). rewrite L. lia.
Qed.
Lemma poly_values h z : peval (poly h) z = peval (poly_of P xn h) z.
Proof.
  assert (Z : peval (empty d) z = f0) by (rewrite empty_zeros; apply zeros_peval).
  assert (X : forall l i, peval (match at_ l i with Ok q => q | Panic => empty d end) z = peval (nth i l []) z).
  { intros l i. destruct (at_ l i) as [q|] eqn:E; [rewrite (at_ok_nth _ _ _ [] E); reflexivity|]. rewrite Z. unfold at_ in E.
    destruct (nth_error l i) eqn:E'; [discriminate|]. apply nth_error_None in E'. rewrite nth_overflow by exact E'. reflexivity. }
  unfold poly, proof_poly, poly_of. destruct h as [i|i|i|i|i|i|i| |]; cbn [commitments cm_advice cm_fixed cm_sigma cm_product cm_lproduct cm_linput cm_ltable cm_quotient cm_random]; try apply X.
  - destruct (at_ (po_lookups po) i) as [q|] eqn:E; cbn [bind]; [rewrite (at_ok_nth _ _ _ no_lookup E); reflexivity|]. rewrite Z. unfold at_ in E.
    destruct (nth_error (po_lookups po) i) eqn:E'; [discriminate|]. apply nth_error_None in E'. rewrite nth_overflow by exact E'. reflexivity.
  - destruct (at_ (po_lookups po) i) as [q|] eqn:E; cbn [bind]; [rewrite (at_ok_nth _ _ _ no_lookup E); reflexivity|]. rewrite Z. unfold at_ in E.
    destruct (nth_error (po_lookups po) i) eqn:E'; [discriminate|]. apply nth_error_None in E'. rewrite nth_overflow by exact E'. reflexivity.
  - destruct (at_ (po_lookups po) i) as [q|] eqn:E; cbn [bind]; [rewrite (at_ok_nth _ _ _ no_lookup E); reflexivity|]. rewrite Z. unfold at_ in E.
    destruct (nth_error (po_lookups po) i) eqn:E'; [discriminate|]. apply nth_error_None in E'. rewrite nth_overflow by exact E'. reflexivity.
  - rewrite h_combine_is. apply h_poly_ok.
  - reflexivity.
Qed.

(** ** Places *)
Lemma sets_JJ : length (po_sets po) = length (JJ v).
Proof. rewrite (proj1 (proj1 Hset)). apply IopTotal.sets_count. Qed.
Lemma queries_are : proof_queries pk po x = places v x.
Proof.
  unfold proof_queries, places. cbv zeta. rewrite sets_JJ, lks_length, (proj1 (proj1 Hsig)), tl_rev_seq, <- !app_assoc. reflexivity.
Qed.
Lemma places_ok q : In q (places v x) -> (exists t, snd q = rotate_omega d x t) /\ (exists pl, proof_poly pk po h_poly (fst q) = Ok pl) /\
  exists r, commitment of_affine v m xn (fst q) = Ok r.
Proof.
  assert (R : forall t, exists t', rotate_omega d x t = rotate_omega d x t') by eauto.
  assert (R0 : exists t', x = rotate_omega d x t') by (exists cur; symmetry; apply rot_cur).
  destruct Hlk as (_ & ML & MP).
  assert (A : forall {A B} (l : list A) (f : A -> B) i, i < length l -> (exists a, at_ l i = Ok a) /\ exists b, at_ (map f l) i = Ok b).
  { intros A B l f i Hi. rewrite at_map. destruct (at_in l i Hi) as (a & -> & _). eauto. }
  assert (HPr : forall i, i < length (JJ v) -> (exists pl, proof_poly pk po h_poly (HProduct i) = Ok pl) /\ exists r, commitment of_affine v m xn (HProduct i) = Ok r).
  { intros i Hi. unfold proof_poly, commitment. rewrite (proj2 Hset). destruct (A _ _ (po_sets po) (fun q => cm q) i) as [(a & Ea) (b & Eb)]; [rewrite sets_JJ; exact Hi|].
    rewrite Ea, Eb. cbn [bind]. eauto. }
  assert (HLk : forall h i, i < length (lookups c) -> In h [HLookupProduct i; HLookupInput i; HLookupTable i] ->
    (exists pl, proof_poly pk po h_poly h = Ok pl) /\ exists r, commitment of_affine v m xn h = Ok r).
  { intros h i Hi I. destruct (at_in (po_lookups po) i) as (a & Ea & _); [rewrite lks_length; exact Hi|].
    destruct I as [<-|[<-|[<-|[]]]]; unfold proof_poly, commitment; rewrite ?ML, ?MP, ?at_map, Ea; cbn [bind]; eauto. }
  unfold places. rewrite !in_app_iff. intros [I|[[I|I]|[I|[I|[I|I]]]]].
  - apply in_map_iff in I as (q' & <- & I). cbn [fst snd]. split; [apply R|]. unfold proof_poly, commitment. rewrite (proj2 Had).
    destruct (A _ _ (po_advice po) (fun q => cm q) (ac_index (fst q'))) as [(a & Ea) (b & Eb)]; [rewrite (proj1 (proj1 Had)); apply Hadv, I|].
    rewrite Ea, Eb. cbn [bind]. eauto.
  - apply in_flat_map in I as (i & Hi & I). apply in_seq in Hi. destruct I as [<-|[<-|[]]]; cbn [fst snd]; (split; [first [exact R0|apply R]|apply HPr; lia]).
  - apply in_map_iff in I as (i & <- & Hi). apply in_rev, in_seq in Hi. cbn [fst snd]. split; [apply R|apply HPr; lia].
  - apply in_flat_map in I as (i & Hi & I). apply in_seq in Hi. destruct I as [<-|[<-|[<-|[<-|[<-|[]]]]]]; cbn [fst snd];
      (split; [first [exact R0|apply R]|apply (HLk _ i); [lia|cbn [In]; tauto]]).
  - apply in_map_iff in I as (q' & <- & I). cbn [fst snd]. split; [apply R|]. unfold proof_poly, commitment. rewrite (proj2 Hfix).
    destruct (A _ _ (pk_fixed_polys pk) (fun q => cm q) (fst q')) as [(a & Ea) (b & Eb)]; [rewrite (proj1 (proj1 Hfix)); apply (wf_fixed _ Hcs), I|].
    rewrite Ea, Eb. cbn [bind]. eauto.
  - apply in_map_iff in I as (i & <- & Hi). apply in_seq in Hi. cbn [fst snd]. split; [exact R0|]. unfold proof_poly, commitment. rewrite (proj2 Hsig).
    destruct (A _ _ (pk_sigma_polys pk) (fun q => cm q) i) as [(a & Ea) (b & Eb)]; [rewrite (proj1 (proj1 Hsig)); lia|].
    rewrite Ea, Eb. cbn [bind]. eauto.
  - destruct I as [<-|[<-|[]]]; cbn [fst snd]; (split; [exact R0|]); unfold proof_poly, commitment; eauto.
Qed.
Lemma places_few : (lenZ (nodup fe_dec (map snd (places v x))) <= 2 ^ k)%Z.
Proof.
  unfold lenZ. rewrite <- size_n. apply Nat2Z.inj_le.
  set (all := map (fun r => IopPoly.pt (d_omega d) r * x)%F (seq 0 n)).
  replace n with (length all) by (unfold all; rewrite map_length, seq_length; reflexivity).
  apply NoDup_incl_length; [apply NoDup_nodup|]. intros z I. apply nodup_In, in_map_iff in I as (q & <- & I).
  destruct (places_ok q I) as ((t & ->) & _). rewrite (rotate_omega_lin d j k n (proj1 Hk) size_n Hd).
  unfold all. apply in_map_iff. eexists. split; [reflexivity|]. apply in_seq. split; [lia|]. apply Agree.rotate_lt, size_pos.
Qed.
Lemma places_some : places v x <> [].
Proof. unfold places. intros E. apply (f_equal (@length _)) in E. rewrite !app_length in E. cbn [length] in E. lia. Qed.

(** ** The opening argument *)
Lemma goes_commit q g : commit zero add (srs_of of_affine p) q = Ok g -> goes (send_poly zero add of_affine to_affine p q) read_point (fun _ b => b = to_affine g).
Proof.
  intros E. unfold send_poly, commit_poly. rewrite E. cbn [bind]. apply (goes_res _ _ _ _ _ eq_refl).
  destruct (Hpoint g) as (a & b & H). exact (goes_point _ a b H).
Qed.
Lemma params_n : kz_n p = (2 ^ k)%Z.
Proof. unfold setup in Hsetup. destruct (k <=? S_)%Z; [|discriminate]. destruct (map_res _ _); cbn [bind] in Hsetup; [|discriminate]. injection Hsetup as _ E _ _ _ _. congruence. Qed.
Variables (check : G -> g2 -> G -> g2 -> bool) (p' : srs G g2).
Hypothesis Hcheck : is_pairing scale scale2 gen2 check.
Hypothesis Hshrink : exists i, (0 <= i <= k)%Z /\ srs_shrink (srs_of of_affine p) i = Ok p'.
(** the second polynomial of the argument exists, and the two are accepted *)
Definition finishes (y vv : Fr) (h : list Fr) (u : Fr) (h1 : g1) : Prop := forall pr, ~ In u (map snd (places v x)) ->
  exists h2 g, shplonk_h2 handle_eqb poly pr (places v x) y vv h u = Ok h2 /\ commit zero add (srs_of of_affine p) h2 = Ok g /\
    shplonk_verify handle_eqb (resolve of_affine v m xn) zero add check p'
      (map (fun q => (fst q, snd q, peval (poly (fst q)) (snd q))) (places v x)) y vv (of_affine h1) u g = Ok true.
Lemma goes_open : goes (open_first hash zero add of_affine to_affine p poly (places v x))
  (get! y <- squeeze hash; get! vv <- squeeze hash; get! h1 <- read_point; get! u <- squeeze hash; tret (y, vv, h1, u))
  (fun a b => exists y vv h u h1, a = (y, vv, h, u) /\ b = (y, vv, h1, u) /\ finishes y vv h u h1).
Proof.
  unfold open_first. rewrite params_n.
  apply (goes_bind _ _ _ _ _ _ (goes_draw hash Hhash)). intros y ? <-.
  apply (goes_bind _ _ _ _ _ _ (goes_draw hash Hhash)). intros vv ? <-.
  assert (LP : forall h, lenZ (poly h) = (2 ^ k)%Z) by (intros h; unfold lenZ; rewrite <- size_n; f_equal; apply resolve_ok).
  destruct (accepted_spec zero add sub scale gen scale2 gen2 check handle_eqb M Hcheck handle_eqb_eq k s (srs_of of_affine p) p' poly (resolve of_affine v m xn) (places v x)
    Hk Hsetup LP places_some places_few poly_commit Hshrink y vv) as (h & c1 & Eh & Ec & F).
  apply (goes_res _ _ _ _ _ Eh). apply (goes_bind _ _ _ _ _ _ (goes_commit _ _ Ec)). intros [] ? ->.
  apply (goes_bind _ _ _ _ _ _ (goes_draw hash Hhash)). intros u ? <-.
  apply goes_ret. exists y, vv, h, u, (to_affine c1). split; [reflexivity|]. split; [reflexivity|].
  intros pr Hu. destruct (F pr u Hu) as (h2 & g & E1 & E2 & E3). exists h2, g. split; [exact E1|]. split; [exact E2|].
  rewrite Hback. rewrite (map_ext _ (fun q => (fst q, snd q, value (poly (fst q)) (snd q)))); [exact E3|]. intros q. rewrite comb_peval. reflexivity.
Qed.
End Open.
