(** The columns a prover computes, on the rows. *)
From Coq Require Import ZArith List Arith Bool Lia.
From Verif Require Import Base Moduli Field FieldFacts ListFacts LimbSpec LimbField LimbConst LimbBytes PolyFacts LimbModel Halo2Model
  SelectorModel PermModel PermFacts SelectorSpec SelectorFacts SelectorClaims SelectorMain PermClaims SerdeModel DomainModel DomainSpec DomainFacts VkModel VkFacts IopModel IopPoly IopRows
  IopSpec IopLagrange IopTotal IopHonest IopFull Agree ArithModel ArithSpec FftFacts TransformFacts KzgModel ShplonkModel TranscriptModel
  VerifierModel IopAccept IopDegree IopComplete ProverModel ProverSpec ProverFacts GraphModel GraphSpec GraphFacts CreateModel PkFacts GraphThms.
Import ListNotations IopPoly.
Local Open Scope nat_scope.

Definition same_rows (n : nat) (f g : nat -> Fr) : Prop := forall r, r < n -> f r = g r.

(** ** Extensionality *)
Lemma permute_ext u f f' t t' : same_rows u f f' -> same_rows u t t' -> permute_pair u f t = permute_pair u f' t'.
Proof.
  intros H1 H2. unfold permute_pair. rewrite (map_ext_in f f'), (map_ext_in t t'); [reflexivity|..]; intros r I; apply in_seq in I; [apply H2|apply H1]; lia.
Qed.
Lemma run_ext first f g r : (forall q, q < r -> f q = g q) -> run first f r = run first g r.
Proof. induction r as [|r IH]; intros H; [reflexivity|]. cbn [run]. rewrite IH, H by (intros; try apply H; lia). reflexivity. Qed.
Lemma lookup_ext n bf beta gamma a s t z a' s' t' z' rnd : same_rows n a a' -> same_rows n s s' -> same_rows n t t' -> same_rows n z z' ->
  same_rows n (lookup_product n bf beta gamma a s t z rnd) (lookup_product n bf beta gamma a' s' t' z' rnd).
Proof.
  intros H1 H2 H3 H4 r Hr. unfold lookup_product. destruct (r <? n - bf); [|reflexivity]. apply run_ext. intros q Hq.
  unfold lookup_factor. rewrite H1, H2, H3, H4 by lia. reflexivity.
Qed.
Lemma numer_ext beta gamma wr cols cols' r : Forall2 (fun f g : nat -> Fr => f r = g r) cols cols' -> forall dw acc,
  perm_numer beta gamma dw wr (map (fun c => c r) cols) acc = perm_numer beta gamma dw wr (map (fun c => c r) cols') acc.
Proof. induction 1 as [|f g l l' E _ IH]; intros dw acc; [reflexivity|]. cbn [map perm_numer]. rewrite E. apply IH. Qed.
Lemma factor_ext w beta gamma dw cols cols' sg sg' r : Forall2 (fun f g : nat -> Fr => f r = g r) cols cols' -> Forall2 (fun f g : nat -> Fr => f r = g r) sg sg' ->
  perm_factor w beta gamma dw cols sg r = perm_factor w beta gamma dw cols' sg' r.
Proof.
  intros H1 H2. unfold perm_factor. rewrite (numer_ext _ _ _ _ _ _ H1). f_equal. f_equal. generalize (f1 : Fr). revert sg sg' H2.
  induction H1 as [|f g l l' E _ IH]; intros sg sg' H2 m; [reflexivity|]. destruct H2 as [|f' g' s s' E' H2]; [reflexivity|].
  cbn [combine fold_left fst snd]. rewrite E, E'. apply IH, H2.
Qed.
Lemma Forall2_weaken {A B} (R S : A -> B -> Prop) l l' : (forall a b, R a b -> S a b) -> Forall2 R l l' -> Forall2 S l l'.
Proof. intros H. induction 1; constructor; auto. Qed.
Lemma delta_ext {A B} (l : list A) (l' : list B) dw : length l = length l' -> delta_after dw l = delta_after dw l'.
Proof.
  unfold delta_after. revert l' dw. induction l as [|a l IH]; intros [|b l'] dw; cbn [length fold_left]; intro L; try discriminate; [reflexivity|].
  injection L as L. apply IH, L.
Qed.
Lemma sets_ext w n bf beta gamma rnd : 0 < n -> forall ch ch' sg sg', Forall2 (Forall2 (same_rows n)) ch ch' -> Forall2 (Forall2 (same_rows n)) sg sg' ->
  forall i dw z, Forall2 (same_rows n) (perm_sets w n bf beta gamma rnd ch sg i dw z) (perm_sets w n bf beta gamma rnd ch' sg' i dw z).
Proof.
  intros Hn ch ch' sg sg' H1. revert sg sg'. induction H1 as [|c c' l l' E H IH]; intros sg sg' H2 i dw z; [constructor|].
  destruct H2 as [|s s' t t' E' H2]; cbn [perm_sets]; [constructor|].
  assert (X : same_rows n (fun r => if r <? n - bf then run z (perm_factor w beta gamma dw c s) r else rnd i r)
                (fun r => if r <? n - bf then run z (perm_factor w beta gamma dw c' s') r else rnd i r)).
  { intros r Hr. destruct (r <? n - bf); [|reflexivity]. apply run_ext. intros q Hq.
    apply factor_ext; eapply Forall2_weaken; [|exact E| |exact E']; intros f g X; apply X; lia. }
  constructor; [exact X|]. rewrite (delta_ext c c' dw) by (exact (Forall2_length _ _ _ E)).
  specialize (X (n - (bf + 1)) ltac:(lia)). cbv beta in X. rewrite X. apply IH, H2.
Qed.
Lemma chunks_Forall2 {A B} (R : A -> B -> Prop) len l l' (a : A) (b : B) : Forall2 R l l' -> Forall2 (Forall2 R) (chunks len l) (chunks len l').
Proof.
  intros H. pose proof (Forall2_length _ _ _ H) as L.
  rewrite <- (map_nth_seq l a), <- (map_nth_seq l' b), <- L, !chunks_map.
  assert (X : Forall (Forall (fun i => i < length l)) (chunks len (seq 0 (length l)))).
  { unfold chunks. assert (Y : Forall (fun i => i < length l) (seq 0 (length l))) by (apply Forall_forall; intros i I; apply in_seq in I; lia).
    revert Y. generalize (seq 0 (length l)) at 1 3. intros s. generalize (length (seq 0 (length l))). intros fuel. revert s.
    induction fuel as [|f IH]; intros s Y; cbn [chunks_go]; [constructor|]. destruct s as [|x s]; [constructor|].
    constructor; [apply Forall_firstn, Y|apply IH, Forall_skipn, Y]. }
  induction X as [|s ss Hs _ IH]; cbn [map]; constructor; [|exact IH].
  induction Hs as [|i s Hi _ IHs]; cbn [map]; constructor; [|exact IHs]. apply Forall2_nth; assumption.
Qed.
Lemma commit_ext v n beta gamma rnd cols cols' sg sg' : 0 < n -> Forall2 (same_rows n) cols cols' -> Forall2 (same_rows n) sg sg' ->
  match perm_commit v n beta gamma rnd cols sg, perm_commit v n beta gamma rnd cols' sg' with
  | POk zs, POk zs' => Forall2 (same_rows n) zs zs'
  | PPanic, PPanic => True
  | _, _ => False
  end.
Proof.
  intros Hn H1 H2. unfold perm_commit. destruct (vk_degree v <? 3); [exact I|].
  apply sets_ext; [exact Hn|apply (chunks_Forall2 _ _ _ _ (fun _ => f0) (fun _ => f0)), H1|apply (chunks_Forall2 _ _ _ _ (fun _ => f0) (fun _ => f0)), H2].
Qed.
Lemma sets_length w n bf beta gamma rnd : forall ch sg i dw z, length sg = length ch -> length (perm_sets w n bf beta gamma rnd ch sg i dw z) = length ch.
Proof.
  induction ch as [|c ch IH]; intros [|s sg] i dw z L; try discriminate; [reflexivity|]. cbn [perm_sets length]. rewrite IH by (injection L as L; exact L). reflexivity.
Qed.
Lemma row_of_map (f : nat -> Fr) n : same_rows n (row_of (map f (seq 0 n))) f.
Proof. intros r Hr. unfold row_of. apply map_nth_seq', Hr. Qed.
Lemma compressed_ext ev ev' theta es r : (forall e, In e es -> ev r e = ev' r e) -> compressed_row ev theta es r = compressed_row ev' theta es r.
Proof. intros H. rewrite !compressed_is. f_equal. apply map_ext_in, H. Qed.
Lemma lucky_agree v n a b S_ theta beta gamma : 0 < n -> as_n a = n -> agree (vk_cs v) a b -> well_formed (vk_cs v) ->
  (forall q, In q (advice_queries (vk_cs v)) -> ac_index (fst q) < num_advice (vk_cs v)) ->
  lucky v n a S_ theta beta gamma -> lucky v n b S_ theta beta gamma.
Proof.
  intros Hn En H W Hadv [L1 L2]. assert (Hp : 0 < as_n a) by (rewrite En; exact Hn). split.
  - intros i col r Ei Hr. rewrite <- (cell_agree _ _ _ W Hadv H col r).
    + apply (L1 i col r Ei Hr).
    + apply (wf_perm _ W), (nth_error_In _ _ Ei).
    + rewrite En. unfold usable_rows in Hr. lia.
  - intros l r Il Hr. rewrite <- !(compressed_ext (eval a) (eval b)); [apply (L2 l r Il Hr)|..];
    intros e Ie; apply (eval_agree _ _ _ W Hadv Hp H), (wf_exprs _ W); right; apply in_lookup_exprs; eauto.
Qed.

(** ** Compressed columns *)
Lemma zip_left_map (g h : nat -> Fr) l : zip_left fadd (map g l) (map h l) = map (fun i => (g i + h i)%F) l.
Proof. induction l as [|i l IH]; [reflexivity|]. cbn [map zip_left]. rewrite IH. reflexivity. Qed.
Lemma poly_add_map (g h : nat -> Fr) l : poly_add (map g l) (map h l) = Ok (map (fun i => (g i + h i)%F) l).
Proof. unfold poly_add. rewrite !map_length. destruct (Nat.leb_spec (length l) (S (length l))); [|lia]. rewrite zip_left_map. reflexivity. Qed.
Lemma compressed_values_ok p pk E theta es : let n := Z.to_nat (kz_n p) in 0 < n -> length (empty (vk_domain (pk_vk pk))) = n ->
  (forall e, In e es -> covered E n e) ->
  compressed_values p pk E theta es = Ok (map (compressed_row (eval (table E n)) theta es) (seq 0 n)).
Proof.
  intros n Hn He Hc. unfold compressed_values. fold n.
  rewrite (rmap_map _ (fun e => map (fun i => eval (table E n) i e) (seq 0 n))).
  2:{ intros e I. apply rmap_map. intros i _. apply simple_covered; [exact Hn|apply Hc, I]. }
  cbn [bind]. assert (Ee : empty (vk_domain (pk_vk pk)) = map (fun _ => f0) (seq 0 n)).
  { revert He. unfold empty. rewrite repeat_length. intros ->. generalize 0 n. clear. intros i m. revert i. induction m as [|m IH]; intros i; [reflexivity|]. cbn [repeat seq map]. rewrite (IH (S i)). reflexivity. }
  rewrite Ee. clear Ee Hc.
  assert (G : forall g : nat -> Fr, fold_left (fun acc row => let! acc := acc in poly_add (poly_scale acc theta) row)
    (map (fun e => map (fun i => eval (table E n) i e) (seq 0 n)) es) (Ok (map g (seq 0 n))) =
    Ok (map (fun r => fold_left (fun acc e => (acc * theta + eval (table E n) r e)%F) es (g r)) (seq 0 n))).
  { induction es as [|e es IH]; intros g; [reflexivity|]. cbn [map fold_left bind]. unfold poly_scale. rewrite map_map, poly_add_map, IH. reflexivity. }
  exact (G (fun _ => f0)).
Qed.
