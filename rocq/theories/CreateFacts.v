(** Provers and verifiers in step: what one writes the other reads. *)
From Coq Require Import ZArith List Arith Bool Lia.
From Verif Require Import Base Moduli Field FieldFacts ListFacts LimbSpec LimbField LimbModel LimbFacts LimbBytes LimbConst SerdeModel SerdeSpec SerdeFacts PointFacts
  Halo2Model SelectorModel DomainModel VkModel IopModel ArithModel KzgModel ShplonkModel TranscriptModel TranscriptFacts VerifierModel VerifierSpec ProverModel GraphModel CreateModel.
Import ListNotations.
Local Open Scope nat_scope.

(** From every state of the transcript the prover's side [w] succeeds, the
    verifier's side [r] reads what it wrote and ends in the same state, and the
    two results are related. *)
Definition goes {A B} (w : prover A) (r : transcript B) (Q : A -> B -> Prop) : Prop :=
  forall st out, exists a b st' new,
    w (st, out) = POk (a, (st', out ++ new)) /\ Forall byte new /\
    (forall rest, r st (new ++ rest) = TOk b st' rest) /\ Q a b.

Lemma goes_weaken {A B} (w : prover A) (r : transcript B) (Q R : A -> B -> Prop) :
  goes w r Q -> (forall a b, Q a b -> R a b) -> goes w r R.
Proof. intros H I st out. destruct (H st out) as (a & b & st' & new & E & F & G & X). exists a, b, st', new. auto. Qed.
Lemma goes_ext {A B} (w : prover A) (r r' : transcript B) Q : (forall st b, r' st b = r st b) -> goes w r Q -> goes w r' Q.
Proof.
  intros E H st out. destruct (H st out) as (a & b & st' & new & E1 & F & G & X). exists a, b, st', new.
  split; [exact E1|]. split; [exact F|]. split; [|exact X]. intros rest. rewrite E. apply G.
Qed.
Lemma goes_ret {A B} (a : A) (b : B) (Q : A -> B -> Prop) : Q a b -> goes (wret a) (tret b) Q.
Proof. intros H st out. exists a, b, st, []. rewrite app_nil_r. unfold wret, tret. auto. Qed.
Lemma goes_bind {A B A' B'} (w : prover A) (r : transcript B) (Q : A -> B -> Prop) (f : A -> prover A') (g : B -> transcript B') (R : A' -> B' -> Prop) :
  goes w r Q -> (forall a b, Q a b -> goes (f a) (g b) R) -> goes (wbind w f) (tbind r g) R.
Proof.
  intros H K st out. destruct (H st out) as (a & b & st1 & new & E1 & F1 & G1 & X).
  destruct (K a b X st1 (out ++ new)) as (a' & b' & st2 & new' & E2 & F2 & G2 & Y).
  exists a', b', st2, (new ++ new'). split; [|split; [|split; [|exact Y]]].
  - unfold wbind. rewrite E1. cbn [pbind fst snd]. rewrite E2, app_assoc. reflexivity.
  - apply Forall_app. auto.
  - intros rest. unfold tbind. rewrite <- app_assoc, G1. apply G2.
Qed.
(** steps of one side only *)
Lemma goes_lift {A A' B} (x : pres A) a (f : A -> prover A') (r : transcript B) R :
  x = POk a -> goes (f a) r R -> goes (wbind (wlift x) f) r R.
Proof. intros -> H st out. unfold wbind, wlift. cbn [pbind fst snd]. apply H. Qed.
Lemma goes_res {A A' B} (x : res A) a (f : A -> prover A') (r : transcript B) R :
  x = Ok a -> goes (f a) r R -> goes (wbind (wres x) f) r R.
Proof. intros -> H. apply (goes_lift _ a); [reflexivity|exact H]. Qed.
Lemma goes_tlift {A B B'} (x : res B) b (w : prover A) (g : B -> transcript B') R :
  x = Ok b -> goes w (g b) R -> goes w (tbind (tlift x) g) R.
Proof. intros -> H st out. unfold tbind, tlift. apply H. Qed.
Lemma goes_tret {A B B'} (b : B) (w : prover A) (g : B -> transcript B') R :
  goes w (g b) R -> goes w (tbind (tret b) g) R.
Proof. intros H st out. unfold tbind, tret. apply H. Qed.
Lemma goes_wret {A A' B} (a : A) (f : A -> prover A') (r : transcript B) R : goes (f a) r R -> goes (wbind (wret a) f) r R.
Proof. intros H st out. unfold wbind, wret. cbn [pbind fst snd]. apply H. Qed.
(** a last step that only computes *)
Lemma goes_end_left {A B A'} (w : prover A) (r : transcript B) Q (f : A -> prover A') (R : A' -> B -> Prop) :
  goes w r Q -> (forall a b, Q a b -> goes (f a) (tret b) R) -> goes (wbind w f) r R.
Proof.
  intros H K. apply (goes_ext _ (tbind r tret)); [intros st b; unfold tbind, tret; destruct (r st b); reflexivity|].
  apply (goes_bind _ _ Q); assumption.
Qed.

(** messages *)
Lemma to_bytes_byte g (x y : Fq) : rep q_pos (g1_x g) x -> rep q_pos (g1_y g) y -> Forall byte (g1_to_bytes g).
Proof.
  intros Hx Hy. destruct (x_bytes _ _ Hx) as (pre & l & E & L & R & F).
  assert (Hrep : Forall byte (repeat 0%Z 32)). { apply Forall_forall. intros z Hz. apply repeat_spec in Hz as ->. unfold byte. lia. }
  assert (Hfin : Forall byte (pre ++ [(l + 128 * Z.b2z (Z.odd (fval y)))%Z])).
  { apply Forall_app. split; [exact F|]. constructor; [|constructor]. unfold byte. destruct (Z.odd (fval y)); cbn [Z.b2z]; lia. }
  destruct (fe_dec x f0) as [Ex|Ex]; [destruct (fe_dec y f0) as [Ey|Ey]|].
  - unfold g1_to_bytes, is_identity. rewrite (rep_lzero _ _ Hx), (rep_lzero _ _ Hy), Ex, Ey.
    rewrite feqb_refl. cbn [andb]. exact Hrep.
  - rewrite (to_bytes_finite g x y pre l) by (try assumption; tauto). exact Hfin.
  - rewrite (to_bytes_finite g x y pre l) by (try assumption; tauto). exact Hfin.
Qed.
Lemma goes_absorb s : goes (absorb s) (common_scalar s) (fun _ _ => True).
Proof.
  intros st out. exists tt, tt, (st ++ scalar_bytes s), []. unfold absorb, common_scalar. cbn [fst snd]. rewrite app_nil_r. auto.
Qed.
Lemma goes_draw hash : digest64 hash -> goes (draw hash) (squeeze hash) eq.
Proof.
  intros H st out. destruct (H (st ++ [PREFIX_CHALLENGE])) as [F L].
  exists (of_Z r_pos (le_int (hash (st ++ [PREFIX_CHALLENGE])))), (of_Z r_pos (le_int (hash (st ++ [PREFIX_CHALLENGE])))), (st ++ [PREFIX_CHALLENGE]), [].
  unfold draw, wsqueeze, squeeze. cbn [fst snd]. rewrite (challenge_value _ F L). cbn [bind of_res]. rewrite app_nil_r. auto.
Qed.
Lemma goes_point g (x y : Fq) : g1_point g x y -> goes (send_point g) read_point (fun _ b => b = g).
Proof.
  intros H st out. exists tt, g, (st ++ point_bytes g), (g1_to_bytes g). split; [|split; [|split; [|reflexivity]]].
  - unfold send_point, write_point. rewrite (point_on_curve g x y H). reflexivity.
  - destruct H as (X & Y & _). apply (rep_iff q_pos) in X. apply (rep_iff q_pos) in Y. apply (to_bytes_byte g x y X Y).
  - intros rest. apply (read_point_ok g x y st rest H).
Qed.
Lemma goes_scalar s : goes (send_scalar s) read_scalar (fun _ b => b = s).
Proof.
  intros st out. exists tt, s, (st ++ scalar_bytes s), (to_repr fr_params (fr_limbs s)). split; [reflexivity|]. split; [|split; [|reflexivity]].
  - apply (to_repr_ok fr_params r_pos good_fr _ _ (fr_limbs_rep s)).
  - intros rest. apply read_scalar_ok.
Qed.

(** lists *)
Inductive all3 {A B C} (Q : A -> B -> C -> Prop) : list A -> list B -> list C -> Prop :=
| all3_nil : all3 Q [] [] []
| all3_cons a b c la lb lc : Q a b c -> all3 Q la lb lc -> all3 Q (a :: la) (b :: lb) (c :: lc).
Lemma all3_lengths {A B C} (Q : A -> B -> C -> Prop) la lb lc : all3 Q la lb lc -> length lb = length la /\ length lc = length la.
Proof. induction 1 as [|a b c la lb lc _ _ [E1 E2]]; cbn [length]; auto. Qed.
Lemma all3_nth {A B C} (Q : A -> B -> C -> Prop) la lb lc i a b c : all3 Q la lb lc ->
  nth_error la i = Some a -> nth_error lb i = Some b -> nth_error lc i = Some c -> Q a b c.
Proof.
  intros H. revert i. induction H as [|a' b' c' la lb lc Q0 _ IH]; intros [|i]; cbn [nth_error]; try discriminate; [|apply IH].
  intros [= ->] [= ->] [= ->]. exact Q0.
Qed.
Lemma all3_weaken {A B C} (Q R : A -> B -> C -> Prop) la lb lc : all3 Q la lb lc -> (forall a b c, In a la -> Q a b c -> R a b c) -> all3 R la lb lc.
Proof.
  induction 1 as [|a b c la lb lc Q0 _ IH]; intros H; constructor; [apply H; [left; reflexivity|exact Q0]|].
  apply IH. intros. apply H; [right|]; assumption.
Qed.
Lemma all3_map {A B C} (f : A -> B) (g : A -> C) la lb lc : all3 (fun a b c => b = f a /\ c = g a) la lb lc -> lb = map f la /\ lc = map g la.
Proof. induction 1 as [|a b c la lb lc [-> ->] _ [-> ->]]; cbn [map]; auto. Qed.
Lemma goes_map {A X B} (f : A -> prover X) (r : transcript B) (Q : A -> X -> B -> Prop) l :
  (forall a, In a l -> goes (f a) r (Q a)) -> goes (wmap f l) (trepeat (length l) r) (all3 Q l).
Proof.
  induction l as [|a l IH]; intros H; cbn [wmap trepeat length]; [apply goes_ret; constructor|].
  apply (goes_bind _ _ (Q a)); [apply H; left; reflexivity|]. intros x y Hxy.
  apply (goes_bind _ _ (all3 Q l)); [apply IH; intros; apply H; right; assumption|]. intros xs ys Hs.
  apply goes_ret. constructor; assumption.
Qed.
Lemma goes_absorbs l : goes (wmap absorb l) (absorb_scalars l) (fun _ _ => True).
Proof.
  induction l as [|s l IH]; cbn [wmap absorb_scalars]; [apply goes_ret; exact I|].
  apply (goes_bind _ _ (fun _ _ => True)); [apply goes_absorb|]. intros u1 u2 _.
  apply (goes_end_left _ _ (fun _ _ => True)); [exact IH|]. intros xs b _. apply goes_ret. exact I.
Qed.
Lemma absorb_app l m st b : absorb_scalars (l ++ m) st b = tbind (absorb_scalars l) (fun _ => absorb_scalars m) st b.
Proof. revert st. induction l as [|s l IH]; intros st; [reflexivity|]. cbn [absorb_scalars app]. unfold tbind in *. cbn [common_scalar]. apply IH. Qed.

(** the loops over the columns of a phase *)
Lemma goes_phase {X Y} (write : nat -> prover X) (read : transcript Y) (Q : nat -> X -> Y -> Prop) ph : forall phs i0 xs ys,
  (forall i, nth_error phs i = Some ph -> goes (write (i0 + i)) read (Q (i0 + i))) -> length xs = length phs -> length ys = length phs ->
  goes (write_phase write ph phs i0 xs) (read_phase read ph phs ys) (fun xs' ys' => length xs' = length phs /\ length ys' = length phs /\
    forall i q x y, nth_error phs i = Some q -> nth_error xs' i = Some x -> nth_error ys' i = Some y ->
      if q =? ph then Q (i0 + i) x y else nth_error xs i = Some x /\ nth_error ys i = Some y).
Proof.
  induction phs as [|p phs IH]; intros i0 [|x xs] [|y ys] H L1 L2; try discriminate; cbn [write_phase read_phase].
  - apply goes_ret. split; [reflexivity|]. split; [reflexivity|]. intros [|i]; discriminate.
  - apply (goes_bind _ _ (fun x' y' => if p =? ph then Q i0 x' y' else x' = x /\ y' = y)).
    { rewrite (Nat.eqb_sym ph p). destruct (Nat.eqb_spec p ph) as [->|N].
      - specialize (H 0 eq_refl). rewrite Nat.add_0_r in H. exact H.
      - apply goes_ret. auto. }
    intros x' y' Hx. eapply goes_bind.
    { apply (IH (S i0) xs ys); [|injection L1 as L1; exact L1|injection L2 as L2; exact L2].
      intros i E. specialize (H (S i) E). rewrite Nat.add_succ_r in H. exact H. }
    cbv beta. intros xs' ys' (A & B & C). apply goes_ret. cbn [length]. split; [congruence|]. split; [congruence|].
    intros [|i] q x0 y0; cbn [nth_error].
    + intros [= <-] [= <-] [= <-]. rewrite Nat.add_0_r. destruct (p =? ph); [exact Hx|]. destruct Hx as [-> ->]. auto.
    + intros E1 E2 E3. specialize (C i q x0 y0 E1 E2 E3). rewrite Nat.add_succ_r. exact C.
Qed.
