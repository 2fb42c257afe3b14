(** The whole argument: who can make the verifier accept is who holds polynomials
    whose evaluations pass. *)
From Coq Require Import ZArith List Arith Bool Lia.
From Verif Require Import Base Moduli Field FieldFacts ListFacts LimbSpec PolyFacts RootFacts Halo2Model SelectorModel SerdeModel DomainModel DomainSpec DomainFacts VkModel IopModel IopPoly IopRows
  IopSpec IopLagrange IopTotal IopAccept IopDegree IopComplete IopKey IopFull Agree PermSpec ArithSpec KzgModel KzgFacts ShplonkModel ShplonkSpec ShplonkVerify ShplonkSound ShplonkThms TransformFacts
  VerifierModel VerifierSpec VerifierThms VerifierTotal ArgueSpec ArgueFacts.
Import ListNotations IopPoly IopSpec.
Local Open Scope nat_scope.

(** The handles of a key. *)
Definition inside (v : vkey) (h : handle) : bool :=
  match h with
  | HAdvice i => i <? num_advice (vk_cs v)
  | HFixed i => i <? num_fixed (vk_cs v)
  | HSigma i => i <? length (perm_columns (vk_cs v))
  | HProduct i => i <? sets_count v
  | HLookupProduct i | HLookupInput i | HLookupTable i => i <? length (lookups (vk_cs v))
  | HQuotient | HRandom => true
  end.
Definition kept (v : vkey) (P : committed) (xn : Fr) (h : handle) : list Fr := if inside v h then poly_of P xn h else [].
Definition padded (n : nat) (q : list Fr) : list Fr := q ++ repeat f0 (n - length q).
Lemma zeros_value d (x : Fr) : peval (repeat f0 d) x = f0.
Proof. induction d as [|d IH]; [reflexivity|]. cbn [repeat peval]. change (fe r_pos) with Fr in *. rewrite IH. fring. Qed.
Lemma app_value p (z : Fr) d : peval (p ++ repeat f0 d) z = peval p z.
Proof. induction p as [|a p IH]; [apply zeros_value|]. cbn [app peval]. change (fe r_pos) with Fr in *. rewrite IH. reflexivity. Qed.
Lemma padded_value n q z : peval (padded n q) z = peval q z. Proof. apply app_value. Qed.
Lemma padded_length n q : length q <= n -> length (padded n q) = n.
Proof. intros L. unfold padded. rewrite app_length, repeat_length. change (fe r_pos) with Fr in *. lia. Qed.

Section Groups.
Context {G : Type}.
Variables (zero : G) (add sub : G -> G -> G) (scale : Fr -> G -> G) (gen : G) (scale2 : Fr -> g2 -> g2) (gen2 : g2).
Variables (of_affine : g1 -> G) (is_zero : G -> bool) (pairing_product : list (G * g2) -> bool).
Hypothesis M : is_module zero add sub scale.
Hypothesis Hp : is_pairing scale scale2 gen2 (pairing_check is_zero pairing_product).
Notation commits := (commits zero add of_affine).
Notation carries := (carries zero add of_affine).
Notation decide := (decide zero add of_affine is_zero pairing_product).
Notation resolve := (resolve of_affine).
Notation setup := (setup scale gen scale2 gen2).
Notation element := (element zero add scale).

Section Key.
Variables (v : vkey) (k : Z) (fixed : nat -> nat -> Fr) (copies : list (acell * acell)) (F S_ : nat -> list Fr).
Hypothesis HK : key_for v k fixed copies F S_.
Notation n := (Z.to_nat (2 ^ k)).
Hypothesis HQ : orderly_queries v n.
Lemma Hk : (0 <= k <= 28)%Z. Proof. exact (kf_k _ _ _ _ _ _ HK). Qed.
Lemma size_n : Z.of_nat n = (2 ^ k)%Z.
Proof. pose proof Hk. apply Z2Nat.id, Z.pow_nonneg. lia. Qed.
Lemma size_pos : 0 < n.
Proof. pose proof Hk. pose proof size_n. assert (0 < 2 ^ k)%Z by (apply Z.pow_pos_nonneg; lia). lia. Qed.

Lemma read_same fx sg sc : length sg = length (perm_columns (vk_cs v)) -> read_evals (with_points v fx sg) sc = read_evals v sc.
Proof.
  intros L. unfold read_evals, with_points. cbn [vk_permutation vk_cs vk_degree vk_domain vk_fixed vk_assignments].
  rewrite L, <- (kf_perm _ _ _ _ _ _ HK). reflexivity.
Qed.
Lemma openings_same fx sg pn insts chs theta beta gamma y x e :
  verify_openings (with_points v fx sg) pn insts chs theta beta gamma y x e = verify_openings v pn insts chs theta beta gamma y x e.
Proof. reflexivity. Qed.

Section Bounded.
Variable P : committed.
Hypothesis Hb : bounded v n P.
Lemma combined_length t : length (h_combine (fun x => map (fmul x)) padd [] t (cm_quotient P)) <= n.
Proof.
  unfold h_combine. rewrite <- fold_left_rev_right, rev_involutive. destruct (bd_quotient _ _ _ Hb) as [_ B]. induction (cm_quotient P) as [|q l IH]; cbn [fold_right length]; [lia|].
  rewrite padd_length, map_length. change (fe r_pos) with Fr in *. pose proof (B q (or_introl eq_refl)). specialize (IH (fun q' I => B q' (or_intror I))). lia.
Qed.
Lemma kept_length t h : length (kept v P t h) <= n.
Proof.
  unfold kept. destruct (inside v h); [|cbn [length]; lia].
  destruct h; cbn [poly_of]; [apply (bd_advice _ _ _ Hb)|apply (bd_fixed _ _ _ Hb)|apply (bd_sigma _ _ _ Hb)|apply (bd_product _ _ _ Hb)|apply (bd_lproduct _ _ _ Hb)|apply (bd_linput _ _ _ Hb)|apply (bd_ltable _ _ _ Hb)|apply combined_length|apply (bd_random _ _ _ Hb)].
Qed.
End Bounded.
Section Secret.
Variables (s : Fr) (p : kzg) (w : vkey) (m : messages) (P : committed).
Hypothesis Hs : setup k s = Ok (srs_of of_affine p).
Hypothesis Hw : vk_cs w = vk_cs v /\ sets_count w = sets_count v.
Hypothesis Hc : carries p w m P.
Hypothesis Hb : bounded v n P.
Lemma params : kz_n p = (2 ^ k)%Z.
Proof. pose proof Hs as H. unfold KzgModel.setup in H. destruct (k <=? _)%Z; [|discriminate]. destruct (map_res _ _); cbn [bind] in H; [|discriminate]. injection H as _ E _ _ _ _. congruence. Qed.
Lemma commits_is q a : commits p q a -> length q <= n -> of_affine a = scale (peval q s) gen.
Proof.
  intros E L. unfold ArgueSpec.commits in E. rewrite (commit_ok zero add sub scale gen scale2 gen2 M k s _ q Hk Hs) in E; [congruence|].
  change (fe r_pos) with Fr in *. rewrite <- size_n. lia.
Qed.
Lemma at_commits N f l i : commits_all zero add of_affine p N f l -> (forall j, length (f j) <= n) ->
  match at_ l i with Ok a => i < N /\ of_affine a = scale (peval (f i) s) gen | Panic => ~ i < N end.
Proof.
  intros [L H] B. unfold at_. destruct (nth_error l i) as [a|] eqn:E.
  - split; [rewrite <- L; apply nth_error_Some; congruence|]. apply commits_is; [apply H, E|apply B].
  - apply nth_error_None in E. lia.
Qed.
Lemma zero_value : zero = scale (peval [] s) gen. Proof. symmetry. apply (mod_zero_scale _ _ _ _ M). Qed.
Lemma h_msm_is t hs l : Forall2 (commits p) hs l -> (forall q, In q hs -> length q <= n) -> mval zero add scale (h_msm of_affine t l) = scale (pieces hs s t) gen.
Proof.
  intros H B. unfold h_msm, h_combine. rewrite <- fold_left_rev_right, rev_involutive. induction H as [|q a hs l C H IH]; cbn [map fold_right pieces].
  - apply zero_value.
  - rewrite (mval_app zero add sub scale M), (mval_scale zero add sub scale gen M), IH, mval_cons, (mod_one_scale _ _ _ _ M), (commits_is q a C) by (intros; apply B; cbn [In]; auto).
    replace (mval zero add scale []) with zero by reflexivity. rewrite (mod_comm _ _ _ _ M _ zero), (mod_zero _ _ _ _ M), <- (mod_mul_scale _ _ _ _ M), <- (mod_add_scale _ _ _ _ M).
    apply f_equal2; [fring|reflexivity].
Qed.
Lemma resolve_is t h : element (resolve w m t h) = scale (peval (kept v P t h) s) gen.
Proof.
  destruct Hw as [W1 W2]. destruct Hc as [C1 C2 C3 C4 C5 C6 C7 C8 C9]. rewrite W1 in C1, C2, C3, C5, C6, C7. rewrite W2 in C4.
  assert (A : forall N f l i (wrap : g1 -> reference G), (forall a, element (wrap a) = of_affine a) -> commits_all zero add of_affine p N f l -> (forall j, length (f j) <= n) ->
    element (match (let! a := at_ l i in Ok (wrap a)) with Ok c => c | Panic => RMsm [] end) = scale (peval (if i <? N then f i else []) s) gen).
  { intros N f l i wrap Hwr C B. pose proof (at_commits N f l i C B) as H. destruct (at_ l i) as [a|]; cbn [bind].
    - destruct H as [H1 H2]. rewrite Hwr, (proj2 (Nat.ltb_lt _ _) H1). exact H2.
    - destruct (Nat.ltb_spec i N); [contradiction|]. apply zero_value. }
  assert (A2 : forall {A} (g : A -> g1) l i, (let! a := at_ l i in Ok (VerifierModel.pt of_affine (g a))) = (let! a := at_ (map g l) i in Ok (VerifierModel.pt of_affine a))).
  { intros A0 g l i. unfold at_. rewrite nth_error_map. destruct (nth_error l i); reflexivity. }
  unfold VerifierModel.resolve, kept, inside, VerifierModel.commitment. destruct h; cbn [poly_of].
  - apply (A _ _ _ _ (VerifierModel.pt of_affine)); [reflexivity|exact C1|apply (bd_advice _ _ _ Hb)].
  - apply (A _ _ _ _ (VerifierModel.pt of_affine)); [reflexivity|exact C2|apply (bd_fixed _ _ _ Hb)].
  - apply (A _ _ _ _ (VerifierModel.pt of_affine)); [reflexivity|exact C3|apply (bd_sigma _ _ _ Hb)].
  - apply (A _ _ _ _ (VerifierModel.pt of_affine)); [reflexivity|exact C4|apply (bd_product _ _ _ Hb)].
  - apply (A _ _ _ _ (VerifierModel.pt of_affine)); [reflexivity|exact C5|apply (bd_lproduct _ _ _ Hb)].
  - rewrite (A2 _ fst). apply (A _ _ _ _ (VerifierModel.pt of_affine)); [reflexivity|exact C6|apply (bd_linput _ _ _ Hb)].
  - rewrite (A2 _ snd). apply (A _ _ _ _ (VerifierModel.pt of_affine)); [reflexivity|exact C7|apply (bd_ltable _ _ _ Hb)].
  - rewrite h_combine_is. exact (h_msm_is t _ _ C9 (proj2 (bd_quotient _ _ _ Hb))).
  - apply commits_is; [exact C8|apply (bd_random _ _ _ Hb)].
Qed.
End Secret.

Lemma places_inside q x : In q (places v x) -> inside v (fst q) = true /\ exists t, snd q = rotate_omega (vk_domain v) x t.
Proof.
  assert (R : forall t, exists t', rotate_omega (vk_domain v) x t = rotate_omega (vk_domain v) x t') by eauto.
  assert (R0 : exists t', x = rotate_omega (vk_domain v) x t') by (exists 0%Z; symmetry; apply rotate_none).
  assert (LT : forall a b, a < b -> (a <? b) = true) by (intros; apply Nat.ltb_lt; assumption).
  assert (SJ : length (JJ v) = sets_count v) by (symmetry; apply IopTotal.sets_count).
  unfold places. rewrite !in_app_iff. intros [I|[[I|I]|[I|[I|[I|I]]]]].
  - apply in_map_iff in I as (q' & <- & I). cbn [fst snd inside]. split; [apply LT, HQ, I|apply R].
  - apply in_flat_map in I as (i & Hi & I). apply in_seq in Hi. destruct I as [<-|[<-|[]]]; cbn [fst snd inside]; (split; [apply LT; lia|first [exact R0|apply R]]).
  - apply in_map_iff in I as (i & <- & Hi). apply in_rev, in_seq in Hi. cbn [fst snd inside]. split; [apply LT; lia|apply R].
  - apply in_flat_map in I as (i & Hi & I). apply in_seq in Hi. destruct I as [<-|[<-|[<-|[<-|[<-|[]]]]]]; cbn [fst snd inside];
      (split; [apply LT; lia|first [exact R0|apply R]]).
  - apply in_map_iff in I as (q' & <- & I). cbn [fst snd inside]. split; [apply LT, (wf_fixed _ (kf_cs _ _ _ _ _ _ HK)), I|apply R].
  - apply in_map_iff in I as (i & <- & Hi). apply in_seq in Hi. cbn [fst snd inside]. split; [apply LT; lia|exact R0].
  - destruct I as [<-|[<-|[]]]; cbn [fst snd inside]; (split; [reflexivity|exact R0]).
Qed.
Lemma places_few x : (lenZ (nodup fe_dec (map snd (places v x))) <= 2 ^ k)%Z.
Proof.
  destruct (kf_domain _ _ _ _ _ _ HK) as (j & Hd & _). unfold lenZ. rewrite <- size_n. apply Nat2Z.inj_le.
  set (all := map (fun r => IopPoly.pt (d_omega (vk_domain v)) r * x)%F (seq 0 n)).
  replace n with (length all) by (unfold all; rewrite map_length, seq_length; reflexivity).
  apply NoDup_incl_length; [apply NoDup_nodup|]. intros z I. apply nodup_In, in_map_iff in I as (q & <- & I).
  destruct (places_inside q x I) as (_ & t & ->). rewrite (rotate_omega_lin (vk_domain v) j k n (proj1 Hk) size_n Hd).
  unfold all. apply in_map_iff. eexists. split; [reflexivity|]. apply in_seq. split; [lia|]. apply rotate_lt, size_pos.
Qed.
Lemma places_some x : places v x <> [].
Proof. unfold places. intros E. apply (f_equal (@length _)) in E. rewrite !app_length in E. cbn [length] in E. lia. Qed.

Variables (insts : list (list Fr)) (chs : list Fr).
Notation argues := (argues zero add scale gen scale2 gen2 of_affine is_zero pairing_product v k insts chs).
(** [decide] is the opening argument once the evaluations are known *)
Lemma decide_is p fx sg m sc e rest ops theta beta gamma y x y' v' h1 u h2 : kz_n p = (2 ^ k)%Z -> length sg = length (perm_columns (vk_cs v)) ->
  (ms_challenges m, ms_theta m, ms_beta m, ms_gamma m, ms_y m, ms_x m) = (chs, theta, beta, gamma, y, x) ->
  read_evals v sc = Some (e, rest) -> verify_openings v (2 ^ k) insts chs theta beta gamma y x e = VOpen ops ->
  decide p (with_points v fx sg) insts m sc y' v' h1 u h2 = shplonk_verify handle_eqb (resolve (with_points v fx sg) m (fpow x (2 ^ k))) zero add (pairing_check is_zero pairing_product)
    (srs_of of_affine p) ops y' v' (of_affine h1) u (of_affine h2).
Proof.
  intros Ep L Em R V. injection Em as E1 E2 E3 E4 E5 E6. unfold ArgueSpec.decide. rewrite (read_same _ _ _ L), R, openings_same, Ep, E1, E2, E3, E4, E5, E6, V.
  rewrite pow_vartime_is by (apply Z.pow_nonneg; lia). reflexivity.
Qed.
Lemma decided p fx sg m sc theta beta gamma y x y' v' h1 u h2 : kz_n p = (2 ^ k)%Z -> length sg = length (perm_columns (vk_cs v)) ->
  (ms_challenges m, ms_theta m, ms_beta m, ms_gamma m, ms_y m, ms_x m) = (chs, theta, beta, gamma, y, x) ->
  decide p (with_points v fx sg) insts m sc y' v' h1 u h2 = Ok true ->
  exists e rest ops, read_evals v sc = Some (e, rest) /\ verify_openings v (2 ^ k) insts chs theta beta gamma y x e = VOpen ops.
Proof.
  intros Ep L Em D. injection Em as E1 E2 E3 E4 E5 E6. unfold ArgueSpec.decide in D. rewrite (read_same _ _ _ L) in D.
  destruct (read_evals v sc) as [[e rest]|]; [|discriminate D]. rewrite openings_same, Ep, E1, E2, E3, E4, E5, E6 in D.
  destruct (verify_openings v (2 ^ k) insts chs theta beta gamma y x e) as [| |ops] eqn:V; [discriminate D|discriminate D|]. exists e, rest, ops. split; [reflexivity|exact V].
Qed.
Lemma sets_same fx sg : sets_count (with_points v fx sg) = sets_count v. Proof. reflexivity. Qed.

Theorem argue_accepts theta beta gamma y x P : gen <> zero -> x <> f0 -> bounded v n P -> argues theta beta gamma y x P -> accepts v (2 ^ k) insts chs theta beta gamma y x P.
Proof.
  intros Hg Hx Hb (sc & HM).
  assert (HE : exists e rest ops, read_evals v sc = Some (e, rest) /\ verify_openings v (2 ^ k) insts chs theta beta gamma y x e = VOpen ops).
  { destruct (many_one (scalars_count v + 1) _ ltac:(lia) HM) as (y' & HM1). destruct (many_one (scalars_count v + 1) _ ltac:(lia) HM1) as (v' & H1 & HM2). destruct (many_one (n + (scalars_count v + 1)) _ ltac:(lia) HM2) as (u & H2 & HM3).
    destruct (many_one (n + 1) _ ltac:(lia) HM3) as (s & p & fx & sg & m & h1 & h2 & Es & Ca & Em & _ & _ & D).
    exact (decided p fx sg m sc theta beta gamma y x y' v' h1 u h2 (params s p Es) (proj1 (ca_sigma _ _ _ _ _ _ _ Ca)) Em D). }
  destruct HE as (e & rest & ops & R & V). exists sc, e, rest, ops. split; [exact R|]. split; [exact V|].
  pose proof (openings_places v (2 ^ k) insts chs theta beta gamma y x sc e rest ops (kf_perm _ _ _ _ _ _ HK) R V) as EP.
  assert (LO : length ops = scalars_count v + 1).
  { transitivity (length (map fst ops)); [symmetry; apply map_length|]. rewrite EP. apply places_count, (kf_perm _ _ _ _ _ _ HK). }
  destruct (kf_domain _ _ _ _ _ _ HK) as (j & Hd & _).
  pose proof (places_nodup v j k n (proj1 Hk) size_n Hd (kf_rows _ _ _ _ _ _ HK) HQ x Hx) as ND. rewrite <- EP in ND.
  intros h z val I.
  assert (EB : peval (kept v P (fpow x (2 ^ k)) h) z = val).
  { apply (openings_bind_any zero add sub scale gen scale2 gen2 M Hg (pairing_check is_zero pairing_product) Hp handle_eqb handle_eqb_eq k (kept v P (fpow x (2 ^ k))) ops Hk) with (c := h); [| | |exact I].
    - intros c. unfold lenZ. rewrite <- size_n. apply Nat2Z.inj_le. apply kept_length, Hb.
    - intros c t a b Ia Ib. exact (nodup_fst_unique ops (c, t) a b ND Ia Ib).
    - match goal with |- many ?a _ => replace a with (scalars_count v + 1) by (symmetry; exact LO) end. eapply many_mono; [apply le_n| |exact HM]. intros y' HM1. eapply many_mono; [apply le_n| |exact HM1]. intros v' (H1 & HM2). exists H1.
      eapply many_mono; [apply le_n| |exact HM2]. intros u (H2 & HM3). exists H2. eapply many_mono; [apply le_n| |exact HM3].
      intros s (p & fx & sg & m & h1 & h2 & Es & Ca & Em & E1 & E2 & D).
      exists (srs_of of_affine p), (resolve (with_points v fx sg) m (fpow x (2 ^ k))), (of_affine h1), (of_affine h2).
      split; [exact Es|]. split; [|split; [exact E1|split; [exact E2|]]].
      + intros c. rewrite (commit_ok zero add sub scale gen scale2 gen2 M k s _ _ Hk Es).
        * f_equal. symmetry. exact (resolve_is s p (with_points v fx sg) m P Es (conj eq_refl (sets_same fx sg)) Ca Hb (fpow x (2 ^ k)) c).
        * rewrite <- size_n. apply Nat2Z.inj_le. apply kept_length, Hb.
      + rewrite <- (decide_is p fx sg m sc e rest ops theta beta gamma y x y' v' h1 u h2 (params s p Es) (proj1 (ca_sigma _ _ _ _ _ _ _ Ca)) Em R V). exact D. }
  rewrite <- EB. unfold kept. apply (in_map fst) in I. rewrite EP in I. destruct (places_inside _ _ I) as [EI _]. cbn [fst] in EI. rewrite EI. reflexivity.
Qed.

(** ** The other direction *)
Variable to_affine : G -> g1.
Hypothesis Hback : forall g, of_affine (to_affine g) = g.
Hypothesis Hcount : (Z.of_nat (scalars_count v) < 2 ^ 60)%Z.
Definition the_srs (s : Fr) : kzg :=
  Kzg k (2 ^ k) (map (fun i => to_affine (scale (fpow s (Z.of_nat i)) gen)) (seq 0 n)) (map (fun i => to_affine (scale (lag_c k i s) gen)) (seq 0 n)) gen2 (scale2 s gen2).
Lemma the_setup (s : Fr) : fpow s (2 ^ k) <> f1 -> setup k s = Ok (srs_of of_affine (the_srs s)).
Proof.
  intros N. rewrite (setup_ok scale gen scale2 gen2 k s Hk N). unfold the_srs, srs_of. cbn [kz_k kz_n kz_g kz_gl kz_g2 kz_sg2]. rewrite !map_map. do 2 f_equal; apply map_ext; intros i; symmetry; apply Hback.
Qed.
Definition cm (s : Fr) (q : list Fr) : g1 := to_affine (scale (peval q s) gen).
Definition cms (s : Fr) (N : nat) (f : nat -> list Fr) : list g1 := map (fun i => cm s (f i)) (seq 0 N).
Lemma cm_ok s q : fpow s (2 ^ k) <> f1 -> length q <= n -> commits (the_srs s) q (cm s q).
Proof.
  intros N L. unfold ArgueSpec.commits, cm. rewrite Hback. apply (commit_ok zero add sub scale gen scale2 gen2 M k s _ q Hk (the_setup s N)).
  change (fe r_pos) with Fr in *. rewrite <- size_n. lia.
Qed.
Lemma cms_ok s N f : fpow s (2 ^ k) <> f1 -> (forall i, length (f i) <= n) -> commits_all zero add of_affine (the_srs s) N f (cms s N f).
Proof.
  intros Hs L. split; [unfold cms; rewrite map_length, seq_length; reflexivity|]. intros i a E. unfold cms in E. rewrite nth_error_map in E.
  destruct (nth_error (seq 0 N) i) as [i'|] eqn:E'; [|discriminate]. injection E as <-. pose proof (nth_error_nth (seq 0 N) i 0 E') as En.
  rewrite seq_nth in En by (rewrite <- (seq_length N 0); apply nth_error_Some; congruence). cbn [Nat.add] in En. subst i'. apply cm_ok; [exact Hs|apply L].
Qed.
Definition the_messages (s : Fr) (P : committed) (theta beta gamma y x : Fr) : messages :=
  Messages (cms s (num_advice (vk_cs v)) (cm_advice P)) (map (fun i => (cm s (cm_linput P i), cm s (cm_ltable P i))) (seq 0 (length (lookups (vk_cs v)))))
    (cms s (sets_count v) (cm_product P)) (cms s (length (lookups (vk_cs v))) (cm_lproduct P)) (cm s (cm_random P)) (map (cm s) (cm_quotient P))
    chs theta beta gamma y x.
Definition the_key (s : Fr) (P : committed) : vkey :=
  with_points v (cms s (num_fixed (vk_cs v)) (cm_fixed P)) (cms s (length (perm_columns (vk_cs v))) (cm_sigma P)).
Lemma the_carries s P theta beta gamma y x : fpow s (2 ^ k) <> f1 -> bounded v n P -> carries (the_srs s) (the_key s P) (the_messages s P theta beta gamma y x) P.
Proof.
  intros Hs Hb. unfold the_messages. constructor; cbn [ms_advice ms_products ms_lproducts ms_lookups ms_random ms_h the_key with_points vk_cs vk_fixed vk_permutation].
  - apply cms_ok; [exact Hs|apply (bd_advice _ _ _ Hb)].
  - apply cms_ok; [exact Hs|apply (bd_fixed _ _ _ Hb)].
  - apply cms_ok; [exact Hs|apply (bd_sigma _ _ _ Hb)].
  - apply cms_ok; [exact Hs|apply (bd_product _ _ _ Hb)].
  - apply cms_ok; [exact Hs|apply (bd_lproduct _ _ _ Hb)].
  - rewrite map_map. apply cms_ok; [exact Hs|apply (bd_linput _ _ _ Hb)].
  - rewrite map_map. apply cms_ok; [exact Hs|apply (bd_ltable _ _ _ Hb)].
  - apply cm_ok; [exact Hs|apply (bd_random _ _ _ Hb)].
  - destruct (bd_quotient _ _ _ Hb) as [_ B]. induction (cm_quotient P) as [|q l IH]; constructor; [apply cm_ok; [exact Hs|apply B; left; reflexivity]|].
    apply IH. intros q' I. apply B. right. exact I.
Qed.
Lemma shrink_whole (s : Fr) : fpow s (2 ^ k) <> f1 -> exists j, (0 <= j <= k)%Z /\ srs_shrink (srs_of of_affine (the_srs s)) j = Ok (srs_of of_affine (the_srs s)).
Proof.
  intros N. exists k. split; [pose proof Hk; lia|]. unfold srs_shrink, srs_of, the_srs. cbn [sr_k sr_n sr_g sr_gl sr_g2 sr_s_g2 kz_k kz_n kz_g kz_gl kz_g2 kz_sg2].
  rewrite Z.leb_refl. rewrite !firstn_all2 by (rewrite !map_length, seq_length; apply le_n). reflexivity.
Qed.
Lemma secrets d : d <= n + 1 -> many d (fun s : Fr => fpow s (2 ^ k) <> f1).
Proof.
  intros Hd. pose proof Hk. pose proof size_n. assert (2 ^ k <= 2 ^ 28)%Z by (apply Z.pow_le_mono_r; lia). destruct (kf_domain _ _ _ _ _ _ HK) as (j & Hj & _).
  eapply many_mono; [apply le_n| |apply (many_avoid d (points n (d_omega (vk_domain v))))].
  - intros x Nx X. apply Nx. apply points_in. rewrite <- size_n in X. apply (vanishing_roots n _ (IopLagrange.Hw _ j k n size_n Hj)) in X. exact X.
  - rewrite points_length. lia.
Qed.
Theorem accepts_argue theta beta gamma y x P : bounded v n P -> accepts v (2 ^ k) insts chs theta beta gamma y x P -> argues theta beta gamma y x P.
Proof.
  intros Hb (sc & e & rest & ops & R & V & HO). exists sc.
  pose proof (openings_places v (2 ^ k) insts chs theta beta gamma y x sc e rest ops (kf_perm _ _ _ _ _ _ HK) R V) as EP.
  set (xn := fpow x (2 ^ k)) in *. set (Q := fun h => padded n (kept v P xn h)).
  pose proof (places_count v x (kf_perm _ _ _ _ _ _ HK)) as LP. pose proof Hk as Hk'. pose proof size_n as Sn. assert (K28 : (2 ^ k <= 2 ^ 28)%Z) by (apply Z.pow_le_mono_r; lia).
  assert (EO : ops = map (fun q => (fst q, snd q, value (Q (fst q)) (snd q))) (places v x)).
  { rewrite <- EP, map_map. rewrite <- (map_id ops) at 1. apply map_ext_in. intros [[h z] val] I. cbn [fst snd]. f_equal. rewrite comb_peval. unfold Q. rewrite padded_value. unfold kept.
    assert (I' : In (h, z) (places v x)) by (rewrite <- EP; apply (in_map fst) in I; exact I). destruct (places_inside _ _ I') as [EI _]. cbn [fst] in EI. rewrite EI. symmetry. apply HO, I. }
  assert (AC : forall s, fpow s (2 ^ k) <> f1 -> forall y' v', exists h c1, shplonk_h handle_eqb Q n (places v x) y' v' = Ok h /\ commit zero add (srs_of of_affine (the_srs s)) h = Ok c1 /\
    forall pr u, ~ In u (map snd (places v x)) -> exists h2 c2, shplonk_h2 handle_eqb Q pr (places v x) y' v' h u = Ok h2 /\ commit zero add (srs_of of_affine (the_srs s)) h2 = Ok c2 /\
      shplonk_verify handle_eqb (resolve (the_key s P) (the_messages s P theta beta gamma y x) xn) zero add (pairing_check is_zero pairing_product) (srs_of of_affine (the_srs s)) ops y' v' c1 u c2 = Ok true).
  { intros s Hs y' v'. rewrite EO.
    apply (accepted_spec zero add sub scale gen scale2 gen2 (pairing_check is_zero pairing_product) handle_eqb M Hp handle_eqb_eq k s (srs_of of_affine (the_srs s)) (srs_of of_affine (the_srs s)) Q
      (resolve (the_key s P) (the_messages s P theta beta gamma y x) xn) (places v x) Hk (the_setup s Hs)).
    - intros h. unfold lenZ, Q. rewrite padded_length; [exact Sn|apply kept_length, Hb].
    - apply places_some.
    - apply places_few.
    - intros h. rewrite (commit_ok zero add sub scale gen scale2 gen2 M k s _ _ Hk (the_setup s Hs)).
      + f_equal. unfold Q. rewrite padded_value. symmetry.
        exact (resolve_is s (the_srs s) (the_key s P) (the_messages s P theta beta gamma y x) P (the_setup s Hs) (conj eq_refl (sets_same _ _)) (the_carries s P theta beta gamma y x Hs Hb) Hb xn h).
      + unfold Q. rewrite padded_length; [lia|apply kept_length, Hb].
    - apply shrink_whole, Hs. }
  destruct (many_one 1 _ ltac:(lia) (secrets 1 ltac:(lia))) as (s0 & Hs0).
  eapply many_mono; [apply le_n| |apply (many_avoid _ [])]; [|cbn [length]; lia]. intros y' _.
  eapply many_mono; [apply le_n| |apply (many_avoid _ [])]; [|cbn [length]; lia]. intros v' _.
  destruct (AC s0 Hs0 y' v') as (H1 & c0 & E1 & C0 & F0). exists H1.
  eapply many_mono; [apply le_n| |apply (many_avoid _ (map snd (places v x)))]; [|rewrite map_length, LP; lia]. intros u Hu.
  destruct (F0 Checked u Hu) as (H2 & c3 & E2 & _). exists H2.
  eapply many_mono; [apply le_n| |apply (secrets (n + 1)), le_n]. intros s Hs.
  destruct (AC s Hs y' v') as (H1' & c1 & E1' & C1 & F1). rewrite E1 in E1'. injection E1' as <-.
  destruct (F1 Checked u Hu) as (H2' & c2 & E2' & C2 & A). rewrite E2 in E2'. injection E2' as <-.
  exists (the_srs s), (cms s (num_fixed (vk_cs v)) (cm_fixed P)), (cms s (length (perm_columns (vk_cs v))) (cm_sigma P)), (the_messages s P theta beta gamma y x), (to_affine c1), (to_affine c2).
  split; [exact (the_setup s Hs)|]. split; [exact (the_carries s P theta beta gamma y x Hs Hb)|]. split; [reflexivity|].
  split; [unfold ArgueSpec.commits; rewrite Hback; exact C1|]. split; [unfold ArgueSpec.commits; rewrite Hback; exact C2|].
  etransitivity; [refine (decide_is (the_srs s) _ _ (the_messages s P theta beta gamma y x) sc e rest ops theta beta gamma y x y' v' (to_affine c1) u (to_affine c2) eq_refl _ eq_refl R V)|].
  - unfold cms. rewrite map_length, seq_length. reflexivity.
  - rewrite !Hback. exact A.
Qed.

(** ** The whole protocol *)
Lemma many_drop d (a : Fr) (Q : Fr -> Prop) : many (1 + d) Q -> many d (fun x => x <> a /\ Q x).
Proof.
  intros (l & N & L & H). exists (remove fe_dec a l). split; [|split].
  - clear - N. induction N as [|b l I N IH]; cbn [remove]; [constructor|]. destruct (fe_dec a b); [exact IH|]. constructor; [|exact IH]. intros J. apply in_remove in J. tauto.
  - clear - N L. enough (X : length l <= 1 + length (remove fe_dec a l)) by (change (fe r_pos) with Fr in *; lia). clear L. induction N as [|b l I N IH]; [cbn [length]; lia|]. cbn [remove]. destruct (fe_dec a b) as [->|E].
    + rewrite notin_remove by exact I. cbn [length]. change (fe r_pos) with Fr in *. lia.
    + cbn [length]. change (fe r_pos) with Fr in *. lia.
  - intros x I. apply in_remove in I. split; [tauto|apply H; tauto].
Qed.
Notation arguing := (arguing zero add scale gen scale2 gen2 of_affine is_zero pairing_product v k insts chs F S_).
Lemma arguing_convincing advice : gen <> zero -> arguing advice -> convincing v k insts chs F S_ advice.
Proof.
  intros Hg H. unfold ArgueSpec.arguing, rounds in H. cbv zeta in H. unfold convincing. cbv zeta. eapply many_mono; [apply le_n| |exact H]. cbv beta.
  intros theta (li & lt & HB). exists li, lt. eapply many_mono; [apply le_n| |exact HB]. cbv beta.
  intros beta HG. eapply many_mono; [apply le_n| |exact HG]. cbv beta.
  intros gamma (pr & lp & ran & HY). exists pr, lp, ran. eapply many_mono; [apply le_n| |exact HY]. cbv beta zeta.
  intros y (q & Bq & Aq). exists q. split; [exact Bq|]. eapply many_mono; [apply le_n| |exact (many_drop _ f0 _ Aq)]. cbv beta. intros x [Nx Ax].
  exact (argue_accepts theta beta gamma y x _ Hg Nx Bq Ax).
Qed.
Theorem argue_sound advice : length chs = num_challenges (vk_cs v) -> (forall l, In l insts -> (Z.of_nat (length l) <= 2 ^ k)%Z) -> gen <> zero -> arguing advice ->
  satisfied (vk_cs v) copies (assigned n (d_omega (vk_domain v)) fixed advice insts chs) /\ length insts = num_instance (vk_cs v).
Proof. intros Hc HL Hg HA. exact (iop_sound v k fixed copies F S_ insts chs advice HK Hc HL (arguing_convincing advice Hg HA)). Qed.
Theorem argue_complete advice : length chs = num_challenges (vk_cs v) -> length insts = num_instance (vk_cs v) -> (forall l, In l insts -> (Z.of_nat (length l) <= 2 ^ k)%Z) ->
  satisfied (vk_cs v) copies (assigned n (d_omega (vk_domain v)) fixed advice insts chs) ->
  (forall i, length (F i) <= n) -> (forall i, length (S_ i) <= n) -> (forall i, length (advice i) <= n) -> (Z.of_nat (need_y v + lookup_width (vk_cs v)) < 2 ^ 60)%Z ->
  arguing advice.
Proof.
  intros Hc Hi HL HS BF BS BA Hsm. unfold ArgueSpec.arguing, rounds. cbv zeta.
  eapply many_mono; [apply le_n| |exact (complete_all v k fixed copies F S_ HK insts chs advice Hc Hi HL HS BF BS BA Hsm)]. cbv beta.
  intros theta (li & lt & HB). exists li, lt. eapply many_mono; [apply le_n| |exact HB]. cbv beta.
  intros beta HG. eapply many_mono; [apply le_n| |exact HG]. cbv beta.
  intros gamma (pr & lp & ran & HY). exists pr, lp, ran. eapply many_mono; [apply le_n| |exact HY]. cbv beta zeta.
  intros y (q & Bq & Aq). exists q. split; [exact Bq|]. eapply many_mono; [apply le_n| |exact (off_rows v k fixed copies F S_ HK insts chs Hc Hi Hsm 1 ltac:(lia))]. cbv beta.
  intros x Nx. exact (accepts_argue theta beta gamma y x _ Bq (Aq x Nx)).
Qed.
End Key.
End Groups.
