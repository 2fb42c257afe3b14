(** Openings: their places, and that no two of them conflict. *)
From Coq Require Import ZArith List Arith Bool Lia.
From Verif Require Import Base Moduli Field FieldFacts ListFacts LimbSpec PolyFacts RootFacts Halo2Model SelectorModel SerdeModel DomainModel DomainSpec DomainFacts VkModel IopModel IopPoly IopRows
  IopSpec IopLagrange IopTotal IopAccept IopDegree IopComplete Agree ArithSpec KzgModel KzgFacts ShplonkModel ShplonkSpec ShplonkVerify ShplonkSound ShplonkThms
  VerifierModel VerifierSpec VerifierThms VerifierTotal ArgueSpec.
Import ListNotations IopPoly IopSpec.
Local Open Scope nat_scope.

(** ** Places *)
Lemma rmap_places {A B C} (f : A -> res B) (g : B -> C) (h : A -> C) l bs : rmap f l = Ok bs -> (forall a b, In a l -> f a = Ok b -> g b = h a) -> map g bs = map h l.
Proof.
  revert bs. induction l as [|a l IH]; cbn [rmap]; intros bs E H; [injection E as <-; reflexivity|].
  destruct (f a) as [b|] eqn:Ea; cbn [bind] in E; [|discriminate]. destruct (rmap f l) as [bs'|]; cbn [bind] in E; [|discriminate]. injection E as <-.
  cbn [map]. rewrite (H a b (or_introl eq_refl) Ea), (IH bs' eq_refl); [reflexivity|]. intros; apply H; [right; assumption|assumption].
Qed.
Lemma map_fst_enum {A} (l : list A) : map fst (enum l) = seq 0 (length l).
Proof. unfold enum. generalize 0. induction l as [|a l IH]; intros i; [reflexivity|]. cbn [length seq combine map fst]. rewrite IH. reflexivity. Qed.
Lemma tl_rev_fst {A} (l : list A) : map fst (tl (rev (enum l))) = rev (seq 0 (length l - 1)).
Proof.
  assert (E : map fst (tl (rev (enum l))) = tl (rev (map fst (enum l)))).
  { rewrite <- map_rev. destruct (rev (enum l)); reflexivity. }
  rewrite E, map_fst_enum. destruct l as [|a l]; [reflexivity|]. cbn [length]. rewrite seq_S, rev_app_distr. cbn [rev app tl]. rewrite Nat.sub_succ, Nat.sub_0_r. reflexivity.
Qed.
Lemma openings_places v pn insts chs theta beta gamma y x sc e rest ops : length (vk_permutation v) = length (perm_columns (vk_cs v)) ->
  read_evals v sc = Some (e, rest) -> verify_openings v pn insts chs theta beta gamma y x e = VOpen ops -> map fst ops = places v x.
Proof.
  intros Hperm HR HV. apply read_evals_inv in HR. destruct HR as (LA & LF & LS & (LZ & HZ) & LL). rewrite (IopTotal.sets_count v) in LZ. rewrite Hperm in LS.
  unfold verify_openings in HV. destruct (negb _); [discriminate|].
  match type of HV with match ?r with _ => _ end = _ => destruct r as [l|] eqn:ER; [|discriminate] end.
  injection HV as ->.
  apply bind_inv in ER. destruct ER as (inst & _ & ER).
  apply bind_inv in ER. destruct ER as ([[l_0 l_last] l_blind] & _ & ER).
  apply bind_inv in ER. destruct ER as (es & _ & ER).
  apply bind_inv in ER. destruct ER as (h & _ & ER).
  apply bind_inv in ER. destruct ER as (pq & EP & ER).
  apply bind_inv in ER. destruct ER as (aq & EA & ER).
  apply bind_inv in ER. destruct ER as (fq & EF & ER).
  assert (EO : ops = aq ++ pq ++ flat_map (lookup_queries v x) (enum (ev_lookups e)) ++ fq ++
    map (fun s : nat * Fr => (HSigma (fst s), x, snd s)) (enum (ev_sigma e)) ++
    [(HQuotient, x, h); (HRandom, x, ev_random e)]) by congruence.
  clear ER. subst ops. unfold places. rewrite !map_app.
  apply f_equal2; [|apply f_equal2; [|apply f_equal2; [|apply f_equal2; [|apply f_equal2; [|reflexivity]]]]].
  - etransitivity; [apply (rmap_places _ _ (fun iq : nat * (advice_col * Z) => (HAdvice (ac_index (fst (snd iq))), rotate_omega (vk_domain v) x (snd (snd iq)))) _ _ EA)|].
    + intros iq o _ Eo. destruct (at_ _ _); cbn [bind] in Eo; [|discriminate]. injection Eo as <-. reflexivity.
    + apply (map_enum (fun q : advice_col * Z => (HAdvice (ac_index (fst q)), rotate_omega (vk_domain v) x (snd q)))).
  - unfold perm_queries in EP. cbv zeta in EP. apply bind_inv in EP. destruct EP as (lasts & EL & EP). injection EP as <-. rewrite map_app. apply f_equal2.
    + rewrite map_flat_map. rewrite <- LZ, <- map_fst_enum, flat_map_map. reflexivity.
    + etransitivity; [apply (rmap_places _ _ (fun i : nat * pset => (HProduct (fst i), rotate_omega (vk_domain v) x (- (Z.of_nat (blinding_factors (vk_cs v)) + 1)))) _ _ EL)|].
      * intros i o _ Eo. destruct (ps_last (snd i)); [|discriminate]. injection Eo as <-. reflexivity.
      * rewrite <- LZ, <- tl_rev_fst, map_map. reflexivity.
  - rewrite map_flat_map, <- LL, <- map_fst_enum, flat_map_map. apply flat_map_ext. intros [i le]. reflexivity.
  - etransitivity; [apply (rmap_places _ _ (fun iq : nat * (nat * Z) => (HFixed (fst (snd iq)), rotate_omega (vk_domain v) x (snd (snd iq)))) _ _ EF)|].
    + intros iq o _ Eo. destruct (at_ _ _); cbn [bind] in Eo; [|discriminate]. injection Eo as <-. reflexivity.
    + apply (map_enum (fun q : nat * Z => (HFixed (fst q), rotate_omega (vk_domain v) x (snd q)))).
  - rewrite map_map. cbn [fst]. rewrite <- LS, <- map_fst_enum, map_map. reflexivity.
Qed.
Lemma places_count v x : length (vk_permutation v) = length (perm_columns (vk_cs v)) -> length (places v x) = scalars_count v + 1.
Proof.
  intros Hperm. unfold places, scalars_count. rewrite !app_length, !map_length, rev_length, !seq_length. cbn [length].
  unfold VerifierModel.sets_count. rewrite (IopTotal.sets_count v), Hperm.
  assert (F : forall {A B} (f : A -> list B) q l, (forall a, length (f a) = q) -> length (flat_map f l) = q * length l).
  { intros A B f q l H. induction l as [|a l IH]; cbn [flat_map length]; [lia|]. rewrite app_length, H, IH. lia. }
  rewrite (F _ _ _ 2), (F _ _ _ 5), !seq_length by reflexivity. change (fe r_pos) with Fr in *. destruct (length (JJ v)); cbn [Nat.eqb]; lia.
Qed.

(** ** No two openings conflict *)
Lemma NoDup_flat_map {A B} (f : A -> list B) l : NoDup l -> (forall a, In a l -> NoDup (f a)) ->
  (forall a b z, In a l -> In b l -> In z (f a) -> In z (f b) -> a = b) -> NoDup (flat_map f l).
Proof.
  induction 1 as [|a l H N IH]; intros F D; cbn [flat_map]; [constructor|]. apply NoDup_app_intro.
  - apply F. left. reflexivity.
  - apply IH; [intros; apply F; right; assumption|]. intros; eapply D; try (right; eassumption); eassumption.
  - intros z Iz Jz. apply in_flat_map in Jz as (b & Ib & Jz). apply H. rewrite (D a b z (or_introl eq_refl) (or_intror Ib) Iz Jz). exact Ib.
Qed.
Lemma NoDup_map_via {A B C} (f : A -> B) (g : A -> C) l : NoDup (map g l) -> (forall a b, In a l -> In b l -> f a = f b -> g a = g b) -> NoDup (map f l).
Proof.
  induction l as [|a l IH]; cbn [map]; intros N H; [constructor|]. inversion N as [|? ? N1 N2]; subst. constructor.
  - intros I. apply in_map_iff in I as (b & E & I). apply N1. rewrite (H a b (or_introl eq_refl) (or_intror I) (eq_sym E)). apply in_map, I.
  - apply IH; [exact N2|]. intros; apply H; try (right; assumption); assumption.
Qed.
Section Distinct.
Variables (v : vkey) (j k : Z) (n : nat).
Hypothesis Hk : (0 <= k)%Z.
Hypothesis Hn : Z.of_nat n = (2 ^ k)%Z.
Hypothesis Hd : domain_for j k (vk_domain v).
Hypothesis Hrows : minimum_rows (vk_cs v) <= n.
Hypothesis Hdist : orderly_queries v n.
Variable x : Fr.
Hypothesis Hx : x <> f0.
Local Notation rot := (rotate_omega (vk_domain v)).
Lemma rot_inj t t' : rot x t = rot x t' -> (t mod Z.of_nat n = t' mod Z.of_nat n)%Z.
Proof.
  intros E. rewrite !(rotate_omega_lin (vk_domain v) j k n Hk Hn Hd) in E.
  assert (E' : pt (d_omega (vk_domain v)) (rotate n 0 t) = pt (d_omega (vk_domain v)) (rotate n 0 t')).
  { apply (fmul_cancel x _ _ Hx). etransitivity; [|etransitivity; [exact E|]]; fring. }
  assert (Hn0 : 0 < n) by (unfold minimum_rows in Hrows; lia).
  apply (pt_inj n _ (Hw (vk_domain v) j k n Hn Hd)) in E'; [|apply rotate_lt; exact Hn0..].
  unfold rotate in E'. rewrite !Z.add_0_l in E'. apply (f_equal Z.of_nat) in E'.
  rewrite !Z2Nat.id in E' by (apply Z.mod_pos_bound; lia). exact E'.
Qed.
Lemma rot_zero : x = rot x 0.
Proof. symmetry. apply rotate_none. Qed.
Lemma small_mod t t' : (t mod Z.of_nat n = t' mod Z.of_nat n)%Z -> (Z.abs (t - t') < Z.of_nat n)%Z -> t = t'.
Proof.
  intros E B. assert (Z.of_nat n > 0)%Z by lia. assert (D : ((t - t') mod Z.of_nat n = 0)%Z) by (rewrite Zminus_mod, E, Z.sub_diag; reflexivity).
  apply Z.mod_divide in D; [|lia]. destruct D as (q & D). assert (q = 0)%Z by nia. nia.
Qed.
Lemma rot_small t t' : rot x t = rot x t' -> (Z.abs (t - t') < Z.of_nat n)%Z -> t = t'.
Proof. intros E. apply small_mod, rot_inj, E. Qed.
Lemma places_nodup : NoDup (places v x).
Proof.
  unfold minimum_rows in Hrows. destruct Hdist as (_ & DA & DF). unfold places.
  assert (ZN : forall t, x = rot x t -> (Z.abs t < Z.of_nat n)%Z -> t = 0%Z).
  { intros t E B. symmetry. apply rot_small; [rewrite <- rot_zero; exact E|lia]. }
  repeat apply NoDup_app_intro.
  - apply (NoDup_map_via _ _ _ DA). intros a b _ _ E. injection E as E1 E2. rewrite E1, (rot_inj _ _ E2). reflexivity.
  - apply NoDup_flat_map; [apply seq_NoDup| |].
    + intros i _. constructor; [|constructor; [intros []|constructor]]. intros [E|[]]. injection E as E. symmetry in E. apply ZN in E; [discriminate E|]. unfold next. lia.
    + intros a b z _ _ [<-|[<-|[]]] [E|[E|[]]]; congruence.
  - apply FinFun.Injective_map_NoDup; [intros a b E; congruence|]. apply NoDup_rev, seq_NoDup.
  - intros z I J. apply in_flat_map in I as (i & _ & I). apply in_map_iff in J as (i' & <- & _). destruct I as [I|[I|[]]]; injection I as _ I.
    + apply ZN in I; lia.
    + apply rot_small in I; unfold next in *; lia.
  - apply NoDup_flat_map; [apply seq_NoDup| |].
    + intros i _. assert (A1 : x <> rot x prev) by (intros E; apply ZN in E; unfold prev in *; lia). assert (A2 : x <> rot x next) by (intros E; apply ZN in E; unfold next in *; lia).
      repeat constructor; cbn [In]; intuition congruence.
    + intros a b z _ _ I J. cbn [In] in I, J. intuition congruence.
  - apply (NoDup_map_via _ _ _ DF). intros a b _ _ E. injection E as E1 E2. rewrite E1, (rot_inj _ _ E2). reflexivity.
  - apply FinFun.Injective_map_NoDup; [intros a b E; congruence|apply seq_NoDup].
  - repeat constructor; cbn [In]; intuition congruence.
  - intros z I J. apply in_map_iff in I as (i & <- & _). cbn [In] in J. intuition congruence.
  - intros z I J. apply in_map_iff in I as (i & <- & _). apply in_app_iff in J as [J|J]; [apply in_map_iff in J as (? & E & _); congruence|cbn [In] in J; intuition congruence].
  - intros z I J. apply in_flat_map in I as (i & _ & I). cbn [In] in I.
    apply in_app_iff in J as [J|J]; [apply in_map_iff in J as (? & E & _); intuition congruence|].
    apply in_app_iff in J as [J|J]; [apply in_map_iff in J as (? & E & _); intuition congruence|cbn [In] in J; intuition congruence].
  - intros z I J. assert (X : exists i t, z = (HProduct i, t)).
    { apply in_app_iff in I as [I|I]; [apply in_flat_map in I as (i & _ & [<-|[<-|[]]]); eauto|apply in_map_iff in I as (i & <- & _); eauto]. }
    destruct X as (i & t & ->).
    apply in_app_iff in J as [J|J]; [apply in_flat_map in J as (? & _ & J); cbn [In] in J; intuition congruence|].
    apply in_app_iff in J as [J|J]; [apply in_map_iff in J as (? & E & _); congruence|].
    apply in_app_iff in J as [J|J]; [apply in_map_iff in J as (? & E & _); congruence|cbn [In] in J; intuition congruence].
  - intros z I J. apply in_map_iff in I as (i & <- & _).
    apply in_app_iff in J as [J|J].
    { apply in_app_iff in J as [J|J]; [apply in_flat_map in J as (? & _ & J); cbn [In] in J; intuition congruence|apply in_map_iff in J as (? & E & _); congruence]. }
    apply in_app_iff in J as [J|J]; [apply in_flat_map in J as (? & _ & J); cbn [In] in J; intuition congruence|].
    apply in_app_iff in J as [J|J]; [apply in_map_iff in J as (? & E & _); congruence|].
    apply in_app_iff in J as [J|J]; [apply in_map_iff in J as (? & E & _); congruence|cbn [In] in J; intuition congruence].
Qed.
End Distinct.
Lemma nodup_fst_unique {A B} (l : list (A * B)) a b b' : NoDup (map fst l) -> In (a, b) l -> In (a, b') l -> b = b'.
Proof.
  induction l as [|[c e] l IH]; cbn [map fst]; intros N I J; [destruct I|]. inversion N as [|? ? N1 N2]; subst.
  destruct I as [I|I], J as [J|J]; [congruence| | |exact (IH N2 I J)].
  - injection I as -> ->. exfalso. apply N1. apply (in_map fst) in J. exact J.
  - injection J as -> ->. exfalso. apply N1. apply (in_map fst) in I. exact I.
Qed.
