(** Running the graph of an expression gives the expression's value. *)
From Coq Require Import ZArith List Arith Bool Lia.
From Verif Require Import Base Moduli Field FieldFacts ListFacts Halo2Model SelectorModel PermFacts IopModel ArithModel GraphModel GraphSpec.
Import ListNotations.

(** ** Equality of sources and calculations *)
Lemma source_key_inj a b : source_key a = source_key b -> a = b.
Proof. destruct a, b; cbn; intro H; inversion H; reflexivity. Qed.
Lemma source_eqb_iff a b : source_eqb a b = true <-> a = b.
Proof.
  unfold source_eqb. destruct (source_key a) as [[x y] z] eqn:Ea, (source_key b) as [[x' y'] z'] eqn:Eb.
  rewrite !andb_true_iff, !Nat.eqb_eq. split.
  - intros [[-> ->] ->]. apply source_key_inj. congruence.
  - intros ->. rewrite Ea in Eb. inversion Eb; subst. auto.
Qed.
Lemma sources_eqb_iff a : forall b, sources_eqb a b = true <-> a = b.
Proof.
  induction a as [|x a IH]; intros [|y b]; cbn; try (split; [discriminate | discriminate]); try tauto.
  rewrite andb_true_iff, source_eqb_iff, IH. split; [intros [-> ->]; reflexivity | intro H; inversion H; auto].
Qed.
Lemma calc_eqb_iff a b : calc_eqb a b = true <-> a = b.
Proof.
  destruct a, b; cbn; try (split; discriminate); rewrite ?andb_true_iff, ?source_eqb_iff, ?sources_eqb_iff;
    split; try (intros [[-> ->] ->]; reflexivity); try (intros [-> ->]; reflexivity); try (intros ->; reflexivity);
    intro H; inversion H; auto.
Qed.
Lemma is_const_iff i s : is_const i s = true <-> s = SConst i.
Proof. apply source_eqb_iff. Qed.

(** ** Values *)
Lemma at_app {A} (l l' : list A) i x : at_ l i = Ok x -> at_ (l ++ l') i = Ok x.
Proof.
  unfold at_. destruct (nth_error l i) eqn:E; [|discriminate].
  rewrite nth_error_app1, E by (apply nth_error_Some; congruence). auto.
Qed.
Lemma at_snoc {A} (l : list A) x : at_ (l ++ [x]) (length l) = Ok x.
Proof. unfold at_. rewrite nth_error_app2, Nat.sub_diag by lia. reflexivity. Qed.
Lemma at_some {A} (l : list A) i x : nth_error l i = Some x -> at_ l i = Ok x.
Proof. intro H. unfold at_. now rewrite H. Qed.
Lemma at_lt {A} (l : list A) i x : at_ l i = Ok x -> i < length l.
Proof. unfold at_. destruct (nth_error l i) eqn:E; [|discriminate]. intros _. apply nth_error_Some. congruence. Qed.
Lemma rmap_ext_ok {A B} (f g : A -> res B) l : (forall a b, f a = Ok b -> g a = Ok b) -> forall bs, rmap f l = Ok bs -> rmap g l = Ok bs.
Proof.
  intro H. induction l as [|a l IH]; cbn; intros bs Hb; [exact Hb|].
  destruct (f a) eqn:E; [|discriminate]. rewrite (H _ _ E). cbn in *.
  destruct (rmap f l); [|discriminate]. rewrite (IH _ eq_refl). exact Hb.
Qed.


Definition prefix {A} (l l' : list A) : Prop := exists x, l' = l ++ x.
Lemma prefix_refl {A} (l : list A) : prefix l l.
Proof. exists []. now rewrite app_nil_r. Qed.
Lemma prefix_trans {A} (a b c : list A) : prefix a b -> prefix b c -> prefix a c.
Proof. intros [x ->] [y ->]. exists (x ++ y). now rewrite app_assoc. Qed.
Lemma prefix_at {A} (a b : list A) i x : prefix a b -> at_ a i = Ok x -> at_ b i = Ok x.
Proof. intros [l ->]. apply at_app. Qed.
Lemma prefix_len {A} (a b : list A) : prefix a b -> length a <= length b.
Proof. intros [l ->]. rewrite app_length. lia. Qed.

Record extends (g g' : graph) : Prop := {
  ex_const : prefix (g_constants g) (g_constants g');
  ex_rot : prefix (g_rotations g) (g_rotations g');
  ex_calc : prefix (g_calculations g) (g_calculations g') }.
Lemma extends_refl g : extends g g.
Proof. split; apply prefix_refl. Qed.
Lemma extends_trans a b c : extends a b -> extends b c -> extends a c.
Proof. intros [] []. split; eapply prefix_trans; eassumption. Qed.

(** the sources a calculation reads *)
Definition reads (c : calculation) : list source :=
  match c with
  | CAdd a b | CSub a b | CMul a b => [a; b]
  | CSquare a | CDouble a | CNegate a | CStore a => [a]
  | CHorner s p f => s :: f :: p
  end.
(** neither beta, gamma nor the previous value, and no later calculation *)
Definition tame (n : nat) (s : source) : Prop :=
  match s with SBeta | SGamma | SPrev => False | SInter i => i < n | _ => True end.
Definition tame_graph (g : graph) : Prop :=
  forall ct, In ct (g_calculations g) -> forall s, In s (reads (fst ct)) -> tame (length (g_calculations g)) s.
Lemma tame_mono n m s : n <= m -> tame n s -> tame m s.
Proof. destruct s; cbn; auto; lia. Qed.

Lemma upd_at {A} (a b : list A) x v : upd (a ++ x :: b) (length a) v = a ++ v :: b.
Proof. induction a as [|y a IH]; cbn; [reflexivity|]. now rewrite IH. Qed.
Section Run.
  Variables (E : env) (prev : Fr) (size idx : nat).

  Definition getv (g : graph) (vs : list Fr) (s : source) : res Fr :=
    get_source E prev (map (rotation_idx size idx) (g_rotations g)) (g_constants g) vs s.
  Lemma getv_mono g g' vs vs' s v : extends g g' -> prefix vs vs' -> getv g vs s = Ok v -> getv g' vs' s = Ok v.
  Proof.
    intros [Hc Hr _] Hv. unfold getv.
    assert (Hr' : prefix (map (rotation_idx size idx) (g_rotations g)) (map (rotation_idx size idx) (g_rotations g')))
      by (destruct Hr as [l ->]; exists (map (rotation_idx size idx) l); apply map_app).
    destruct s; cbn; auto; try (eapply prefix_at; eassumption);
    (destruct (at_ (map _ (g_rotations g)) rot) eqn:Ea; [|discriminate]; now rewrite (prefix_at _ _ _ _ Hr' Ea)).
  Qed.
  Lemma calculate_mono (get get' : source -> res Fr) c v : (forall s v, get s = Ok v -> get' s = Ok v) ->
    calculate get c = Ok v -> calculate get' c = Ok v.
  Proof.
    intro H. destruct c; cbn; auto.
    all: try (destruct (get a) eqn:Ea; [|discriminate]; rewrite (H _ _ Ea); cbn; auto;
      destruct (get b) eqn:Eb; [|discriminate]; rewrite (H _ _ Eb); cbn; auto).
    all: try (destruct (get a) eqn:Ea; [|discriminate]; rewrite (H _ _ Ea); cbn; auto; fail).
    destruct (get factor) eqn:Ef; [|discriminate]; rewrite (H _ _ Ef); cbn.
    destruct (get start) eqn:Es; [|discriminate]; rewrite (H _ _ Es); cbn.
    destruct (rmap get parts) eqn:Ep; [|discriminate]; rewrite (rmap_ext_ok _ _ _ H _ Ep); cbn. auto.
  Qed.

  Record inv (g : graph) (vs : list Fr) : Prop := {
    iv_const : exists l, g_constants g = f0 :: f1 :: FrZ 2 :: l;
    iv_len : length vs = length (g_calculations g);
    iv_num : g_intermediates g = length (g_calculations g);
    iv_run : forall i ct, nth_error (g_calculations g) i = Some ct ->
      snd ct = i /\ exists v, nth_error vs i = Some v /\ calculate (getv g (firstn i vs)) (fst ct) = Ok v }.
  Lemma inv_default : inv graph_default [].
  Proof.
    split; [eexists; reflexivity | reflexivity | reflexivity|]. intros [|i] ct H; discriminate H.
  Qed.
  Lemma inv_const g vs i v : inv g vs -> nth_error [f0; f1; FrZ 2] i = Some v -> getv g vs (SConst i) = Ok v.
  Proof.
    intros [[l Hc] _ _ _] Hi. cbn. rewrite Hc. change (f0 :: f1 :: FrZ 2 :: l) with ([f0; f1; FrZ 2] ++ l).
    apply at_app. apply at_some. exact Hi.
  Qed.
  (** only constants and rotations are added *)
  Lemma inv_more g g' vs : inv g vs -> extends g g' -> g_calculations g' = g_calculations g ->
    g_intermediates g' = g_intermediates g -> inv g' vs.
  Proof.
    intros [Hc Hl Hn Hr] He Hcalc Hi. split.
    - destruct Hc as [l Hc], (ex_const _ _ He) as [x Hx]. exists (l ++ x). now rewrite Hx, Hc.
    - congruence.
    - congruence.
    - intros i ct H. rewrite Hcalc in H. destruct (Hr i ct H) as [Ht [v [Hv Hv']]]. split; [exact Ht|].
      exists v. split; [exact Hv|]. eapply calculate_mono; [|exact Hv'].
      intros s w. apply getv_mono; [exact He|apply prefix_refl].
  Qed.

  Lemma add_constant_ok x g vs : inv g vs -> forall s g', add_constant x g = (s, g') ->
    extends g g' /\ inv g' vs /\ g_calculations g' = g_calculations g /\ getv g' vs s = Ok x /\ tame 0 s.
  Proof.
    intros Hi s g'. unfold add_constant. destruct (position _ _) as [i|] eqn:Ep; intro H; inversion H; subst; clear H.
    - destruct (position_some _ _ _ Ep) as [a [Ha Hf]]. apply feqb_eq in Hf. subst a.
      split; [apply extends_refl|]. split; [exact Hi|]. split; [reflexivity|]. split; [|exact Logic.I].
      apply at_some. exact Ha.
    - assert (Hx : extends g (Graph (g_constants g ++ [x]) (g_rotations g) (g_calculations g) (g_intermediates g)))
        by (split; cbn; [eexists; reflexivity | apply prefix_refl | apply prefix_refl]).
      split; [exact Hx|]. split; [apply (inv_more g); auto|]. split; [reflexivity|]. split; [|exact Logic.I].
      cbn. apply at_snoc.
  Qed.
  Lemma add_rotation_ok r g vs : inv g vs -> forall i g', add_rotation r g = (i, g') ->
    extends g g' /\ inv g' vs /\ g_calculations g' = g_calculations g /\
    at_ (map (rotation_idx size idx) (g_rotations g')) i = Ok (rotation_idx size idx r).
  Proof.
    intros Hi s g'. unfold add_rotation. destruct (position _ _) as [i|] eqn:Ep; intro H; inversion H; subst; clear H.
    - destruct (position_some _ _ _ Ep) as [a [Ha Hf]]. apply Z.eqb_eq in Hf. subst a.
      split; [apply extends_refl|]. split; [exact Hi|]. split; [reflexivity|].
      unfold at_. now rewrite nth_error_map, Ha.
    - assert (Hx : extends g (Graph (g_constants g) (g_rotations g ++ [r]) (g_calculations g) (g_intermediates g)))
        by (split; cbn; [apply prefix_refl | eexists; reflexivity | apply prefix_refl]).
      split; [exact Hx|]. split; [apply (inv_more g); auto|]. split; [reflexivity|].
      cbn. rewrite map_app. cbn. rewrite <- (map_length (rotation_idx size idx) (g_rotations g)). apply at_snoc.
  Qed.

  Definition grown (g : graph) (vs : list Fr) (s : source) (v : Fr) (g' : graph) (vs' : list Fr) : Prop :=
    extends g g' /\ prefix vs vs' /\ inv g' vs' /\ getv g' vs' s = Ok v.

  Lemma find_pos {A} (f : A -> bool) l a : find f l = Some a -> exists i, nth_error l i = Some a /\ f a = true.
  Proof.
    induction l as [|x l IH]; cbn; [discriminate|]. destruct (f x) eqn:Ex.
    - intro H; inversion H; subst. exists 0. auto.
    - intro H. destruct (IH H) as [i Hi]. exists (S i). exact Hi.
  Qed.
  Lemma firstn_prefix {A} i (l : list A) : prefix (firstn i l) l.
  Proof. exists (skipn i l). symmetry. apply firstn_skipn. Qed.

  Lemma add_calculation_ok c v g vs : inv g vs -> calculate (getv g vs) c = Ok v ->
    forall s g', add_calculation c g = (s, g') ->
    exists vs', grown g vs s v g' vs' /\ tame (length (g_calculations g')) s /\
      (tame_graph g -> (forall s, In s (reads c) -> tame (length (g_calculations g)) s) -> tame_graph g').
  Proof.
    intros Hi Hc s g'. unfold add_calculation. destruct (find _ _) as [ct|] eqn:Ef; intro H; inversion H; subst; clear H.
    - destruct (find_pos _ _ _ Ef) as [i [Hn He]]. apply calc_eqb_iff in He.
      destruct (iv_run _ _ Hi i ct Hn) as [Ht [w [Hw Hw']]]. exists vs.
      assert (w = v) as ->.
      { assert (Hv2 : calculate (getv g' vs) (fst ct) = Ok w).
        { eapply calculate_mono; [|exact Hw']. intros s0 v0. apply getv_mono; [apply extends_refl|apply firstn_prefix]. }
        rewrite He, Hc in Hv2. congruence. }
      assert (Hlt : i < length (g_calculations g')) by (apply nth_error_Some; congruence).
      split; [|split].
      + split; [apply extends_refl|]. split; [apply prefix_refl|]. split; [exact Hi|].
        rewrite Ht. apply at_some. exact Hw.
      + cbn. rewrite Ht. exact Hlt.
      + auto.
    - exists (vs ++ [v]).
      set (g' := Graph _ _ _ _).
      assert (Hx : extends g g') by (split; cbn; [apply prefix_refl | apply prefix_refl | eexists; reflexivity]).
      assert (Hnum : g_intermediates g = length vs) by (rewrite (iv_num _ _ Hi), (iv_len _ _ Hi); reflexivity).
      split; [|split].
      + split; [exact Hx|]. split; [eexists; reflexivity|]. split.
        * destruct Hi as [Hk Hl Hn Hr]. split; cbn.
          -- exact Hk.
          -- rewrite !app_length. cbn. lia.
          -- rewrite !app_length. cbn. lia.
          -- intros i ct Hct. destruct (Nat.lt_ge_cases i (length (g_calculations g))) as [Hlt|Hge].
             ++ rewrite nth_error_app1 in Hct by exact Hlt. destruct (Hr i ct Hct) as [Ht [w [Hw Hw']]].
                split; [exact Ht|]. exists w. split; [rewrite nth_error_app1 by lia; exact Hw|].
                rewrite firstn_app. replace (i - length vs) with 0 by lia. cbn [firstn]. rewrite app_nil_r. exact Hw'.
             ++ rewrite nth_error_app2 in Hct by exact Hge. destruct (i - length (g_calculations g)) as [|d] eqn:Ed; [|destruct d; discriminate Hct].
                cbn in Hct. inversion Hct; subst. cbn. split; [lia|]. exists v.
                assert (i = length vs) as -> by lia.
                split; [rewrite nth_error_app2, Nat.sub_diag by lia; reflexivity|].
                rewrite firstn_app, Nat.sub_diag, firstn_all. cbn [firstn]. rewrite app_nil_r. exact Hc.
        * cbn. rewrite Hnum. apply at_snoc.
      + cbn. rewrite app_length, (iv_num _ _ Hi). cbn. lia.
      + intros Hg Hrd ct Hin s Hs. cbn in *. rewrite app_length. cbn.
        apply in_app_or in Hin as [Hin|[<-|[]]]; [apply (tame_mono (length (g_calculations g))); [lia|]; eapply Hg; eassumption|].
        apply (tame_mono (length (g_calculations g))); [lia|]. apply Hrd. exact Hs.
  Qed.

  (** ** Running *)
  Lemma run_inv g vs : inv g vs -> forall l2 l1, g_calculations g = l1 ++ l2 ->
    run_calculations E prev (map (rotation_idx size idx) (g_rotations g)) (g_constants g) l2
      (firstn (length l1) vs ++ repeat f0 (length l2)) = Ok vs.
  Proof.
    intros Hi. induction l2 as [|[c t] l2 IH]; intros l1 Hl; cbn [run_calculations].
    - cbn. rewrite app_nil_r in *. rewrite <- Hl, <- (iv_len _ _ Hi), firstn_all. reflexivity.
    - assert (Hn : nth_error (g_calculations g) (length l1) = Some (c, t))
        by (rewrite Hl, nth_error_app2, Nat.sub_diag by lia; reflexivity).
      destruct (iv_run _ _ Hi _ _ Hn) as [Ht [v [Hv Hc]]]. cbn in Ht, Hc. subst t.
      assert (Hlen : length vs = length l1 + S (length l2)) by (rewrite (iv_len _ _ Hi), Hl, app_length; reflexivity).
      assert (Hf : length (firstn (length l1) vs) = length l1) by (rewrite firstn_length; lia).
      rewrite (calculate_mono (getv g (firstn (length l1) vs)) _ c v); [| |exact Hc].
      2:{ intros s w. apply getv_mono; [apply extends_refl|]. eexists; reflexivity. }
      cbn [bind]. unfold aset. rewrite app_length, repeat_length, Hf.
      replace (length l1 <? length l1 + length ((c, length l1) :: l2)) with true by (symmetry; apply Nat.ltb_lt; cbn; lia).
      cbn [bind]. specialize (IH (l1 ++ [(c, length l1)])).
      rewrite <- app_assoc in IH. specialize (IH Hl). rewrite app_length in IH. cbn [length Nat.add] in IH.
      rewrite <- IH. f_equal. clear -Hv Hf Hlen.
      replace (length l1 + 1) with (S (length l1)) by lia.
      assert (Hs : firstn (S (length l1)) vs = firstn (length l1) vs ++ [v]).
      { clear -Hv. revert vs Hv. induction (length l1) as [|m IH]; intros [|a vs] Hv; try discriminate Hv; cbn in *.
        - inversion Hv. reflexivity.
        - now rewrite <- IH. }
      rewrite Hs, <- app_assoc. cbn [length repeat app].
      set (a := firstn (length l1) vs) in *. set (n := length l2). clearbody a n. rewrite <- Hf. apply upd_at.
  Qed.
  Lemma evaluate_inv g vs c t l : inv g vs -> g_calculations g = l ++ [(c, t)] ->
    graph_evaluate g E prev size idx = at_ vs (length l).
  Proof.
    intros Hi Hl. unfold graph_evaluate. pose proof (run_inv g vs Hi (g_calculations g) [] eq_refl) as Hr.
    cbn [length firstn app] in Hr. rewrite (iv_num _ _ Hi). rewrite Hr. cbn [bind].
    rewrite Hl, rev_app_distr. cbn.
    assert (Hn : nth_error (g_calculations g) (length l) = Some (c, t)) by (rewrite Hl, nth_error_app2, Nat.sub_diag by lia; reflexivity).
    destruct (iv_run _ _ Hi _ _ Hn) as [Ht _]. cbn in Ht. now rewrite Ht.
  Qed.

  (** ** Expressions *)
  Notation se := (simple_evaluate E size idx).
  Definition compiles (e : expr) : Prop := forall g vs v, inv g vs -> tame_graph g -> se e = Ok v ->
    exists s g' vs', add_expression e g = Ok (s, g') /\ grown g vs s v g' vs' /\
      tame (length (g_calculations g')) s /\ tame_graph g'.
  Lemma grown_trans g vs s v g' vs' s2 v2 g2 vs2 : grown g vs s v g' vs' -> grown g' vs' s2 v2 g2 vs2 ->
    grown g vs s2 v2 g2 vs2 /\ getv g2 vs2 s = Ok v.
  Proof.
    intros [H1 [H2 [H3 H4]]] [K1 [K2 [K3 K4]]]. split.
    - split; [eapply extends_trans; eassumption|]. split; [eapply prefix_trans; eassumption|]. auto.
    - eapply getv_mono; eassumption.
  Qed.
  Lemma grown_len g vs s v g' vs' : grown g vs s v g' vs' -> length (g_calculations g) <= length (g_calculations g').
  Proof. intros [[_ _ H] _]. apply prefix_len, H. Qed.

  (** a calculation after the expressions *)
  Lemma then_calc c v g0 vs0 s0 v0 g vs : grown g0 vs0 s0 v0 g vs -> tame_graph g ->
    calculate (getv g vs) c = Ok v -> (forall s, In s (reads c) -> tame (length (g_calculations g)) s) ->
    exists s g' vs', Ok (add_calculation c g) = Ok (s, g') /\ grown g0 vs0 s v g' vs' /\
      tame (length (g_calculations g')) s /\ tame_graph g'.
  Proof.
    intros Hg Ht Hc Hr. destruct (add_calculation c g) as [s g'] eqn:Ea.
    destruct (add_calculation_ok c v g vs (proj1 (proj2 (proj2 Hg))) Hc s g' Ea) as [vs' [H1 [H2 H3]]].
    exists s, g', vs'. split; [reflexivity|]. split; [exact (proj1 (grown_trans _ _ _ _ _ _ _ _ _ _ Hg H1))|]. auto.
  Qed.
  Lemma grown_self g vs s v : inv g vs -> getv g vs s = Ok v -> grown g vs s v g vs.
  Proof. intros. split; [apply extends_refl|]. split; [apply prefix_refl|]. auto. Qed.

  Lemma const_value g vs i s v w : inv g vs -> is_const i s = true -> nth_error [f0; f1; FrZ 2] i = Some w ->
    getv g vs s = Ok v -> v = w.
  Proof.
    intros Hi Hs Hw Hv. apply is_const_iff in Hs. subst s. rewrite (inv_const g vs i w Hi Hw) in Hv. congruence.
  Qed.

  Lemma lift1_inv f a v : lift1 f a = Ok v -> exists x, a = Ok x /\ v = f x.
  Proof. unfold lift1. destruct a as [x|]; cbn; [|discriminate]. intro H. inversion H. eauto. Qed.
  Lemma lift2_inv f a b v : lift2 f a b = Ok v -> exists x y, a = Ok x /\ b = Ok y /\ v = f x y.
  Proof.
    unfold lift2. destruct a as [x|]; cbn; [|discriminate]. destruct b as [y|]; cbn; [|discriminate].
    intro H. inversion H. eauto.
  Qed.

  Lemma compiles_store src g vs v : inv g vs -> tame_graph g -> getv g vs src = Ok v -> tame (length (g_calculations g)) src ->
    exists s g' vs', Ok (add_calculation (CStore src) g) = Ok (s, g') /\ grown g vs s v g' vs' /\
      tame (length (g_calculations g')) s /\ tame_graph g'.
  Proof.
    intros Hi Ht Hv Hs. apply (then_calc (CStore src) v g vs src v g vs); auto.
    - apply grown_self; assumption.
    - intros s [<-|[]]. exact Hs.
  Qed.
  Lemma compiles_query (mk : nat -> source) r g vs v : inv g vs -> tame_graph g ->
    (forall g' i, at_ (map (rotation_idx size idx) (g_rotations g')) i = Ok (rotation_idx size idx r) -> getv g' vs (mk i) = Ok v) ->
    (forall i n, tame n (mk i)) ->
    exists s g' vs', (let (i, g) := add_rotation r g in Ok (add_calculation (CStore (mk i)) g)) = Ok (s, g') /\
      grown g vs s v g' vs' /\ tame (length (g_calculations g')) s /\ tame_graph g'.
  Proof.
    intros Hi Ht Hv Hs. destruct (add_rotation r g) as [i g1] eqn:Er.
    destruct (add_rotation_ok r g vs Hi i g1 Er) as [He [Hi1 [Hc Ha]]].
    apply (then_calc (CStore (mk i)) v g vs (mk i) v g1 vs).
    - split; [exact He|]. split; [apply prefix_refl|]. auto.
    - unfold tame_graph. rewrite Hc. exact Ht.
    - exact (Hv _ _ Ha).
    - intros s [<-|[]]. apply Hs.
  Qed.

  Lemma compiles_two a b g vs x y : compiles a -> compiles b -> inv g vs -> tame_graph g -> se a = Ok x -> se b = Ok y ->
    exists ra rb g1 g2 vs2, add_expression a g = Ok (ra, g1) /\ add_expression b g1 = Ok (rb, g2) /\
      grown g vs ra x g2 vs2 /\ grown g vs rb y g2 vs2 /\
      tame (length (g_calculations g2)) ra /\ tame (length (g_calculations g2)) rb /\ tame_graph g2.
  Proof.
    intros Ha Hb Hi Ht Hx Hy.
    destruct (Ha g vs x Hi Ht Hx) as [ra [g1 [vs1 [E1 [G1 [T1 TG1]]]]]].
    destruct (Hb g1 vs1 y (proj1 (proj2 (proj2 G1))) TG1 Hy) as [rb [g2 [vs2 [E2 [G2 [T2 TG2]]]]]].
    exists ra, rb, g1, g2, vs2. destruct (grown_trans _ _ _ _ _ _ _ _ _ _ G1 G2) as [G3 Hv].
    split; [exact E1|]. split; [exact E2|]. split.
    - destruct G3 as [H1 [H2 [H3 _]]]. split; auto.
    - split; [exact G3|]. split; [|auto]. apply (tame_mono (length (g_calculations g1))); [eapply grown_len; exact G2|exact T1].
  Qed.

  Lemma frz2 : FrZ 2 = (f1 + f1)%F.
  Proof. apply fe_eq. reflexivity. Qed.

  Theorem compiles_all e : compiles e.
  Proof.
    enough (H : compiles e /\ match e with ENeg b => compiles b | _ => True end) by exact (proj1 H).
    induction e as [c|s|q|q ph|q|ch|a IHa|a IHa b IHb|a IHa b IHb|a IHa f]; split; auto; intros g vs v Hi Ht Hv.
    - cbn in *. inversion Hv; subst. destruct (add_constant v g) as [s g'] eqn:Ea.
      destruct (add_constant_ok v g vs Hi s g' Ea) as [H1 [H2 [H3 [H4 H5]]]].
      exists s, g', vs. split; [reflexivity|]. split; [split; [exact H1|]; split; [apply prefix_refl|]; auto|].
      split; [eapply tame_mono; [|exact H5]; lia|]. unfold tame_graph. rewrite H3. exact Ht.
    - cbn in Hv. discriminate Hv.
    - apply (compiles_query (SFixed (q_col q))); auto; [|intros; exact Logic.I].
      intros g' i Hr. unfold getv. cbn [get_source]. rewrite Hr. exact Hv.
    - apply (compiles_query (SAdvice (q_col q))); auto; [|intros; exact Logic.I].
      intros g' i Hr. unfold getv. cbn [get_source]. rewrite Hr. exact Hv.
    - apply (compiles_query (SInstance (q_col q))); auto; [|intros; exact Logic.I].
      intros g' i Hr. unfold getv. cbn [get_source]. rewrite Hr. exact Hv.
    - apply (compiles_store (SChallenge (ch_index ch))); auto. exact Logic.I.
    - (* negation *)
      destruct (lift1_inv _ _ _ Hv) as [x [Hx ->]]. change (se a = Ok x) in Hx.
      destruct (match a with EConst c => Some c | _ => None end) as [c|] eqn:Em.
      + destruct a; try discriminate Em. cbn in Hx, Em. injection Hx as <-.
        cbn [add_expression]. destruct (add_constant (- c0)%F g) as [s g'] eqn:Ea.
        destruct (add_constant_ok _ g vs Hi s g' Ea) as [H1 [H2 [H3 [H4 H5]]]].
        exists s, g', vs. split; [reflexivity|]. split; [split; [exact H1|]; split; [apply prefix_refl|]; auto|].
        split; [eapply tame_mono; [|exact H5]; lia|]. unfold tame_graph. rewrite H3. exact Ht.
      + destruct (proj1 IHa g vs x Hi Ht Hx) as [ra [g1 [vs1 [E1 [G1 [T1 TG1]]]]]].
        assert (Hex : add_expression (ENeg a) g = let! (ra, g) := add_expression a g in
          if is_const 0 ra then Ok (ra, g) else Ok (add_calculation (CNegate ra) g)) by (destruct a; try discriminate Em; reflexivity).
        rewrite Hex, E1. cbn [bind]. destruct G1 as [K1 [K2 [K3 K4]]].
        destruct (is_const 0 ra) eqn:E0.
        * assert (x = f0) as -> by (eapply const_value; [exact K3|exact E0|reflexivity|exact K4]).
          exists ra, g1, vs1. split; [reflexivity|]. split; [|auto].
          split; [exact K1|]. split; [exact K2|]. split; [exact K3|]. rewrite K4. apply (f_equal Ok); fring.
        * eapply then_calc; [split; [exact K1|split; [exact K2|split; [exact K3|exact K4]]]|exact TG1| |].
          -- cbn [calculate]. rewrite K4. reflexivity.
          -- intros s [<-|[]]. exact T1.
    - exact (proj1 IHa g vs v Hi Ht Hv).
    - (* sums *)
      destruct (lift2_inv _ _ _ _ Hv) as [x [y [Hx [Hy ->]]]]. change (se a = Ok x) in Hx. change (se b = Ok y) in Hy.
      destruct (match b with ENeg c => Some c | _ => None end) as [c|] eqn:Em.
      + destruct b as [| | | | | |c'| | |]; try discriminate Em. clear c Em. rename c' into c.
        destruct (lift1_inv _ _ _ Hy) as [z [Hz ->]]. change (se c = Ok z) in Hz.
        destruct (compiles_two a c g vs x z (proj1 IHa) (proj2 IHb) Hi Ht Hx Hz)
          as [ra [rb [g1 [g2 [vs2 [E1 [E2 [G1 [G2 [T1 [T2 TG]]]]]]]]]]].
        cbn [add_expression]. rewrite E1. cbn [bind]. rewrite E2. cbn [bind].
        pose proof G1 as [K1 [K2 [K3 K4]]]. pose proof (proj2 (proj2 (proj2 G2))) as K5.
        destruct (is_const 0 ra) eqn:E0; [|destruct (is_const 0 rb) eqn:E0'].
        * assert (x = f0) as -> by (eapply const_value; [exact K3|exact E0|reflexivity|exact K4]).
          eapply then_calc; [exact G2|exact TG| |intros s [<-|[]]; exact T2].
          cbn [calculate]. rewrite K5. cbn [bind]. apply (f_equal Ok); fring.
        * assert (z = f0) as -> by (eapply const_value; [exact K3|exact E0'|reflexivity|exact K5]).
          exists ra, g2, vs2. split; [reflexivity|]. split; [|auto].
          split; [exact K1|]. split; [exact K2|]. split; [exact K3|]. rewrite K4. apply (f_equal Ok); fring.
        * eapply then_calc; [exact G2|exact TG| |intros s [<-|[<-|[]]]; [exact T1|exact T2]].
          cbn [calculate]. rewrite K4, K5. cbn [bind]. apply (f_equal Ok); fring.
      + destruct (compiles_two a b g vs x y (proj1 IHa) (proj1 IHb) Hi Ht Hx Hy)
          as [ra [rb [g1 [g2 [vs2 [E1 [E2 [G1 [G2 [T1 [T2 TG]]]]]]]]]]].
        assert (Hex : add_expression (ESum a b) g = let! (ra, g) := add_expression a g in
          let! (rb, g) := add_expression b g in
          if is_const 0 ra then Ok (rb, g)
          else if is_const 0 rb then Ok (ra, g)
          else if source_leb ra rb then Ok (add_calculation (CAdd ra rb) g)
          else Ok (add_calculation (CAdd rb ra) g)) by (destruct b; try discriminate Em; reflexivity).
        rewrite Hex, E1. cbn [bind]. rewrite E2. cbn [bind].
        pose proof G1 as [K1 [K2 [K3 K4]]]. pose proof (proj2 (proj2 (proj2 G2))) as K5.
        destruct (is_const 0 ra) eqn:E0; [|destruct (is_const 0 rb) eqn:E0'].
        * assert (x = f0) as -> by (eapply const_value; [exact K3|exact E0|reflexivity|exact K4]).
          exists rb, g2, vs2. split; [reflexivity|]. split; [|auto].
          split; [exact K1|]. split; [exact K2|]. split; [exact K3|]. rewrite K5. apply (f_equal Ok); fring.
        * assert (y = f0) as -> by (eapply const_value; [exact K3|exact E0'|reflexivity|exact K5]).
          exists ra, g2, vs2. split; [reflexivity|]. split; [|auto].
          split; [exact K1|]. split; [exact K2|]. split; [exact K3|]. rewrite K4. apply (f_equal Ok); fring.
        * destruct (source_leb ra rb); (eapply then_calc; [exact G2|exact TG| |intros s [<-|[<-|[]]]; assumption]);
          cbn [calculate]; rewrite K4, K5; cbn [bind]; apply (f_equal Ok); fring.
    - (* products *)
      destruct (lift2_inv _ _ _ _ Hv) as [x [y [Hx [Hy ->]]]]. change (se a = Ok x) in Hx. change (se b = Ok y) in Hy.
      destruct (compiles_two a b g vs x y (proj1 IHa) (proj1 IHb) Hi Ht Hx Hy)
        as [ra [rb [g1 [g2 [vs2 [E1 [E2 [G1 [G2 [T1 [T2 TG]]]]]]]]]]].
      cbn [add_expression]. rewrite E1. cbn [bind]. rewrite E2. cbn [bind].
      pose proof G1 as [K1 [K2 [K3 K4]]]. pose proof (proj2 (proj2 (proj2 G2))) as K5.
      destruct (is_const 0 ra || is_const 0 rb) eqn:E0.
      { assert (Hz : (x * y)%F = f0).
        { apply orb_true_iff in E0 as [E0|E0].
          - assert (x = f0) as -> by (eapply const_value; [exact K3|exact E0|reflexivity|exact K4]). fring.
          - assert (y = f0) as -> by (eapply const_value; [exact K3|exact E0|reflexivity|exact K5]). fring. }
        exists (SConst 0), g2, vs2. split; [reflexivity|]. split; [|split; [exact Logic.I|exact TG]].
        split; [exact K1|]. split; [exact K2|]. split; [exact K3|]. rewrite Hz. apply (inv_const g2 vs2 0); [exact K3|reflexivity]. }
      destruct (is_const 1 ra) eqn:E1a.
      { assert (x = f1) as -> by (eapply const_value; [exact K3|exact E1a|reflexivity|exact K4]).
        exists rb, g2, vs2. split; [reflexivity|]. split; [|auto].
        split; [exact K1|]. split; [exact K2|]. split; [exact K3|]. rewrite K5. apply (f_equal Ok); fring. }
      destruct (is_const 1 rb) eqn:E1b.
      { assert (y = f1) as -> by (eapply const_value; [exact K3|exact E1b|reflexivity|exact K5]).
        exists ra, g2, vs2. split; [reflexivity|]. split; [|auto].
        split; [exact K1|]. split; [exact K2|]. split; [exact K3|]. rewrite K4. apply (f_equal Ok); fring. }
      destruct (is_const 2 ra) eqn:E2a.
      { assert (x = FrZ 2) as -> by (eapply const_value; [exact K3|exact E2a|reflexivity|exact K4]).
        eapply then_calc; [exact G2|exact TG| |intros s [<-|[]]; assumption].
        cbn [calculate]. rewrite K5. cbn [bind]. apply (f_equal Ok). rewrite frz2. fring. }
      destruct (is_const 2 rb) eqn:E2b.
      { assert (y = FrZ 2) as -> by (eapply const_value; [exact K3|exact E2b|reflexivity|exact K5]).
        eapply then_calc; [exact G2|exact TG| |intros s [<-|[]]; assumption].
        cbn [calculate]. rewrite K4. cbn [bind]. apply (f_equal Ok). rewrite frz2. fring. }
      destruct (source_eqb ra rb) eqn:Eab.
      { apply source_eqb_iff in Eab. subst rb. assert (x = y) as -> by congruence.
        eapply then_calc; [exact G2|exact TG| |intros s [<-|[]]; assumption].
        cbn [calculate]. rewrite K4. reflexivity. }
      destruct (source_leb ra rb); (eapply then_calc; [exact G2|exact TG| |intros s [<-|[<-|[]]]; assumption]);
        cbn [calculate]; rewrite K4, K5; cbn [bind]; apply (f_equal Ok); fring.
    - (* scaled *)
      destruct (lift1_inv _ _ _ Hv) as [x [Hx ->]]. change (se a = Ok x) in Hx.
      cbn [add_expression]. destruct (feqb f f0) eqn:E0.
      { apply feqb_eq in E0. subst f. exists (SConst 0), g, vs. split; [reflexivity|]. split; [|split; [exact Logic.I|exact Ht]].
        apply grown_self; [exact Hi|]. replace (x * f0)%F with (f0 : Fr) by fring. apply (inv_const g vs 0); [exact Hi|reflexivity]. }
      destruct (feqb f f1) eqn:E1.
      { apply feqb_eq in E1. subst f. replace (x * f1)%F with x by fring. exact (proj1 IHa g vs x Hi Ht Hx). }
      destruct (add_constant f g) as [cst g1] eqn:Ea.
      destruct (add_constant_ok f g vs Hi cst g1 Ea) as [H1 [H2 [H3 [H4 H5]]]].
      assert (Ht1 : tame_graph g1) by (unfold tame_graph; rewrite H3; exact Ht).
      destruct (proj1 IHa g1 vs x H2 Ht1 Hx) as [ra [g2 [vs2 [E2 [G2 [T2 TG2]]]]]].
      rewrite E2. cbn [bind].
      assert (G1 : grown g vs cst f g1 vs) by (split; [exact H1|split; [apply prefix_refl|auto]]).
      destruct (grown_trans _ _ _ _ _ _ _ _ _ _ G1 G2) as [G3 K5].
      eapply then_calc; [exact G3|exact TG2| |].
      + cbn [calculate]. rewrite (proj2 (proj2 (proj2 G2))), K5. reflexivity.
      + intros s [<-|[<-|[]]]; [exact T2|]. eapply tame_mono; [|exact H5]. lia.
  Qed.
End Run.

(** ** The evaluator *)

Lemma no_panic {A} (x : res A) a b : (x = Panic <-> b = true) -> x = Ok a -> b = false.
Proof. intros H Hx. destruct b; [|reflexivity]. rewrite (proj2 H eq_refl) in Hx. discriminate. Qed.
Lemma add_expression_panics e : (forall g, add_expression e g = Panic <-> meets_selector e = true) /\
  match e with ENeg b => forall g, add_expression b g = Panic <-> meets_selector b = true | _ => True end.
Proof.
  induction e as [c|s|q|q ph|q|ch|a IHa|a IHa b IHb|a IHa b IHb|a IHa f]; split; auto; intro g; cbn [meets_selector].
  - cbn. split; discriminate.
  - cbn. tauto.
  - cbn. destruct (add_rotation _ _). split; discriminate.
  - cbn. destruct (add_rotation _ _). split; discriminate.
  - cbn. destruct (add_rotation _ _). split; discriminate.
  - cbn. split; discriminate.
  - destruct (match a with EConst c => Some c | _ => None end) as [c|] eqn:Em.
    + destruct a; try discriminate Em. cbn. split; discriminate.
    + assert (Hex : add_expression (ENeg a) g = let! (ra, g) := add_expression a g in
        if is_const 0 ra then Ok (ra, g) else Ok (add_calculation (CNegate ra) g)) by (destruct a; try discriminate Em; reflexivity).
      rewrite Hex, <- (proj1 IHa g). destruct (add_expression a g) as [[ra g1]|]; cbn [bind]; [|tauto].
      destruct (is_const 0 ra); split; discriminate.
  - exact (proj1 IHa g).
  - destruct (match b with ENeg c => Some c | _ => None end) as [c|] eqn:Em.
    + destruct b as [| | | | | |c'| | |]; try discriminate Em. cbn [meets_selector add_expression].
      destruct (add_expression a g) as [[ra g1]|] eqn:Ea; cbn [bind].
      * assert (Hm : meets_selector a = false) by exact (no_panic _ _ _ (proj1 IHa g) Ea).
        rewrite Hm. cbn [orb]. rewrite <- (proj2 IHb g1). destruct (add_expression c' g1) as [[rb g2]|]; cbn [bind]; [|tauto].
        destruct (is_const 0 ra), (is_const 0 rb); split; discriminate.
      * apply (proj1 IHa g) in Ea. rewrite Ea. cbn. tauto.
    + assert (Hex : add_expression (ESum a b) g = let! (ra, g) := add_expression a g in
          let! (rb, g) := add_expression b g in
          if is_const 0 ra then Ok (rb, g)
          else if is_const 0 rb then Ok (ra, g)
          else if source_leb ra rb then Ok (add_calculation (CAdd ra rb) g)
          else Ok (add_calculation (CAdd rb ra) g)) by (destruct b; try discriminate Em; reflexivity).
      rewrite Hex. destruct (add_expression a g) as [[ra g1]|] eqn:Ea; cbn [bind].
      * assert (Hm : meets_selector a = false) by exact (no_panic _ _ _ (proj1 IHa g) Ea).
        rewrite Hm. cbn [orb]. rewrite <- (proj1 IHb g1). destruct (add_expression b g1) as [[rb g2]|]; cbn [bind]; [|tauto].
        destruct (is_const 0 ra), (is_const 0 rb), (source_leb ra rb); split; discriminate.
      * apply (proj1 IHa g) in Ea. rewrite Ea. cbn. tauto.
  - cbn [add_expression]. destruct (add_expression a g) as [[ra g1]|] eqn:Ea; cbn [bind].
    + assert (Hm : meets_selector a = false) by exact (no_panic _ _ _ (proj1 IHa g) Ea).
      rewrite Hm. cbn [orb]. rewrite <- (proj1 IHb g1). destruct (add_expression b g1) as [[rb g2]|]; cbn [bind]; [|tauto].
      destruct (is_const 0 ra), (is_const 0 rb), (is_const 1 ra), (is_const 1 rb), (is_const 2 ra), (is_const 2 rb), (source_eqb ra rb),
        (source_leb ra rb); split; discriminate.
    + apply (proj1 IHa g) in Ea. rewrite Ea. cbn. tauto.
  - cbn [add_expression]. destruct (feqb f f0); [split; discriminate|]. destruct (feqb f f1); [exact (proj1 IHa g)|].
    destruct (add_constant f g) as [cst g1]. rewrite <- (proj1 IHa g1). destruct (add_expression a g1) as [[ra g2]|]; cbn [bind]; [|tauto].
    split; discriminate.
Qed.
Lemma add_expressions_panics es : forall g, add_expressions es g = Panic <-> existsb meets_selector es = true.
Proof.
  induction es as [|e es IH]; intro g; cbn [add_expressions existsb]; [split; discriminate|].
  destruct (add_expression e g) as [[s g1]|] eqn:Ea; cbn [bind].
  - assert (Hm : meets_selector e = false) by exact (no_panic _ _ _ (proj1 (add_expression_panics e) g) Ea).
    rewrite Hm. cbn [orb]. rewrite <- (IH g1). destruct (add_expressions es g1) as [[ss g2]|]; cbn [bind]; [split; discriminate|tauto].
  - apply (proj1 (add_expression_panics e) g) in Ea. rewrite Ea. cbn. tauto.
Qed.
Lemma lookup_graph_panics l : lookup_graph l = Panic <-> existsb meets_selector (fst l ++ snd l) = true.
Proof.
  rewrite existsb_app. unfold lookup_graph. destruct (add_expressions (fst l) _) as [[is g1]|] eqn:E1; cbn [bind].
  - assert (Hm : existsb meets_selector (fst l) = false) by exact (no_panic _ _ _ (add_expressions_panics (fst l) graph_default) E1).
    rewrite Hm. cbn [orb]. destruct (add_calculation _ g1) as [s1 g2]. rewrite <- (add_expressions_panics (snd l) g2).
    destruct (add_expressions (snd l) g2) as [[ts g3]|]; cbn [bind]; [|tauto].
    destruct (add_calculation _ g3) as [s2 g4]. destruct (add_calculation _ g4) as [s3 g5]. destruct (add_calculation _ g5) as [s4 g6].
    split; discriminate.
  - apply add_expressions_panics in E1. rewrite E1. cbn. tauto.
Qed.
Lemma rmap_panics {A B} (f : A -> res B) (p : A -> bool) l : (forall a, f a = Panic <-> p a = true) -> rmap f l = Panic <-> existsb p l = true.
Proof.
  intro H. induction l as [|a l IH]; cbn; [split; discriminate|]. destruct (f a) eqn:Ea; cbn.
  - assert (Hm : p a = false) by exact (no_panic _ _ _ (H a) Ea).
    rewrite Hm. cbn [orb]. rewrite <- IH. destruct (rmap f l); cbn; [split; discriminate|tauto].
  - apply H in Ea. rewrite Ea. cbn. tauto.
Qed.
Lemma evaluator_panics c : evaluator_new c = Panic <->
  existsb meets_selector (concat (gates c) ++ concat (map (fun l => fst l ++ snd l) (lookups c))) = true.
Proof.
  assert (Hl : existsb meets_selector (concat (map (fun l => fst l ++ snd l) (lookups c))) =
    existsb (fun l => existsb meets_selector (fst l ++ snd l)) (lookups c)).
  { induction (lookups c) as [|l ls IH]; cbn; [reflexivity|]. now rewrite existsb_app, IH. }
  rewrite existsb_app, Hl. unfold evaluator_new.
  destruct (add_expressions (concat (gates c)) _) as [[ps g]|] eqn:E1; cbn [bind].
  - assert (Hm : existsb meets_selector (concat (gates c)) = false) by exact (no_panic _ _ _ (add_expressions_panics _ graph_default) E1).
    rewrite Hm. cbn [orb]. rewrite <- (rmap_panics lookup_graph _ (lookups c) lookup_graph_panics).
    destruct (rmap lookup_graph (lookups c)); cbn [bind]; [split; discriminate|tauto].
  - apply add_expressions_panics in E1. rewrite E1. cbn. tauto.
Qed.

Section Evaluator.
  Variables (E : env) (prev : Fr) (size idx : nat).
  Notation se := (simple_evaluate E size idx).
  Notation gv := (getv E prev size idx).
  Notation ok := (inv E prev size idx).
  Lemma add_expressions_ok es : forall g vs xs, ok g vs -> tame_graph g -> rmap se es = Ok xs ->
    exists ss g' vs', add_expressions es g = Ok (ss, g') /\ extends g g' /\ prefix vs vs' /\ ok g' vs' /\
      rmap (gv g' vs') ss = Ok xs /\ (forall s, In s ss -> tame (length (g_calculations g')) s) /\ tame_graph g'.
  Proof.
    induction es as [|e es IH]; intros g vs xs Hi Ht Hx; cbn [add_expressions rmap] in *.
    - inversion Hx; subst. exists [], g, vs. split; [reflexivity|]. split; [apply extends_refl|]. split; [apply prefix_refl|].
      split; [exact Hi|]. split; [reflexivity|]. split; [intros s []|exact Ht].
    - destruct (se e) as [x|] eqn:Ee; cbn [bind] in Hx; [|discriminate]. destruct (rmap se es) as [xs'|] eqn:Es; cbn [bind] in Hx; [|discriminate].
      inversion Hx; subst; clear Hx.
      destruct (compiles_all E prev size idx e g vs x Hi Ht Ee) as [s [g1 [vs1 [E1 [G1 [T1 TG1]]]]]].
      destruct G1 as [K1 [K2 [K3 K4]]].
      destruct (IH g1 vs1 xs' K3 TG1 eq_refl) as [ss [g2 [vs2 [E2 [H1 [H2 [H3 [H4 [H5 H6]]]]]]]]].
      exists (s :: ss), g2, vs2. rewrite E1. cbn [bind]. rewrite E2. cbn [bind]. split; [reflexivity|].
      split; [eapply extends_trans; eassumption|]. split; [eapply prefix_trans; eassumption|]. split; [exact H3|]. split.
      + cbn [rmap]. rewrite (getv_mono E prev size idx g1 g2 vs1 vs2 s x H1 H2 K4). cbn [bind]. rewrite H4. reflexivity.
      + split; [|exact H6]. intros t [<-|Hin]; [|apply H5; exact Hin].
        apply (tame_mono (length (g_calculations g1))); [apply prefix_len, (ex_calc _ _ H1)|exact T1].
  Qed.

  Definition horner (f start : Fr) (xs : list Fr) : Fr := fold_left (fun value p => (value * f + p)%F) xs start.

  Lemma find_none {A} (f : A -> bool) l : (forall a, In a l -> f a = false) -> find f l = None.
  Proof. induction l as [|a l IH]; cbn; auto. intro H. rewrite (H a (or_introl eq_refl)). apply IH. auto. Qed.
  Lemma add_fresh c g : (forall ct, In ct (g_calculations g) -> fst ct <> c) ->
    add_calculation c g = (SInter (g_intermediates g),
      Graph (g_constants g) (g_rotations g) (g_calculations g ++ [(c, g_intermediates g)]) (S (g_intermediates g))).
  Proof.
    intro H. unfold add_calculation. rewrite find_none; [reflexivity|]. intros ct Hin. specialize (H ct Hin).
    destruct (calc_eqb (fst ct) c) eqn:Ec; [|reflexivity]. apply calc_eqb_iff in Ec. contradiction.
  Qed.
  Lemma untamed c g : tame_graph g -> (exists s, In s (reads c) /\ ~ tame (length (g_calculations g)) s) ->
    forall ct, In ct (g_calculations g) -> fst ct <> c.
  Proof. intros Hg [s [Hs Hn]] ct Hin He. apply Hn. apply (Hg ct Hin). rewrite He. exact Hs. Qed.

  (** adding a new calculation at the end *)
  Lemma add_last c v g vs : ok g vs -> calculate (gv g vs) c = Ok v -> (forall ct, In ct (g_calculations g) -> fst ct <> c) ->
    let g' := snd (add_calculation c g) in
    fst (add_calculation c g) = SInter (length (g_calculations g)) /\
    g_calculations g' = g_calculations g ++ [(c, length (g_calculations g))] /\
    g_constants g' = g_constants g /\ g_rotations g' = g_rotations g /\
    exists vs', extends g g' /\ prefix vs vs' /\ ok g' vs' /\ at_ vs' (length (g_calculations g)) = Ok v.
  Proof.
    intros Hi Hc Hf. destruct (add_calculation c g) as [s g'] eqn:Ea. cbn [fst snd].
    destruct (add_calculation_ok E prev size idx c v g vs Hi Hc s g' Ea) as [vs' [[H1 [H2 [H3 H4]]] _]].
    rewrite (add_fresh c g Hf) in Ea. inversion Ea; subst; clear Ea. cbn [g_calculations g_constants g_rotations] in *.
    rewrite (iv_num _ _ _ _ _ _ Hi) in *. split; [reflexivity|]. split; [reflexivity|]. split; [reflexivity|]. split; [reflexivity|].
    exists vs'. split; [exact H1|]. split; [exact H2|]. split; [exact H3|]. exact H4.
  Qed.

  Theorem gates_value c ev xs : evaluator_new c = Ok ev -> rmap se (concat (gates c)) = Ok xs ->
    graph_evaluate (ev_gates ev) E prev size idx = Ok (horner (en_y E) prev xs).
  Proof.
    unfold evaluator_new. intros He Hx.
    assert (Ht0 : tame_graph graph_default) by (intros ct []).
    destruct (add_expressions_ok (concat (gates c)) graph_default [] xs (inv_default E prev size idx) Ht0 Hx)
      as [ss [g [vs [Ea [H1 [H2 [H3 [H4 [H5 H6]]]]]]]]].
    rewrite Ea in He. cbn [bind] in He. destruct (rmap lookup_graph (lookups c)); cbn [bind] in He; [|discriminate].
    apply (f_equal (fun r => match r with Ok e => ev_gates e | Panic => g end)) in He. cbn [ev_gates] in He. rewrite <- He. clear He.
    assert (Hc : calculate (gv g vs) (CHorner SPrev ss SY) = Ok (horner (en_y E) prev xs)).
    { cbn [calculate]. change (gv g vs SY) with (Ok (en_y E)). change (gv g vs SPrev) with (Ok prev). cbn [bind].
      rewrite H4. reflexivity. }
    assert (Hf : forall ct, In ct (g_calculations g) -> fst ct <> CHorner SPrev ss SY)
      by (apply untamed; [exact H6|]; exists SPrev; split; [left; reflexivity|intro K; exact K]).
    destruct (add_last _ _ _ _ H3 Hc Hf) as [_ [K2 [_ [_ [vs' [K5 [K6 [K7 K8]]]]]]]].
    rewrite (evaluate_inv E prev size idx _ vs' _ _ _ K7 K2). exact K8.
  Qed.

  Theorem lookup_graph_value l g xs ys : lookup_graph l = Ok g -> rmap se (fst l) = Ok xs -> rmap se (snd l) = Ok ys ->
    graph_evaluate g E prev size idx =
    Ok ((horner (en_theta E) f0 xs + en_beta E) * (horner (en_theta E) f0 ys + en_gamma E))%F.
  Proof.
    unfold lookup_graph. intros He Hx Hy.
    assert (Ht0 : tame_graph graph_default) by (intros ct []).
    destruct (add_expressions_ok (fst l) graph_default [] xs (inv_default E prev size idx) Ht0 Hx)
      as [ss [g1 [vs1 [Ea [H1 [H2 [H3 [H4 [H5 H6]]]]]]]]].
    rewrite Ea in He. cbn [bind] in He.
    assert (Hh : forall g vs ss xs, ok g vs -> rmap (gv g vs) ss = Ok xs ->
      calculate (gv g vs) (CHorner (SConst 0) ss STheta) = Ok (horner (en_theta E) f0 xs)).
    { intros g0 vs0 ss0 xs0 Hi Hr. cbn [calculate]. change (gv g0 vs0 STheta) with (Ok (en_theta E)). cbn [bind].
      rewrite (inv_const E prev size idx g0 vs0 0 f0 Hi eq_refl). cbn [bind]. rewrite Hr. reflexivity. }
    destruct (add_calculation (CHorner (SConst 0) ss STheta) g1) as [s1 g2] eqn:E2.
    destruct (add_calculation_ok E prev size idx _ _ g1 vs1 H3 (Hh _ _ _ _ H3 H4) s1 g2 E2) as [vs2 [[K1 [K2 [K3 K4]]] [T2 TG2]]].
    assert (Ht2 : tame_graph g2) by (apply TG2; [exact H6|]; intros s [<-|[<-|Hin]]; [exact Logic.I|exact Logic.I|apply H5; exact Hin]).
    destruct (add_expressions_ok (snd l) g2 vs2 ys K3 Ht2 Hy) as [ts [g3 [vs3 [Eb [L1 [L2 [L3 [L4 [L5 L6]]]]]]]]].
    rewrite Eb in He. cbn [bind] in He.
    destruct (add_calculation (CHorner (SConst 0) ts STheta) g3) as [s2 g4] eqn:E4.
    destruct (add_calculation_ok E prev size idx _ _ g3 vs3 L3 (Hh _ _ _ _ L3 L4) s2 g4 E4) as [vs4 [[M1 [M2 [M3 M4]]] [T4 TG4]]].
    assert (Ht4 : tame_graph g4) by (apply TG4; [exact L6|]; intros s [<-|[<-|Hin]]; [exact Logic.I|exact Logic.I|apply L5; exact Hin]).
    assert (Hs1 : gv g4 vs4 s1 = Ok (horner (en_theta E) f0 xs)).
    { eapply getv_mono; [|eapply prefix_trans; [exact L2|exact M2]|exact K4]. eapply extends_trans; eassumption. }
    assert (Ts1 : tame (length (g_calculations g4)) s1).
    { eapply tame_mono; [|exact T2]. etransitivity; [apply prefix_len, (ex_calc _ _ L1)|apply prefix_len, (ex_calc _ _ M1)]. }
    set (X := horner (en_theta E) f0 xs) in *. set (Y := horner (en_theta E) f0 ys) in *.
    (* table + gamma *)
    assert (C5 : calculate (gv g4 vs4) (CAdd s2 SGamma) = Ok (Y + en_gamma E)%F)
      by (cbn [calculate]; rewrite M4; reflexivity).
    assert (F5 : forall ct, In ct (g_calculations g4) -> fst ct <> CAdd s2 SGamma)
      by (apply untamed; [exact Ht4|]; exists SGamma; split; [right; left; reflexivity|intro K; exact K]).
    destruct (add_last _ _ _ _ M3 C5 F5) as [N1 [N2 [_ [_ [vs5 [N5 [N6 [N7 N8]]]]]]]].
    destruct (add_calculation (CAdd s2 SGamma) g4) as [s3 g5] eqn:E5. cbn [fst snd] in *.
    (* input + beta *)
    assert (C6 : calculate (gv g5 vs5) (CAdd s1 SBeta) = Ok (X + en_beta E)%F).
    { cbn [calculate]. rewrite (getv_mono E prev size idx g4 g5 vs4 vs5 s1 X N5 N6 Hs1). reflexivity. }
    assert (F6 : forall ct, In ct (g_calculations g5) -> fst ct <> CAdd s1 SBeta).
    { intros ct Hin. rewrite N2 in Hin. apply in_app_or in Hin as [Hin|[<-|[]]].
      - revert ct Hin. apply untamed; [exact Ht4|]. exists SBeta. split; [right; left; reflexivity|intro K; exact K].
      - cbn. discriminate. }
    destruct (add_last _ _ _ _ N7 C6 F6) as [O1 [O2 [_ [_ [vs6 [O5 [O6 [O7 O8]]]]]]]].
    destruct (add_calculation (CAdd s1 SBeta) g5) as [s4 g6] eqn:E6. cbn [fst snd] in *.
    assert (C7 : calculate (gv g6 vs6) (CMul s4 s3) = Ok ((X + en_beta E) * (Y + en_gamma E))%F).
    { subst s3 s4. cbn [calculate]. unfold getv at 1 2. cbn [get_source].
      rewrite O8. cbn [bind]. rewrite (prefix_at _ _ _ _ O6 N8). reflexivity. }
    assert (F7 : forall ct, In ct (g_calculations g6) -> fst ct <> CMul s4 s3).
    { intros ct Hin. rewrite O2, N2 in Hin. apply in_app_or in Hin as [Hin|[<-|[]]]; [|cbn; discriminate].
      apply in_app_or in Hin as [Hin|[<-|[]]]; [|cbn; discriminate].
      revert ct Hin. apply untamed; [exact Ht4|]. exists s3. split; [right; left; reflexivity|].
      subst s3. cbn. lia. }
    destruct (add_last _ _ _ _ O7 C7 F7) as [Q1 [Q2 [_ [_ [vs7 [Q5 [Q6 [Q7 Q8]]]]]]]].
    inversion He; subst g. rewrite (evaluate_inv E prev size idx _ vs7 _ _ _ Q7 Q2). exact Q8.
  Qed.
End Evaluator.
