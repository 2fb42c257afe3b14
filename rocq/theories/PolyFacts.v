(** Polynomials over the scalar field: root counting, products of linear
    factors. *)
From Coq Require Import ZArith List Arith Lia Permutation Bool.
From Verif Require Import Base Field FieldFacts.
Import ListNotations.
Local Open Scope F_scope.

(** Coefficients, constant term first. *)
Fixpoint peval (p : list Fr) (x : Fr) : Fr :=
  match p with [] => f0 | c :: p => c + x * peval p x end.

Definition zeros (p : list Fr) : Prop := Forall (fun c => c = f0) p.
Lemma peval_zeros p x : zeros p -> peval p x = f0.
Proof. induction 1 as [|c p -> _ IH]; cbn [peval]; [reflexivity|rewrite IH; fring]. Qed.

(** Quotient by (X - a). *)
Fixpoint pdiv (a : Fr) (p : list Fr) : list Fr :=
  match p with [] => [] | _ :: p => match p with [] => [] | _ => peval p a :: pdiv a p end end.
Lemma pdiv_length a p : length (pdiv a p) = pred (length p).
Proof.
  induction p as [|c [|d p] IH]; [reflexivity..|].
  cbn [pdiv length pred] in *. f_equal. exact IH.
Qed.
Lemma pdiv_eq a p x : peval p x = (x - a) * peval (pdiv a p) x + peval p a.
Proof.
  induction p as [|c [|d p] IH].
  - cbn [peval pdiv]. fring.
  - cbn [peval pdiv]. fring.
  - change (peval (c :: d :: p) x) with (c + x * peval (d :: p) x).
    change (pdiv a (c :: d :: p)) with (peval (d :: p) a :: pdiv a (d :: p)).
    change (peval (c :: d :: p) a) with (c + a * peval (d :: p) a).
    rewrite IH. cbn [peval]. fring.
Qed.
Lemma pdiv_zeros a p : zeros (pdiv a p) -> peval p a = f0 -> zeros p.
Proof.
  induction p as [|c [|d p] IH]; intros Hz Ha.
  - constructor.
  - cbn [peval] in Ha. constructor; [|constructor]. rewrite <- Ha. fring.
  - change (pdiv a (c :: d :: p)) with (peval (d :: p) a :: pdiv a (d :: p)) in Hz.
    change (peval (c :: d :: p) a) with (c + a * peval (d :: p) a) in Ha.
    apply Forall_cons_iff in Hz. destruct Hz as [E Hz']. specialize (IH Hz' E). constructor; [|exact IH].
    rewrite E in Ha. rewrite <- Ha. fring.
Qed.

(** A polynomial with [length p] coefficients and as many distinct roots is zero. *)
Lemma many_roots p : forall roots, NoDup roots -> (forall a, In a roots -> peval p a = f0) ->
  (length p <= length roots)%nat -> zeros p.
Proof.
  remember (length p) as n eqn:E. revert p E. induction n as [|n IH]; intros p E roots Hn Hr Hl.
  - destruct p; [constructor|discriminate].
  - destruct roots as [|a roots]; [cbn in Hl; lia|]. apply NoDup_cons_iff in Hn. destruct Hn as [Ha Hn].
    apply (pdiv_zeros a); [|apply Hr; left; reflexivity].
    apply (IH (pdiv a p)) with (roots := roots); [rewrite pdiv_length, <- E; reflexivity|exact Hn| |cbn in Hl; lia].
    intros b Hb. pose proof (Hr b (or_intror Hb)) as H. rewrite (pdiv_eq a), (Hr a (or_introl eq_refl)) in H.
    assert (H' : (b - a) * peval (pdiv a p) b = f0) by (rewrite <- H; fring).
    apply Fr_mul_eq_0 in H'. destruct H' as [H'|H']; [|exact H']. exfalso. apply Ha.
    replace a with b; [exact Hb|]. replace b with (b - a + a) by fring. rewrite H'. fring.
Qed.

(** Arbitrarily many distinct field elements, up to the field's size. *)
Definition elems (n : nat) : list Fr := map (fun k => FrZ (Z.of_nat k)) (seq 0 n).
Lemma elems_length n : length (elems n) = n.
Proof. unfold elems. rewrite map_length, seq_length. reflexivity. Qed.
Lemma NoDup_map_in {A B} (f : A -> B) l : (forall x y, In x l -> In y l -> f x = f y -> x = y) ->
  NoDup l -> NoDup (map f l).
Proof.
  intros Hf H. induction H as [|x l Hx H IH]; [constructor|]. cbn [map]. constructor.
  - intros Hi. apply in_map_iff in Hi. destruct Hi as (y & E & Hy). apply Hx.
    rewrite <- (Hf y x); [exact Hy|right; exact Hy|left; reflexivity|exact E].
  - apply IH. intros a b Ha Hb. apply Hf; right; assumption.
Qed.
Lemma elems_nodup n : (Z.of_nat n <= Zpos r_pos)%Z -> NoDup (elems n).
Proof.
  intros H. unfold elems. apply NoDup_map_in.
  - intros x y Hx Hy E. apply in_seq in Hx, Hy. apply (f_equal fval) in E.
    unfold FrZ in E. rewrite !fval_small in E by lia. lia.
  - apply seq_NoDup.
Qed.

(** ** Functions given by a polynomial with at most [d] coefficients *)
Definition polyfun (d : nat) (f : Fr -> Fr) : Prop :=
  exists p, (length p <= d)%nat /\ forall x, f x = peval p x.
Fixpoint padd (p q : list Fr) : list Fr :=
  match p, q with [], _ => q | _, [] => p | a :: p, b :: q => (a + b) :: padd p q end.
Lemma padd_eval p q x : peval (padd p q) x = peval p x + peval q x.
Proof.
  revert q. induction p as [|a p IH]; intros [|b q]; cbn [padd peval]; try fring. rewrite IH. fring.
Qed.
Lemma padd_length p q : length (padd p q) = Nat.max (length p) (length q).
Proof. revert q. induction p as [|a p IH]; intros [|b q]; cbn [padd length]; try lia. rewrite IH. reflexivity. Qed.
Lemma pscale_eval k p x : peval (map (fmul k) p) x = k * peval p x.
Proof. induction p as [|a p IH]; cbn [map peval]; [fring|rewrite IH; fring]. Qed.

Lemma polyfun_const k d : (1 <= d)%nat -> polyfun d (fun _ => k).
Proof. intros H. exists [k]. split; [cbn [length]; lia|]. intros x. cbn [peval]. fring. Qed.
Lemma polyfun_sub d f g : polyfun d f -> polyfun d g -> polyfun d (fun x => f x - g x).
Proof.
  intros (p & Lp & Ep) (q & Lq & Eq). exists (padd p (map (fmul (fopp f1)) q)). split.
  - rewrite padd_length, map_length. change (fe r_pos) with Fr in *; lia.
  - intros x. rewrite padd_eval, pscale_eval, Ep, Eq. fring.
Qed.
Lemma polyfun_lin d f u : polyfun d f -> polyfun (S d) (fun x => (x - u) * f x).
Proof.
  intros (p & Lp & Ep). exists (padd (f0 :: p) (map (fmul (fopp u)) p)). split.
  - rewrite padd_length, map_length. cbn [length]. change (fe r_pos) with Fr in *; lia.
  - intros x. rewrite padd_eval, pscale_eval. cbn [peval]. rewrite Ep. fring.
Qed.
(** It vanishes everywhere if it vanishes at [d] points. *)
Lemma polyfun_zero d f roots : polyfun d f -> NoDup roots -> (d <= length roots)%nat ->
  (forall a, In a roots -> f a = f0) -> forall x, f x = f0.
Proof.
  intros (p & Lp & Ep) Hn Hl Hr x. rewrite Ep. apply peval_zeros.
  apply (many_roots p roots Hn); [|lia]. intros a Ha. rewrite <- Ep. auto.
Qed.

(** ** Products of linear factors *)
Definition lprod (u : list Fr) (x : Fr) : Fr := fold_right (fun a s => (x - a) * s) f1 u.
Lemma lprod_poly u : polyfun (S (length u)) (lprod u).
Proof.
  induction u as [|a u IH]; [apply polyfun_const; cbn [length]; lia|]. apply (polyfun_lin _ _ a IH).
Qed.
Lemma lprod_zero u x : lprod u x = f0 <-> In x u.
Proof.
  induction u as [|a u IH]; cbn [lprod fold_right In].
  - split; [|contradiction]. intros E. exfalso. exact (Fr_1_neq_0 E).
  - rewrite <- IH. split.
    + intros E. apply Fr_mul_eq_0 in E. destruct E as [E|E]; [left|right; exact E].
      replace x with (x - a + a) by fring. rewrite E. fring.
    + intros [->|E]; [fring|]. unfold lprod in E. rewrite E. fring.
Qed.
Lemma lprod_perm u v x : Permutation u v -> lprod u x = lprod v x.
Proof.
  induction 1; cbn [lprod fold_right]; [reflexivity|unfold lprod in IHPermutation; now rewrite IHPermutation|fring|congruence].
Qed.

Definition few (n : nat) : Prop := (Z.of_nat n < 2 ^ 64)%Z.
Lemma few_elems n : few n -> NoDup (elems (n + 2)).
Proof.
  intros H. apply elems_nodup. unfold few in H.
  apply Z.lt_le_incl, (Z.le_lt_trans _ (2 ^ 65)); [lia|reflexivity].
Qed.
Lemma remove1 {A} (dec : forall a b : A, {a = b} + {a <> b}) (a : A) l : NoDup l ->
  exists k, NoDup k /\ (length l <= S (length k))%nat /\ (forall x, In x k -> In x l /\ x <> a).
Proof.
  intros H. exists (filter (fun x => if dec x a then false else true) l). split; [apply NoDup_filter; exact H|].
  split.
  - induction H as [|b l Hb H IH]; [cbn; lia|]. cbn [filter length]. destruct (dec b a) as [->|N]; [|cbn [length]; lia].
    clear IH. enough (E : filter (fun x => if dec x a then false else true) l = l) by (rewrite E; lia).
    clear H. induction l as [|c l IHl]; [reflexivity|]. cbn [filter]. destruct (dec c a) as [->|N].
    + exfalso. apply Hb. left. reflexivity.
    + f_equal. apply IHl. intros Hi. apply Hb. right. exact Hi.
  - intros x Hx. apply filter_In in Hx. destruct Hx as [Hx E]. split; [exact Hx|]. intros ->.
    destruct (dec a a); [discriminate|contradiction].
Qed.

Lemma lprod_eq u : forall v, few (length u) -> few (length v) ->
  (forall x, lprod u x = lprod v x) -> Permutation u v.
Proof.
  induction u as [|a u IH]; intros v Hu Hv H.
  - destruct v as [|b v]; [constructor|]. exfalso. specialize (H b).
    rewrite (proj2 (lprod_zero (b :: v) b)) in H by (left; reflexivity). exact (Fr_1_neq_0 H).
  - assert (Hi : In a v) by (apply lprod_zero; rewrite <- H; apply lprod_zero; left; reflexivity).
    apply in_split in Hi. destruct Hi as (v1 & v2 & ->).
    apply Permutation_cons_app.
    set (v := v1 ++ v2).
    assert (H2 : forall x, lprod (a :: u) x = lprod (a :: v) x).
    { intros x. rewrite H. apply lprod_perm. symmetry. apply Permutation_middle. }
    assert (Lv : length (v1 ++ a :: v2) = S (length v)) by (unfold v; rewrite !app_length; cbn [length]; lia).
    assert (Fv : few (length v)) by (unfold few in *; lia).
    assert (Fu : few (length u)) by (unfold few in *; cbn [length] in Hu; lia).
    apply IH; [exact Fu|exact Fv|].
    set (d := S (Nat.max (length u) (length v))).
    assert (Fd : few (pred d)) by (unfold d, few in *; cbn [pred]; lia).
    pose proof (few_elems _ Fd) as Nd. destruct (remove1 fe_dec a _ Nd) as (k & Nk & Lk & Hk).
    rewrite elems_length in Lk.
    assert (Pz : forall x, lprod u x - lprod v x = f0).
    { apply (polyfun_zero d (fun x => lprod u x - lprod v x) k).
      - apply polyfun_sub; [destruct (lprod_poly u) as (p & L & E)|destruct (lprod_poly v) as (p & L & E)];
          exists p; split; [unfold d; lia|exact E|unfold d; lia|exact E].
      - exact Nk.
      - unfold d in *. cbn [pred] in Lk. change (fe r_pos) with Fr in *; lia.
      - intros x Hx. destruct (Hk x Hx) as [_ Hne]. specialize (H2 x). cbn [lprod fold_right] in H2.
        fold (lprod u x) (lprod v x) in H2.
        assert (E : (x - a) * (lprod u x - lprod v x) = f0).
        { replace ((x - a) * (lprod u x - lprod v x)) with ((x - a) * lprod u x - (x - a) * lprod v x) by fring.
          rewrite H2. fring. }
        apply Fr_mul_eq_0 in E. destruct E as [E|E]; [|exact E]. exfalso. apply Hne.
        replace x with (x - a + a) by fring. rewrite E. fring. }
    intros x. specialize (Pz x). replace (lprod u x) with (lprod u x - lprod v x + lprod v x) by fring.
    rewrite Pz. fring.
Qed.

(** ** Separating triples *)
(** A value that is a root of none of the given non-zero polynomials. *)
Lemma avoid_roots d (ps : list (list Fr)) : forall cands, NoDup cands ->
  (forall p, In p ps -> (length p <= S d)%nat /\ ~ zeros p) ->
  (d * length ps < length cands)%nat ->
  exists t, In t cands /\ forall p, In p ps -> peval p t <> f0.
Proof.
  induction ps as [|p ps IH]; intros cands Hn Hp Hl.
  - destruct cands as [|t cands]; [cbn in Hl; lia|]. exists t. split; [left; reflexivity|]. intros p [].
  - set (isr := fun t => feqb (peval p t) f0).
    assert (Hr : (length (filter isr cands) <= d)%nat).
    { destruct (le_lt_dec (length (filter isr cands)) d) as [L|L]; [exact L|]. exfalso.
      destruct (Hp p (or_introl eq_refl)) as [Lp Np]. apply Np.
      apply (many_roots p (filter isr cands)); [apply NoDup_filter; exact Hn| |lia].
      intros a Ha. apply filter_In in Ha. destruct Ha as [_ Ha]. apply feqb_eq. exact Ha. }
    assert (Hs : (length (filter isr cands) + length (filter (fun t => negb (isr t)) cands) = length cands)%nat).
    { clear. induction cands as [|a l IHl]; [reflexivity|]. cbn [filter]. destruct (isr a); cbn [negb length]; lia. }
    destruct (IH (filter (fun t => negb (isr t)) cands)) as (t & Ht & Hall).
    + apply NoDup_filter. exact Hn.
    + intros q Hq. apply Hp. right. exact Hq.
    + cbn [length] in Hl. rewrite Nat.mul_succ_r in Hl. lia.
    + apply filter_In in Ht. destruct Ht as [Ht E]. exists t. split; [exact Ht|].
      intros q [<-|Hq]; [|apply Hall; exact Hq]. apply feqb_neq. apply negb_true_iff. exact E.
Qed.

Lemma perm_map_inj {A B} (f : A -> B) (l k : list A) :
  (forall x y, In x (l ++ k) -> In y (l ++ k) -> f x = f y -> x = y) ->
  Permutation (map f l) (map f k) -> Permutation l k.
Proof.
  revert k. induction l as [|x l IH]; intros k Hf Hp.
  - apply Permutation_length in Hp. rewrite map_length in Hp. destruct k; [constructor|discriminate].
  - assert (Hi : In (f x) (map f k)) by (eapply Permutation_in; [exact Hp|left; reflexivity]).
    apply in_map_iff in Hi. destruct Hi as (y & Ey & Hy).
    assert (y = x) as -> by (apply Hf; [apply in_or_app; right; exact Hy|left; reflexivity|exact Ey]).
    apply in_split in Hy. destruct Hy as (k1 & k2 & ->). apply Permutation_cons_app. apply IH.
    + intros a b Ha Hb. apply Hf; rewrite !in_app_iff in *; cbn [In]; tauto.
    + rewrite map_app in Hp. cbn [map] in Hp. apply Permutation_cons_app_inv in Hp. rewrite <- map_app in Hp. exact Hp.
Qed.

Definition triple : Type := (Fr * Fr * Fr)%type.
Definition tdot (a b c : Fr) (t : triple) : Fr := let '(x, y, z) := t in a * x + b * y + c * z.

Lemma filter_le {A} (f : A -> bool) l : (length (filter f l) <= length l)%nat.
Proof. induction l as [|a l IH]; [constructor|]. cbn [filter]. destruct (f a); cbn [length]; lia. Qed.
Lemma separate (l : list triple) : (Z.of_nat (length l) <= 2 ^ 65)%Z ->
  exists a b c, forall x y, In x l -> In y l -> tdot a b c x = tdot a b c y -> x = y.
Proof.
  intros Hl.
  set (diff := fun pr : triple * triple => let '((x, y, z), (x', y', z')) := pr in [x - x'; y - y'; z - z']).
  set (pairs := list_prod l l).
  set (bad := fun pr : triple * triple => let '((x, y, z), (x', y', z')) := pr in negb (feqb x x' && feqb y y' && feqb z z')).
  set (ps := map diff (filter bad pairs)).
  set (M := Z.to_nat (2 ^ 132)).
  assert (HM : Z.of_nat M = (2 ^ 132)%Z) by (apply Z2Nat.id; discriminate).
  assert (Hps : (Z.of_nat (length ps) <= 2 ^ 130)%Z).
  { unfold ps. rewrite map_length. apply (Z.le_trans _ (Z.of_nat (length pairs))).
    - apply inj_le, filter_le.
    - unfold pairs. rewrite prod_length, Nat2Z.inj_mul. change (2 ^ 130)%Z with (2 ^ 65 * 2 ^ 65)%Z.
      apply Z.mul_le_mono_nonneg; lia. }
  destruct (avoid_roots 2 ps (elems M)) as (t & _ & Ht).
  - apply elems_nodup. rewrite HM. apply Z.lt_le_incl. reflexivity.
  - intros p Hp. apply in_map_iff in Hp. destruct Hp as ([[[x y] z] [[x' y'] z']] & <- & Hi).
    apply filter_In in Hi. destruct Hi as [_ Hi]. unfold bad in Hi. split; [apply le_n|]. intros Hz. unfold diff in Hz.
    inversion Hz as [|? ? E1 Hz1]; subst. inversion Hz1 as [|? ? E2 Hz2]; subst. inversion Hz2 as [|? ? E3 _]; subst.
    replace x with (x - x' + x') in Hi by fring. replace y with (y - y' + y') in Hi by fring.
    replace z with (z - z' + z') in Hi by fring. rewrite E1, E2, E3 in Hi.
    replace (f0 + x') with x' in Hi by fring. replace (f0 + y') with y' in Hi by fring. replace (f0 + z') with z' in Hi by fring.
    rewrite !feqb_refl in Hi. discriminate.
  - rewrite elems_length. apply Nat2Z.inj_lt. rewrite HM, Nat2Z.inj_mul.
    apply (Z.le_lt_trans _ (2 * 2 ^ 130)); [|reflexivity]. apply Z.mul_le_mono_nonneg_l; [discriminate|exact Hps].
  - exists f1, t, (t * t). intros [[x y] z] [[x' y'] z'] Hx Hy E. cbn [tdot] in E.
    destruct (feqb x x' && feqb y y' && feqb z z') eqn:Eb.
    + rewrite !andb_true_iff, !feqb_eq in Eb. destruct Eb as [[-> ->] ->]. reflexivity.
    + exfalso. apply (Ht [x - x'; y - y'; z - z']).
      * apply in_map_iff. exists ((x, y, z), (x', y', z')). split; [reflexivity|]. apply filter_In. split.
        -- apply in_prod; assumption.
        -- unfold bad. rewrite Eb. reflexivity.
      * cbn [peval].
        replace (x - x' + t * (y - y' + t * (z - z' + t * f0))) with
          ((f1 * x + t * y + t * t * z) - (f1 * x' + t * y' + t * t * z')) by fring.
        rewrite E. fring.
Qed.

(** Products of compressed rows determine the rows up to order. *)
Definition tprod (al a b c : Fr) (l : list triple) : Fr := fold_right (fun t s => (al - tdot a b c t) * s) f1 l.
Lemma tprod_lprod al a b c l : tprod al a b c l = lprod (map (tdot a b c) l) al.
Proof. induction l as [|t l IH]; [reflexivity|]. cbn [tprod map lprod fold_right]. unfold tprod, lprod in IH. rewrite IH. reflexivity. Qed.

Lemma tprod_perm l k : few (length l) -> few (length k) ->
  (forall al a b c, tprod al a b c l = tprod al a b c k) <-> Permutation l k.
Proof.
  intros Hl Hk. split.
  - intros H. destruct (separate (l ++ k)) as (a & b & c & Hs).
    { rewrite app_length. unfold few in *. lia. }
    apply (perm_map_inj (tdot a b c)); [exact Hs|].
    apply lprod_eq; [rewrite map_length; assumption..|]. intros x. rewrite <- !tprod_lprod. apply H.
  - intros H al a b c. rewrite !tprod_lprod. apply lprod_perm. apply Permutation_map. exact H.
Qed.

(** ** Running sums *)
(** Horner evaluation starting from [s]. *)
Definition horner (g : Fr) (l : list Fr) (s : Fr) : Fr := fold_left (fun s x => g * s + x) l s.
Lemma horner_peval g l s : horner g l s = peval (rev l ++ [s]) g.
Proof.
  revert s. induction l as [|x l IH] using rev_ind; intros s.
  - unfold horner. cbn [fold_left rev app peval]. fring.
  - unfold horner in *. rewrite fold_left_app, rev_app_distr. cbn [fold_left rev app peval]. rewrite IH. fring.
Qed.
Lemma peval_sub p q x : length p = length q ->
  peval p x - peval q x = peval (map (fun '(a, b) => a - b) (combine p q)) x.
Proof.
  revert q. induction p as [|a p IH]; intros [|b q] H; try discriminate; [cbn [peval combine map]; fring|].
  injection H as H. cbn [peval combine map]. rewrite <- IH by exact H. fring.
Qed.
Lemma diff_zeros p q : length p = length q -> zeros (map (fun '(a, b) => a - b) (combine p q)) -> p = q.
Proof.
  revert q. induction p as [|a p IH]; intros [|b q] H Hz; try discriminate; [reflexivity|].
  injection H as H. cbn [combine map] in Hz. inversion Hz as [|? ? E Hz']; subst. f_equal; [|apply IH; assumption].
  replace a with (a - b + b) by fring. rewrite E. fring.
Qed.
Lemma peval_roots p q : length p = length q -> p <> q ->
  forall cs, NoDup cs -> (forall c, In c cs -> peval p c = peval q c) -> (length cs < length p)%nat.
Proof.
  intros Hl Hne cs Hn Hc. destruct (lt_dec (length cs) (length p)) as [L|L]; [exact L|]. exfalso. apply Hne.
  apply diff_zeros; [exact Hl|]. apply (many_roots _ cs Hn).
  - intros a Ha. rewrite <- peval_sub by exact Hl. rewrite (Hc a Ha). fring.
  - rewrite map_length, combine_length. (change (fe r_pos) with Fr in *; lia).
Qed.
(** Horner sums over sequences that may differ in length, from a non-zero start. *)
Lemma horner_inj l k s : s <> f0 -> few (length l) -> few (length k) ->
  (forall g, horner g l s = horner g k s) -> l = k.
Proof.
  intros Hs Hl Hk H.
  assert (Hz : forall p q : list Fr, few (length p) -> few (length q) -> (forall x, peval (p ++ [s]) x = peval (q ++ [s]) x) -> p = q).
  { clear - Hs. intros p q Hp Hq H.
    assert (Z : zeros (padd (p ++ [s]) (map (fmul (fopp f1)) (q ++ [s])))).
    { apply (many_roots _ (elems (Nat.max (length p) (length q) + 2))).
      - apply few_elems. unfold few in *. (change (fe r_pos) with Fr in *; lia).
      - intros a _. rewrite padd_eval, pscale_eval, H. fring.
      - rewrite elems_length, padd_length, map_length, !app_length. cbn [length]. (change (fe r_pos) with Fr in *; lia). }
    clear H Hp Hq. revert q Z. induction p as [|a p IH]; intros [|b q] Z.
    - reflexivity.
    - exfalso. cbn [app map padd] in Z. apply Forall_cons_iff in Z; destruct Z as [_ Z']. apply Hs. destruct (q ++ [s]) eqn:E; [destruct q; discriminate|].
      clear - Z' E Hs. rewrite <- E in Z'. cbn [map padd] in Z'. rewrite map_app in Z'. apply Forall_app in Z'.
      destruct Z' as [_ Z']. apply Forall_cons_iff in Z'; destruct Z' as [E0 _]. 
      replace s with (fopp f1 * (fopp f1 * s)) by fring. rewrite E0. fring.
    - exfalso. cbn [app map padd] in Z. apply Forall_cons_iff in Z; destruct Z as [_ Z']. apply Hs.
      destruct (p ++ [s]) eqn:E; [destruct p; discriminate|]. cbn [padd] in Z'. rewrite <- E in Z'.
      apply Forall_app in Z'. destruct Z' as [_ Z']. apply Forall_cons_iff in Z'; destruct Z' as [E0 _]. exact E0.
    - cbn [app map padd] in Z. apply Forall_cons_iff in Z; destruct Z as [E0 Z']. f_equal; [|apply IH; exact Z'].
      replace a with (a + fopp f1 * b + b) by fring. rewrite E0. fring. }
  assert (E : rev l = rev k).
  { apply Hz; [rewrite rev_length; assumption..|]. intros x. rewrite <- !horner_peval. apply H. }
  rewrite <- (rev_involutive l), E. apply rev_involutive.
Qed.
Lemma horner_inj_len l k : length l = length k -> few (length l) ->
  (forall g, horner g l f0 = horner g k f0) -> l = k.
Proof.
  intros E Hl H.
  assert (L : length (rev l ++ [f0 : Fr]) = length (rev k ++ [f0])) by (rewrite !app_length, !rev_length; (change (fe r_pos) with Fr in *; lia)).
  assert (Z : rev l ++ [f0 : Fr] = rev k ++ [f0]).
  { apply diff_zeros; [exact L|]. apply (many_roots _ (elems (length l + 2))).
    - apply few_elems. exact Hl.
    - intros a _. rewrite <- peval_sub by exact L. rewrite <- !horner_peval, H. fring.
    - rewrite elems_length, map_length, combine_length, !app_length, !rev_length. cbn [length]. (change (fe r_pos) with Fr in *; lia). }
  apply app_inj_tail in Z. destruct Z as [Z _]. rewrite <- (rev_involutive l), Z. apply rev_involutive.
Qed.
