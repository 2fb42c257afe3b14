(** What [construct_intermediate_sets] builds. *)
From Coq Require Import ZArith List Arith Bool Lia Sorted.
From Verif Require Import Base Moduli Field FieldFacts ListFacts SelectorModel ShplonkModel.
Import ListNotations.

Lemma set_insert_in x s y : In y (set_insert x s) <-> y = x \/ In y s.
Proof.
  induction s as [|z s IH]; cbn [set_insert]; [cbn; intuition|].
  destruct (Z.ltb_spec (fval x) (fval z)); [cbn; intuition|].
  destruct (feqb x z) eqn:E.
  - apply feqb_eq in E. subst z. cbn. intuition.
  - cbn. rewrite IH. intuition.
Qed.
Notation sorted := (StronglySorted (fun a b : Fr => (fval a < fval b)%Z)).
Lemma set_insert_sorted x s : sorted s -> sorted (set_insert x s).
Proof.
  induction s as [|z s IH]; intros H; cbn [set_insert]; [constructor; constructor|].
  apply StronglySorted_inv in H. destruct H as [H F].
  destruct (Z.ltb_spec (fval x) (fval z)) as [L|L].
  - constructor; [constructor; assumption|]. constructor; [exact L|].
    rewrite Forall_forall in *. intros w Hw. specialize (F w Hw). lia.
  - destruct (feqb x z) eqn:E; [constructor; assumption|]. apply feqb_neq in E.
    constructor; [auto|]. rewrite Forall_forall in *. intros w Hw. apply set_insert_in in Hw. destruct Hw as [->|Hw]; [|auto].
    assert (fval x <> fval z) by (intros Q; apply E, fe_eq, Q). lia.
Qed.
Lemma sorted_nodup s : sorted s -> NoDup s.
Proof.
  induction 1 as [|a s H IH F]; constructor; [|exact IH]. intros I. rewrite Forall_forall in F. specialize (F a I). lia.
Qed.
Lemma set_eqb_eq a : forall b, set_eqb a b = true <-> a = b.
Proof.
  induction a as [|x a IH]; intros [|y b]; cbn [set_eqb]; try (split; [discriminate|discriminate]); [split; reflexivity|].
  rewrite andb_true_iff, feqb_eq, IH. split; [intros [-> ->]; reflexivity|]. intros E. injection E as -> ->. auto.
Qed.
Lemma set_mem_in x s : set_mem x s = true <-> In x s.
Proof.
  unfold set_mem. rewrite existsb_exists. split; [intros (y & I & E); apply feqb_eq in E; subst; exact I|].
  intros I. exists x. split; [exact I|apply feqb_eq; reflexivity].
Qed.

Section Sets.
Context {T : Type}.
Variable same : T -> T -> bool.
Hypothesis same_eq : forall a b, same a b = true <-> a = b.

Lemma super_points_ok qs : sorted (super_points qs) /\ forall x, In x (super_points qs) <-> In x (map (fun q : query T => snd (fst q)) qs).
Proof.
  unfold super_points.
  assert (Q : forall s, sorted s -> sorted (fold_left (fun s q => set_insert (snd (fst q)) s) qs s) /\
    forall x, In x (fold_left (fun s (q : query T) => set_insert (snd (fst q)) s) qs s) <-> In x s \/ In x (map (fun q : query T => snd (fst q)) qs)).
  { induction qs as [|q qs IH]; intros s Hs; cbn [fold_left map]; [split; [exact Hs|cbn; intuition]|].
    destruct (IH _ (set_insert_sorted (snd (fst q)) s Hs)) as [A B]. split; [exact A|]. intros x. rewrite B, set_insert_in. cbn. intuition. }
  destruct (Q [] (SSorted_nil _)) as [A B]. split; [exact A|]. intros x. rewrite B. cbn. intuition.
Qed.
Lemma super_points_length qs : length (super_points qs) <= length (qs : list (query T)).
Proof.
  rewrite <- (map_length (fun q : query T => snd (fst q)) qs). destruct (super_points_ok qs) as [A B].
  apply NoDup_incl_length; [apply sorted_nodup, A|]. intros x Hx. apply B, Hx.
Qed.

(** what the first loop has built from the queries [qs] *)
Definition sets_for (qs : list (query T)) (m : list (T * list Fr)) : Prop :=
  (forall c s, In (c, s) m -> sorted s /\ s <> [] /\ forall p, In p s -> In (c, p) (map fst qs)) /\
  (forall c p, In (c, p) (map fst qs) -> exists s, In (c, s) m /\ In p s) /\ length m <= length qs.
Lemma add_point_ok qs m c p e : sets_for qs m -> sets_for (qs ++ [(c, p, e)]) (add_point same c p m).
Proof.
  intros (A & B & L).
  assert (X : forall m, (forall c' s, In (c', s) (add_point same c p m) -> In (c', s) m \/
       (c' = c /\ s = [p]) \/ (c' = c /\ exists s0, In (c, s0) m /\ s = set_insert p s0)) /\
     (forall c' s, In (c', s) m -> exists s', In (c', s') (add_point same c p m) /\ (forall x, In x s -> In x s')) /\
     (exists s, In (c, s) (add_point same c p m) /\ In p s) /\ length (add_point same c p m) <= S (length m)).
  { clear - same_eq. induction m as [|[c1 s1] m (I1 & I2 & I3 & I4)]; cbn [add_point].
    - split; [intros c' s [E|[]]; injection E as <- <-; auto|]. split; [intros c' s []|].
      split; [exists [p]; cbn; auto|cbn; lia].
    - destruct (same c1 c) eqn:E.
      + apply same_eq in E. subst c1. split.
        { intros c' s [E|I]; [injection E as <- <-; right; right; split; [reflexivity|]; exists s1; cbn; auto|left; right; exact I]. }
        split; [|split].
        * intros c' s [E|I]; [injection E as <- <-; exists (set_insert p s1); split; [left; reflexivity|]; intros x Hx; apply set_insert_in; auto|].
          exists s. split; [right; exact I|auto].
        * exists (set_insert p s1). split; [left; reflexivity|apply set_insert_in; auto].
        * cbn. lia.
      + split.
        { intros c' s [E'|I]; [injection E' as <- <-; left; left; reflexivity|]. destruct (I1 _ _ I) as [J|[J|(J & s0 & K & ->)]].
          - left. right. exact J.
          - right. left. exact J.
          - right. right. split; [exact J|]. exists s0. split; [right; exact K|reflexivity]. }
        split; [|split].
        * intros c' s [E'|I]; [injection E' as <- <-; exists s1; split; [left; reflexivity|auto]|].
          destruct (I2 _ _ I) as (s' & J & K). exists s'. split; [right; exact J|exact K].
        * destruct I3 as (s & J & K). exists s. split; [right; exact J|exact K].
        * cbn. lia. }
  destruct (X m) as (X1 & X2 & X3 & X4). unfold sets_for. rewrite map_app. cbn [map fst]. repeat apply conj.
  - intros c' s I. destruct (X1 _ _ I) as [J|[(-> & ->)|(-> & s0 & J & ->)]].
    + destruct (A _ _ J) as (S1 & S2 & S3). split; [exact S1|]. split; [exact S2|]. intros q Hq. apply in_or_app. left. apply S3, Hq.
    + split; [constructor; constructor|]. split; [discriminate|]. intros q [<-|[]]. apply in_or_app. right. left. reflexivity.
    + destruct (A _ _ J) as (S1 & S2 & S3). split; [apply set_insert_sorted, S1|]. split.
      * destruct s0; cbn [set_insert]; [discriminate|]. repeat (destruct (_ <? _)%Z || destruct (feqb _ _)); discriminate.
      * intros q Hq. apply in_or_app. apply set_insert_in in Hq. destruct Hq as [->|Hq]; [right; left; reflexivity|left; apply S3, Hq].
  - intros c' q I. apply in_app_or in I. destruct I as [I|[I|[]]].
    + destruct (B _ _ I) as (s & J & K). destruct (X2 _ _ J) as (s' & J' & K'). exists s'. auto.
    + injection I as <- <-. exact X3.
  - rewrite app_length. cbn [length]. lia.
Qed.
Lemma commitment_sets_ok qs : sets_for qs (commitment_sets same qs).
Proof.
  unfold commitment_sets.
  assert (Q : forall done m, sets_for done m ->
    sets_for (done ++ qs) (fold_left (fun m q => add_point same (fst (fst q)) (snd (fst q)) m) qs m)).
  { induction qs as [|[[c p] e] qs IH]; intros done m H; cbn [fold_left]; [rewrite app_nil_r; exact H|].
    cbn [fst snd]. pose proof (IH (done ++ [(c, p, e)]) _ (add_point_ok _ _ c p e H)) as Q. rewrite <- app_assoc in Q. exact Q. }
  apply (Q [] []). repeat apply conj; [intros c s []|intros c p []|cbn; lia].
Qed.

Definition groups_for (m : list (T * list Fr)) (g : list (list Fr * list T)) : Prop :=
  (forall s cs, In (s, cs) g -> cs <> [] /\ forall c, In c cs -> In (c, s) m) /\
  (forall c s, In (c, s) m -> exists cs, In (s, cs) g /\ In c cs) /\
  length (concat (map snd g)) = length m.
Lemma add_commitment_ok m g c s : groups_for m g -> groups_for (m ++ [(c, s)]) (add_commitment c s g).
Proof.
  intros (A & B & L).
  assert (X : forall g, (forall s' cs, In (s', cs) (add_commitment c s g) -> In (s', cs) g \/
       (s' = s /\ cs = [c]) \/ (s' = s /\ exists cs0, In (s, cs0) g /\ cs = cs0 ++ [c])) /\
     (forall s' cs, In (s', cs) g -> exists cs', In (s', cs') (add_commitment c s g) /\ (forall x, In x cs -> In x cs')) /\
     (exists cs, In (s, cs) (add_commitment c s g) /\ In c cs) /\
     length (concat (map snd (add_commitment c s g))) = S (length (concat (map snd g)))).
  { clear - same_eq. induction g as [|[s1 cs1] g (I1 & I2 & I3 & I4)]; cbn [add_commitment].
    - split; [intros c' s' [E|[]]; injection E as <- <-; auto|]. split; [intros c' s' []|].
      split; [exists [c]; cbn; auto|cbn; lia].
    - destruct (set_eqb s1 s) eqn:E.
      + apply set_eqb_eq in E. subst s1. split.
        { intros c' s' [E|I]; [injection E as <- <-; right; right; split; [reflexivity|]; exists cs1; cbn; auto|left; right; exact I]. }
        split; [|split].
        * intros c' s' [E|I]; [injection E as <- <-; exists (cs1 ++ [c]); split; [left; reflexivity|]; intros x Hx; apply in_or_app; auto|].
          exists s'. split; [right; exact I|auto].
        * exists (cs1 ++ [c]). split; [left; reflexivity|apply in_or_app; right; left; reflexivity].
        * cbn [map snd concat]. rewrite !app_length. cbn. lia.
      + split.
        { intros c' s' [E'|I]; [injection E' as <- <-; left; left; reflexivity|]. destruct (I1 _ _ I) as [J|[J|(J & s0 & K & ->)]].
          - left. right. exact J.
          - right. left. exact J.
          - right. right. split; [exact J|]. exists s0. split; [right; exact K|reflexivity]. }
        split; [|split].
        * intros c' s' [E'|I]; [injection E' as <- <-; exists cs1; split; [left; reflexivity|auto]|].
          destruct (I2 _ _ I) as (x & J & K). exists x. split; [right; exact J|exact K].
        * destruct I3 as (x & J & K). exists x. split; [right; exact J|exact K].
        * cbn [map snd concat]. rewrite !app_length, I4. lia. }
  destruct (X g) as (X1 & X2 & X3 & X4). repeat apply conj.
  - intros s' cs I. destruct (X1 _ _ I) as [J|[(-> & ->)|(-> & s0 & J & ->)]].
    + destruct (A _ _ J) as (S2 & S3). split; [exact S2|]. intros q Hq. apply in_or_app. left. apply S3, Hq.
    + split; [discriminate|]. intros q [<-|[]]. apply in_or_app. right. left. reflexivity.
    + destruct (A _ _ J) as (S2 & S3). split; [intros F; apply app_eq_nil in F; destruct F; discriminate|].
      intros q Hq. apply in_or_app. apply in_app_or in Hq. destruct Hq as [Hq|[<-|[]]]; [left; apply S3, Hq|right; left; reflexivity].
  - intros c' q I. apply in_app_or in I. destruct I as [I|[I|[]]].
    + destruct (B _ _ I) as (x & J & K). destruct (X2 _ _ J) as (x' & J' & K'). exists x'. auto.
    + injection I as <- <-. exact X3.
  - rewrite X4, app_length, L. cbn [length]. lia.
Qed.
Lemma rotation_sets_ok m : groups_for m (rotation_sets_of m).
Proof.
  unfold rotation_sets_of.
  assert (Q : forall done g, groups_for done g ->
    groups_for (done ++ m) (fold_left (fun g cs => add_commitment (fst cs) (snd cs) g) m g)).
  { induction m as [|[c s] m IH]; intros done g H; cbn [fold_left]; [rewrite app_nil_r; exact H|].
    cbn [fst snd]. pose proof (IH (done ++ [(c, s)]) _ (add_commitment_ok _ _ c s H)) as Q. rewrite <- app_assoc in Q. exact Q. }
  apply (Q [] []). repeat apply conj; [intros s cs []|intros c s []|reflexivity].
Qed.

(** The result for the queries [qs]. *)
Record good_sets (qs : list (query T)) (sets : list (rotation_set T)) (super : list Fr) : Prop := {
  gs_nodup : NoDup super;
  gs_super : forall x, In x super <-> In x (map (fun q : query T => snd (fst q)) qs);
  gs_super_length : length super <= length qs;
  gs_length : length sets <= length qs;
  gs_set : forall s, In s sets -> NoDup (rs_points s) /\ (forall p, In p (rs_points s) -> In p super) /\
    rs_commitments s <> [] /\ rs_points s <> [] /\ length (rs_commitments s) <= length qs /\
    forall c es, In (c, es) (rs_commitments s) -> length es = length (rs_points s) /\
      forall i, i < length (rs_points s) -> In (c, nth i (rs_points s) f0, nth i es f0) qs;
  gs_all : forall c p e, In (c, p, e) qs -> exists s es, In s sets /\ In (c, es) (rs_commitments s) /\ In p (rs_points s)
}.
Lemma rmap_ok {A B} (f : A -> res B) (l : list A) : (forall a, In a l -> exists b, f a = Ok b) ->
  exists bs, rmap f l = Ok bs /\ length bs = length l /\ Forall2 (fun a b => f a = Ok b) l bs.
Proof.
  induction l as [|a l IH]; intros H; [exists []; cbn; auto|].
  destruct (H a (or_introl eq_refl)) as (b & E). destruct IH as (bs & E2 & L & F); [intros; apply H; right; assumption|].
  exists (b :: bs). cbn [rmap]. rewrite E. cbn [bind]. rewrite E2. cbn [bind length]. auto.
Qed.
Lemma Forall2_in_l {A B} (R : A -> B -> Prop) l m a : Forall2 R l m -> In a l -> exists b, In b m /\ R a b.
Proof. induction 1 as [|x y l m H F IH]; intros []; [subst; exists y; cbn; auto|]. destruct IH as (b & I & J); [assumption|]. exists b. cbn. auto. Qed.
Lemma Forall2_in_r {A B} (R : A -> B -> Prop) l m b : Forall2 R l m -> In b m -> exists a, In a l /\ R a b.
Proof. induction 1 as [|x y l m H F IH]; intros []; [subst; exists x; cbn; auto|]. destruct IH as (a & I & J); [assumption|]. exists a. cbn. auto. Qed.
Lemma Forall2_nth {A B} (R : A -> B -> Prop) l m i da db : Forall2 R l m -> i < length l -> R (nth i l da) (nth i m db).
Proof.
  intros H. revert i. induction H as [|x y l m H F IH]; intros i Hi; [cbn in Hi; lia|]. destruct i; [exact H|]. apply IH. cbn in Hi. lia.
Qed.

Lemma get_eval_ok qs c p : In (c, p) (map fst qs) -> exists e, get_eval same qs c p = Ok e /\ In (c, p, e) qs.
Proof.
  intros I. unfold get_eval. match goal with |- context [find ?f qs] => destruct (find f qs) as [[[c' p'] e]|] eqn:E end.
  - apply find_some in E. destruct E as [J K]. cbn [fst snd] in K. apply andb_prop in K. destruct K as [K1 K2].
    apply same_eq in K1. apply feqb_eq in K2. subst. exists e. auto.
  - exfalso. apply in_map_iff in I. destruct I as ([[c' p'] e] & K & J). cbn [fst] in K. injection K as -> ->.
    pose proof (find_none _ _ E _ J) as N. cbn [fst snd] in N. rewrite (proj2 (same_eq c c) eq_refl), (proj2 (feqb_eq p p) eq_refl) in N. discriminate.
Qed.
Lemma concat_bound {A} (g : list (list A)) : (forall l, In l g -> l <> []) ->
  length g <= length (concat g) /\ forall l, In l g -> length l <= length (concat g).
Proof.
  induction g as [|x g IH]; intros H; [cbn; split; [lia|intros l []]|].
  destruct IH as [A1 A2]; [intros; apply H; right; assumption|]. cbn [concat length]. rewrite app_length.
  assert (x <> []) by (apply H; left; reflexivity). split; [destruct x; [congruence|cbn [length]; lia]|].
  intros l [<-|I]; [lia|]. specialize (A2 l I). lia.
Qed.
Theorem intermediate_ok qs : exists sets super, intermediate_sets same qs = Ok (sets, super) /\ good_sets qs sets super.
Proof.
  unfold intermediate_sets. pose proof (commitment_sets_ok qs) as (C1 & C2 & C3).
  set (m := commitment_sets same qs) in *. pose proof (rotation_sets_ok m) as (G1 & G2 & G3). set (g := rotation_sets_of m) in *.
  destruct (concat_bound (map snd g)) as [B1 B2].
  { intros l I. apply in_map_iff in I. destruct I as ([s cs] & <- & I). apply G1 in I. apply I. }
  rewrite G3, map_length in B1. rewrite G3 in B2.
  assert (E1 : forall s cs c, In (s, cs) g -> In c cs -> exists es, rmap (get_eval same qs c) s = Ok es /\ length es = length s /\
     Forall2 (fun p e => get_eval same qs c p = Ok e) s es).
  { intros s cs c I J. apply rmap_ok. intros p Hp. apply G1 in I. destruct I as [_ I]. specialize (I c J).
    apply C1 in I. destruct I as (_ & _ & I). specialize (I p Hp). destruct (get_eval_ok qs c p I) as (e & E & _). eauto. }
  assert (E2 : forall s cs, In (s, cs) g -> exists ces, rmap (fun c => let! es := rmap (get_eval same qs c) s in Ok (c, es)) cs = Ok ces /\
     length ces = length cs /\ Forall2 (fun c ce => (let! es := rmap (get_eval same qs c) s in Ok (c, es)) = Ok ce) cs ces).
  { intros s cs I. apply rmap_ok. intros c J. destruct (E1 s cs c I J) as (es & E & _). rewrite E. cbn [bind]. eauto. }
  destruct (rmap_ok (fun sc : list Fr * list T =>
      let! cs := rmap (fun c => let! es := rmap (get_eval same qs c) (fst sc) in Ok (c, es)) (snd sc) in Ok (RSet cs (fst sc))) g) as (sets & E & Ls & F).
  { intros [s cs] I. cbn [fst snd]. destruct (E2 s cs I) as (ces & -> & _). cbn [bind]. eauto. }
  exists sets, (super_points qs). rewrite E. cbn [bind]. split; [reflexivity|].
  assert (K : forall s cs r, In (s, cs) g -> In r sets ->
      (let! cs := rmap (fun c => let! es := rmap (get_eval same qs c) s in Ok (c, es)) cs in Ok (RSet cs s)) = Ok r ->
      rs_points r = s /\ length (rs_commitments r) = length cs /\
      (forall c, In c cs -> exists es, In (c, es) (rs_commitments r)) /\
      forall c es, In (c, es) (rs_commitments r) -> In c cs /\ rmap (get_eval same qs c) s = Ok es).
  { intros s cs r I _ Er. destruct (E2 s cs I) as (ces & E3 & L3 & F3). rewrite E3 in Er. cbn [bind] in Er. injection Er as <-.
    cbn [rs_points rs_commitments]. split; [reflexivity|]. split; [exact L3|]. split.
    - intros c J. destruct (Forall2_in_l _ _ _ _ F3 J) as ([c' es] & J' & Q). destruct (E1 s cs c I J) as (es' & E4 & _). rewrite E4 in Q.
      cbn [bind] in Q. injection Q as <- <-. eauto.
    - intros c es J. destruct (Forall2_in_r _ _ _ _ F3 J) as (c' & J' & Q). destruct (E1 s cs c' I J') as (es' & E4 & _). rewrite E4 in Q.
      cbn [bind] in Q. injection Q as <- <-. auto. }
  destruct (super_points_ok qs) as [S1 S2].
  constructor.
  - apply sorted_nodup, S1.
  - exact S2.
  - apply super_points_length.
  - rewrite Ls. lia.
  - intros r I. destruct (Forall2_in_r _ _ _ _ F I) as ([s cs] & J & Q). cbn [fst snd] in Q.
    destruct (K s cs r J I Q) as (<- & L2 & K1 & K2). destruct (G1 _ _ J) as [N N2].
    destruct cs as [|c0 cs]; [congruence|]. pose proof (N2 c0 (or_introl eq_refl)) as N3. apply C1 in N3. destruct N3 as (P1 & P2 & P3).
    repeat apply conj.
    + apply sorted_nodup, P1.
    + intros p Hp. apply S2. specialize (P3 p Hp). apply in_map_iff in P3. destruct P3 as (q & E3 & I3). apply in_map_iff. exists q.
      split; [rewrite E3; reflexivity|exact I3].
    + intros N4. rewrite N4 in L2. discriminate.
    + exact P2.
    + rewrite L2. assert (length (c0 :: cs) <= length m) by (apply B2, in_map_iff; exists (rs_points r, c0 :: cs); auto). lia.
    + intros c es Hc. apply K2 in Hc. destruct Hc as [Hc He].
      destruct (E1 _ _ c J Hc) as (es' & E4 & L4 & F4). assert (es' = es) by congruence. subst es'. split; [exact L4|].
      intros i Hi. pose proof (Forall2_nth _ _ _ i f0 f0 F4 Hi) as Q2. cbv beta in Q2.
      apply N2, C1 in Hc. destruct Hc as (_ & _ & Hc). destruct (get_eval_ok qs c (nth i (rs_points r) f0)) as (e & E5 & I5); [apply Hc, nth_In, Hi|].
      pose proof (eq_trans (eq_sym E5) Q2) as Q3. injection Q3 as ->. exact I5.
  - intros c p e I. destruct (C2 c p) as (s & J & Jp); [apply in_map_iff; exists (c, p, e); auto|].
    destruct (G2 c s J) as (cs & J2 & Jc). destruct (Forall2_in_l _ _ _ _ F J2) as (r & Ir & Q). cbn [fst snd] in Q.
    destruct (K s cs r J2 Ir Q) as (<- & _ & K1 & _). destruct (K1 c Jc) as (es & I5). exists r, es. auto.
Qed.
End Sets.
