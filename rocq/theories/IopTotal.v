(** The verifier's equation as an equation between polynomials. *)
From Coq Require Import ZArith List Arith Lia Bool.
From Verif Require Import Base ListFacts Moduli Field FieldFacts LimbSpec LimbField LimbConst PolyFacts Halo2Model SelectorModel
  PermModel PermFacts SelectorSpec SelectorClaims DomainModel DomainSpec DomainFacts VkModel IopModel IopPoly IopRows IopSpec IopLagrange.
Import ListNotations.
Local Open Scope F_scope.

(** ** Lists *)
Lemma chunks_go_map {A B} (f : A -> B) len : forall fuel l, chunks_go fuel len (map f l) = map (map f) (chunks_go fuel len l).
Proof.
  induction fuel as [|fuel IH]; intros l; [reflexivity|]. destruct l as [|a l]; [reflexivity|].
  cbn [chunks_go map]. rewrite <- (IH (skipn len (a :: l))). f_equal.
  - rewrite <- (map_cons f a l), firstn_map. reflexivity.
  - rewrite <- (map_cons f a l), skipn_map. reflexivity.
Qed.
Lemma chunks_map {A B} (f : A -> B) len l : chunks len (map f l) = map (map f) (chunks len l).
Proof. unfold chunks. rewrite map_length. apply chunks_go_map. Qed.
Lemma skipn_seq a : forall b c, skipn a (seq b c) = seq (b + a) (c - a).
Proof.
  induction a as [|a IH]; intros b c; [cbn [skipn]; f_equal; lia|]. destruct c; [reflexivity|].
  cbn [seq skipn]. rewrite IH. f_equal; lia.
Qed.
Lemma firstn_seq a : forall b c, firstn a (seq b c) = seq b (Nat.min a c).
Proof.
  induction a as [|a IH]; intros b c; [reflexivity|]. destruct c; [reflexivity|].
  cbn [seq firstn Nat.min]. rewrite IH. reflexivity.
Qed.
Lemma chunks_concat len : (0 < len)%nat -> forall fuel (a b : nat), (b <= fuel)%nat -> concat (chunks_go fuel len (seq a b)) = seq a b.
Proof.
  intros Hl. induction fuel as [|fuel IH]; intros a b Hb; [destruct b; [reflexivity|lia]|].
  destruct b as [|b]; [reflexivity|]. remember (seq a (S b)) as l eqn:El.
  assert (X : chunks_go (S fuel) len l = firstn len l :: chunks_go fuel len (skipn len l)) by (subst l; reflexivity).
  rewrite X. cbn [concat]. rewrite El at 2. rewrite skipn_seq, IH by lia. rewrite <- skipn_seq, <- El. apply firstn_skipn.
Qed.
Lemma chunks_seq len : (0 < len)%nat -> forall fuel i b p J, nth_error (chunks_go fuel len (seq (i * len) b)) p = Some J ->
  J = seq ((i + p) * len) (length J) /\ (length J <= len)%nat.
Proof.
  intros Hl. induction fuel as [|fuel IH]; intros i b p J E; [destruct p; discriminate|].
  destruct b as [|b]; [destruct p; discriminate|]. remember (seq (i * len) (S b)) as l eqn:El.
  assert (X : chunks_go (S fuel) len l = firstn len l :: chunks_go fuel len (skipn len l)) by (subst l; reflexivity).
  rewrite X in E. destruct p as [|p]; cbn [nth_error] in E.
  - injection E as <-. rewrite El, firstn_seq, seq_length. split; [f_equal; lia|lia].
  - rewrite El, skipn_seq in E. replace (i * len + len)%nat with (S i * len)%nat in E by lia.
    destruct (IH (S i) _ p J E) as [E1 E2]. split; [|exact E2]. rewrite E1 at 1. f_equal. lia.
Qed.
Lemma map_nth_seq {A} (l : list A) d : map (fun i => nth i l d) (seq 0 (length l)) = l.
Proof.
  induction l as [|a l IH]; [reflexivity|]. cbn [length seq map nth]. f_equal. rewrite <- seq_shift, map_map. exact IH.
Qed.
Lemma enum_nth {A} (l : list A) i a : In (i, a) (enum l) <-> nth_error l i = Some a.
Proof.
  unfold enum. enough (G : forall b, In (i, a) (combine (seq b (length l)) l) <-> (b <= i)%nat /\ nth_error l (i - b) = Some a).
  { rewrite G, Nat.sub_0_r. intuition lia. }
  induction l as [|x l IH]; intros b; cbn [length seq combine In].
  - split; [contradiction|]. intros [_ E]. destruct (i - b)%nat; discriminate.
  - rewrite IH. split.
    + intros [[= <- <-]|[L E]]; [split; [lia|]; rewrite Nat.sub_diag; reflexivity|].
      split; [lia|]. replace (i - b)%nat with (S (i - S b)) by lia. exact E.
    + intros [L E]. destruct (Nat.eq_dec b i) as [->|N].
      * left. rewrite Nat.sub_diag in E. injection E as ->. reflexivity.
      * right. split; [lia|]. replace (i - b)%nat with (S (i - S b)) in E by lia. exact E.
Qed.
Lemma enum_length {A} (l : list A) : length (enum l) = length l.
Proof. unfold enum. rewrite combine_length, seq_length. lia. Qed.
Lemma enum_map {A B} (f : A -> B) l : enum (map f l) = map (fun ia => (fst ia, f (snd ia))) (enum l).
Proof.
  unfold enum. rewrite map_length. generalize (seq 0 (length l)). induction l as [|a l IH]; intros [|i s]; try reflexivity.
  cbn [map combine fst snd]. rewrite IH. reflexivity.
Qed.
Lemma enum_seq s : enum (seq 0 s) = map (fun i => (i, i)) (seq 0 s).
Proof.
  unfold enum. rewrite seq_length. generalize (seq 0 s). induction l as [|a l IH]; [reflexivity|].
  cbn [combine map]. rewrite IH. reflexivity.
Qed.
Lemma combine_tl s : combine (tl (seq 0 s)) (seq 0 s) = map (fun i => (S i, i)) (seq 0 (s - 1)).
Proof.
  destruct s as [|s]; [reflexivity|]. cbn [seq tl]. rewrite Nat.sub_succ, Nat.sub_0_r.
  generalize 0%nat as a. induction s as [|s IH]; intros a; [reflexivity|]. cbn [seq map combine]. f_equal. apply IH.
Qed.
Lemma position_in {A} (f : A -> bool) l a : In a l -> f a = true -> exists i, position f l = Some i.
Proof.
  intros I F. induction l as [|b l IH]; [contradiction|]. cbn [position]. destruct (f b) eqn:Eb; [eexists; reflexivity|].
  destruct I as [->|I]; [congruence|]. destruct (IH I) as (i & ->). eexists. reflexivity.
Qed.
Lemma acol_eqb_iff a b : acol_eqb a b = true <-> a = b.
Proof.
  destruct a, b. unfold acol_eqb. cbn. rewrite andb_true_iff, !Nat.eqb_eq. split; [intros [-> ->]; reflexivity|intros [= -> ->]; auto].
Qed.
Lemma nth_ext_eq {A} (l k : list A) : length l = length k -> (forall i a, nth_error k i = Some a -> nth_error l i = Some a) -> l = k.
Proof.
  revert k. induction l as [|a l IH]; intros [|b k] L H; try discriminate; [reflexivity|].
  f_equal; [specialize (H 0%nat b eq_refl); cbn in H; congruence|]. apply IH; [cbn in L; lia|].
  intros i x E. apply (H (S i) x E).
Qed.

Section Total.
Variables (v : vkey) (j k : Z) (n : nat).
Hypothesis Hk : (0 <= k)%Z.
Hypothesis Hn : Z.of_nat n = (2 ^ k)%Z.
Hypothesis Hd : domain_for j k (vk_domain v).
Local Notation d := (vk_domain v).
Local Notation c := (vk_cs v).
Local Notation w := (d_omega d).
Local Notation point := (pt w).
Local Notation lg := (lag n (d_omega_inv d) (d_barycentric_weight d)).
Local Notation u := (usable_rows n c).
Local Notation bf := (blinding_factors c).
Local Notation clen := (chunk_len v).
Local Notation m := (length (perm_columns c)).
Local Notation rot := (rotate_omega d).
Hypothesis Hrows : (minimum_rows c <= n)%nat.
Hypothesis Hwf : well_formed c.
Hypothesis Hdeg : vk_degree v = cs_degree c.
Hypothesis Hperm : length (vk_permutation v) = m.
Variables (insts : list (list Fr)) (chs : list Fr) (P : committed) (theta beta gamma : Fr).
Hypothesis Hinst : length insts = num_instance c.
Hypothesis Hchs : length chs = num_challenges c.

Local Notation ip := (ipoly d n).
Local Notation act := (activef d n v).
Definition LAST : Z := (- (Z.of_nat bf + 1))%Z.
Definition zf (i : nat) : Fr -> Fr := peval (cm_product P i).
Definition sf (i : nat) : Fr -> Fr := peval (cm_sigma P i).
Definition colf (col : column) : Fr -> Fr :=
  match col with
  | CAdvice a => peval (cm_advice P (ac_index a))
  | CFixed i => peval (cm_fixed P i)
  | CInstance i => ip (nth i insts [])
  end.
Definition vf (i : nat) : Fr -> Fr := colf (nth i (perm_columns c) (CFixed 0)).
Definition evalx (e : expr) (x : Fr) : Fr :=
  evaluate (fun a => a) (fun _ => f0) (fun q => peval (cm_fixed P (q_col q)) (rot x (q_rot q)))
    (fun q _ => peval (cm_advice P (q_col q)) (rot x (q_rot q)))
    (fun q => ip (nth (q_col q) insts []) (rot x (q_rot q)))
    (fun a => nth (ch_index a) chs f0) fopp fadd fmul fmul e.
Definition JJ : list (list nat) := chunks clen (seq 0 m).
Local Notation s := (length JJ).

(** the evaluations of the committed polynomials *)
Definition setx (x : Fr) (i : nat) : pset :=
  PSet (zf i x) (zf i (rot x next)) (if (S i <? s)%nat then Some (zf i (rot x LAST)) else None).
Definition lkx (x : Fr) (i : nat) : leval :=
  LEval (peval (cm_lproduct P i) x) (peval (cm_lproduct P i) (rot x next))
    (peval (cm_linput P i) x) (peval (cm_linput P i) (rot x prev)) (peval (cm_ltable P i) x).
Definition advx (x : Fr) : list Fr := map (fun q : advice_col * Z => peval (cm_advice P (ac_index (fst q))) (rot x (snd q))) (advice_queries c).
Definition fixx (x : Fr) : list Fr := map (fun q : nat * Z => peval (cm_fixed P (fst q)) (rot x (snd q))) (fixed_queries c).
Definition instx (x : Fr) : list Fr := map (fun q : nat * Z => ip (nth (fst q) insts []) (rot x (snd q))) (instance_queries c).
Definition evalsx (x : Fr) : evals :=
  Evals (advx x) (fixx x) (peval (cm_random P) x) (map (fun i => sf i x) (seq 0 m)) (map (setx x) (seq 0 s))
    (map (lkx x) (seq 0 (length (lookups c)))).

(** the constraints *)
Definition gate_fs : list (Fr -> Fr) := map evalx (concat (gates c)).
Definition numf (J : list nat) (x : Fr) : Fr := fprod (map (fun i => vf i x + beta * x * fpow DELTA (Z.of_nat i) + gamma) J).
Definition denf (J : list nat) (x : Fr) : Fr := fprod (map (fun i => vf i x + beta * sf i x + gamma) J).
Definition first_fs : list (Fr -> Fr) := match s with O => [] | S _ => [fun x => lg 0 x * (f1 - zf 0 x)] end.
Definition last_fs : list (Fr -> Fr) := match s with O => [] | S q => [fun x => (zf q x * zf q x - zf q x) * lg u x] end.
Definition link_fs : list (Fr -> Fr) := map (fun i x => (zf (S i) x - zf i (rot x LAST)) * lg 0 x) (seq 0 (s - 1)).
Definition prod_fs : list (Fr -> Fr) :=
  map (fun iJ x => (zf (fst iJ) (rot x next) * denf (snd iJ) x - zf (fst iJ) x * numf (snd iJ) x) * act x) (enum JJ).
Definition cmp (es : list expr) (x : Fr) : Fr := compress theta (map (fun e => evalx e x) es).
Definition lk_fs (il : nat * (list expr * list expr)) : list (Fr -> Fr) :=
  let (i, l) := il in
  let p := peval (cm_lproduct P i) in let a := peval (cm_linput P i) in let t := peval (cm_ltable P i) in
  [fun x => lg 0 x * (f1 - p x);
   fun x => lg u x * (p x * p x - p x);
   fun x => (p (rot x next) * (a x + beta) * (t x + gamma) - p x * (cmp (fst l) x + beta) * (cmp (snd l) x + gamma)) * act x;
   fun x => lg 0 x * (a x - t x);
   fun x => (a x - t x) * (a x - a (rot x prev)) * act x].
Definition all_fs : list (Fr -> Fr) :=
  gate_fs ++ (first_fs ++ last_fs ++ link_fs ++ prod_fs) ++ flat_map lk_fs (enum (lookups c)).

(** ** The verifier computes them *)
Lemma eval_at_is x e : registered c e -> eval_at (fixx x) (advx x) (instx x) chs e = Ok (evalx e x).
Proof using Hchs.
  clear Hk Hn Hd Hrows Hwf Hdeg Hperm Hinst.
 
  induction e; cbn [registered]; intros H; unfold eval_at, evalx; cbn [evaluate];
    try (fold (eval_at (fixx x) (advx x) (instx x) chs e)); try (fold (evalx e x)).
  - reflexivity.
  - contradiction.
  - unfold at_, fixx. erewrite map_nth_error by exact H. reflexivity.
  - unfold at_, advx. erewrite map_nth_error by exact H. reflexivity.
  - unfold at_, instx. erewrite map_nth_error by exact H. reflexivity.
  - unfold at_. erewrite nth_error_nth' by (rewrite Hchs; exact H). reflexivity.
  - rewrite (IHe H). reflexivity.
  - fold (eval_at (fixx x) (advx x) (instx x) chs e1) (eval_at (fixx x) (advx x) (instx x) chs e2).
    rewrite (IHe1 (proj1 H)), (IHe2 (proj2 H)). reflexivity.
  - fold (eval_at (fixx x) (advx x) (instx x) chs e1) (eval_at (fixx x) (advx x) (instx x) chs e2).
    rewrite (IHe1 (proj1 H)), (IHe2 (proj2 H)). reflexivity.
  - rewrite (IHe H). reflexivity.
Qed.
Lemma position_value {A B} (f : A -> bool) (g : A -> B) l a : In a l -> f a = true -> (forall b, f b = true -> b = a) ->
  exists i, position f l = Some i /\ at_ (map g l) i = Ok (g a).
Proof.
  intros I F U. destruct (position_in f l a I F) as (i & E). exists i. split; [exact E|].
  destruct (position_found f l i E) as (b & Eb & Fb). apply U in Fb. subst b. unfold at_.
  erewrite map_nth_error by exact Eb. reflexivity.
Qed.
Lemma rot_cur x : rot x cur = x.
Proof using.
  clear Hk Hn Hd Hrows Hwf Hdeg Hperm Hinst Hchs.
  unfold rotate_omega, cur. cbn [Z.leb Z.compare]. rewrite pow_vartime_is by lia. change (fpow w 0) with (@f1 r_pos). fring. Qed.
Lemma column_eval_is x col : In col (perm_columns c) ->
  column_eval c (fixx x) (advx x) (instx x) col = Ok (colf col x).
Proof using Hwf.
  clear Hk Hn Hd Hrows Hdeg Hperm Hinst Hchs.
 
  intros I. pose proof (wf_perm _ Hwf _ I) as Q. destruct col as [a|i|i]; cbn [queried column_eval colf] in *.
  - destruct (position_value (fun q : advice_col * Z => acol_eqb (fst q) a && Z.eqb (snd q) cur)
      (fun q : advice_col * Z => peval (cm_advice P (ac_index (fst q))) (rot x (snd q))) _ _ Q) as (p & E1 & E2).
    + cbn [fst snd]. rewrite (proj2 (acol_eqb_iff a a) eq_refl). reflexivity.
    + intros [b t] F. cbn [fst snd] in F. apply andb_true_iff in F as [F1 F2]. apply acol_eqb_iff in F1. apply Z.eqb_eq in F2. congruence.
    + rewrite E1. unfold advx. rewrite E2. cbn [fst snd]. rewrite rot_cur. reflexivity.
  - destruct (position_value (fun q : nat * Z => Nat.eqb (fst q) i && Z.eqb (snd q) cur)
      (fun q : nat * Z => peval (cm_fixed P (fst q)) (rot x (snd q))) _ _ Q) as (p & E1 & E2).
    + cbn [fst snd]. rewrite Nat.eqb_refl. reflexivity.
    + intros [b t] F. cbn [fst snd] in F. apply andb_true_iff in F as [F1 F2]. apply Nat.eqb_eq in F1. apply Z.eqb_eq in F2. congruence.
    + rewrite E1. unfold fixx. rewrite E2. cbn [fst snd]. rewrite rot_cur. reflexivity.
  - destruct (position_value (fun q : nat * Z => Nat.eqb (fst q) i && Z.eqb (snd q) cur)
      (fun q : nat * Z => ip (nth (fst q) insts []) (rot x (snd q))) _ _ Q) as (p & E1 & E2).
    + cbn [fst snd]. rewrite Nat.eqb_refl. reflexivity.
    + intros [b t] F. cbn [fst snd] in F. apply andb_true_iff in F as [F1 F2]. apply Nat.eqb_eq in F1. apply Z.eqb_eq in F2. congruence.
    + rewrite E1. unfold instx. rewrite E2. cbn [fst snd]. rewrite rot_cur. reflexivity.
Qed.
Lemma degree_bound : (3 <= cs_degree c)%nat.
Proof using.
  clear Hk Hn Hd Hrows Hwf Hdeg Hperm Hinst Hchs.
  unfold cs_degree. lia. Qed.
Lemma clen_pos : (0 < clen)%nat.
Proof using Hdeg.
  clear Hk Hn Hd Hrows Hwf Hperm Hinst Hchs.
  unfold chunk_len. rewrite Hdeg. pose proof degree_bound. lia. Qed.
Lemma columns_seq : perm_columns c = map (fun i => nth i (perm_columns c) (CFixed 0)) (seq 0 m).
Proof. symmetry. apply map_nth_seq. Qed.
Lemma chunk_columns : chunks clen (perm_columns c) = map (map (fun i => nth i (perm_columns c) (CFixed 0))) JJ.
Proof. rewrite columns_seq at 1. apply chunks_map. Qed.
Lemma sets_count : length (chunks clen (perm_columns c)) = s.
Proof. rewrite chunk_columns. apply map_length. Qed.
Lemma JJ_seq p J : nth_error JJ p = Some J -> J = seq (p * clen) (length J) /\ (length J <= clen)%nat.
Proof using Hdeg.
  clear Hk Hn Hd Hrows Hwf Hperm Hinst Hchs.
  intros E. apply (chunks_seq clen clen_pos (length (seq 0 m)) 0 m p J). exact E. Qed.
Lemma JJ_concat : concat JJ = seq 0 m.
Proof using Hdeg.
  clear Hk Hn Hd Hrows Hwf Hperm Hinst Hchs.
  unfold JJ, chunks. apply chunks_concat; [apply clen_pos|]. rewrite seq_length. lia. Qed.

Lemma perm_left_is nx es sg : perm_left beta gamma nx es sg = nx * fprod (map (fun ab => fst ab + beta * snd ab + gamma) (combine es sg)).
Proof using.
  clear Hk Hn Hd Hrows Hwf Hdeg Hperm Hinst Hchs.
 
  unfold perm_left. generalize (combine es sg). clear. intros l. revert nx.
  induction l as [|[a b] l IH]; intros nx; cbn [fold_left map fprod fst snd]; [fring|]. rewrite IH. fring.
Qed.
Lemma perm_right_is (f : nat -> Fr) b0 : forall len a z, perm_right gamma (map f (seq a len)) (b0 * fpow DELTA (Z.of_nat a)) z =
  z * fprod (map (fun i => f i + b0 * fpow DELTA (Z.of_nat i) + gamma) (seq a len)).
Proof using.
  clear Hk Hn Hd Hrows Hwf Hdeg Hperm Hinst Hchs.
 
  induction len as [|len IH]; intros a z; cbn [seq map perm_right fprod]; [fring|].
  replace (b0 * fpow DELTA (Z.of_nat a) * DELTA) with (b0 * fpow DELTA (Z.of_nat (S a))) by (rewrite fpow_S'; generalize DELTA; intros; fring).
  rewrite IH. generalize DELTA. intros. fring.
Qed.
Lemma products_are x active : forall Js idx,
  (forall p J, nth_error Js p = Some J -> J = seq ((idx + p) * clen) (length J)) ->
  (forall J i, In J Js -> In i J -> (i < m)%nat) ->
  perm_products (column_eval c (fixx x) (advx x) (instx x)) clen beta gamma x active idx
    (map (setx x) (seq idx (length Js)))
    (map (map (fun i => nth i (perm_columns c) (CFixed 0))) Js) (map (map (fun i => sf i x)) Js) =
  Ok (map (fun iJ => (zf (fst iJ) (rot x next) * denf (snd iJ) x - zf (fst iJ) x * numf (snd iJ) x) * active)
        (combine (seq idx (length Js)) Js)).
Proof using Hwf.
  clear Hk Hn Hd Hrows Hdeg Hperm Hinst Hchs.
 
  induction Js as [|J Js IH]; intros idx HS HI; [reflexivity|]. cbn [length seq map perm_products combine fst snd].
  rewrite (rmap_map _ (fun col => colf col x)).
  2:{ intros col I. apply column_eval_is. apply in_map_iff in I. destruct I as (i & <- & Ii). apply nth_In.
      apply (HI J i); [left; reflexivity|exact Ii]. }
  cbn [bind]. rewrite IH.
  2:{ intros p J' E. rewrite (HS (S p) J' E) at 1. f_equal. lia. }
  2:{ intros J' i IJ. apply HI. right. exact IJ. }
  cbn [bind ps_next ps_eval setx]. f_equal. f_equal. f_equal. f_equal.
  - rewrite perm_left_is. f_equal. unfold denf. f_equal. rewrite map_map.
    clear. induction J as [|i J IH]; [reflexivity|]. cbn [map combine fst snd]. rewrite IH. reflexivity.
  - rewrite map_map. pose proof (HS 0%nat J eq_refl) as E. rewrite Nat.add_0_r in E. unfold numf. rewrite E.
    rewrite pow_vartime_is by lia.
    apply (perm_right_is (fun i => vf i x) (beta * x)).
Qed.
Lemma perm_is x l_0 l_last l_blind : perm_expressions v (evalsx x) (instx x) l_0 l_last l_blind beta gamma x =
  Ok (match s with O => [] | S _ => [l_0 * (f1 - zf 0 x)] end ++
      match s with O => [] | S q => [(zf q x * zf q x - zf q x) * l_last] end ++
      map (fun i => (zf (S i) x - zf i (rot x LAST)) * l_0) (seq 0 (s - 1)) ++
      map (fun iJ => (zf (fst iJ) (rot x next) * denf (snd iJ) x - zf (fst iJ) x * numf (snd iJ) x) * (f1 - (l_last + l_blind))) (enum JJ)).
Proof using Hdeg Hwf.
  clear Hk Hn Hd Hrows Hperm Hinst Hchs.
 
  unfold perm_expressions. pose proof clen_pos. destruct (Nat.eqb_spec clen 0); [lia|]. cbn [ev_sets evalsx ev_fixed ev_advice ev_sigma].
  unfold perm_links.
  rewrite (rmap_map _ (fun sp : pset * pset => (ps_eval (fst sp) - match ps_last (snd sp) with Some a => a | None => f0 end) * l_0)).
  2:{ intros [a b] I. cbn [fst snd].
      assert (I2 : In (a, b) (map (fun pq => (setx x (fst pq), setx x (snd pq))) (combine (tl (seq 0 s)) (seq 0 s)))).
      { revert I. generalize (seq 0 s). clear. intros l.
        assert (G : forall l' l, In (a, b) (combine (map (setx x) l') (map (setx x) l)) -> In (a, b) (map (fun pq => (setx x (fst pq), setx x (snd pq))) (combine l' l))).
        { induction l' as [|p l' IH]; intros [|q l0] I; try contradiction. cbn [map combine In fst snd] in *. destruct I as [I|I]; [left; exact I|right; apply IH, I]. }
        intros I. apply G. destruct l; [contradiction|]. exact I. }
      rewrite combine_tl, map_map in I2. apply in_map_iff in I2. destruct I2 as (i & [= <- <-] & Ii). apply in_seq in Ii.
      cbn [fst snd ps_last setx]. destruct (Nat.ltb_spec (S i) s); [reflexivity|lia]. }
  cbn [bind]. rewrite chunk_columns, chunks_map. fold JJ.
  rewrite (products_are x (f1 - (l_last + l_blind)) JJ 0).
  2:{ intros p J E. apply (proj1 (JJ_seq p J E)). }
  2:{ intros J i IJ Ii. assert (I : In i (concat JJ)) by (apply in_concat; eauto). rewrite JJ_concat in I. apply in_seq in I. lia. }
  cbn [bind]. f_equal. f_equal; [|f_equal; [|f_equal]].
  - destruct s as [|q]; reflexivity.
  - unfold perm_last. destruct s as [|q] eqn:Es; [reflexivity|]. rewrite seq_S, map_app, rev_app_distr. reflexivity.
  - assert (G : forall l, combine (tl (map (setx x) l)) (map (setx x) l) = map (fun pq => (setx x (fst pq), setx x (snd pq))) (combine (tl l) l)).
    { intros l. destruct l as [|a l]; [reflexivity|]. cbn [map tl]. revert a. induction l as [|b l IH]; intros a; [reflexivity|].
      cbn [map combine fst snd]. rewrite IH. reflexivity. }
    rewrite G, combine_tl, !map_map. apply map_ext_in. intros i Hi. apply in_seq in Hi. cbn [fst snd ps_eval ps_last setx].
    destruct (Nat.ltb_spec (S i) s); [reflexivity|lia].
Qed.
Lemma lookup_is x l_0 l_last l_blind il : In il (enum (lookups c)) ->
  lookup_expressions (eval_at (fixx x) (advx x) (instx x) chs) l_0 l_last l_blind theta beta gamma (lkx x (fst il)) (snd il) =
  Ok (let p := peval (cm_lproduct P (fst il)) in let a := peval (cm_linput P (fst il)) in let t := peval (cm_ltable P (fst il)) in
      [l_0 * (f1 - p x); l_last * (p x * p x - p x);
       (p (rot x next) * (a x + beta) * (t x + gamma) - p x * (cmp (fst (snd il)) x + beta) * (cmp (snd (snd il)) x + gamma)) * (f1 - (l_last + l_blind));
       l_0 * (a x - t x); (a x - t x) * (a x - a (rot x prev)) * (f1 - (l_last + l_blind))]).
Proof using Hchs Hwf.
  clear Hk Hn Hd Hrows Hdeg Hperm Hinst.
 
  destruct il as [i l]. intros I. apply enum_nth in I. apply nth_error_In in I. unfold lookup_expressions.
  assert (R : forall e, In e (fst l) \/ In e (snd l) -> eval_at (fixx x) (advx x) (instx x) chs e = Ok (evalx e x)).
  { intros e He. apply eval_at_is. apply (wf_exprs _ Hwf). right. unfold lookup_exprs. apply in_flat_map. exists l. split; [exact I|].
    apply in_app_iff. exact He. }
  cbn [snd fst]. rewrite (rmap_map _ (fun e => evalx e x)) by (intros; apply R; auto). cbn [bind].
  rewrite (rmap_map _ (fun e => evalx e x)) by (intros; apply R; auto). cbn [bind]. reflexivity.
Qed.
Lemma expressions_are x : expressions v (instx x) chs (lg 0 x) (lg u x) (lblind d n v x) theta beta gamma x (evalsx x) =
  Ok (map (fun f => f x) all_fs).
Proof using Hchs Hdeg Hwf.
  clear Hk Hn Hd Hrows Hperm Hinst.
 
  unfold expressions. cbn [ev_fixed ev_advice evalsx].
  rewrite (rmap_map _ (fun e => evalx e x)).
  2:{ intros e He. apply eval_at_is, (wf_exprs _ Hwf). left. exact He. }
  cbn [bind]. rewrite perm_is. cbn [bind ev_lookups evalsx].
  assert (C : combine (map (lkx x) (seq 0 (length (lookups c)))) (lookups c) =
    map (fun il => (lkx x (fst il), snd il)) (enum (lookups c))).
  { unfold enum. generalize (lookups c) at 2 4 as l. intros l. generalize (seq 0 (length (lookups c))). clear. intros s0. revert l.
    induction s0 as [|a s0 IH]; intros [|b l]; try reflexivity. cbn [map combine fst snd]. rewrite IH. reflexivity. }
  rewrite C.
  assert (RM : forall (B : Type) (f : leval * (list expr * list expr) -> res B) l,
    rmap f (map (fun il : nat * (list expr * list expr) => (lkx x (fst il), snd il)) l) = rmap (fun il => f (lkx x (fst il), snd il)) l).
  { intros B f l. induction l as [|a l IH]; [reflexivity|]. cbn [map rmap]. destruct (f (lkx x (fst a), snd a)); [|reflexivity].
    cbn [bind]. rewrite IH. reflexivity. }
  rewrite RM. cbn [fst snd].
  rewrite (rmap_map _ (fun il => map (fun f => f x) (lk_fs il))).
  2:{ intros il I. rewrite lookup_is by exact I. destruct il as [i l]. reflexivity. }
  cbn [bind]. unfold all_fs. rewrite !map_app.
  replace (map (fun f : Fr -> Fr => f x) gate_fs) with (map (fun e => evalx e x) (concat (gates c)))
    by (unfold gate_fs; rewrite map_map; reflexivity).
  replace (map (fun f : Fr -> Fr => f x) first_fs) with (match s with O => [] | S _ => [lg 0 x * (f1 - zf 0 x)] end)
    by (unfold first_fs; destruct s; reflexivity).
  replace (map (fun f : Fr -> Fr => f x) last_fs) with (match s with O => [] | S q => [(zf q x * zf q x - zf q x) * lg u x] end)
    by (unfold last_fs; destruct s; reflexivity).
  unfold link_fs, prod_fs. rewrite !map_map, flat_map_concat_map, (concat_map (fun f : Fr -> Fr => f x)), map_map. reflexivity.
Qed.
End Total.
