(** [multi_miller_loop] is the product of the loops of its terms. *)
From Coq Require Import List Bool Field_theory Field Ring ZArith Lia.
From Verif Require Import Base Moduli Field FieldFacts LimbModel CurveModel CurveSpec G1Group TowerModel TowerSpec TowerFacts PowerFacts TowerFq TowerFrob PairingModel FinalExp.
Import ListNotations.
Add Field fq12r'' : f12_field.
Local Notation Fq12 := (ext2 (ext3 (ext2 Fq))).
Local Notation "x * y" := (f12_mul K1 x y).
Local Notation "1" := (f12_one K1).
Local Notation "0" := (f12_zero K1).
Local Notation prod := (product K12).

(** the line at the point *)
Definition line_at (c : line Fq) (p : aff Fq) : Fq12 :=
  Ext2 (Ext3 (Ext2 (bmul K1 (e0 (l0 c)) (ay p)) (bmul K1 (e1 (l0 c)) (ay p))) (f2_zero K1) (f2_zero K1))
       (Ext3 (Ext2 (bmul K1 (e0 (l1 c)) (ax p)) (bmul K1 (e1 (l1 c)) (ax p))) (l2 c) (f2_zero K1)).
Lemma ell_is f c p : ell K1 f c p = f * line_at c p.
Proof. apply (f12_mul_by_034_is K1 fq_fld fq2_fld fq6_fld). Qed.
Lemma square_12 f : f12_square_assign K1 f = f * f.
Proof. exact (fd_square _ fq12_fld f). Qed.

(** A state of the loops of all terms, run one by one. *)
Local Notation state := (Fq12 * (aff Fq * list (line Fq)))%type.
Definition one_step (s : state) (t : state) : Prop :=
  ell_all K1 (fst s) [snd s] = Ok (fst t, [snd t]).
Lemma one_step_is f p cs t : one_step (f, (p, cs)) t -> exists c cs', cs = c :: cs' /\ t = (f * line_at c p, (p, cs')).
Proof.
  unfold one_step. cbn [fst snd ell_all]. destruct cs as [|c cs]; [discriminate|]. rewrite ell_is. destruct t as [f' pc]. intros E. injection E as <- <-. exists c, cs. split; reflexivity.
Qed.
Lemma ell_all_is g ss ts : Forall2 one_step ss ts ->
  ell_all K1 (g * prod (map fst ss)) (map snd ss) = Ok (g * prod (map fst ts), map snd ts).
Proof.
  intros H. revert g. induction H as [|s t ss ts S _ IH]; intros g; [reflexivity|]. destruct s as [f [p cs]]. destruct (one_step_is _ _ _ _ S) as (c & cs' & -> & ->).
  cbn [map fst snd ell_all]. rewrite ell_is. unfold product in *. cbn [fold_right]. change (bmul K12) with (f12_mul K1) in *. change (bone K12) with 1 in *.
  replace (g * (f * fold_right (f12_mul K1) 1 (map fst ss)) * line_at c p) with (g * (f * line_at c p) * fold_right (f12_mul K1) 1 (map fst ss)) by ring. rewrite IH. f_equal. f_equal. ring.
Qed.
Lemma prod_mul {A} (f g : A -> Fq12) l : prod (map (fun x => f x * g x) l) = prod (map f l) * prod (map g l).
Proof. unfold product. change (bmul K12) with (f12_mul K1). change (bone K12) with 1. induction l as [|x l IH]; cbn [map fold_right]; [ring|]. rewrite IH. ring. Qed.
Definition one_loop digits first (s t : state) : Prop := miller_loop K1 digits first (fst s) [snd s] = Ok (fst t, [snd t]).
(** the first step of the loop, on one state *)
Lemma one_ok (s : state) : ell_all K1 (fst s) [snd s] = Panic \/ exists t, one_step s t.
Proof. destruct s as [f [p [|c cs]]]; cbn [fst snd]; [left; reflexivity|]. right. exists (ell K1 f c p, (p, cs)). reflexivity. Qed.
Lemma loop_unfold x digits first (s t : state) : one_loop (x :: digits) first s t ->
  exists u v, one_step (if first then fst s else f12_square_assign K1 (fst s), snd s) u /\ (if Z.eqb x 1 || Z.eqb x (-1) then one_step u v else v = u) /\ one_loop digits false v t.
Proof.
  unfold one_loop. cbn [miller_loop]. set (s' := (if first then fst s else f12_square_assign K1 (fst s), snd s)). destruct (one_ok s') as [P|[u U]].
  - change (ell_all K1 (if first then fst s else f12_square_assign K1 (fst s)) [snd s]) with (ell_all K1 (fst s') [snd s']). rewrite P. discriminate.
  - change (ell_all K1 (if first then fst s else f12_square_assign K1 (fst s)) [snd s]) with (ell_all K1 (fst s') [snd s']). unfold one_step in U. rewrite U.
    destruct (Z.eqb x 1 || Z.eqb x (-1)).
    + destruct (one_ok u) as [P|[v V]]; [rewrite P; discriminate|]. unfold one_step in V. rewrite V. intros E. exists u, v. exact (conj U (conj V E)).
    + intros E. exists u, u. exact (conj U (conj eq_refl E)).
Qed.
Lemma miller_loop_is digits : forall first ss ts, Forall2 (one_loop digits first) ss ts ->
  miller_loop K1 digits first (prod (map fst ss)) (map snd ss) = Ok (prod (map fst ts), map snd ts).
Proof.
  induction digits as [|x digits IH]; intros first ss ts H.
  - replace ts with ss; [reflexivity|]. induction H as [|[f pc] [f' pc'] ss ts S _ IHs]; [reflexivity|]. injection S as -> ->. rewrite IHs. reflexivity.
  - assert (D : exists us vs, Forall2 one_step (map (fun s : state => (if first then fst s else f12_square_assign K1 (fst s), snd s)) ss) us /\
      (if Z.eqb x 1 || Z.eqb x (-1) then Forall2 one_step us vs else vs = us) /\ Forall2 (one_loop digits false) vs ts).
    { induction H as [|s t ss ts S _ (us & vs & A & B & C)].
      - exists [], []. cbn [map]. destruct (Z.eqb x 1 || Z.eqb x (-1)); repeat split; constructor.
      - destruct (loop_unfold _ _ _ _ _ S) as (u & v & A' & B' & C'). exists (u :: us), (v :: vs). cbn [map]. destruct (Z.eqb x 1 || Z.eqb x (-1)).
        + split; [constructor; assumption|]. split; constructor; assumption.
        + subst. split; [constructor; assumption|]. split; [reflexivity|constructor; assumption]. }
    destruct D as (us & vs & A & B & C). specialize (IH false vs ts C). cbn [miller_loop].
    replace (if first then prod (map fst ss) else f12_square_assign K1 (prod (map fst ss))) with (1 * prod (map fst (map (fun s : state => (if first then fst s else f12_square_assign K1 (fst s), snd s)) ss))).
    2: { rewrite map_map. destruct first; cbn [fst]; [change (map (fun x0 : state => fst x0) ss) with (map fst ss); ring|]. rewrite square_12, <- (prod_mul fst fst). replace (map (fun x0 : state => f12_square_assign K1 (fst x0)) ss) with (map (fun x0 : state => fst x0 * fst x0) ss); [ring|]. apply map_ext. intros s. symmetry. apply square_12. }
    replace (map snd ss) with (map snd (map (fun s : state => (if first then fst s else f12_square_assign K1 (fst s), snd s)) ss)) by (rewrite map_map; reflexivity).
    rewrite (ell_all_is 1 _ us A). destruct (Z.eqb x 1 || Z.eqb x (-1)).
    + rewrite (ell_all_is 1 _ vs B). replace (1 * prod (map fst vs)) with (prod (map fst vs)) by ring. exact IH.
    + subst vs. replace (1 * prod (map fst us)) with (prod (map fst us)) by ring. exact IH.
Qed.

(** How many coefficients the loop uses *)
Definition uses (x : Z) : nat := if Z.eqb x 1 || Z.eqb x (-1) then 2 else 1.
Definition all_uses (digits : list Z) : nat := fold_right (fun x n => uses x + n)%nat O digits.
Lemma prepare_length q nq' digits : forall r, length (fst (prepare_loop K1 q nq' digits r)) = all_uses digits.
Proof.
  induction digits as [|x digits IH]; intros r; [reflexivity|]. cbn [prepare_loop all_uses fold_right]. fold (all_uses digits). unfold uses. destruct (doubling_step K1 r) as [r' l].
  destruct (Z.eqb x 1); cbn [orb].
  - destruct (addition_step K1 r' q) as [r'' l']. specialize (IH r''). destruct (prepare_loop K1 q nq' digits r''). cbn [fst length] in *. lia.
  - destruct (Z.eqb x (-1)).
    + destruct (addition_step K1 r' nq') as [r'' l']. specialize (IH r''). destruct (prepare_loop K1 q nq' digits r''). cbn [fst length] in *. lia.
    + specialize (IH r'). destruct (prepare_loop K1 q nq' digits r'). cbn [fst length] in *. lia.
Qed.
Lemma from_affine_length q : infinity (from_affine K1 tbl q) = false -> length (coeffs (from_affine K1 tbl q)) = (all_uses loop_digits + 2)%nat.
Proof.
  unfold from_affine. destruct (aff_is_identity K2 q); [discriminate|]. intros _. pose proof (prepare_length q (aff_neg K2 q) loop_digits (aff_to_curve K2 q)) as E.
  destruct (prepare_loop _ _ _ _ _) as [ls r]. destruct (addition_step _ r _) as [r' l]. destruct (addition_step _ r' _) as [r'' l']. cbn [coeffs fst] in *. rewrite app_length, E. reflexivity.
Qed.
Lemma ell_one f p cs k : length cs = S k -> exists t, one_step (f, (p, cs)) t /\ length (snd (snd t)) = k /\ fst (snd t) = p.
Proof. destruct cs as [|c cs]; [discriminate|]. intros E. exists (ell K1 f c p, (p, cs)). repeat split. injection E as E. exact E. Qed.
Lemma one_loop_ok digits : forall first (s : state) k, length (snd (snd s)) = (all_uses digits + k)%nat -> exists t, one_loop digits first s t /\ length (snd (snd t)) = k.
Proof.
  induction digits as [|x digits IH]; intros first [f [p cs]] k E; cbn [fst snd] in E.
  - exists (f, (p, cs)). split; [reflexivity|exact E].
  - cbn [all_uses fold_right] in E. fold (all_uses digits) in E. unfold uses in E. unfold one_loop. cbn [miller_loop fst snd].
    destruct (ell_one (if first then f else f12_square_assign K1 f) p cs (pred (length cs))) as ([f' [p' cs']] & U & L & P); [destruct (Z.eqb x 1 || Z.eqb x (-1)); lia|]. cbn [fst snd] in L, P. subst p'.
    unfold one_step in U. cbn [fst snd] in U. rewrite U. destruct (Z.eqb x 1 || Z.eqb x (-1)).
    + destruct (ell_one f' p cs' (pred (length cs'))) as ([f2 [p2 cs2]] & V & L2 & P2); [lia|]. cbn [fst snd] in L2, P2. subst p2. unfold one_step in V. cbn [fst snd] in V. rewrite V.
      apply (IH false (f2, (p, cs2)) k). cbn [fst snd]. lia.
    + apply (IH false (f', (p, cs')) k). cbn [fst snd]. lia.
Qed.
(** the value of one term *)
Definition miller_of (p : aff Fq) (q : aff (ext2 Fq)) (f : Fq12) : Prop := multi_miller_loop K1 [(p, from_affine K1 tbl q)] = Ok f.
Lemma one_term (p : aff Fq) (pr : prepared Fq) : length (coeffs pr) = (all_uses loop_digits + 2)%nat -> exists s t u,
  one_loop loop_digits true (1, (p, coeffs pr)) s /\ one_step s t /\ one_step t u /\ snd (snd u) = [].
Proof.
  intros L. destruct (one_loop_ok loop_digits true (1, (p, coeffs pr)) 2) as ([f [p' cs]] & A & E); [exact L|]. cbn [snd] in E.
  destruct (ell_one f p' cs 1 E) as ([f1 [p1 cs1]] & B & E1 & _). cbn [snd] in E1. destruct (ell_one f1 p1 cs1 0 E1) as ([f2 [p2 cs2]] & C & E2 & _). cbn [snd] in E2.
  exists (f, (p', cs)), (f1, (p1, cs1)), (f2, (p2, cs2)). repeat split; try assumption. cbn [snd]. destruct cs2; [reflexivity|discriminate].
Qed.
Definition prep (pq : aff Fq * aff (ext2 Fq)) : aff Fq * prepared Fq := (fst pq, from_affine K1 tbl (snd pq)).
Definition skipped (pq : aff Fq * prepared Fq) : bool := negb (negb (aff_is_identity K1 (fst pq)) && negb (infinity (snd pq))).
Lemma prod_one {A} (l : list A) : prod (map (fun _ => 1) l) = 1.
Proof. unfold product. change (bmul K12) with (f12_mul K1). change (bone K12) with 1. induction l as [|x l IH]; cbn [map fold_right]; [reflexivity|]. rewrite IH. ring. Qed.
Lemma many_terms (terms : list (aff Fq * prepared Fq)) : (forall pq, In pq terms -> length (coeffs (snd pq)) = (all_uses loop_digits + 2)%nat) ->
  exists ss ts us, Forall2 (one_loop loop_digits true) (map (fun pq => (1, (fst pq, coeffs (snd pq)))) terms) ss /\ Forall2 one_step ss ts /\ Forall2 one_step ts us /\ forallb (fun u : state => match snd (snd u) with [] => true | _ => false end) us = true.
Proof.
  induction terms as [|pq terms IH]; intros H; [exists [], [], []; repeat split; constructor|].
  destruct IH as (ss & ts & us & A & B & C & D); [intros x I; apply H; right; exact I|]. destruct (one_term (fst pq) (snd pq) (H pq (or_introl eq_refl))) as (s & t & u & A' & B' & C' & D').
  exists (s :: ss), (t :: ts), (u :: us). cbn [map]. split; [constructor; assumption|]. split; [constructor; assumption|]. split; [constructor; assumption|]. cbn [forallb]. rewrite D'. exact D.
Qed.
(** the loop on terms that are not skipped *)
Lemma run_terms (terms : list (aff Fq * prepared Fq)) ss ts us : filter (fun pq => negb (skipped pq)) terms = terms ->
  Forall2 (one_loop loop_digits true) (map (fun pq => (1, (fst pq, coeffs (snd pq)))) terms) ss -> Forall2 one_step ss ts -> Forall2 one_step ts us ->
  forallb (fun u : state => match snd (snd u) with [] => true | _ => false end) us = true -> multi_miller_loop K1 terms = Ok (prod (map fst us)).
Proof.
  intros Ff A B C D. unfold multi_miller_loop.
  replace (filter (fun pq : aff Fq * prepared Fq => negb (aff_is_identity K1 (fst pq)) && negb (infinity (snd pq))) terms) with terms.
  2: { rewrite <- Ff at 1. apply filter_ext. intros pq. unfold skipped. apply negb_involutive. }
  pose proof (miller_loop_is _ _ _ _ A) as R. rewrite !map_map in R. cbn [fst snd] in R. rewrite prod_one in R. rewrite R.
  pose proof (ell_all_is 1 _ _ B) as RB. pose proof (ell_all_is 1 _ _ C) as RC.
  replace (1 * prod (map fst ss)) with (prod (map fst ss)) in RB by ring. replace (1 * prod (map fst ts)) with (prod (map fst ts)) in RB by ring.
  replace (1 * prod (map fst ts)) with (prod (map fst ts)) in RC by ring. replace (1 * prod (map fst us)) with (prod (map fst us)) in RC by ring.
  rewrite RB, RC. replace (forallb _ (map snd us)) with true; [reflexivity|]. symmetry. refine (eq_trans _ D). clear. induction us as [|u us IH]; [reflexivity|]. cbn [map forallb]. rewrite IH. reflexivity.
Qed.
Lemma skip_all_multi (terms : list (aff Fq * prepared Fq)) : multi_miller_loop K1 (filter (fun pq => negb (skipped pq)) terms) = multi_miller_loop K1 terms.
Proof.
  unfold multi_miller_loop. replace (filter _ (filter _ terms)) with (filter (fun pq : aff Fq * prepared Fq => negb (aff_is_identity K1 (fst pq)) && negb (infinity (snd pq))) terms); [reflexivity|].
  induction terms as [|pq terms IH]; [reflexivity|]. cbn [filter]. unfold skipped in *. rewrite negb_involutive. destruct (negb (aff_is_identity K1 (fst pq)) && negb (infinity (snd pq))) eqn:E; cbn [filter]; rewrite ?E, IH; reflexivity.
Qed.
Theorem multi_miller_product terms : exists fs, Forall2 (fun pq f => miller_of (fst pq) (snd pq) f) terms fs /\ multi_miller_loop K1 (map prep terms) = Ok (prod fs).
Proof.
  rewrite <- skip_all_multi. induction terms as [|pq terms IH]; [exists []; split; [constructor|reflexivity]|]. destruct IH as (fs & A & B).
  cbn [map filter]. destruct (skipped (prep pq)) eqn:S; cbn [negb].
  - exists (1 :: fs). split.
    + constructor; [|exact A]. unfold miller_of. rewrite <- skip_all_multi. cbn [filter]. change (fst pq, from_affine K1 tbl (snd pq)) with (prep pq). rewrite S. reflexivity.
    + rewrite B. f_equal. unfold product. cbn [fold_right]. change (bmul K12) with (f12_mul K1). change (bone K12) with 1. ring.
  - set (rest := filter (fun pq => negb (skipped pq)) (map prep terms)) in *.
    assert (L : forall x, In x (prep pq :: rest) -> length (coeffs (snd x)) = (all_uses loop_digits + 2)%nat).
    { intros x I. assert (Y : exists y, x = prep y /\ skipped x = false).
      { destruct I as [<-|I]; [exists pq; split; [reflexivity|exact S]|]. apply filter_In in I. destruct I as [I Z]. apply in_map_iff in I. destruct I as (y & <- & _). exists y. split; [reflexivity|]. apply negb_true_iff. exact Z. }
      destruct Y as (y & -> & Z). apply from_affine_length. unfold skipped in Z. apply negb_false_iff, andb_true_iff in Z. destruct Z as [_ Z]. apply negb_true_iff in Z. exact Z. }
    assert (Fr : filter (fun pq => negb (skipped pq)) rest = rest).
    { unfold rest. clear. induction (map prep terms) as [|x l IH]; [reflexivity|]. cbn [filter]. destruct (negb (skipped x)) eqn:E; cbn [filter]; rewrite ?E, IH; reflexivity. }
    destruct (many_terms rest) as (ss & ts & us & M1 & M2 & M3 & M4); [intros x I; apply L; right; exact I|].
    destruct (one_term (fst (prep pq)) (snd (prep pq)) (L _ (or_introl eq_refl))) as (s & t & u & N1 & N2 & N3 & N4).
    exists (fst u :: fs). split.
    + constructor; [|exact A]. unfold miller_of. change (fst pq, from_affine K1 tbl (snd pq)) with (prep pq).
      rewrite (run_terms [prep pq] [s] [t] [u]); [|cbn [filter]; rewrite S; reflexivity|repeat constructor; assumption|repeat constructor; assumption|repeat constructor; assumption|cbn [forallb]; rewrite N4; reflexivity].
      f_equal. unfold product. cbn [map fold_right]. change (bmul K12) with (f12_mul K1). change (bone K12) with 1. ring.
    + rewrite (run_terms rest ss ts us Fr M1 M2 M3 M4) in B. injection B as B.
      rewrite (run_terms (prep pq :: rest) (s :: ss) (t :: ts) (u :: us)); [|cbn [filter]; rewrite S, Fr; reflexivity|constructor; assumption|constructor; assumption|constructor; assumption|cbn [forallb]; rewrite N4; exact M4].
      unfold product in *. cbn [map fold_right]. rewrite B. reflexivity.
Qed.

(** the final power of a product *)
Lemma n_final_sig : { n | (Z.of_nat n * r_modulus = Q ^ 12 - 1)%Z }.
Proof.
  exists (Z.to_nat ((Q ^ 12 - 1) / r_modulus)). rewrite Z2Nat.id by (vm_compute; discriminate). vm_compute. reflexivity.
Qed.
Definition n_final : nat := proj1_sig n_final_sig.
Lemma n_final_Z : (Z.of_nat n_final * r_modulus = Q ^ 12 - 1)%Z. Proof. exact (proj2_sig n_final_sig). Qed.
Lemma final_ok f v : final_exponentiation K1 tbl f = Ok v <-> f <> 0 /\ v = power K12 f n_final.
Proof.
  split.
  - intros E. assert (N : f <> 0) by (intros ->; rewrite final_exponentiation_panics in E; discriminate). split; [exact N|]. rewrite (final_exponentiation_is f n_final N n_final_Z) in E. injection E as <-. reflexivity.
  - intros [N ->]. apply final_exponentiation_is; [exact N|exact n_final_Z].
Qed.
Lemma pairing_of p q f v : miller_of p q f -> (pairing K1 tbl p q = Ok v <-> f <> 0 /\ v = power K12 f n_final).
Proof. intros M. unfold pairing. unfold miller_of in M. rewrite M. apply final_ok. Qed.
Theorem pairing_product_is terms v :
  (match multi_miller_loop K1 (map prep terms) with Ok f => final_exponentiation K1 tbl f | Panic => Panic end) = Ok v <->
  exists vs, Forall2 (fun pq w => pairing K1 tbl (fst pq) (snd pq) = Ok w) terms vs /\ v = prod vs.
Proof.
  destruct (multi_miller_product terms) as (fs & A & B). rewrite B, final_ok. clear B. revert v. induction A as [|pq f terms fs M _ IH]; intros v.
  - unfold product. cbn [fold_right]. split.
    + intros [_ ->]. exists []. split; [constructor|]. exact (pw_one K12 fq12_fld _).
    + intros (vs & X & ->). inversion X. split; [exact one_nz|]. symmetry. exact (pw_one K12 fq12_fld _).
  - unfold product in *. cbn [fold_right]. change (bmul K12) with (f12_mul K1) in *. change (bone K12) with 1 in *. split.
    + intros [N ->]. assert (N1 : f <> 0) by (intros ->; apply N; ring). assert (N2 : fold_right (f12_mul K1) 1 fs <> 0) by (intros E; apply N; rewrite E; ring).
      destruct (proj1 (IH _) (conj N2 eq_refl)) as (vs & X & Y). exists (power K12 f n_final :: vs). split.
      * constructor; [|exact X]. apply (pairing_of _ _ _ _ M). exact (conj N1 eq_refl).
      * cbn [fold_right]. rewrite <- Y. exact (pw_prod K12 fq12_fld _ _ _).
    + intros (vs & X & ->). inversion X as [|? w ? ws P R]. subst. apply (pairing_of _ _ _ _ M) in P. destruct P as [N1 ->].
      destruct (proj2 (IH _) (ex_intro _ ws (conj R eq_refl))) as [N2 E]. cbn [fold_right]. rewrite E. split.
      * intros Z. destruct (a_prod K12 fq12_fld _ _ Z); contradiction.
      * symmetry. exact (pw_prod K12 fq12_fld _ _ _).
Qed.
(** values of the pairing have order dividing r *)
Theorem pairing_order p q v n : pairing K1 tbl p q = Ok v -> Z.of_nat n = r_modulus -> power K12 v n = 1.
Proof.
  intros E Hn. destruct (multi_miller_product [(p, q)]) as (fs & A & _). inversion A as [|? f ? fs' M R]. subst. cbn [fst snd] in M. apply (pairing_of _ _ _ _ M) in E. destruct E as [N ->].
  rewrite (pw_pw K12 fq12_fld), <- (zpow_nat K12), Nat2Z.inj_mul, Hn, n_final_Z. apply zp_order. exact N.
Qed.
