(** The theorems about the opening argument in the terms of the specification, and
    the field itself as a pair of groups for the examples. *)
From Coq Require Import ZArith List Arith Bool Lia.
From Verif Require Import Base Moduli Field FieldFacts LimbSpec DomainModel IopModel IopRows ArithModel ArithSpec TransformFacts KzgModel KzgFacts
  ShplonkModel ShplonkSpec ShplonkVerify ShplonkSound ShplonkComplete ShplonkForge ArithThms.
Import ListNotations.

Section Thms.
Context {G G2 T : Type}.
Variables (zero : G) (add sub : G -> G -> G) (scale : Fr -> G -> G) (gen : G).
Variables (scale2 : Fr -> G2 -> G2) (gen2 : G2).
Variable pairing_check : G -> G2 -> G -> G2 -> bool.
Variable same : T -> T -> bool.
Hypothesis M : is_module zero add sub scale.
Hypothesis Hp : is_pairing scale scale2 gen2 pairing_check.
Hypothesis same_eq : is_equality same.
Notation setup := (setup scale gen scale2 gen2).
Notation verify := (fun com => shplonk_verify same com zero add pairing_check).

Lemma bind_spec (gen_nz : gen <> zero) k (P : T -> list Fr) (commitment : srs G G2 -> T -> reference G) (qs : list (query T)) :
  (0 <= k <= 28)%Z -> (forall c, lenZ (P c) <= 2 ^ k)%Z ->
  (forall c pt e e', In (c, pt, e) qs -> In (c, pt, e') qs -> e = e') ->
  (forall s p c, setup k s = Ok p -> commit zero add p (P c) = Ok (element zero add scale (commitment p c))) ->
  many (length qs) (fun y => many (length qs) (fun v => exists H1, many (Z.to_nat (2 ^ k) + length qs) (fun u => exists H2,
    many (Z.to_nat (2 ^ k) + 1) (fun s => exists p c1 c2, setup k s = Ok p /\ commit zero add p H1 = Ok c1 /\ commit zero add p H2 = Ok c2 /\
      verify (commitment p) p qs y v c1 u c2 = Ok true)))) ->
  forall c pt e, In (c, pt, e) qs -> value (P c) pt = e.
Proof.
  intros Hk HP Hd Hc HM c pt e I. rewrite comb_peval.
  eapply (openings_bind zero add sub scale gen scale2 gen2 M gen_nz pairing_check Hp same same_eq k P commitment qs); eassumption.
Qed.
Lemma accepted_spec k s p p' (P : T -> list Fr) (commitment : T -> reference G) (qs : list (T * Fr)) :
  (0 <= k <= 28)%Z -> setup k s = Ok p -> (forall c, lenZ (P c) = 2 ^ k)%Z -> qs <> [] ->
  (lenZ (nodup fe_dec (map snd qs)) <= 2 ^ k)%Z ->
  (forall c, commit zero add p (P c) = Ok (element zero add scale (commitment c))) ->
  (exists j, 0 <= j <= k /\ srs_shrink p j = Ok p')%Z ->
  forall y v, exists h c1, shplonk_h same P (Z.to_nat (2 ^ k)) qs y v = Ok h /\ commit zero add p h = Ok c1 /\
    forall pr u, ~ In u (map snd qs) ->
      exists h2 c2, shplonk_h2 same P pr qs y v h u = Ok h2 /\ commit zero add p h2 = Ok c2 /\
        verify commitment p' (map (fun q => (fst q, snd q, value (P (fst q)) (snd q))) qs) y v c1 u c2 = Ok true.
Proof.
  intros Hk Es HP Hq Hd Hc (j & Hj & Ej) y v.
  destruct (setup_gen zero add sub scale gen scale2 gen2 M k s p Hk Es) as ((rest & Eg) & _ & _).
  unfold srs_shrink in Ej. destruct (j <=? sr_k p)%Z; [|discriminate]. injection Ej as <-.
  destruct (openings_accepted zero add sub scale gen scale2 gen2 M pairing_check Hp same same_eq k s p
     (Srs (sr_k p) (sr_n p) (firstn (Z.to_nat (2 ^ j)) (sr_g p)) (firstn (Z.to_nat (2 ^ j)) (sr_gl p)) (sr_g2 p) (sr_s_g2 p)) P commitment qs) with (y := y) (v := v)
     as (h & c1 & A & B & Q); try assumption; try reflexivity.
  - cbn [sr_g]. rewrite Eg. assert (0 < 2 ^ j)%Z by (apply Z.pow_pos_nonneg; lia). destruct (Z.to_nat (2 ^ j)) eqn:E; [lia|]. cbn [firstn]. eauto.
  - exists h, c1. split; [exact A|]. split; [exact B|]. intros pr u Hu. destruct (Q pr u Hu) as (h2 & c2 & C & D & E).
    exists h2, c2. split; [exact C|]. split; [exact D|].
    rewrite (map_ext _ (fun q => (fst q, snd q, PolyFacts.peval (P (fst q)) (snd q)))); [exact E|]. intros q. rewrite comb_peval. reflexivity.
Qed.
Lemma forge_spec k s p (commitment : T -> reference G) (qs : list (query T)) : (0 <= k <= 28)%Z -> setup k s = Ok p ->
  forall y v h1 u, ~ In u (map (fun q => snd (fst q)) qs) -> u <> s ->
  exists h2, verify commitment p qs y v h1 u h2 = Ok true.
Proof.
  intros Hk Es y v h1 u Hu Hs. destruct (setup_gen zero add sub scale gen scale2 gen2 M k s p Hk Es) as ((rest & Eg) & E1 & E2).
  apply (forge_with_secret zero add sub scale M same same_eq commitment pairing_check p s); try assumption.
  - rewrite Eg. discriminate.
  - rewrite E1, E2. apply Hp.
Qed.
End Thms.

(** the field as both groups, multiplication as the pairing *)
Definition field_pairing (l a r b : Fr) : bool := feqb (l * a)%F (r * b)%F.
Lemma field_pairing_ok : is_pairing fmul fmul (@f1 r_pos) field_pairing.
Proof.
  intros s l r. unfold field_pairing. rewrite feqb_eq. split; intros E.
  - transitivity (l * (s * f1))%F; [fring|]. rewrite E. fring.
  - rewrite <- E. fring.
Qed.
Lemma one_nz : (@f1 r_pos) <> f0.
Proof. intros E. apply (f_equal fval) in E. vm_compute in E. discriminate. Qed.
Lemma bool_equality : is_equality Bool.eqb.
Proof. intros a b. apply Bool.eqb_true_iff. Qed.
Definition field_setup (k s : Z) : srs Fr Fr :=
  match setup fmul f1 fmul f1 k (FrZ s) with Ok p => p | Panic => Srs 0 0 [] [] f0 f0 end.
Lemma field_setup_ok k s : (match setup fmul f1 fmul f1 k (FrZ s) with Ok _ => true | Panic => false end) = true ->
  setup fmul f1 fmul f1 k (FrZ s) = Ok (field_setup k s).
Proof. unfold field_setup. destruct (setup fmul f1 fmul f1 k (FrZ s)); [reflexivity|discriminate]. Qed.
Definition field_commit (p : srs Fr Fr) (a : list Fr) : Fr := match commit f0 fadd p a with Ok c => c | Panic => f0 end.
Lemma field_commit_ok p a : (match commit f0 fadd p a with Ok _ => true | Panic => false end) = true -> commit f0 fadd p a = Ok (field_commit p a).
Proof. unfold field_commit. destruct (commit f0 fadd p a); [reflexivity|discriminate]. Qed.
Notation field_verify com := (shplonk_verify Bool.eqb com f0 fadd field_pairing).
(** two polynomials: 5 + x and 2 + 3x *)
Definition two_polys (c : bool) : list Fr := if c then [FrZ 5; FrZ 1] else [FrZ 2; FrZ 3].
Lemma field_shrink s p : fpow (FrZ s) 2 <> f1 -> setup fmul f1 fmul f1 1 (FrZ s) = Ok p -> srs_shrink p 1 = Ok p.
Proof.
  intros Hs E. rewrite (setup_ok fmul f1 fmul f1) in E by (lia || exact Hs). injection E as <-. unfold srs_shrink. cbn [sr_k sr_n sr_g sr_gl sr_g2 sr_s_g2].
  change (1 <=? 1)%Z with true. cbn iota. reflexivity.
Qed.
(** honest openings of the two polynomials, for secrets off the domain of size 2 *)
Notation field_h qs y v := (shplonk_h Bool.eqb two_polys 2 qs y v).
Lemma field_honest s qs y v : fpow (FrZ s) 2 <> f1 -> qs <> [] -> (lenZ (nodup fe_dec (map snd qs)) <= 2)%Z ->
  let p := field_setup 1 s in
  setup fmul f1 fmul f1 1 (FrZ s) = Ok p /\
  exists h, field_h qs y v = Ok h /\ commit f0 fadd p h = Ok (field_commit p h) /\
    forall u, ~ In u (map snd qs) ->
    exists h2, shplonk_h2 Bool.eqb two_polys Checked qs y v h u = Ok h2 /\ commit f0 fadd p h2 = Ok (field_commit p h2) /\
      field_verify (fun c => RPoint (field_commit p (two_polys c))) p
        (map (fun q => (fst q, snd q, value (two_polys (fst q)) (snd q))) qs) y v (field_commit p h) u (field_commit p h2) = Ok true.
Proof.
  intros Hs Q Hn p.
  assert (S : setup fmul f1 fmul f1 1 (FrZ s) = Ok p).
  { subst p. unfold field_setup. destruct (setup fmul f1 fmul f1 1 (FrZ s)) eqn:E; [reflexivity|]. apply setup_spec in E; [|discriminate].
    destruct E as [E|E]; [discriminate E|]. exfalso. exact (Hs E). }
  split; [exact S|].
  assert (C : forall c, commit f0 fadd p (two_polys c) = Ok (element f0 fadd fmul (RPoint (field_commit p (two_polys c))))).
  { intros c. unfold element, field_commit. rewrite (commit_spec f0 fadd fsub fmul f1 fmul f1 fr_module 1 (FrZ s) p) by (lia || exact S).
    destruct c; reflexivity. }
  destruct (accepted_spec f0 fadd fsub fmul f1 fmul f1 field_pairing Bool.eqb fr_module field_pairing_ok bool_equality 1 (FrZ s) p p two_polys
    (fun c => RPoint (field_commit p (two_polys c))) qs) with (y := y) (v := v) as (h & c1 & E1 & K1 & H).
  - lia.
  - exact S.
  - intros []; reflexivity.
  - exact Q.
  - exact Hn.
  - exact C.
  - exists 1%Z. split; [lia|]. apply field_shrink with (s := s); assumption.
  - exists h. assert (F1 : field_commit p h = c1) by (exact (f_equal (fun r => match r with Ok c => c | Panic => f0 end) K1)). rewrite F1. split; [exact E1|]. split; [exact K1|].
    intros u Hu. destruct (H Checked u Hu) as (h2 & c2 & E2 & K2 & V). exists h2.
    assert (F2 : field_commit p h2 = c2) by (exact (f_equal (fun r => match r with Ok c => c | Panic => f0 end) K2)). rewrite F2. split; [exact E2|]. split; [exact K2|]. exact V.
Qed.
