(** Properties C64 to C67: the multi-opening argument. *)
From Coq Require Import ZArith List Bool Lia.
From Verif Require Import Base Moduli Field FieldFacts LimbSpec DomainModel IopModel IopRows ArithModel ArithSpec TransformFacts KzgModel KzgFacts
  ShplonkModel ShplonkSpec ShplonkForge ShplonkThms.
Import ListNotations.
Ltac fr_neq := let E := fresh in intros E; apply (f_equal fval) in E; vm_compute in E; discriminate E.
Ltac fr_eq := apply fe_eq; vm_compute; reflexivity.

(** C64: openings are binding.  A prover that commits to polynomials, and then
    answers enough of the challenges y and v with a polynomial, and enough of the
    challenges u with another one, so that the verifier accepts for enough secrets,
    has claimed true values only.  Claims about the same commitment and point must
    agree; see C66. *)
Theorem C64_openings_bind : forall (G G2 T : Type) zero add sub scale gen scale2 gen2 pairing_check same,
  is_module zero add sub scale -> gen <> zero -> is_pairing scale scale2 gen2 pairing_check -> is_equality same ->
  forall k (P : T -> list Fr) (commitment : srs G G2 -> T -> reference G) (qs : list (query T)),
  (0 <= k <= 28)%Z -> (forall c, lenZ (P c) <= 2 ^ k)%Z ->
  (forall c pt e e', In (c, pt, e) qs -> In (c, pt, e') qs -> e = e') ->
  (forall s p c, setup scale gen scale2 gen2 k s = Ok p ->
     commit zero add p (P c) = Ok (element zero add scale (commitment p c))) ->
  many (length qs) (fun y => many (length qs) (fun v => exists H1,
    many (Z.to_nat (2 ^ k) + length qs) (fun u => exists H2,
    many (Z.to_nat (2 ^ k) + 1) (fun s => exists p c1 c2,
      setup scale gen scale2 gen2 k s = Ok p /\ commit zero add p H1 = Ok c1 /\ commit zero add p H2 = Ok c2 /\
      shplonk_verify same (commitment p) zero add pairing_check p qs y v c1 u c2 = Ok true)))) ->
  forall c pt e, In (c, pt, e) qs -> value (P c) pt = e.
Proof. exact (fun G G2 T zero add sub scale gen scale2 gen2 pc same M N P E => bind_spec zero add sub scale gen scale2 gen2 pc same M P E N). Qed.
Print Assumptions C64_openings_bind.
(** 5 + x has the value 8 at 3 *)
Example C64_case : many 1 (fun y => many 1 (fun v => exists H1,
    many 3 (fun u => exists H2, many 3 (fun s => exists p c1 c2,
      setup fmul f1 fmul f1 1 s = Ok p /\ commit f0 fadd p H1 = Ok c1 /\ commit f0 fadd p H2 = Ok c2 /\
      field_verify (fun c => RPoint (field_commit p (two_polys c))) p [(true, FrZ 3, FrZ 8)] y v c1 u c2 = Ok true)))) /\
  value (two_polys true) (FrZ 3) = FrZ 8.
Proof.
  assert (V8 : value (two_polys true) (FrZ 3) = FrZ 8) by fr_eq.
  split; [|exact V8].
  exists [FrZ 7]. repeat split; [repeat constructor; intros []|auto|]. intros y [<-|[]].
  exists [FrZ 9]. repeat split; [repeat constructor; intros []|auto|]. intros v [<-|[]].
  destruct (field_h [(true, FrZ 3)] (FrZ 7) (FrZ 9)) as [h|] eqn:Eh.
  2:{ destruct (field_honest 20 [(true, FrZ 3)] (FrZ 7) (FrZ 9)) as (_ & h & E & _); [fr_neq|discriminate|discriminate|congruence]. }
  exists h, [FrZ 10; FrZ 11; FrZ 12].
  assert (N : forall a b, FrZ a = FrZ b -> fval (FrZ a) = fval (FrZ b)) by (intros a b ->; reflexivity).
  repeat split; [repeat constructor; intros H; repeat (destruct H as [H|H]; [apply N in H; vm_compute in H; discriminate|]); destruct H|auto|].
  intros u Hu. assert (Nu : ~ In u (map snd [(true, FrZ 3)])).
  { intros [<-|[]]. destruct Hu as [H|[H|[H|[]]]]; apply N in H; vm_compute in H; discriminate. }
  exists (match shplonk_h2 Bool.eqb two_polys Checked [(true, FrZ 3)] (FrZ 7) (FrZ 9) h u with Ok h2 => h2 | Panic => [] end).
  exists [FrZ 20; FrZ 21; FrZ 22].
  repeat split; [repeat constructor; intros H; repeat (destruct H as [H|H]; [apply N in H; vm_compute in H; discriminate|]); destruct H|auto|].
  intros s Hs.
  assert (X : exists i, s = FrZ i /\ fpow (FrZ i) 2 <> f1) by (destruct Hs as [<-|[<-|[<-|[]]]]; eexists; (split; [reflexivity|fr_neq])).
  destruct X as (i & -> & Hi).
  destruct (field_honest i [(true, FrZ 3)] (FrZ 7) (FrZ 9)) as (S & h' & E1 & K1 & H); [exact Hi|discriminate|discriminate|].
  rewrite Eh in E1. injection E1 as <-. destruct (H u Nu) as (h2 & -> & K2 & V).
  exists (field_setup 1 i), (field_commit (field_setup 1 i) h), (field_commit (field_setup 1 i) h2).
  split; [exact S|]. split; [exact K1|]. split; [exact K2|]. rewrite <- V8. exact V.
Qed.

(** C65: the prover's openings are accepted, for all polynomials, points and
    challenges with u outside the points, whatever the verifier's parameters were
    shrunk to. *)
Theorem C65_openings_accepted : forall (G G2 T : Type) zero add sub scale gen scale2 gen2 pairing_check same,
  is_module zero add sub scale -> is_pairing scale scale2 gen2 pairing_check -> is_equality same ->
  forall k s (p p' : srs G G2) (P : T -> list Fr) (commitment : T -> reference G) (qs : list (T * Fr)),
  (0 <= k <= 28)%Z -> setup scale gen scale2 gen2 k s = Ok p -> (forall c, lenZ (P c) = 2 ^ k)%Z -> qs <> [] ->
  (lenZ (nodup fe_dec (map snd qs)) <= 2 ^ k)%Z ->
  (forall c, commit zero add p (P c) = Ok (element zero add scale (commitment c))) ->
  (exists j, 0 <= j <= k /\ srs_shrink p j = Ok p')%Z ->
  forall y v, exists h c1, shplonk_h same P (Z.to_nat (2 ^ k)) qs y v = Ok h /\ commit zero add p h = Ok c1 /\
    forall pr u, ~ In u (map snd qs) ->
      exists h2 c2, shplonk_h2 same P pr qs y v h u = Ok h2 /\ commit zero add p h2 = Ok c2 /\
        shplonk_verify same commitment zero add pairing_check p'
          (map (fun q => (fst q, snd q, value (P (fst q)) (snd q))) qs) y v c1 u c2 = Ok true.
Proof. exact (fun G G2 T zero add sub scale gen scale2 gen2 pc same => accepted_spec zero add sub scale gen scale2 gen2 pc same). Qed.
Print Assumptions C65_openings_accepted.
(** two polynomials and two sets of points *)
Example C65_case :
  let qs := [(true, FrZ 3); (false, FrZ 3); (false, FrZ 4)] in
  let p := field_setup 1 20 in
  exists h h2, shplonk_h Bool.eqb two_polys 2 qs (FrZ 7) (FrZ 9) = Ok h /\
    shplonk_h2 Bool.eqb two_polys Checked qs (FrZ 7) (FrZ 9) h (FrZ 11) = Ok h2 /\
    field_verify (fun c => RPoint (field_commit p (two_polys c))) p
      [(true, FrZ 3, FrZ 8); (false, FrZ 3, FrZ 11); (false, FrZ 4, FrZ 14)]
      (FrZ 7) (FrZ 9) (field_commit p h) (FrZ 11) (field_commit p h2) = Ok true.
Proof.
  intros qs p. destruct (field_honest 20 qs (FrZ 7) (FrZ 9)) as (S & h & E1 & K1 & H); [fr_neq|discriminate| |].
  { apply (inj_le _ 2), (NoDup_incl_length (l' := [FrZ 3; FrZ 4])); [apply NoDup_nodup|]. intros x Hx. apply nodup_In in Hx. cbn in Hx |- *. tauto. }
  destruct (H (FrZ 11)) as (h2 & E2 & K2 & V); [intros [E|[E|[E|[]]]]; revert E; fr_neq|].
  exists h, h2. split; [exact E1|]. split; [exact E2|]. rewrite <- V. cbn [map qs fst snd].
  assert (A : value (two_polys true) (FrZ 3) = FrZ 8) by fr_eq. assert (B : value (two_polys false) (FrZ 3) = FrZ 11) by fr_eq.
  assert (C : value (two_polys false) (FrZ 4) = FrZ 14) by fr_eq. rewrite A, B, C. reflexivity.
Qed.

(** C66: that every claim is looked at is false: of two claims about the same
    commitment and point, only the first is. *)
Theorem C66_every_claim_refuted : forall (G G2 T : Type) (zero : G) add pairing_check (same : T -> T -> bool), is_equality same ->
  forall commitment (p : srs G G2) qs c pt e y v h1 u h2, In (c, pt) (map fst qs) ->
  shplonk_verify same commitment zero add pairing_check p (qs ++ [(c, pt, e)]) y v h1 u h2 =
  shplonk_verify same commitment zero add pairing_check p qs y v h1 u h2.
Proof. exact (fun G G2 T zero add pc same E com => second_claim_ignored zero add same E com pc). Qed.
Print Assumptions C66_every_claim_refuted.
Example C66_case :
  let p := field_setup 1 20 in
  exists h1 h2, field_verify (fun c => RPoint (field_commit p (two_polys c))) p [(true, FrZ 3, FrZ 8); (true, FrZ 3, FrZ 1000)]
    (FrZ 7) (FrZ 9) h1 (FrZ 11) h2 = Ok true.
Proof.
  intros p. destruct (field_honest 20 [(true, FrZ 3)] (FrZ 7) (FrZ 9)) as (S & h & E1 & K1 & H); [fr_neq|discriminate|discriminate|].
  destruct (H (FrZ 11)) as (h2 & E2 & K2 & V); [intros [E|[]]; revert E; fr_neq|].
  exists (field_commit p h), (field_commit p h2). assert (A : value (two_polys true) (FrZ 3) = FrZ 8) by fr_eq.
  cbn [map fst snd] in V. rewrite A in V. rewrite <- V.
  apply (C66_every_claim_refuted Fr Fr bool f0 fadd field_pairing Bool.eqb bool_equality _ p [(true, FrZ 3, FrZ 8)]). left. reflexivity.
Qed.

(** C67: that the verifier accepts true claims only is false for who knows the
    secret of the parameters: any claims, about any commitments, can be opened. *)
Theorem C67_secret_refuted : forall (G G2 T : Type) zero add sub scale gen scale2 gen2 pairing_check same,
  is_module zero add sub scale -> is_pairing scale scale2 gen2 pairing_check -> is_equality same ->
  forall k s p (commitment : T -> reference G) (qs : list (query T)),
  (0 <= k <= 28)%Z -> setup scale gen scale2 gen2 k s = Ok (p : srs G G2) ->
  forall y v h1 u, ~ In u (map (fun q => snd (fst q)) qs) -> u <> s ->
  exists h2, shplonk_verify same commitment zero add pairing_check p qs y v h1 u h2 = Ok true.
Proof. exact (fun G G2 T zero add sub scale gen scale2 gen2 pc same M => forge_spec zero add sub scale gen scale2 gen2 pc same M). Qed.
Print Assumptions C67_secret_refuted.
(** "5 + x has the value 1000 at 3", for the secret 20 *)
Example C67_case : exists h2,
  field_verify (fun c => RPoint (field_commit (field_setup 1 20) (two_polys c))) (field_setup 1 20)
    [(true, FrZ 3, FrZ 1000)] (FrZ 7) (FrZ 9) (FrZ 1) (FrZ 11) h2 = Ok true.
Proof.
  apply (C67_secret_refuted Fr Fr bool f0 fadd fsub fmul f1 fmul f1 field_pairing Bool.eqb fr_module field_pairing_ok bool_equality 1 (FrZ 20)).
  - lia.
  - destruct (field_honest 20 [(true, FrZ 3)] (FrZ 7) (FrZ 9)) as (S & _); [fr_neq|discriminate|discriminate|exact S].
  - intros [E|[]]. apply (f_equal fval) in E. vm_compute in E. discriminate.
  - intros E. apply (f_equal fval) in E. vm_compute in E. discriminate.
Qed.
