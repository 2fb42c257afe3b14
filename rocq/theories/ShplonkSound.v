(** The multi-opening argument binds: an accepted opening, for enough challenges and
    secrets, is a true one.  With the secret, anything can be opened. *)
From Coq Require Import ZArith List Arith Bool Lia Permutation.
From Verif Require Import Base Moduli Field FieldFacts AlgebraSpec LimbSpec DomainFacts ListFacts SelectorModel DomainModel IopModel PolyFacts IopPoly IopRows ArithModel ArithSpec ArithFacts MultiexpFacts
  TransformFacts KzgModel KzgFacts ArithThms ShplonkModel ShplonkSets ShplonkVerify.
Import ListNotations.
Local Open Scope F_scope.

Lemma interp_of_is points es : NoDup points -> length es = length points ->
  lagrange_interpolate points es = Ok (interp_of points es) /\ length (interp_of points es) = length points /\
  forall i, (i < length points)%nat -> peval (interp_of points es) (nth i points f0) = nth i es f0.
Proof.
  intros N L. destruct (interpolate_ok points es N (eq_sym L)) as (q & E & Lq & V). unfold interp_of. rewrite E. auto.
Qed.

(** the algebra *)
Section Algebra.
Context {T : Type}.
Variable P : T -> list Fr.
Variables (qs : list (query T)) (sets : list (rotation_set T)) (super : list Fr).
Hypothesis Hg : good_sets qs sets super.
Hypothesis Hd : forall c pt e e', In (c, pt, e) qs -> In (c, pt, e') qs -> e = e'.
Variable n : nat.
Hypothesis HP : forall c, (length (P c) <= n)%nat.
Notation osum com y v u := (opening_sum com super sets y v u).
Lemma osum_poly_s y v u : polyfun (S n) (fun s => osum (fun c => peval (P c) s) y v u).
Proof.
  apply (polyfun_peval_map (S n) (fun st s => lprod (diffs super st) u *
     peval (map (fun c => peval (P (fst c)) s - peval (interp_of (rs_points st) (snd c)) u) (rs_commitments st)) y)).
  intros st _. apply polyfun_scale.
  apply (polyfun_peval_map (S n) (fun c s => peval (P (fst c)) s - peval (interp_of (rs_points st) (snd c)) u)).
  intros c _. apply polyfun_sub; [apply polyfun_peval; specialize (HP (fst c)); lia|apply polyfun_const; lia].
Qed.
Lemma osum_poly_u y v : polyfun (n + length super) (fun u => osum (fun c => peval (P c) u) y v u).
Proof.
  apply (polyfun_peval_map _ (fun st u => lprod (diffs super st) u *
     peval (map (fun c => peval (P (fst c)) u - peval (interp_of (rs_points st) (snd c)) u) (rs_commitments st)) y)).
  intros st Is. destruct (gs_set _ _ _ Hg st Is) as (N & I & _ & _ & _ & L).
  pose proof (Permutation_length (diffs_perm super st (gs_nodup _ _ _ Hg) N I)) as Q. rewrite app_length in Q.
  apply (polyfun_ext _ (fun u => peval (map (fun c => peval (P (fst c)) u - peval (interp_of (rs_points st) (snd c)) u) (rs_commitments st)) y * lprod (diffs super st) u));
    [intros x; fring|].
  apply (polyfun_mono ((n + length (rs_points st)) + length (diffs super st))); [unfold Fr in *; lia|].
  apply polyfun_mul; [|apply lprod_poly].
  apply (polyfun_peval_map _ (fun c u => peval (P (fst c)) u - peval (interp_of (rs_points st) (snd c)) u)).
  intros [c es] Ic. cbn [fst snd]. destruct (L c es Ic) as [Le _]. destruct (interp_of_is _ es N Le) as (_ & Li & _).
  apply polyfun_sub; apply polyfun_peval; [specialize (HP c); lia|rewrite Li; lia].
Qed.
Lemma algebra_sound :
  many (length qs) (fun y => many (length qs) (fun v => exists H1, (length H1 <= n)%nat /\ many (n + length qs) (fun u => exists z H2, (length H2 <= n)%nat /\
    many (S n) (fun s => (s - u) * peval H2 s * z = osum (fun c => peval (P c) s) y v u - lprod super u * peval H1 s)))) ->
  forall c pt e, In (c, pt, e) qs -> peval (P c) pt = e.
Proof.
  intros HM c pt e Iq. destruct (gs_all _ _ _ Hg c pt e Iq) as (st & es & Is & Ic & Ip).
  destruct (gs_set _ _ _ Hg st Is) as (N & I & NE & _ & Lc & L). destruct (L c es Ic) as [Le Hes].
  set (inner := fun st : rotation_set T => map (fun c => peval (P (fst c)) pt - peval (interp_of (rs_points st) (snd c)) pt) (rs_commitments st)).
  assert (Z1 : many (length qs) (fun y => lprod (diffs super st) pt * peval (inner st) y = f0)).
  { eapply many_mono; [apply le_n| |exact HM]. intros y Hv. cbv beta in Hv.
    apply (many_zeros (fun v => peval (map (fun st => lprod (diffs super st) pt * peval (inner st) y) sets) v = f0)
              (map (fun st => lprod (diffs super st) pt * peval (inner st) y) sets)).
    - rewrite map_length. eapply many_mono; [exact (gs_length _ _ _ Hg)| |exact Hv]. intros v (H1 & L1 & Hu). cbv beta.
      assert (E : forall u, osum (fun c => peval (P c) u) y v u = lprod super u * peval H1 u).
      { apply (many_eq (n + length super) (fun u => osum (fun c => peval (P c) u) y v u = lprod super u * peval H1 u)).
        - apply osum_poly_u.
        - apply (polyfun_ext _ (fun u => peval H1 u * lprod super u)); [intros; fring|]. apply polyfun_mul; [|apply lprod_poly]. apply polyfun_peval. exact L1.
        - eapply many_mono; [| |exact Hu]; [pose proof (gs_super_length _ _ _ Hg); lia|]. intros u (z & H2 & L2 & Hs).
          assert (E : forall s, (s - u) * peval H2 s * z = osum (fun c => peval (P c) s) y v u - lprod super u * peval H1 s).
          { apply (many_eq (S n) (fun s => (s - u) * peval H2 s * z = osum (fun c => peval (P c) s) y v u - lprod super u * peval H1 s)).
            - apply (polyfun_ext _ (fun s => z * ((s - u) * peval H2 s))); [intros; fring|]. apply polyfun_scale, polyfun_lin, polyfun_peval. exact L2.
            - apply polyfun_sub; [apply osum_poly_s|]. apply polyfun_scale, polyfun_peval. lia.
            - exact Hs.
            - auto. }
          specialize (E u). apply fsub_eq. rewrite <- E. fring.
        - auto. }
      specialize (E pt). unfold opening_sum in E. unfold inner. etransitivity; [exact E|].
      rewrite (proj2 (lprod_zero super pt)); [fring|]. apply I, Ip.
    - auto.
    - apply in_map_iff. exists st. auto. }
  assert (Z2 : many (length qs) (fun y => peval (inner st) y = f0)).
  { eapply many_mono; [apply le_n| |exact Z1]. intros y E. cbv beta in E. apply Fr_mul_eq_0 in E. destruct E as [E|E]; [|exact E].
    apply lprod_zero, diffs_in in E. tauto. }
  assert (Z3 : peval (P c) pt - peval (interp_of (rs_points st) es) pt = f0).
  { apply (many_zeros (fun y => peval (inner st) y = f0) (inner st)).
    - unfold inner. rewrite map_length. eapply many_mono; [exact Lc| |exact Z2]. auto.
    - auto.
    - unfold inner. apply in_map_iff. exists (c, es). auto. }
  apply fsub_eq in Z3. rewrite Z3. apply (In_nth _ _ f0) in Ip. destruct Ip as (i & Hi & <-).
  destruct (interp_of_is _ es N Le) as (_ & _ & V). etransitivity; [apply V, Hi|].
  exact (Hd _ _ _ _ (Hes i Hi) Iq).
Qed.
End Algebra.

Section Sound.
Context {G G2 T : Type}.
Variables (zero : G) (add sub : G -> G -> G) (scale : Fr -> G -> G) (gen : G).
Variables (scale2 : Fr -> G2 -> G2) (gen2 : G2).
Hypothesis M : is_module zero add sub scale.
Hypothesis gen_nz : gen <> zero.
Variable pairing_check : G -> G2 -> G -> G2 -> bool.
Hypothesis Hp : forall s l r, pairing_check l (scale2 s gen2) r gen2 = true <-> scale s l = r.
Variable same : T -> T -> bool.
Hypothesis same_eq : forall a b, same a b = true <-> a = b.
Notation setup := (setup scale gen scale2 gen2).
Notation verify := (fun com => shplonk_verify same com zero add pairing_check).

Lemma setup_gen k s p : (0 <= k <= 28)%Z -> setup k s = Ok p -> (exists rest, sr_g p = gen :: rest) /\ sr_s_g2 p = scale2 s gen2 /\ sr_g2 p = gen2.
Proof.
  intros Hk E. destruct (fe_dec (fpow s (2 ^ k)) f1) as [C|C]; [rewrite setup_panics in E by assumption; discriminate|].
  rewrite setup_ok in E by assumption. injection E as <-. cbn [sr_g sr_s_g2 sr_g2]. split; [|auto].
  assert (0 < 2 ^ k)%Z by (apply Z.pow_pos_nonneg; lia). destruct (Z.to_nat (2 ^ k)) as [|m] eqn:Em; [lia|].
  cbn [seq map]. eexists. f_equal. apply (mod_one_scale _ _ _ _ M).
Qed.
Theorem openings_bind_any k (P : T -> list Fr) (qs : list (query T)) :
  (0 <= k <= 28)%Z -> (forall c, lenZ (P c) <= 2 ^ k)%Z -> (forall c pt e e', In (c, pt, e) qs -> In (c, pt, e') qs -> e = e') ->
  many (length qs) (fun y => many (length qs) (fun v => exists H1, many (Z.to_nat (2 ^ k) + length qs) (fun u => exists H2,
    many (Z.to_nat (2 ^ k) + 1) (fun s => exists p commitment c1 c2, setup k s = Ok p /\ (forall c, commit zero add p (P c) = Ok (ref_value zero add scale (commitment c))) /\ commit zero add p H1 = Ok c1 /\ commit zero add p H2 = Ok c2 /\
      verify commitment p qs y v c1 u c2 = Ok true)))) ->
  forall c pt e, In (c, pt, e) qs -> peval (P c) pt = e.
Proof.
  intros Hk HP Hd HM c pt e Iq. assert (Hq : qs <> []) by (intros ->; destruct Iq).
  assert (Lq : (1 <= length qs)%nat) by (destruct qs; [congruence|cbn; lia]).
  destruct (intermediate_ok same same_eq qs) as (sets & super & Ei & Hg).
  set (n := Z.to_nat (2 ^ k)) in *. assert (Hn : Z.of_nat n = (2 ^ k)%Z) by (apply pow2_nat; lia).
  assert (CL : forall s p H x, setup k s = Ok p -> commit zero add p H = Ok x -> (length H <= n)%nat /\ x = scale (peval H s) gen).
  { intros s p H x Es Ec. pose proof (commit_spec zero add sub scale gen scale2 gen2 M k s p H Hk Es) as Q. rewrite comb_peval in Q. rewrite Ec in Q.
    destruct (Z.leb_spec (lenZ H) (2 ^ k)) as [Le|Le]; [|discriminate]. injection Q as ->. split; [unfold lenZ in Le; lia|reflexivity]. }
  apply (algebra_sound P qs sets super Hg Hd n); [intros c0; specialize (HP c0); unfold lenZ in HP; unfold Fr in *; lia| |exact Iq].
  eapply many_mono; [apply le_n| |exact HM]. intros y Hv. eapply many_mono; [apply le_n| |exact Hv]. intros v (H1 & Hu).
  exists H1. split.
  { destruct (many_one (n + length qs) _ ltac:(lia) Hu) as (u & H2 & Hs). destruct (many_one (n + 1) _ ltac:(lia) Hs) as (s & p & cmt & c1 & c2 & Es & _ & E1 & _). eapply CL; eassumption. }
  eapply many_mono; [apply le_n| |exact Hu]. intros u (H2 & Hs).
  exists (lprod (diffs super (hd (RSet [] []) sets)) u), H2. split.
  { destruct (many_one (n + 1) _ ltac:(lia) Hs) as (s & p & cmt & c1 & c2 & Es & _ & _ & E2 & _). eapply CL; eassumption. }
  eapply many_mono; [| |exact Hs]; [lia|]. intros s (p & commitment & c1 & c2 & Es & Hc & E1 & E2 & V).
  destruct (CL _ _ _ _ Es E1) as [_ ->]. destruct (CL _ _ _ _ Es E2) as [_ ->].
  destruct (setup_gen k s p Hk Es) as (Eg & Es2 & Eg2).
  assert (Hc2 : forall c0, ref_value zero add scale (commitment c0) = scale (peval (P c0) s) gen).
  { intros c0. destruct (CL _ _ _ _ Es (Hc c0)) as [_ ->]. reflexivity. }
  assert (Hp2 : forall l r, pairing_check l (sr_s_g2 p) r (sr_g2 p) = true <-> scale s l = r) by (rewrite Es2, Eg2; apply Hp).
  destruct (verify_is zero add sub scale gen M commitment (fun c => peval (P c) s) Hc2 same pairing_check p s qs y v
     (peval H1 s) u (peval H2 s) sets super Eg Hp2 Ei Hg Hq) as (s0 & rest & -> & Q).
  cbv zeta in Q. cbn [hd]. destruct (feqb (lprod (diffs super s0) u) f0).
  - rewrite Q in V. discriminate.
  - destruct Q as (b & Eb & Hb). rewrite Eb in V. injection V as ->. apply Hb; [exact gen_nz|reflexivity].
Qed.
Theorem openings_bind k (P : T -> list Fr) (commitment : srs G G2 -> T -> reference G) (qs : list (query T)) :
  (0 <= k <= 28)%Z -> (forall c, lenZ (P c) <= 2 ^ k)%Z -> (forall c pt e e', In (c, pt, e) qs -> In (c, pt, e') qs -> e = e') ->
  (forall s p c, setup k s = Ok p -> commit zero add p (P c) = Ok (ref_value zero add scale (commitment p c))) ->
  many (length qs) (fun y => many (length qs) (fun v => exists H1, many (Z.to_nat (2 ^ k) + length qs) (fun u => exists H2,
    many (Z.to_nat (2 ^ k) + 1) (fun s => exists p c1 c2, setup k s = Ok p /\ commit zero add p H1 = Ok c1 /\ commit zero add p H2 = Ok c2 /\
      verify (commitment p) p qs y v c1 u c2 = Ok true)))) ->
  forall c pt e, In (c, pt, e) qs -> peval (P c) pt = e.
Proof.
  intros Hk HP Hd Hc HM. apply (openings_bind_any k P qs Hk HP Hd).
  eapply many_mono; [apply le_n| |exact HM]. intros y Hv. eapply many_mono; [apply le_n| |exact Hv]. intros v (H1 & Hu). exists H1.
  eapply many_mono; [apply le_n| |exact Hu]. intros u (H2 & Hs). exists H2.
  eapply many_mono; [apply le_n| |exact Hs]. intros s (p & c1 & c2 & Es & E). exists p, (commitment p), c1, c2. split; [exact Es|]. split; [|exact E].
  intros c0. exact (Hc s p c0 Es).
Qed.
End Sound.
