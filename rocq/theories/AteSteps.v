(** The steps of [from_affine] add points and give multiples of the lines. *)
From Coq Require Import List Bool Field_theory Field Ring ZArith Lia.
From Verif Require Import Base Moduli Field FieldFacts LimbModel CurveModel CurveSpec CurveLaw CurveFacts G1Group TowerModel TowerSpec TowerFacts PowerFacts TowerFq TowerFrob PairingModel G2Group.
Import ListNotations.
Definition fq2_field : field_theory (f2_zero K1) (f2_one K1) (f2_add K1) (f2_mul K1) (f2_sub K1) (f2_neg K1) (bdiv K2) (binv K2) eq := fd_field _ fq2_fld.
Add Field fq2ate : fq2_field.
Local Notation Fq2 := (ext2 Fq).
Local Notation "x + y" := (f2_add K1 x y).
Local Notation "x - y" := (f2_sub K1 x y).
Local Notation "x * y" := (f2_mul K1 x y).
Local Notation "x / y" := (bdiv K2 x y).
Local Notation "- x" := (f2_neg K1 x).
Local Notation O := (f2_zero K1).
Local Notation I := (f2_one K1).

Lemma two2 : I + I <> O. Proof. exact (base_two _ _ fq2_is_base). Qed.
Lemma nz_mul (x y : Fq2) : x <> O -> y <> O -> x * y <> O. Proof. exact (nonzero_mul K2 b2 fq2_is_base x y). Qed.
Lemma nz_sub (x y : Fq2) : x <> y -> x - y <> O. Proof. intros N E. apply N. exact (minus_zero K2 b2 fq2_is_base x y E). Qed.
(** k times the line through (x, y) with slope l *)
Definition line_is (c : PairingModel.line Fq) (x y l : Fq2) : Prop := exists k, k <> O /\ l0 c = k /\ l1 c = - (k * l) /\ l2 c = k * (l * x - y).
Ltac plain := rewrite ?(f2_mul_assign_mul K1 fq_fld), ?(f2_square_is K1 fq_fld), ?(f2_double_is K1).

Lemma doubling_is (r : jac Fq2) x y : jac_point K2 r = Point x y -> jz r <> O -> y <> O ->
  exists r' c, doubling_step K1 r = (r', c) /\ jz r' <> O /\ jac_point K2 r' = pplus K2 (Point x y) (Point x y) /\ line_is c x y (slope K2 x y x y).
Proof.
  intros J Z Y. rewrite (jac_finite K2 b2 fq2_is_base r Z) in J. injection J as JX JY. destruct r as [X Yj Zj]. cbn [jx jy jz] in *.
  change (bmul K2) with (f2_mul K1) in JX, JY.
  assert (EX : X = x * (Zj * Zj)) by (rewrite <- JX; field; exact Z). assert (EY : Yj = y * (Zj * Zj * Zj)) by (rewrite <- JY; field; exact Z). clear JX JY. subst X Yj.
  assert (S : slope K2 x y x y = (I + I + I) * (x * x) / ((I + I) * y)). { unfold slope. rewrite (proj2 (beq_true K2 b2 fq2_is_base x x) eq_refl). reflexivity. }
  assert (P : pplus K2 (Point x y) (Point x y) = let l := slope K2 x y x y in Point (l * l - x - x) (l * (x - (l * l - x - x)) - y)).
  { unfold pplus. replace (beqb K2 (badd K2 y y) (bzero K2)) with false; [rewrite andb_false_r; reflexivity|]. symmetry. apply (beq_false K2 b2 fq2_is_base). intros E. change (y + y = O) in E.
    refine (nz_mul _ _ two2 Y _). rewrite <- E. ring. }
  unfold doubling_step. cbv zeta. cbn [jx jy jz]. eexists. eexists. split; [reflexivity|].
  assert (NZ : (I + I) * (y * (Zj * Zj * Zj)) * Zj <> O) by (repeat apply nz_mul; auto using two2).
  assert (RZ : f2_square_assign K1 (Zj + y * (Zj * Zj * Zj)) - f2_square_assign K1 (y * (Zj * Zj * Zj)) - f2_square_assign K1 Zj = (I + I) * (y * (Zj * Zj * Zj)) * Zj) by (plain; ring).
  split; [|split].
  - cbn [jz]. rewrite RZ. exact NZ.
  - rewrite P. cbv zeta. rewrite S. apply (jac_is K2 b2 fq2_is_base); cbn [jx jy jz]; change (bmul K2) with (f2_mul K1); rewrite ?RZ; [exact NZ| |]; plain; field; auto using two2.
  - exists ((I + I) * ((I + I) * (y * (Zj * Zj * Zj)) * Zj) * (Zj * Zj)). cbn [l0 l1 l2]. rewrite RZ, S. split; [|split; [|split]].
    + repeat apply nz_mul; auto using two2.
    + plain. ring.
    + plain. field. auto using two2.
    + plain. field. auto using two2.
Qed.
Lemma addition_is (r : jac Fq2) (q : aff Fq2) x y : jac_point K2 r = Point x y -> jz r <> O -> x <> ax q ->
  exists r' c, addition_step K1 r q = (r', c) /\ jz r' <> O /\ jac_point K2 r' = pplus K2 (Point x y) (Point (ax q) (ay q)) /\ line_is c x y (slope K2 x y (ax q) (ay q)).
Proof.
  intros J Z Y. rewrite (jac_finite K2 b2 fq2_is_base r Z) in J. injection J as JX JY. destruct r as [X Yj Zj], q as [x2 y2]. cbn [jx jy jz ax ay] in *.
  change (bmul K2) with (f2_mul K1) in JX, JY.
  assert (EX : X = x * (Zj * Zj)) by (rewrite <- JX; field; exact Z). assert (EY : Yj = y * (Zj * Zj * Zj)) by (rewrite <- JY; field; exact Z). clear JX JY. subst X Yj.
  assert (S : slope K2 x y x2 y2 = (y2 - y) / (x2 - x)). { unfold slope. rewrite (proj2 (beq_false K2 b2 fq2_is_base x x2) Y). reflexivity. }
  assert (P : pplus K2 (Point x y) (Point x2 y2) = let l := slope K2 x y x2 y2 in Point (l * l - x - x2) (l * (x - (l * l - x - x2)) - y)).
  { unfold pplus. rewrite (proj2 (beq_false K2 b2 fq2_is_base x x2) Y). reflexivity. }
  assert (D : x2 - x <> O) by (apply nz_sub; intros E; apply Y; symmetry; exact E).
  unfold addition_step. cbv zeta. cbn [jx jy jz ax ay]. eexists. eexists. split; [reflexivity|]. cbn [jx jy jz].
  set (rz := f2_square_assign K1 (Zj + (f2_mul_assign K1 (f2_square_assign K1 Zj) x2 - x * (Zj * Zj))) - f2_square_assign K1 Zj - f2_square_assign K1 (f2_mul_assign K1 (f2_square_assign K1 Zj) x2 - x * (Zj * Zj))).
  assert (RZ : rz = (I + I) * (Zj * Zj * Zj) * (x2 - x)) by (unfold rz; plain; ring). clearbody rz. subst rz.
  assert (NZ : (I + I) * (Zj * Zj * Zj) * (x2 - x) <> O) by (repeat apply nz_mul; auto using two2).
  split; [exact NZ|split].
  - rewrite P. cbv zeta. rewrite S. apply (jac_is K2 b2 fq2_is_base); cbn [jx jy jz]; change (bmul K2) with (f2_mul K1); [exact NZ| |]; plain; field; auto using two2.
  - exists ((I + I) * ((I + I) * (Zj * Zj * Zj) * (x2 - x))). cbn [l0 l1 l2]. rewrite S. split; [|split; [|split]].
    + repeat apply nz_mul; auto using two2.
    + plain. ring.
    + plain. field. auto using two2.
    + plain. field. auto using two2.
Qed.
