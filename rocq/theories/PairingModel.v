(** The pairing of bn256: halo2curves/src/bn256/engine.rs.

    As in TowerModel the functions are written over the operations of the base
    field, the tables of constants are a parameter.  [Panic] stands for an
    [unwrap] on [None] and for the failing [assert_eq!]. *)
From Coq Require Import List Bool ZArith.
From Verif Require Import Base LimbModel CurveModel TowerModel.
Import ListNotations.

(** BN_X :19 *)
Definition bn_x : Z := 4965661367192848881.
(** SIX_U_PLUS_2_NAF :22-26 *)
Definition six_u_plus_2_naf : list Z :=
  [0; 0; 0; 1; 0; 1; 0; -1; 0; 0; 1; -1; 0; 0; 1; 0; 0; 1; 1; 0; -1; 0; 0; 1; 0; -1; 0; 0; 0; 0;
   1; 1; 1; 0; 0; -1; 0; 0; 1; 0; 0; 0; 0; 0; -1; 0; 0; 1; 1; 0; 0; -1; 0; 0; 0; 1; 1; 0; -1; 0;
   0; 1; 0; 1; 1]%Z.
(** [for i in (1..SIX_U_PLUS_2_NAF.len()).rev()] with x = SIX_U_PLUS_2_NAF[i - 1]
    :416-419, :588-596: all digits but the last, from the end *)
Definition loop_digits : list Z := rev (removelast six_u_plus_2_naf).

(** (Fq2, Fq2, Fq2) *)
Record line (F : Type) := Line { l0 : ext2 F; l1 : ext2 F; l2 : ext2 F }.
Arguments Line {F}. Arguments l0 {F}. Arguments l1 {F}. Arguments l2 {F}.
(** G2Prepared :206-210 *)
Record prepared (F : Type) := Prepared { coeffs : list (line F); infinity : bool }.
Arguments Prepared {F}. Arguments coeffs {F}. Arguments infinity {F}.

Section Pairing.
Context {F : Type}.
Variables (K : base F) (t : tables F).
Local Notation E := (ext2 F).
Local Notation E12 := (ext2 (ext3 (ext2 F))).
Local Notation K2 := (f2_base K).
Local Notation "x + y" := (f2_add K x y).
Local Notation "x - y" := (f2_sub K x y).
Local Notation "x @ y" := (f2_mul_assign K x y) (at level 40).
Local Notation "- x" := (f2_neg K x).
Local Notation sq := (f2_square_assign K).
Local Notation dbl := (f2_double K).

(** Gt :61-100: the identity, double; neg :102-121; add :123-130; sub :132-139 *)
Definition gt_identity : E12 := f12_one K.
Definition gt_double (s : E12) : E12 := f12_square_assign K s.
Definition gt_neg (s : E12) : E12 := f12_conjugate K s.
Definition gt_add (s o : E12) : E12 := f12_mul K s o.
Definition gt_sub (s o : E12) : E12 := gt_add s (gt_neg o).
(** Mul by a scalar, given by the bytes of its [to_repr], :141-160; the first bit is skipped *)
Definition gt_mul (s : E12) (repr : list Z) : E12 :=
  fold_left (fun acc (bit : bool) => let acc := gt_double acc in if bit then gt_add acc s else acc) (skipn 1 (scalar_bits repr)) gt_identity.
(** Sum :169-179, is_identity :196-198 *)
Definition gt_sum (l : list E12) : E12 := fold_left gt_add l gt_identity.
Definition gt_is_identity (s : E12) : bool := f12_eqb K s gt_identity.

(** doubling_step :225-300 *)
Definition doubling_step (r : jac E) : jac E * line F :=
  let tmp0 := sq (jx r) in
  let tmp1 := sq (jy r) in
  let tmp2 := sq tmp1 in
  let tmp3 := dbl (sq (tmp1 + jx r) - tmp0 - tmp2) in
  let tmp4 := dbl tmp0 + tmp0 in
  let tmp6 := jx r + tmp4 in
  let tmp5 := sq tmp4 in
  let zsquared := sq (jz r) in
  let rx := tmp5 - tmp3 - tmp3 in
  let rz := sq (jz r + jy r) - tmp1 - zsquared in
  let ry := (tmp3 - rx) @ tmp4 in
  let tmp2 := dbl (dbl (dbl tmp2)) in
  let ry := ry - tmp2 in
  let tmp3 := - dbl (tmp4 @ zsquared) in
  let tmp6 := sq tmp6 - tmp0 - tmp5 in
  let tmp1 := dbl (dbl tmp1) in
  let tmp6 := tmp6 - tmp1 in
  let tmp0 := dbl (rz @ zsquared) in
  (Jac rx ry rz, Line tmp0 tmp3 tmp6).
(** addition_step :302-408 *)
Definition addition_step (r : jac E) (q : aff E) : jac E * line F :=
  let zsquared := sq (jz r) in
  let ysquared := sq (ay q) in
  let t0 := zsquared @ ax q in
  let t1 := (sq (ay q + jz r) - ysquared - zsquared) @ zsquared in
  let t2 := t0 - jx r in
  let t3 := sq t2 in
  let t4 := dbl (dbl t3) in
  let t5 := t4 @ t2 in
  let t6 := t1 - jy r - jy r in
  let t9 := t6 @ ax q in
  let t7 := t4 @ jx r in
  let rx := sq t6 - t5 - t7 - t7 in
  let rz := sq (jz r + t2) - zsquared - t3 in
  let t10 := ay q + rz in
  let t8 := (t7 - rx) @ t6 in
  let t0 := dbl (jy r @ t5) in
  let ry := t8 - t0 in
  let t10 := sq t10 - ysquared in
  let ztsquared := sq rz in
  let t10 := t10 - ztsquared in
  let t9 := dbl t9 - t10 in
  let t10 := dbl rz in
  let t6 := - t6 in
  let t1 := dbl t6 in
  (Jac rx ry rz, Line t10 t1 t9).
(** the loop :416-428: the coefficients pushed and the point *)
Fixpoint prepare_loop (q negq : aff E) (digits : list Z) (r : jac E) : list (line F) * jac E :=
  match digits with
  | [] => ([], r)
  | x :: digits =>
      let (r, l) := doubling_step r in
      if Z.eqb x 1 then let (r, l') := addition_step r q in let (ls, r) := prepare_loop q negq digits r in (l :: l' :: ls, r)
      else if Z.eqb x (-1) then let (r, l') := addition_step r negq in let (ls, r) := prepare_loop q negq digits r in (l :: l' :: ls, r)
      else let (ls, r) := prepare_loop q negq digits r in (l :: ls, r)
  end.
(** from_affine :217-449 *)
Definition from_affine (q : aff E) : prepared F :=
  if aff_is_identity K2 q then Prepared [] true
  else
    let (ls, r) := prepare_loop q (aff_neg K2 q) loop_digits (aff_to_curve K2 q) in
    let q1 := Aff (f2_conjugate K (ax q) @ nth 1 (t_6a t) (f2_zero K)) (f2_conjugate K (ay q) @ t_half t) in
    let (r, l) := addition_step r q1 in
    let minusq2 := Aff (ax q @ nth 2 (t_6a t) (f2_zero K)) (ay q) in
    let (r, l') := addition_step r minusq2 in
    Prepared (ls ++ [l; l']) false.

(** exp_by_x :462-471 *)
Definition exp_by_x (f : E12) : E12 :=
  fold_left (fun res i => let res := f12_cyclotomic_square K res in if Z.testbit bn_x (Z.of_nat i) then f12_mul_assign K res f else res) (rev (seq 0 64)) (f12_one K).
(** final_exponentiation :458-560 *)
Definition final_exponentiation (s : E12) : res E12 :=
  let f1 := f12_conjugate K s in
  match f12_invert K s with
  | None => Panic
  | Some f2 =>
      let r := f12_mul_assign K f1 f2 in
      let f2 := r in
      let r := frob12 K t 2 r in
      let r := f12_mul_assign K r f2 in
      let fp := frob12 K t 1 r in
      let fp2 := frob12 K t 2 r in
      let fp3 := frob12 K t 1 fp2 in
      let fu := exp_by_x r in
      let fu2 := exp_by_x fu in
      let fu3 := exp_by_x fu2 in
      let y3 := frob12 K t 1 fu in
      let fu2p := frob12 K t 1 fu2 in
      let fu3p := frob12 K t 1 fu3 in
      let y2 := frob12 K t 2 fu2 in
      let y0 := f12_mul_assign K (f12_mul_assign K fp fp2) fp3 in
      let y1 := f12_conjugate K r in
      let y5 := f12_conjugate K fu2 in
      let y3 := f12_conjugate K y3 in
      let y4 := f12_conjugate K (f12_mul_assign K fu fu2p) in
      let y6 := f12_conjugate K (f12_mul_assign K fu3 fu3p) in
      let y6 := f12_mul_assign K (f12_mul_assign K (f12_cyclotomic_square K y6) y4) y5 in
      let t1 := f12_mul_assign K (f12_mul_assign K y3 y5) y6 in
      let y6 := f12_mul_assign K y6 y2 in
      let t1 := f12_mul_assign K (f12_cyclotomic_square K t1) y6 in
      let t1 := f12_cyclotomic_square K t1 in
      let t0 := f12_mul_assign K t1 y1 in
      let t1 := f12_mul_assign K t1 y0 in
      let t0 := f12_mul_assign K (f12_cyclotomic_square K t0) t1 in
      Ok t0
  end.

(** ell :572-584 *)
Definition ell (f : E12) (c : line F) (p : aff F) : E12 :=
  let c0 := Ext2 (bmul K (e0 (l0 c)) (ay p)) (bmul K (e1 (l0 c)) (ay p)) in
  let c1 := Ext2 (bmul K (e0 (l1 c)) (ax p)) (bmul K (e1 (l1 c)) (ax p)) in
  f12_mul_by_034 K f c0 c1 (l2 c).
(** [for &mut (p, ref mut coeffs) in &mut pairs { ell(&mut f, coeffs.next().unwrap(), p); }] *)
Fixpoint ell_all (f : E12) (pairs : list (aff F * list (line F))) : res (E12 * list (aff F * list (line F))) :=
  match pairs with
  | [] => Ok (f, [])
  | (p, []) :: _ => Panic
  | (p, c :: cs) :: rest =>
      match ell_all (ell f c p) rest with Ok (f, rest) => Ok (f, (p, cs) :: rest) | Panic => Panic end
  end.
(** the loop :588-611; [first] is i = SIX_U_PLUS_2_NAF.len() - 1 *)
Fixpoint miller_loop (digits : list Z) (first : bool) (f : E12) (pairs : list (aff F * list (line F))) : res (E12 * list (aff F * list (line F))) :=
  match digits with
  | [] => Ok (f, pairs)
  | x :: digits =>
      let f := if first then f else f12_square_assign K f in
      match ell_all f pairs with
      | Ok (f, pairs) =>
          if Z.eqb x 1 || Z.eqb x (-1) then
            match ell_all f pairs with Ok (f, pairs) => miller_loop digits false f pairs | Panic => Panic end
          else miller_loop digits false f pairs
      | Panic => Panic
      end
  end.
(** multi_miller_loop :563-624 *)
Definition multi_miller_loop (terms : list (aff F * prepared F)) : res E12 :=
  let pairs := map (fun pq => (fst pq, coeffs (snd pq))) (filter (fun pq => negb (aff_is_identity K (fst pq)) && negb (infinity (snd pq))) terms) in
  match miller_loop loop_digits true (f12_one K) pairs with
  | Ok (f, pairs) =>
      match ell_all f pairs with
      | Ok (f, pairs) =>
          match ell_all f pairs with
          | Ok (f, pairs) => if forallb (fun pc => match snd pc with [] => true | _ => false end) pairs then Ok f else Panic
          | Panic => Panic
          end
      | Panic => Panic
      end
  | Panic => Panic
  end.
(** pairing :626-631 *)
Definition pairing (g1 : aff F) (g2 : aff E) : res E12 :=
  match multi_miller_loop [(g1, from_affine g2)] with Ok u => final_exponentiation u | Panic => Panic end.
End Pairing.
