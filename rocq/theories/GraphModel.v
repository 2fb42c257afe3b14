(** The prover's evaluation of the constraints
    (halo2_proofs/src/plonk/evaluation.rs): expressions are compiled to a graph of
    calculations, which is run for every row of every shifted copy of the domain.

    Simplifications:
    - one proof per call; the loops over circuits are dropped;
    - a value is computed for one row through all stages; the code runs a stage
      over all rows before the next one;
    - every row starts with fresh intermediate values; the code reuses the vector,
      in which a calculation never reads an entry it has not written before;
    - [parallelize] applies its body to every element with its index;
    - [i32] arithmetic on rows and rotations does not overflow. *)
From Coq Require Import ZArith List Arith Bool.
From Verif Require Import Base Moduli Field Halo2Model SelectorModel DomainModel VkModel IopModel ArithModel.
Import ListNotations.

(** [get_rotation_idx] (plonk/evaluation.rs:32-34), [rot_scale] is 1 *)
Definition rotation_idx (size : nat) (idx : nat) (rot : Z) : nat :=
  Z.to_nat ((Z.of_nat idx + rot) mod Z.of_nat size)%Z.

(** ValueSource (plonk/evaluation.rs:38-61) *)
Inductive source :=
| SConst (i : nat) | SInter (i : nat)
| SFixed (col rot : nat) | SAdvice (col rot : nat) | SInstance (col rot : nat)
| SChallenge (i : nat)
| SBeta | SGamma | STheta | SY | SPrev.
(** the derived order: by constructor, then by fields *)
Definition source_key (s : source) : nat * nat * nat :=
  match s with
  | SConst i => (0, i, 0) | SInter i => (1, i, 0)
  | SFixed c r => (2, c, r) | SAdvice c r => (3, c, r) | SInstance c r => (4, c, r)
  | SChallenge i => (5, i, 0)
  | SBeta => (6, 0, 0) | SGamma => (7, 0, 0) | STheta => (8, 0, 0) | SY => (9, 0, 0) | SPrev => (10, 0, 0)
  end.
Definition source_eqb (a b : source) : bool :=
  let '(x, y, z) := source_key a in let '(x', y', z') := source_key b in
  (x =? x') && (y =? y') && (z =? z').
Definition source_leb (a b : source) : bool :=
  let '(x, y, z) := source_key a in let '(x', y', z') := source_key b in
  (x <? x') || (x =? x') && ((y <? y') || (y =? y') && (z <=? z')).

(** Calculation (plonk/evaluation.rs:110-127) *)
Inductive calculation :=
| CAdd (a b : source) | CSub (a b : source) | CMul (a b : source)
| CSquare (a : source) | CDouble (a : source) | CNegate (a : source)
| CHorner (start : source) (parts : list source) (factor : source)
| CStore (a : source).
Fixpoint sources_eqb (a b : list source) : bool :=
  match a, b with
  | [], [] => true
  | x :: a, y :: b => source_eqb x y && sources_eqb a b
  | _, _ => false
  end.
Definition calc_eqb (a b : calculation) : bool :=
  match a, b with
  | CAdd x y, CAdd x' y' | CSub x y, CSub x' y' | CMul x y, CMul x' y' => source_eqb x x' && source_eqb y y'
  | CSquare x, CSquare x' | CDouble x, CDouble x' | CNegate x, CNegate x' | CStore x, CStore x' => source_eqb x x'
  | CHorner s p f, CHorner s' p' f' => source_eqb s s' && sources_eqb p p' && source_eqb f f'
  | _, _ => false
  end.

(** GraphEvaluator, CalculationInfo (plonk/evaluation.rs:193-219): every
    calculation with its target *)
Record graph := Graph {
  g_constants : list Fr; g_rotations : list Z; g_calculations : list (calculation * nat); g_intermediates : nat }.
(** plonk/evaluation.rs:580-594 *)
Definition graph_default : graph := Graph [f0; f1; FrZ 2] [] [] 0.
(** plonk/evaluation.rs:598-608 *)
Definition add_rotation (r : Z) (g : graph) : nat * graph :=
  match position (Z.eqb r) (g_rotations g) with
  | Some i => (i, g)
  | None => (length (g_rotations g),
             Graph (g_constants g) (g_rotations g ++ [r]) (g_calculations g) (g_intermediates g))
  end.
(** plonk/evaluation.rs:610-620 *)
Definition add_constant (x : Fr) (g : graph) : source * graph :=
  match position (fun c => feqb c x) (g_constants g) with
  | Some i => (SConst i, g)
  | None => (SConst (length (g_constants g)),
             Graph (g_constants g ++ [x]) (g_rotations g) (g_calculations g) (g_intermediates g))
  end.
(** plonk/evaluation.rs:625-642 *)
Definition add_calculation (c : calculation) (g : graph) : source * graph :=
  match find (fun ct => calc_eqb (fst ct) c) (g_calculations g) with
  | Some ct => (SInter (snd ct), g)
  | None => (SInter (g_intermediates g),
             Graph (g_constants g) (g_rotations g) (g_calculations g ++ [(c, g_intermediates g)]) (S (g_intermediates g)))
  end.

Definition is_const (i : nat) (s : source) : bool := source_eqb s (SConst i).
(** [add_expression] (plonk/evaluation.rs:645-745); selectors are [unreachable!] *)
Fixpoint add_expression (e : expr) (g : graph) : res (source * graph) :=
  match e with
  | EConst x => Ok (add_constant x g)
  | ESelector _ => Panic
  | EFixed q => let (r, g) := add_rotation (q_rot q) g in Ok (add_calculation (CStore (SFixed (q_col q) r)) g)
  | EAdvice q _ => let (r, g) := add_rotation (q_rot q) g in Ok (add_calculation (CStore (SAdvice (q_col q) r)) g)
  | EInstance q => let (r, g) := add_rotation (q_rot q) g in Ok (add_calculation (CStore (SInstance (q_col q) r)) g)
  | EChallenge c => Ok (add_calculation (CStore (SChallenge (ch_index c))) g)
  | ENeg a =>
      match a with
      | EConst x => Ok (add_constant (- x)%F g)
      | _ => let! (ra, g) := add_expression a g in
             if is_const 0 ra then Ok (ra, g) else Ok (add_calculation (CNegate ra) g)
      end
  | ESum a b =>
      match b with
      | ENeg b =>
          let! (ra, g) := add_expression a g in
          let! (rb, g) := add_expression b g in
          if is_const 0 ra then Ok (add_calculation (CNegate rb) g)
          else if is_const 0 rb then Ok (ra, g)
          else Ok (add_calculation (CSub ra rb) g)
      | _ =>
          let! (ra, g) := add_expression a g in
          let! (rb, g) := add_expression b g in
          if is_const 0 ra then Ok (rb, g)
          else if is_const 0 rb then Ok (ra, g)
          else if source_leb ra rb then Ok (add_calculation (CAdd ra rb) g)
          else Ok (add_calculation (CAdd rb ra) g)
      end
  | EProd a b =>
      let! (ra, g) := add_expression a g in
      let! (rb, g) := add_expression b g in
      if is_const 0 ra || is_const 0 rb then Ok (SConst 0, g)
      else if is_const 1 ra then Ok (rb, g)
      else if is_const 1 rb then Ok (ra, g)
      else if is_const 2 ra then Ok (add_calculation (CDouble rb) g)
      else if is_const 2 rb then Ok (add_calculation (CDouble ra) g)
      else if source_eqb ra rb then Ok (add_calculation (CSquare ra) g)
      else if source_leb ra rb then Ok (add_calculation (CMul ra rb) g)
      else Ok (add_calculation (CMul rb ra) g)
  | EScaled a f =>
      if feqb f f0 then Ok (SConst 0, g)
      else if feqb f f1 then add_expression a g
      else
        let (cst, g) := add_constant f g in
        let! (ra, g) := add_expression a g in
        Ok (add_calculation (CMul ra cst) g)
  end.
Fixpoint add_expressions (es : list expr) (g : graph) : res (list source * graph) :=
  match es with
  | [] => Ok ([], g)
  | e :: es => let! (s, g) := add_expression e g in let! (ss, g) := add_expressions es g in Ok (s :: ss, g)
  end.

(** Evaluator, [Evaluator::new] (plonk/evaluation.rs:184-191, 222-277) *)
Record evaluator := Evaluator { ev_gates : graph; ev_lookup_graphs : list graph }.
Definition lookup_graph (l : list expr * list expr) : res graph :=
  let! (inputs, g) := add_expressions (fst l) graph_default in
  let (input, g) := add_calculation (CHorner (SConst 0) inputs STheta) g in
  let! (tables, g) := add_expressions (snd l) g in
  let (table, g) := add_calculation (CHorner (SConst 0) tables STheta) g in
  let (right_gamma, g) := add_calculation (CAdd table SGamma) g in
  let (lc, g) := add_calculation (CAdd input SBeta) g in
  Ok (snd (add_calculation (CMul lc right_gamma) g)).
Definition evaluator_new (c : cs) : res evaluator :=
  let! (parts, g) := add_expressions (concat (gates c)) graph_default in
  let! ls := rmap lookup_graph (lookups c) in
  Ok (Evaluator (snd (add_calculation (CHorner SPrev parts SY) g)) ls).

(** ** Running a graph *)

(** the columns and challenges a graph is run with *)
Record env := Env {
  en_fixed : list (list Fr); en_advice : list (list Fr); en_instance : list (list Fr);
  en_challenges : list Fr; en_beta : Fr; en_gamma : Fr; en_theta : Fr; en_y : Fr }.
Definition cell (cols : list (list Fr)) (col row : nat) : res Fr := let! c := at_ cols col in at_ c row.
(** ValueSource::get (plonk/evaluation.rs:71-106); indexing panics *)
Definition get_source (E : env) (prev : Fr) (rotations : list nat) (constants inter : list Fr) (s : source) : res Fr :=
  match s with
  | SConst i => at_ constants i
  | SInter i => at_ inter i
  | SFixed c r => let! r := at_ rotations r in cell (en_fixed E) c r
  | SAdvice c r => let! r := at_ rotations r in cell (en_advice E) c r
  | SInstance c r => let! r := at_ rotations r in cell (en_instance E) c r
  | SChallenge i => at_ (en_challenges E) i
  | SBeta => Ok (en_beta E) | SGamma => Ok (en_gamma E) | STheta => Ok (en_theta E) | SY => Ok (en_y E)
  | SPrev => Ok prev
  end.
(** Calculation::evaluate (plonk/evaluation.rs:131-181) *)
Definition calculate (get : source -> res Fr) (c : calculation) : res Fr :=
  match c with
  | CAdd a b => let! a := get a in let! b := get b in Ok (a + b)%F
  | CSub a b => let! a := get a in let! b := get b in Ok (a - b)%F
  | CMul a b => let! a := get a in let! b := get b in Ok (a * b)%F
  | CSquare a => let! a := get a in Ok (a * a)%F
  | CDouble a => let! a := get a in Ok (a + a)%F
  | CNegate a => let! a := get a in Ok (- a)%F
  | CHorner start parts factor =>
      let! factor := get factor in
      let! value := get start in
      let! ps := rmap get parts in
      Ok (fold_left (fun value p => (value * factor + p)%F) ps value)
  | CStore a => get a
  end.
(** the loop over the calculations (plonk/evaluation.rs:776-791) *)
Fixpoint run_calculations (E : env) (prev : Fr) (rotations : list nat) (constants : list Fr)
    (cs : list (calculation * nat)) (inter : list Fr) : res (list Fr) :=
  match cs with
  | [] => Ok inter
  | (c, t) :: cs =>
      let! x := calculate (get_source E prev rotations constants inter) c in
      let! inter := aset inter t x in
      run_calculations E prev rotations constants cs inter
  end.
(** GraphEvaluator::evaluate (plonk/evaluation.rs:755-799), with a fresh
    [instance] (747-753); the value of the last calculation is returned *)
Definition graph_evaluate (g : graph) (E : env) (prev : Fr) (size idx : nat) : res Fr :=
  let rotations := map (rotation_idx size idx) (g_rotations g) in
  let! inter := run_calculations E prev rotations (g_constants g) (g_calculations g) (repeat f0 (g_intermediates g)) in
  match rev (g_calculations g) with
  | (_, t) :: _ => at_ inter t
  | [] => Ok f0
  end.
(** the closures of the simple [evaluate] (plonk/evaluation.rs:804-842) *)
Definition simple_evaluate (E : env) (size idx : nat) : expr -> res Fr :=
  evaluate (fun c => Ok c) (fun _ => Panic)
    (fun q => cell (en_fixed E) (q_col q) (rotation_idx size idx (q_rot q)))
    (fun q _ => cell (en_advice E) (q_col q) (rotation_idx size idx (q_rot q)))
    (fun q => cell (en_instance E) (q_col q) (rotation_idx size idx (q_rot q)))
    (fun c => at_ (en_challenges E) (ch_index c))
    (lift1 fopp) (lift2 fadd) (lift2 fmul) (fun a s => lift1 (fun a => (a * s)%F) a).

(** ** The numerator of the quotient *)

(** what [evaluate_h] reads of the proving key (plonk.rs:250-259) *)
Record pkey := PKey {
  pk_vk : vkey; pk_l0 : list Fr; pk_l_last : list Fr; pk_l_active_row : list Fr;
  pk_fixed_values : list (list Fr); pk_fixed_polys : list (list Fr);
  pk_permutations : list (list Fr); pk_sigma_polys : list (list Fr); pk_ev : evaluator }.
(** lookup::prover::Committed (plonk/lookup/prover.rs:43-50) without blinds *)
Record lookup_polys := LPolys { lp_product : list Fr; lp_input : list Fr; lp_table : list Fr }.

(** the products of a set (plonk/evaluation.rs:449-484): the new value and
    [current_delta] *)
Fixpoint set_left (idx : nat) (beta gamma : Fr) (cols sigma : list (list Fr)) (lhs : Fr) : res Fr :=
  match cols, sigma with
  | c :: cols, s :: sigma =>
      let! x := at_ c idx in let! p := at_ s idx in
      set_left idx beta gamma cols sigma (lhs * (x + beta * p + gamma))%F
  | _, _ => Ok lhs
  end.
Fixpoint set_right (idx : nat) (gamma : Fr) (cols : list (list Fr)) (rhs delta : Fr) : res (Fr * Fr) :=
  match cols with
  | [] => Ok (rhs, delta)
  | c :: cols => let! x := at_ c idx in set_right idx gamma cols (rhs * (x + delta + gamma))%F (delta * DELTA)%F
  end.
Definition env_column (E : env) (c : column) : res (list Fr) :=
  match c with
  | CAdvice a => at_ (en_advice E) (ac_index a)
  | CFixed i => at_ (en_fixed E) i
  | CInstance i => at_ (en_instance E) i
  end.
Fixpoint set_products (E : env) (idx r_next : nat) (active : Fr) (cols : list (list column)) (zs : list (list Fr))
    (sigma : list (list (list Fr))) (delta value : Fr) : res Fr :=
  match cols, zs, sigma with
  | cs :: cols, z :: zs, sg :: sigma =>
      let! lhs := at_ z r_next in
      let! cs := rmap (env_column E) cs in
      let! lhs := set_left idx (en_beta E) (en_gamma E) cs sg lhs in
      let! rhs := at_ z idx in
      let! (rhs, delta) := set_right idx (en_gamma E) cs rhs delta in
      set_products E idx r_next active cols zs sigma delta (value * en_y E + (lhs - rhs) * active)%F
  | _, _, _ => Ok value
  end.
(** the links between the sets (plonk/evaluation.rs:433-442) *)
Fixpoint set_links (E : env) (idx r_last : nat) (l0 : Fr) (before : list Fr) (zs : list (list Fr)) (value : Fr) : res Fr :=
  match zs with
  | [] => Ok value
  | z :: zs =>
      let! x := at_ z idx in let! p := at_ before r_last in
      set_links E idx r_last l0 z zs (value * en_y E + (x - p) * l0)%F
  end.
(** the permutation (plonk/evaluation.rs:378-488); [part] is
    [current_extended_omega] *)
Definition perm_value (v : vkey) (E : env) (size idx : nat) (part l0 l_last active : Fr) (zs sigma : list (list Fr))
    (value : Fr) : res Fr :=
  match zs with
  | [] => Ok value
  | z0 :: rest =>
      let r_next := rotation_idx size idx 1 in
      let r_last := rotation_idx size idx (- (Z.of_nat (blinding_factors (vk_cs v)) + 1)) in
      let clen := (cs_degree (vk_cs v) - 2)%nat in
      let beta_term := (part * pow_vartime (d_omega (vk_domain v)) (Z.of_nat idx))%F in
      let! first := at_ z0 idx in
      let value := (value * en_y E + (f1 - first) * l0)%F in
      let! last := at_ (last zs []) idx in
      let value := (value * en_y E + (last * last - last) * l_last)%F in
      let! value := set_links E idx r_last l0 z0 rest value in
      set_products E idx r_next active (chunks clen (perm_columns (vk_cs v))) zs (chunks clen sigma)
        (en_beta E * ZETA * beta_term)%F value
  end.
(** one lookup (plonk/evaluation.rs:491-569) *)
Definition lookup_value (E : env) (size idx : nat) (l0 l_last active : Fr) (g : graph) (p : lookup_polys) (value : Fr) : res Fr :=
  let! table_value := graph_evaluate g E f0 size idx in
  let y := en_y E in
  let r_next := rotation_idx size idx 1 in
  let r_prev := rotation_idx size idx (-1) in
  let! a := at_ (lp_input p) idx in
  let! t := at_ (lp_table p) idx in
  let! z := at_ (lp_product p) idx in
  let! z_next := at_ (lp_product p) r_next in
  let! a_prev := at_ (lp_input p) r_prev in
  let a_minus_s := (a - t)%F in
  let value := (value * y + (f1 - z) * l0)%F in
  let value := (value * y + (z * z - z) * l_last)%F in
  let value := (value * y + (z_next * (a + en_beta E) * (t + en_gamma E) - z * table_value) * active)%F in
  let value := (value * y + a_minus_s * l0)%F in
  Ok (value * y + a_minus_s * (a - a_prev) * active)%F.
Fixpoint lookup_values (E : env) (size idx : nat) (l0 l_last active : Fr) (gs : list graph) (ps : list lookup_polys) (value : Fr) : res Fr :=
  match ps with
  | [] => Ok value
  | p :: ps =>
      match gs with
      | [] => Panic
      | g :: gs => let! value := lookup_value E size idx l0 l_last active g p value in
                   lookup_values E size idx l0 l_last active gs ps value
      end
  end.

(** one shifted copy of the domain (plonk/evaluation.rs:306-573) *)
Definition to_part (d : domain) (factor : Fr) (p : list Fr) : res (list Fr) := coeff_to_extended_part fadd fsub fmul d p factor.
Definition h_part (pk : pkey) (advice instance : list (list Fr)) (challenges : list Fr) (y beta gamma theta : Fr)
    (lookups : list lookup_polys) (sets : list (list Fr)) (part : Fr) : res (list Fr) :=
  let v := pk_vk pk in
  let d := vk_domain v in
  let size := Z.to_nat (2 ^ d_k d) in
  let! fixed := rmap (to_part d part) (pk_fixed_polys pk) in
  let! l0 := to_part d part (pk_l0 pk) in
  let! l_last := to_part d part (pk_l_last pk) in
  let! active := to_part d part (pk_l_active_row pk) in
  let! advice := rmap (to_part d part) advice in
  let! instance := rmap (to_part d part) instance in
  let! zs := rmap (to_part d part) sets in
  let! sigma := (match sets with [] => Ok [] | _ => rmap (to_part d part) (pk_sigma_polys pk) end) in
  let! lks := rmap (fun l => let! z := to_part d part (lp_product l) in let! a := to_part d part (lp_input l) in
                             let! t := to_part d part (lp_table l) in Ok (LPolys z a t)) lookups in
  let E := Env fixed advice instance challenges beta gamma theta y in
  rmap (fun idx =>
    let! value := graph_evaluate (ev_gates (pk_ev pk)) E f0 size idx in
    let! l0 := at_ l0 idx in let! l_last := at_ l_last idx in let! active := at_ active idx in
    let! value := perm_value v E size idx part l0 l_last active zs sigma value in
    lookup_values E size idx l0 l_last active (ev_lookup_graphs (pk_ev pk)) lks value) (seq 0 size).
(** [evaluate_h] (plonk/evaluation.rs:280-577) *)
Fixpoint h_parts (count : nat) (f : Fr -> res (list Fr)) (omega part : Fr) : res (list (list Fr)) :=
  match count with
  | O => Ok []
  | S count => let! p := f part in let! ps := h_parts count f omega (part * omega)%F in Ok (p :: ps)
  end.
Definition evaluate_h (pk : pkey) (advice instance : list (list Fr)) (challenges : list Fr) (y beta gamma theta : Fr)
    (lookups : list lookup_polys) (sets : list (list Fr)) : res (list Fr) :=
  let d := vk_domain (pk_vk pk) in
  let! parts := h_parts (Z.to_nat (2 ^ (d_extended_k d - d_k d)))
    (h_part pk advice instance challenges y beta gamma theta lookups sets) (d_extended_omega d) f1 in
  extended_from_lagrange_vec f0 d parts.
