(** The halo2 front end the circuit is written against: expressions, the
    constraint system and its query bookkeeping, regions and the single-pass
    floor planner, and the two [Assignment] back ends (key generation and
    witness collection).

    Simplifications:
    - gate and constraint names, annotations, [queried_selectors] and
      [queried_cells] are dropped (only the dev tooling reads them);
    - a field element is [Fr] (the only scalar field the project uses), a
      [Assigned] value is the field element it stands for;
    - [usize] is [nat], [Rotation] is [Z]; no [usize] computation here can
      overflow before memory is exhausted;
    - the operators on expressions are total; the panics they raise on simple
      selectors are re-checked by [well_built] when the expression is handed to
      [create_gate] or [lookup];
    - a region closure is the list of region operations it performs, with the
      values it computes; running it twice gives the same operations. *)
From Coq Require Import ZArith List Bool Arith.
From Verif Require Import Base Field.
Import ListNotations.

(** ** Columns, selectors, challenges (plonk/circuit.rs:60-330). *)
Record advice_col := ACol { ac_index : nat; ac_phase : nat }.
Inductive column := CAdvice (c : advice_col) | CFixed (i : nat) | CInstance (i : nat).
Record selector := Sel { sel_index : nat; sel_simple : bool }.
Record challenge := Chal { ch_index : nat; ch_phase : nat }.

Definition acol_eqb (a b : advice_col) : bool :=
  Nat.eqb (ac_index a) (ac_index b) && Nat.eqb (ac_phase a) (ac_phase b).
Definition column_eqb (a b : column) : bool :=
  match a, b with
  | CAdvice x, CAdvice y => acol_eqb x y
  | CFixed x, CFixed y => Nat.eqb x y
  | CInstance x, CInstance y => Nat.eqb x y
  | _, _ => false
  end.
Definition selector_eqb (a b : selector) : bool :=
  Nat.eqb (sel_index a) (sel_index b) && Bool.eqb (sel_simple a) (sel_simple b).

(** ** Expressions (plonk/circuit.rs:695-718). *)
Record query := Query { q_index : nat; q_col : nat; q_rot : Z }.
Inductive expr :=
| EConst (c : Fr)
| ESelector (s : selector)
| EFixed (q : query)
| EAdvice (q : query) (phase : nat)
| EInstance (q : query)
| EChallenge (c : challenge)
| ENeg (a : expr)
| ESum (a b : expr)
| EProd (a b : expr)
| EScaled (a : expr) (f : Fr).

(** [Expression::evaluate] (plonk/circuit.rs:886-991). *)
Fixpoint evaluate {T} (constant : Fr -> T) (sel : selector -> T) (fixed : query -> T)
    (advice : query -> nat -> T) (instance : query -> T) (chal : challenge -> T)
    (neg : T -> T) (sum prod : T -> T -> T) (scaled : T -> Fr -> T) (e : expr) : T :=
  let go := evaluate constant sel fixed advice instance chal neg sum prod scaled in
  match e with
  | EConst c => constant c
  | ESelector s => sel s
  | EFixed q => fixed q
  | EAdvice q p => advice q p
  | EInstance q => instance q
  | EChallenge c => chal c
  | ENeg a => neg (go a)
  | ESum a b => sum (go a) (go b)
  | EProd a b => prod (go a) (go b)
  | EScaled a f => scaled (go a) f
  end.

(** [contains_simple_selector] (plonk/circuit.rs:1220-1233). *)
Definition contains_simple : expr -> bool :=
  evaluate (fun _ => false) sel_simple (fun _ => false) (fun _ _ => false) (fun _ => false)
    (fun _ => false) (fun a => a) orb orb (fun a _ => a).

(** [extract_simple_selector] (plonk/circuit.rs:1236-1261); the panic on two
    simple selectors is [Panic]. *)
Definition extract_op (a b : res (option selector)) : res (option selector) :=
  let! a := a in let! b := b in
  match a, b with
  | Some s, None | None, Some s => Ok (Some s)
  | Some _, Some _ => Panic
  | None, None => Ok None
  end.
Definition extract_simple : expr -> res (option selector) :=
  evaluate (fun _ => Ok None) (fun s => if sel_simple s then Ok (Some s) else Ok None)
    (fun _ => Ok None) (fun _ _ => Ok None) (fun _ => Ok None) (fun _ => Ok None)
    (fun a => a) extract_op extract_op (fun a _ => a).

(** [degree] (plonk/circuit.rs:1183-1196). *)
Fixpoint degree (e : expr) : nat :=
  match e with
  | EConst _ => 0 | ESelector _ => 1 | EFixed _ => 1 | EAdvice _ _ => 1 | EInstance _ => 1
  | EChallenge _ => 0 | ENeg a => degree a | ESum a b => Nat.max (degree a) (degree b)
  | EProd a b => degree a + degree b | EScaled a _ => degree a
  end.

(** [complexity] (plonk/circuit.rs:1199-1212). *)
Fixpoint complexity (e : expr) : nat :=
  match e with
  | EConst _ => 0 | ESelector _ => 1 | EFixed _ => 1 | EAdvice _ _ => 1 | EInstance _ => 1
  | EChallenge _ => 0 | ENeg a => complexity a + 5 | ESum a b => complexity a + complexity b + 15
  | EProd a b => complexity a + complexity b + 30 | EScaled a _ => complexity a + 30
  end.

(** The overloaded operators (plonk/circuit.rs:1320-1362). *)
Definition esub (a b : expr) : expr := ESum a (ENeg b).
Declare Scope expr_scope.
Delimit Scope expr_scope with E.
Bind Scope expr_scope with expr.
Notation "a + b" := (ESum a b) : expr_scope.
Notation "a - b" := (esub a b) : expr_scope.
Notation "a * b" := (EProd a b) : expr_scope.
Notation "- a" := (ENeg a) : expr_scope.

(** No operator panicked while the expression was built
    (plonk/circuit.rs:1330, 1340, 1350). *)
Fixpoint well_built (e : expr) : bool :=
  match e with
  | ENeg a => well_built a
  | ESum a b => well_built a && well_built b && negb (contains_simple a || contains_simple b)
  | EProd a b => well_built a && well_built b && negb (contains_simple a && contains_simple b)
  | EScaled a _ => well_built a
  | _ => true
  end.

(** [Rotation::prev/cur/next] (poly.rs). *)
Definition prev : Z := (-1)%Z.
Definition cur : Z := 0%Z.
Definition next : Z := 1%Z.

(** ** ConstraintSystem (plonk/circuit.rs:1536-1583). *)
Record cs := mkCs {
  num_fixed : nat;
  num_advice : nat;
  num_instance : nat;
  num_selectors : nat;
  num_challenges : nat;
  advice_phases : list nat;
  challenge_phases : list nat;
  gates : list (list expr);
  advice_queries : list (advice_col * Z);
  num_advice_queries : list nat;
  instance_queries : list (nat * Z);
  fixed_queries : list (nat * Z);
  perm_columns : list column;
  lookups : list (list expr * list expr);
  selector_map : list nat
}.

(** [ConstraintSystem::default] (plonk/circuit.rs:1634-1657); [constants] and
    [minimum_degree] stay empty throughout this project. *)
Definition cs_default : cs := mkCs 0 0 0 0 0 [] [] [] [] [] [] [] [] [] [].

(** Configuration code mutates the constraint system and may panic. *)
Definition M (A : Type) := cs -> res (A * cs).
Definition ret {A} (a : A) : M A := fun c => Ok (a, c).
Definition mbind {A B} (m : M A) (f : A -> M B) : M B :=
  fun c => match m c with Ok (a, c') => f a c' | Panic => Panic end.
Definition panic {A} : M A := fun _ => Panic.
Notation "'do' x <- m ; k" := (mbind m (fun x => k))
  (at level 200, x pattern, m at level 100, k at level 200, right associativity).
Notation "'do_' m ; k" := (mbind m (fun _ => k))
  (at level 200, m at level 100, k at level 200, right associativity).
Fixpoint mapM {A B} (f : A -> M B) (l : list A) : M (list B) :=
  match l with
  | [] => ret []
  | a :: l => do b <- f a; do bs <- mapM f l; ret (b :: bs)
  end.

Fixpoint position {A} (eqb : A -> bool) (l : list A) : option nat :=
  match l with
  | [] => None
  | a :: l => if eqb a then Some 0 else option_map S (position eqb l)
  end.

(** [query_fixed_index] (plonk/circuit.rs:1751-1764). *)
Definition query_fixed_index (col : nat) (at_ : Z) : M nat := fun c =>
  match position (fun q => Nat.eqb (fst q) col && Z.eqb (snd q) at_) (fixed_queries c) with
  | Some i => Ok (i, c)
  | None =>
      Ok (length (fixed_queries c),
          mkCs (num_fixed c) (num_advice c) (num_instance c) (num_selectors c) (num_challenges c)
            (advice_phases c) (challenge_phases c) (gates c) (advice_queries c)
            (num_advice_queries c) (instance_queries c) (fixed_queries c ++ [(col, at_)])
            (perm_columns c) (lookups c) (selector_map c))
  end.

(** [query_advice_index] (plonk/circuit.rs:1766-1780); panics when the column
    index is out of [num_advice_queries]. *)
Definition query_advice_index (col : advice_col) (at_ : Z) : M nat := fun c =>
  match position (fun q => acol_eqb (fst q) col && Z.eqb (snd q) at_) (advice_queries c) with
  | Some i => Ok (i, c)
  | None =>
      match nth_error (num_advice_queries c) (ac_index col) with
      | None => Panic
      | Some n =>
          Ok (length (advice_queries c),
              mkCs (num_fixed c) (num_advice c) (num_instance c) (num_selectors c)
                (num_challenges c) (advice_phases c) (challenge_phases c) (gates c)
                (advice_queries c ++ [(col, at_)])
                (upd (num_advice_queries c) (ac_index col) (S n)) (instance_queries c)
                (fixed_queries c) (perm_columns c) (lookups c) (selector_map c))
      end
  end.

(** [query_instance_index] (plonk/circuit.rs:1782-1795). *)
Definition query_instance_index (col : nat) (at_ : Z) : M nat := fun c =>
  match position (fun q => Nat.eqb (fst q) col && Z.eqb (snd q) at_) (instance_queries c) with
  | Some i => Ok (i, c)
  | None =>
      Ok (length (instance_queries c),
          mkCs (num_fixed c) (num_advice c) (num_instance c) (num_selectors c) (num_challenges c)
            (advice_phases c) (challenge_phases c) (gates c) (advice_queries c)
            (num_advice_queries c) (instance_queries c ++ [(col, at_)]) (fixed_queries c)
            (perm_columns c) (lookups c) (selector_map c))
  end.

(** [query_any_index] (plonk/circuit.rs:1797-1807). *)
Definition query_any_index (col : column) (at_ : Z) : M nat :=
  match col with
  | CAdvice a => query_advice_index a at_
  | CFixed i => query_fixed_index i at_
  | CInstance i => query_instance_index i at_
  end.

(** [permutation::Argument::add_column] (plonk/permutation.rs:70-74). *)
Definition perm_add_column (col : column) : M unit := fun c =>
  if existsb (column_eqb col) (perm_columns c) then Ok (tt, c)
  else Ok (tt, mkCs (num_fixed c) (num_advice c) (num_instance c) (num_selectors c)
                 (num_challenges c) (advice_phases c) (challenge_phases c) (gates c)
                 (advice_queries c) (num_advice_queries c) (instance_queries c)
                 (fixed_queries c) (perm_columns c ++ [col]) (lookups c) (selector_map c)).

(** [enable_equality] (plonk/circuit.rs:1696-1700). *)
Definition enable_equality (col : column) : M unit :=
  do _ <- query_any_index col cur; perm_add_column col.

(** [VirtualCells::query_*] (plonk/circuit.rs:2320-2390). *)
Definition query_selector (s : selector) : M expr := ret (ESelector s).
Definition query_fixed (col : nat) (at_ : Z) : M expr :=
  do i <- query_fixed_index col at_; ret (EFixed (Query i col at_)).
Definition query_advice (col : advice_col) (at_ : Z) : M expr :=
  do i <- query_advice_index col at_;
  ret (EAdvice (Query i (ac_index col) at_) (ac_phase col)).
Definition query_challenge (ch : challenge) : M expr := ret (EChallenge ch).

(** [create_gate] (plonk/circuit.rs:1866-1894). *)
Definition create_gate (m : M (list expr)) : M unit := fun c =>
  match m c with
  | Panic => Panic
  | Ok (polys, c) =>
      match polys with
      | [] => Panic
      | _ =>
          if forallb well_built polys then
            Ok (tt, mkCs (num_fixed c) (num_advice c) (num_instance c) (num_selectors c)
                      (num_challenges c) (advice_phases c) (challenge_phases c)
                      (gates c ++ [polys]) (advice_queries c) (num_advice_queries c)
                      (instance_queries c) (fixed_queries c) (perm_columns c) (lookups c)
                      (selector_map c))
          else Panic
      end
  end.

(** [lookup] (plonk/circuit.rs:1706-1730): inputs are expressions, tables are
    fixed columns. *)
Definition lookup (m : M (list (expr * nat))) : M unit :=
  do map_ <- m;
  do pairs <- mapM (fun it : expr * nat =>
                      if contains_simple (fst it) || negb (well_built (fst it)) then panic
                      else do t <- query_fixed (snd it) cur; ret (fst it, t)) map_;
  fun c => Ok (tt, mkCs (num_fixed c) (num_advice c) (num_instance c) (num_selectors c)
                     (num_challenges c) (advice_phases c) (challenge_phases c) (gates c)
                     (advice_queries c) (num_advice_queries c) (instance_queries c)
                     (fixed_queries c) (perm_columns c)
                     (lookups c ++ [(map fst pairs, map snd pairs)]) (selector_map c)).

(** [selector], [complex_selector] (plonk/circuit.rs:2083-2095). *)
Definition new_selector (simple : bool) : M selector := fun c =>
  Ok (Sel (num_selectors c) simple,
      mkCs (num_fixed c) (num_advice c) (num_instance c) (S (num_selectors c)) (num_challenges c)
        (advice_phases c) (challenge_phases c) (gates c) (advice_queries c)
        (num_advice_queries c) (instance_queries c) (fixed_queries c) (perm_columns c)
        (lookups c) (selector_map c)).
Definition simple_selector : M selector := new_selector true.
Definition complex_selector : M selector := new_selector false.

(** [fixed_column], [lookup_table_column] (plonk/circuit.rs:2098-2140). *)
Definition fixed_column : M nat := fun c =>
  Ok (num_fixed c,
      mkCs (S (num_fixed c)) (num_advice c) (num_instance c) (num_selectors c) (num_challenges c)
        (advice_phases c) (challenge_phases c) (gates c) (advice_queries c)
        (num_advice_queries c) (instance_queries c) (fixed_queries c) (perm_columns c)
        (lookups c) (selector_map c)).

(** [assert_phase_exists] (plonk/circuit.rs:2197-2207). *)
Definition phase_exists (ph : nat) (c : cs) : bool := existsb (Nat.eqb ph) (advice_phases c).

(** [advice_column_in] (plonk/circuit.rs:2148-2165); phase 0 has no previous
    phase. *)
Definition advice_column_in (ph : nat) : M advice_col := fun c =>
  if match ph with O => true | S p => phase_exists p c end then
    Ok (ACol (num_advice c) ph,
        mkCs (num_fixed c) (S (num_advice c)) (num_instance c) (num_selectors c)
          (num_challenges c) (advice_phases c ++ [ph]) (challenge_phases c) (gates c)
          (advice_queries c) (num_advice_queries c ++ [0]) (instance_queries c)
          (fixed_queries c) (perm_columns c) (lookups c) (selector_map c))
  else Panic.

(** [instance_column] (plonk/circuit.rs:2168-2175). *)
Definition instance_column : M nat := fun c =>
  Ok (num_instance c,
      mkCs (num_fixed c) (num_advice c) (S (num_instance c)) (num_selectors c) (num_challenges c)
        (advice_phases c) (challenge_phases c) (gates c) (advice_queries c)
        (num_advice_queries c) (instance_queries c) (fixed_queries c) (perm_columns c)
        (lookups c) (selector_map c)).

(** [challenge_usable_after] (plonk/circuit.rs:2178-2192). *)
Definition challenge_usable_after (ph : nat) : M challenge := fun c =>
  if phase_exists ph c then
    Ok (Chal (num_challenges c) ph,
        mkCs (num_fixed c) (num_advice c) (num_instance c) (num_selectors c)
          (S (num_challenges c)) (advice_phases c) (challenge_phases c ++ [ph]) (gates c)
          (advice_queries c) (num_advice_queries c) (instance_queries c) (fixed_queries c)
          (perm_columns c) (lookups c) (selector_map c))
  else Panic.

Fixpoint max_list (l : list nat) : option nat :=
  match l with
  | [] => None
  | x :: l => Some (match max_list l with None => x | Some m => Nat.max x m end)
  end.
Definition or_default (d : nat) (o : option nat) : nat :=
  match o with Some x => x | None => d end.

(** [lookup::Argument::required_degree] (plonk/lookup.rs:38-84). *)
Definition lookup_degree (l : list expr * list expr) : nat :=
  let d es := fold_left (fun acc e => Nat.max acc (degree e)) es 1 in
  Nat.max 4 (2 + d (fst l) + d (snd l)).

(** [ConstraintSystem::degree] (plonk/circuit.rs:2230-2258), with the
    permutation argument's 3 (plonk/permutation.rs:35-68). *)
Definition cs_degree (c : cs) : nat :=
  let d := 3 in
  let d := Nat.max d (or_default 1 (max_list (map lookup_degree (lookups c)))) in
  let d := Nat.max d (or_default 0 (max_list (map degree (concat (gates c))))) in
  Nat.max d 1.

(** [blinding_factors], [minimum_rows] (plonk/circuit.rs:2262-2299). *)
Definition blinding_factors (c : cs) : nat :=
  Nat.max 3 (or_default 1 (max_list (num_advice_queries c))) + 1 + 1.
Definition minimum_rows (c : cs) : nat := blinding_factors c + 1 + 1 + 1.

(** The rows circuits may assign: [0..usable_rows n c)
    (plonk/keygen.rs:225, plonk/prover.rs:296). *)
Definition usable_rows (n : nat) (c : cs) : nat := n - (blinding_factors c + 1).

(** ** Layout *)

(** [plonk::Error] (plonk/error.rs), the constructors that can occur. *)
Inductive herror :=
| NotEnoughRows | BoundsFailure | ColumnNotInPermutation | Synthesis | InstanceTooLarge.
Inductive eres (A : Type) := EOk (a : A) | EErr (e : herror) | EPanic.
Arguments EOk {A} _.
Arguments EErr {A} _.
Arguments EPanic {A}.
Definition ebind {A B} (x : eres A) (f : A -> eres B) : eres B :=
  match x with EOk a => f a | EErr e => EErr e | EPanic => EPanic end.
Notation "'elet' x ':=' e 'in' k" := (ebind e (fun x => k))
  (at level 200, x pattern, e at level 100, k at level 200, right associativity).

(** [Value<F>] (circuit/value.rs): known or unknown. *)
Definition value := option Fr.
Definition known (x : Fr) : value := Some x.
Definition vlift (f : Fr -> Fr -> Fr) (a b : value) : value :=
  match a, b with Some x, Some y => Some (f x y) | _, _ => None end.
Definition vadd := vlift fadd.
Definition vsub := vlift fsub.
Definition vmul := vlift fmul.

(** What a [layouter] or region can ask from its back end: challenges
    ([get_challenge]) and instance cells ([query_instance]). *)
Record venv := VEnv { ve_challenge : nat -> value; ve_instance : nat -> nat -> value }.

(** [Cell] (circuit.rs:45-56). *)
Record cell := Cell { cell_region : nat; cell_offset : nat; cell_column : column }.

(** What a region closure does (circuit.rs:200-330). *)
Inductive rop :=
| REnable (s : selector) (offset : nat)
| RAdvice (c : advice_col) (offset : nat) (v : value)
| RInstance (ic irow : nat) (c : advice_col) (offset : nat) (v : value)
| RFixed (c : nat) (offset : nat) (v : value)
| REqual (l r : cell).

(** [RegionColumn], [RegionShape] (circuit/layouter.rs:139-306). *)
Inductive rcol := RCol (c : column) | RSel (s : selector).
Definition rcol_eqb (a b : rcol) : bool :=
  match a, b with
  | RCol x, RCol y => column_eqb x y
  | RSel x, RSel y => selector_eqb x y
  | _, _ => false
  end.
Definition rop_touch (o : rop) : option (rcol * nat) :=
  match o with
  | REnable s i => Some (RSel s, i)
  | RAdvice c i _ => Some (RCol (CAdvice c), i)
  | RInstance _ _ c i _ => Some (RCol (CAdvice c), i)
  | RFixed c i _ => Some (RCol (CFixed c), i)
  | REqual _ _ => None
  end.
Definition insert_col (c : rcol) (l : list rcol) : list rcol :=
  if existsb (rcol_eqb c) l then l else l ++ [c].
Definition shape_step (sh : list rcol * nat) (o : rop) : list rcol * nat :=
  match rop_touch o with
  | Some (c, i) => (insert_col c (fst sh), Nat.max (snd sh) (i + 1))
  | None => sh
  end.
Definition region_shape (ops : list rop) : list rcol * nat := fold_left shape_step ops ([], 0).

(** Calls on the [Assignment] back end, with absolute rows, in call order. *)
Inductive aop :=
| OEnable (s : selector) (row : nat)
| OAdvice (c : advice_col) (row : nat) (v : value)
| OQuery (ic irow : nat)
| OCopy (lc : column) (lr : nat) (rc : column) (rr : nat)
| OFixed (c : nat) (row : nat) (v : value)
| OFill (c : nat) (row : nat) (v : value).

(** [SingleChipLayouter] (circuit/floor_planner/single_pass.rs:36-76);
    [lay_columns] is the map from columns to their first unused row, newest
    entry first. *)
Record lay := mkLay {
  lay_regions : list nat;
  lay_columns : list (rcol * nat);
  lay_tables : list nat;
  lay_ops : list aop
}.
Definition lay_new : lay := mkLay [] [] [] [].
Fixpoint col_start (m : list (rcol * nat)) (c : rcol) : nat :=
  match m with
  | [] => 0
  | (c', r) :: m => if rcol_eqb c c' then r else col_start m c
  end.

(** Region operations with the region's start row
    (single_pass.rs:273-390). *)
Definition cell_row (starts : list nat) (c : cell) : nat :=
  nth (cell_region c) starts 0 + cell_offset c.
Definition place (starts : list nat) (start : nat) (o : rop) : list aop :=
  match o with
  | REnable s i => [OEnable s (start + i)]
  | RAdvice c i v => [OAdvice c (start + i) v]
  | RInstance ic ir c i v =>
      [OQuery ic ir; OAdvice c (start + i) v; OCopy (CAdvice c) (start + i) (CInstance ic) ir]
  | RFixed c i v => [OFixed c (start + i) v]
  | REqual l r =>
      [OCopy (cell_column l) (cell_row starts l) (cell_column r) (cell_row starts r)]
  end.

(** [assign_region] (single_pass.rs:82-154); no constants are used. *)
Definition assign_region (ops : list rop) (l : lay) : lay :=
  let '(cols, rows) := region_shape ops in
  let start := fold_left (fun acc c => Nat.max acc (col_start (lay_columns l) c)) cols 0 in
  let starts := lay_regions l ++ [start] in
  mkLay starts
    (fold_left (fun m c => (c, start + rows) :: m) cols (lay_columns l))
    (lay_tables l)
    (lay_ops l ++ flat_map (place starts start) ops).

(** The next region's index. *)
Definition next_region (l : lay) : nat := length (lay_regions l).

(** [constrain_instance] (single_pass.rs:210-222). *)
Definition constrain_instance (c : cell) (ic row : nat) (l : lay) : lay :=
  mkLay (lay_regions l) (lay_columns l) (lay_tables l)
    (lay_ops l ++ [OCopy (cell_column c) (cell_row (lay_regions l) c) (CInstance ic) row]).

(** [assign_table] for a table with one column whose cells are written at
    offsets 0, 1, 2, ... (single_pass.rs:156-208, 412-466); the default value
    is the one at offset 0. *)
Definition assign_table (col : nat) (vals : list value) (l : lay) : eres lay :=
  if existsb (Nat.eqb col) (lay_tables l) then
    match vals with [] => EErr Synthesis | _ => EErr Synthesis end
  else
    match vals with
    | [] => EErr Synthesis
    | d :: _ =>
        EOk (mkLay (lay_regions l) (lay_columns l) (lay_tables l ++ [col])
               (lay_ops l
                ++ map (fun iv => OFixed col (fst iv) (snd iv)) (combine (seq 0 (length vals)) vals)
                ++ [OFill col (length vals) d]))
    end.

(** ** Key generation's back end: [Assembly] (plonk/keygen.rs:52-202). *)
Record assembly := mkAsm {
  asm_enabled : list (nat * nat);            (** (selector, row) set to true *)
  asm_fixed : nat -> nat -> Fr;
  asm_copies : list ((column * nat) * (column * nat))
}.
Definition asm_new : assembly := mkAsm [] (fun _ _ => f0) [].

Definition keygen_op (c : cs) (n : nat) (o : aop) (a : assembly) : eres assembly :=
  let u := usable_rows n c in
  match o with
  | OEnable s row =>
      if row <? u then
        EOk (mkAsm ((sel_index s, row) :: asm_enabled a) (asm_fixed a) (asm_copies a))
      else EErr NotEnoughRows
  | OAdvice _ _ _ => EOk a
  | OQuery _ irow => if irow <? u then EOk a else EErr NotEnoughRows
  | OCopy lc lr rc rr =>
      if (lr <? u) && (rr <? u) then
        (* permutation::keygen::Assembly::copy, permutation/keygen.rs:49-104 *)
        if existsb (column_eqb lc) (perm_columns c) && existsb (column_eqb rc) (perm_columns c)
        then EOk (mkAsm (asm_enabled a) (asm_fixed a) (((lc, lr), (rc, rr)) :: asm_copies a))
        else EErr ColumnNotInPermutation
      else EErr NotEnoughRows
  | OFixed col row v =>
      if row <? u then
        if col <? num_fixed c then
          match v with
          | Some x =>
              EOk (mkAsm (asm_enabled a)
                     (fun c' r' => if Nat.eqb c' col && Nat.eqb r' row then x
                                   else asm_fixed a c' r') (asm_copies a))
          | None => EErr Synthesis
          end
        else EErr BoundsFailure
      else EErr NotEnoughRows
  | OFill col row v =>
      if row <? u then
        if col <? num_fixed c then
          match v with
          | Some x =>
              EOk (mkAsm (asm_enabled a)
                     (fun c' r' => if Nat.eqb c' col && (row <=? r') && (r' <? u) then x
                                   else asm_fixed a c' r') (asm_copies a))
          | None => EErr Synthesis
          end
        else EErr BoundsFailure
      else EErr NotEnoughRows
  end.
Fixpoint keygen_ops (c : cs) (n : nat) (ops : list aop) (a : assembly) : eres assembly :=
  match ops with
  | [] => EOk a
  | o :: ops => elet a := keygen_op c n o a in keygen_ops c n ops a
  end.

(** [keygen_vk] up to the assembly (plonk/keygen.rs:205-235). *)
Definition keygen (c : cs) (n : nat) (ops : list aop) : eres assembly :=
  if n <? minimum_rows c then EErr NotEnoughRows else keygen_ops c n ops asm_new.

(** ** The prover's back end: [WitnessCollection] (plonk/prover.rs:139-281).
    [insts] are the instance columns given to [create_proof]. *)
Definition witness_op (c : cs) (n : nat) (phase : nat) (insts : list (list Fr)) (o : aop)
    (w : nat -> nat -> Fr) : eres (nat -> nat -> Fr) :=
  let u := usable_rows n c in
  match o with
  | OAdvice col row v =>
      if phase <? ac_phase col then EOk w
      else if row <? u then
        if ac_index col <? num_advice c then
          match v with
          | Some x => EOk (fun c' r' => if Nat.eqb c' (ac_index col) && Nat.eqb r' row then x
                                        else w c' r')
          | None => EErr Synthesis
          end
        else EErr BoundsFailure
      else EErr NotEnoughRows
  | OQuery ic irow =>
      if irow <? u then
        match nth_error insts ic with
        | Some l => match nth_error l irow with Some _ => EOk w | None => EErr BoundsFailure end
        | None => EErr BoundsFailure
        end
      else EErr NotEnoughRows
  | _ => EOk w
  end.
Fixpoint witness_ops (c : cs) (n phase : nat) (insts : list (list Fr)) (ops : list aop)
    (w : nat -> nat -> Fr) : eres (nat -> nat -> Fr) :=
  match ops with
  | [] => EOk w
  | o :: ops => elet w := witness_op c n phase insts o w in witness_ops c n phase insts ops w
  end.

(** One phase of [create_proof] (plonk/prover.rs:297-405): synthesize, then the
    last row of every column is overwritten with one ("blinding"). *)
Definition witness_phase (c : cs) (n phase : nat) (insts : list (list Fr)) (ops : list aop)
    : eres (nat -> nat -> Fr) :=
  elet w := witness_ops c n phase insts ops (fun _ _ => f0) in
  EOk (fun col row => if Nat.eqb row (n - 1) then f1 else w col row).

(** ** Meaning of a constraint system on an assignment. *)

(** Everything the prover commits to or the verifier knows. *)
Record assignment := mkAssign {
  as_n : nat;
  as_sel : nat -> nat -> bool;
  as_fixed : nat -> nat -> Fr;
  as_advice : nat -> nat -> Fr;
  as_instance : nat -> nat -> Fr;
  as_challenge : nat -> Fr
}.

(** Row [row] rotated by [rot] on the domain of size [n]
    (poly/domain.rs:rotate_omega: omega^n = 1). *)
Definition rotate (n row : nat) (rot : Z) : nat :=
  Z.to_nat ((Z.of_nat row + rot) mod Z.of_nat n).

(** The value of an expression at a row. *)
Definition eval (a : assignment) (row : nat) : expr -> Fr :=
  evaluate (fun c => c)
    (fun s => if as_sel a (sel_index s) row then f1 else f0)
    (fun q => as_fixed a (q_col q) (rotate (as_n a) row (q_rot q)))
    (fun q _ => as_advice a (q_col q) (rotate (as_n a) row (q_rot q)))
    (fun q => as_instance a (q_col q) (rotate (as_n a) row (q_rot q)))
    (fun c => as_challenge a (ch_index c))
    fopp fadd fmul fmul.

Definition cell_value (a : assignment) (c : column * nat) : Fr :=
  match fst c with
  | CAdvice col => as_advice a (ac_index col) (snd c)
  | CFixed i => as_fixed a i (snd c)
  | CInstance i => as_instance a i (snd c)
  end.

(** What the PLONK argument checks: every gate polynomial vanishes on all [n]
    rows, every copied pair of cells agrees, and on usable rows every lookup
    input is some usable row of its table. *)
Definition gates_hold (c : cs) (a : assignment) : Prop :=
  forall g p row, In g (gates c) -> In p g -> row < as_n a -> eval a row p = f0.
Definition lookups_hold (c : cs) (a : assignment) : Prop :=
  forall l row, In l (lookups c) -> row < usable_rows (as_n a) c ->
  exists row', row' < usable_rows (as_n a) c /\
    map (eval a row) (fst l) = map (eval a row') (snd l).
Definition copies_hold (copies : list ((column * nat) * (column * nat))) (a : assignment) : Prop :=
  forall x y, In (x, y) copies -> cell_value a x = cell_value a y.
Definition satisfied (c : cs) (copies : list ((column * nat) * (column * nat)))
    (a : assignment) : Prop :=
  gates_hold c a /\ lookups_hold c a /\ copies_hold copies a.

(** Instance columns padded with zeros (plonk/prover.rs:82-95). *)
Definition instance_fn (insts : list (list Fr)) (ic row : nat) : Fr :=
  nth row (nth ic insts []) f0.

(** The circuit key generation fixed, completed by the given advice, public
    inputs and challenges. *)
Definition assign_with (n : nat) (asm : assembly) (advice : nat -> nat -> Fr)
    (insts : list (list Fr)) (ch : nat -> Fr) : assignment :=
  mkAssign n
    (fun s row => existsb (fun e => Nat.eqb (fst e) s && Nat.eqb (snd e) row) (asm_enabled asm))
    (asm_fixed asm) advice (instance_fn insts) ch.
