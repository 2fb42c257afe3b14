(** The columns [create_proof] computes after the witness: the permuted columns
    and running products of lookups, and the running products of the
    permutation argument.  Of halo2_proofs/src/plonk: lookup/prover.rs,
    permutation/prover.rs.

    A polynomial in the Lagrange basis is a function from rows to values; the
    code only reads the rows below [n].  Random values are parameters.
    Commitments and the transcript are left out: the functions give the values
    that are committed to. *)
From Coq Require Import ZArith List Arith Bool.
From Verif Require Import Base Moduli Field Halo2Model PermModel DomainModel VkModel IopModel.
Import ListNotations.
Local Open Scope nat_scope.

(** [Err(Error::ConstraintSystemFailure)] is [PFail] *)
Inductive pres (A : Type) := POk (a : A) | PFail | PPanic.
Arguments POk {A} a.
Arguments PFail {A}.
Arguments PPanic {A}.
Definition pbind {A B} (x : pres A) (f : A -> pres B) : pres B :=
  match x with POk a => f a | PFail => PFail | PPanic => PPanic end.

(** ** Lookups *)

(** [Vec::sort] on field elements, ordered by their canonical values (the order
    of derive/field.rs, see [C32_order]); a stable sort, here by insertion *)
Fixpoint insert_fr (a : Fr) (l : list Fr) : list Fr :=
  match l with
  | [] => [a]
  | b :: l' => if (fval a <=? fval b)%Z then a :: l else b :: insert_fr a l'
  end.
Definition sort_fr (l : list Fr) : list Fr := fold_right insert_fr [] l.

(** [BTreeMap<C::Scalar, u32>]: pairs in increasing order of keys.  Counts are
    at most the number of rows, so [u32] does not overflow. *)
Definition table_map := list (Fr * nat).
(** [entry(coeff).or_insert(0) += 1] *)
Fixpoint bump (x : Fr) (m : table_map) : table_map :=
  match m with
  | [] => [(x, 1)]
  | (y, c) :: m' =>
      if feqb x y then (y, S c) :: m'
      else if (fval x <? fval y)%Z then (x, 1) :: m else (y, c) :: bump x m'
  end.
(** lookup/prover.rs:411-417 *)
Definition count_table (l : list Fr) : table_map := fold_left (fun m x => bump x m) l [].
(** [get_mut], then [assert!(count > 0)] and the decrement
    (lookup/prover.rs:429-431): absent, count zero, or the new map *)
Inductive taken := Absent | Zero_count | Taken (m : table_map).
Fixpoint take_one (x : Fr) (m : table_map) : taken :=
  match m with
  | [] => Absent
  | (y, c) :: m' =>
      if feqb x y then match c with O => Zero_count | S c' => Taken ((y, c') :: m') end
      else match take_one x m' with Taken m'' => Taken ((y, c) :: m'') | r => r end
  end.

(** the pass over the sorted inputs (lookup/prover.rs:418-442): the table column
    with zeros where an input repeats, the repeated rows, the leftover table *)
Fixpoint fill (previous : option Fr) (row : nat) (inputs : list Fr) (m : table_map)
    : pres (list Fr * list nat * table_map) :=
  match inputs with
  | [] => POk ([], [], m)
  | a :: inputs =>
      if match previous with None => true | Some b => negb (feqb a b) end then
        match take_one a m with
        | Absent => PFail
        | Zero_count => PPanic
        | Taken m => pbind (fill (Some a) (S row) inputs m)
                       (fun r => let '(t, rows, m) := r in POk (a :: t, rows, m))
        end
      else pbind (fill (Some a) (S row) inputs m)
             (fun r => let '(t, rows, m) := r in POk (f0 :: t, row :: rows, m))
  end.
(** the leftover entries go to the repeated rows, taken from the end
    (lookup/prover.rs:445-450); [rows] is held last row first *)
Fixpoint place (x : Fr) (count : nat) (t : list Fr) (rows : list nat) : pres (list Fr * list nat) :=
  match count with
  | O => POk (t, rows)
  | S count => match rows with
               | [] => PPanic
               | r :: rows => place x count (upd t r x) rows
               end
  end.
Fixpoint populate (m : table_map) (t : list Fr) (rows : list nat) : pres (list Fr) :=
  match m with
  | [] => match rows with [] => POk t | _ => PPanic end
  | (x, c) :: m => pbind (place x c t rows) (fun tr => populate m (fst tr) (snd tr))
  end.
(** [permute_expression_pair] (lookup/prover.rs:393-477) up to the random rows
    appended at the end (452-454); [u] usable rows *)
Definition permute_pair (u : nat) (inputs tables : nat -> Fr) : pres (list Fr * list Fr) :=
  let a' := sort_fr (map inputs (seq 0 u)) in
  pbind (fill None 0 a' (count_table (map tables (seq 0 u)))) (fun r =>
    let '(t, rows, m) := r in
    pbind (populate m t (rev rows)) (fun t => POk (a', t))).
Definition with_random (u : nat) (l : list Fr) (random : nat -> Fr) (r : nat) : Fr :=
  if r <? u then nth r l f0 else random r.

(** [batch_invert] (ff 0.13, a dependency): zero stays zero *)
Definition batch_inv (x : Fr) : Fr := if feqb x f0 then f0 else finv x.
(** the running product: z[0] = first, z[r+1] = z[r] * factor[r] *)
Fixpoint run (first : Fr) (factor : nat -> Fr) (r : nat) : Fr :=
  match r with O => first | S r => (run first factor r * factor r)%F end.

(** the compressed columns (lookup/prover.rs:92-116); [ev row e] is the value of
    an expression at a row ([evaluate], plonk/evaluation.rs) *)
Definition compressed_row (ev : nat -> expr -> Fr) (theta : Fr) (es : list expr) (r : nat) : Fr :=
  fold_left (fun acc e => (acc * theta + ev r e)%F) es f0.

(** [commit_product] (lookup/prover.rs:169-308) *)
Definition lookup_factor (beta gamma : Fr) (a s a' s' : nat -> Fr) (r : nat) : Fr :=
  (batch_inv ((beta + a' r) * (gamma + s' r)) * (a r + beta) * (s r + gamma))%F.
Definition lookup_product (n bf : nat) (beta gamma : Fr) (a s a' s' random : nat -> Fr) (r : nat) : Fr :=
  if r <? n - bf then run f1 (lookup_factor beta gamma a s a' s') r else random r.

(** ** Permutation *)

(** [modified_values] (permutation/prover.rs:96-140) at row [r]: [cols] and
    [sigma] are the columns of one chunk, [deltaomega] the power of delta of its
    first column.  The code multiplies by omega row by row. *)
Fixpoint perm_numer (beta gamma deltaomega wr : Fr) (vals : list Fr) (acc : Fr) : Fr :=
  match vals with
  | [] => acc
  | x :: vals => perm_numer beta gamma (deltaomega * DELTA) wr vals
                   (acc * (deltaomega * wr * beta + gamma + x))
  end%F.
Definition perm_factor (w beta gamma deltaomega : Fr) (cols sigma : list (nat -> Fr)) (r : nat) : Fr :=
  perm_numer beta gamma deltaomega (pow_vartime w (Z.of_nat r)) (map (fun c => c r) cols)
    (batch_inv (fold_left (fun m cs => (m * (beta * snd cs r + gamma + fst cs r))%F) (combine cols sigma) f1)).
(** [deltaomega] after a chunk (permutation/prover.rs:139) *)
Definition delta_after {A} (deltaomega : Fr) (cols : list A) : Fr := fold_left (fun x _ => (x * DELTA)%F) cols deltaomega.
(** [Argument::commit] (permutation/prover.rs:45-189): the running products, one
    per chunk of columns; [random i r] fills row [r] of set [i] *)
Fixpoint perm_sets (w : Fr) (n bf : nat) (beta gamma : Fr) (random : nat -> nat -> Fr)
    (chunks sigma : list (list (nat -> Fr))) (i : nat) (deltaomega last_z : Fr) : list (nat -> Fr) :=
  match chunks, sigma with
  | cols :: chunks, sg :: sigma =>
      let z r := if r <? n - bf then run last_z (perm_factor w beta gamma deltaomega cols sg) r
                 else random i r in
      z :: perm_sets w n bf beta gamma random chunks sigma (S i) (delta_after deltaomega cols) (z (n - (bf + 1)))
  | _, _ => []
  end.
Definition perm_commit (v : vkey) (n : nat) (beta gamma : Fr) (random : nat -> nat -> Fr)
    (cols sigma : list (nat -> Fr)) : pres (list (nat -> Fr)) :=
  if vk_degree v <? 3 then PPanic else
  POk (perm_sets (d_omega (vk_domain v)) n (blinding_factors (vk_cs v)) beta gamma random
         (chunks (chunk_len v) cols) (chunks (chunk_len v) sigma) 0 f1 f1).

(** ** The scalars of the proof *)

(** [create_proof] writes the evaluations of advice, fixed, the vanishing
    argument's polynomial, the permutation columns, the running products
    (plonk/prover.rs:564-618, permutation/prover.rs:218-277,
    vanishing/prover.rs:140-143, lookup/prover.rs:311-339). *)
Definition write_set (s : pset) : list Fr :=
  ps_eval s :: ps_next s :: match ps_last s with Some l => [l] | None => [] end.
Definition write_lookup (l : leval) : list Fr :=
  [le_product l; le_product_next l; le_input l; le_input_inv l; le_table l].
Definition write_evals (e : evals) : list Fr :=
  ev_advice e ++ ev_fixed e ++ ev_random e :: ev_sigma e ++
  flat_map write_set (ev_sets e) ++ flat_map write_lookup (ev_lookups e).
