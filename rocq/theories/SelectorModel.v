(** Selector compression at key generation, and its replay when a verifying key
    is read.

    Simplifications: [usize] is [nat]; the closure that allocates a column
    threads an explicit state; the exclusion matrix is the function that fills
    it (only entries [j][i] with [i < j] are read). *)
From Coq Require Import ZArith List Bool Arith.
From Verif Require Import Base Field Halo2Model.
Import ListNotations.

(** [SelectorDescription]
    (halo2_proofs/src/plonk/circuit/compress_selectors.rs:8-22). *)
Record seldesc := SelDesc { sd_selector : nat; sd_act : list bool; sd_deg : nat }.

(** [SelectorAssignment] (compress_selectors.rs:24-35). *)
Record selassign := SelAssign { sa_selector : nat; sa_combination : nat; sa_expr : expr }.

Definition bool_f (b : bool) : Fr := if b then f1 else f0.

(** The [retain] closure over all selectors (compress_selectors.rs:101-127):
    every selector of degree 0 gets a column of its own. *)
Fixpoint alone {S} (alloc : S -> res (expr * S)) (sels : list seldesc)
    (combs : list (list Fr)) (asgs : list selassign) (s : S)
    : res (list seldesc * list (list Fr) * list selassign * S) :=
  match sels with
  | [] => Ok ([], combs, asgs, s)
  | d :: sels =>
      if Nat.eqb (sd_deg d) 0 then
        let! (e, s) := alloc s in
        alone alloc sels (combs ++ [map bool_f (sd_act d)])
          (asgs ++ [SelAssign (sd_selector d) (length combs) e]) s
      else
        let! (rest, combs, asgs, s) := alone alloc sels combs asgs s in
        Ok (d :: rest, combs, asgs, s)
  end.

(** [exclusion_matrix] (compress_selectors.rs:134-156). *)
Definition excludes (a b : seldesc) : bool :=
  existsb (fun lr => fst lr && snd lr) (combine (sd_act a) (sd_act b)).

(** ['try_selectors] (compress_selectors.rs:179-211): selectors from index [j]
    on; [comb] is the combination so far, in order; [break] ends the loop. *)
Fixpoint try_selectors (max_degree : nat) (sels : list seldesc) (j d : nat) (comb : list seldesc)
    (added : list bool) : list seldesc * list bool :=
  match sels with
  | [] => (comb, added)
  | s :: sels =>
      if Nat.eqb (d + length comb) max_degree then (comb, added)
      else if nth j added false then try_selectors max_degree sels (S j) d comb added
      else if existsb (excludes s) comb then try_selectors max_degree sels (S j) d comb added
      else
        let new_d := Nat.max d (sd_deg s - 1) in
        if max_degree <? new_d + length comb + 1 then
          try_selectors max_degree sels (S j) d comb added
        else try_selectors max_degree sels (S j) new_d (comb ++ [s]) (upd added j true)
  end.

(** The substituted expression (compress_selectors.rs:221-238). *)
Fixpoint root_product (len : nat) (query : expr) (assigned root : Fr) (acc : expr) : expr :=
  match len with
  | O => acc
  | S len =>
      root_product len query assigned (fadd root f1)
        (if feqb root assigned then acc else EProd acc (esub (EConst root) query))
  end.

(** One column of values updated with one selector's rows
    (compress_selectors.rs:240-250). *)
Fixpoint set_rows (col : list Fr) (act : list bool) (v : Fr) : list Fr :=
  match col, act with
  | c :: col, b :: act => (if b then v else c) :: set_rows col act v
  | _, _ => col
  end.

(** The closure over the combination (compress_selectors.rs:219-259). *)
Fixpoint assign_comb (comb : list seldesc) (len index : nat) (query : expr) (assigned : Fr)
    (col : list Fr) : list Fr * list selassign :=
  match comb with
  | [] => (col, [])
  | s :: comb =>
      let e := root_product len query assigned f1 query in
      let '(col, asgs) :=
        assign_comb comb len index query (fadd assigned f1) (set_rows col (sd_act s) assigned) in
      (col, SelAssign (sd_selector s) index e :: asgs)
  end.

(** The loop over the remaining selectors (compress_selectors.rs:161-262). *)
Fixpoint combine_all {S} (alloc : S -> res (expr * S)) (n max_degree : nat) (sels : list seldesc)
    (i : nat) (added : list bool) (combs : list (list Fr)) (asgs : list selassign) (s : S)
    : res (list (list Fr) * list selassign * S) :=
  match sels with
  | [] => Ok (combs, asgs, s)
  | d :: sels =>
      if nth i added false then combine_all alloc n max_degree sels (i + 1) added combs asgs s
      else
        let added := upd added i true in
        if max_degree <? sd_deg d then Panic
        else
          let '(comb, added) := try_selectors max_degree sels (i + 1) (sd_deg d - 1) [d] added in
          let! (query, s) := alloc s in
          let '(col, new) :=
            assign_comb comb (length comb) (length combs) query f1 (repeat f0 n) in
          combine_all alloc n max_degree sels (i + 1) added (combs ++ [col]) (asgs ++ new) s
  end.

(** [process] (compress_selectors.rs:78-265). *)
Definition process {S} (sels : list seldesc) (max_degree : nat) (alloc : S -> res (expr * S)) (s : S)
    : res (list (list Fr) * list selassign * S) :=
  match sels with
  | [] => Ok ([], [], s)
  | d0 :: _ =>
      let n := length (sd_act d0) in
      if negb (forallb (fun d => Nat.eqb (length (sd_act d)) n) sels) then Panic
      else
        let! (rest, combs, asgs, s) := alone alloc sels [] [] s in
        combine_all alloc n max_degree rest 0 (repeat false (length rest)) combs asgs s
  end.

(** [replace_selectors] (plonk/circuit.rs:1918-1944, 2032-2058), with the panics
    of an unknown selector, of a simple selector in a lookup, and of the
    operators on simple selectors (plonk/circuit.rs:1328-1370). *)
Definition replace_selectors (reps : list expr) (nonsimple : bool) : expr -> res expr :=
  evaluate (fun c => Ok (EConst c))
    (fun s => if nonsimple && sel_simple s then Panic
              else match nth_error reps (sel_index s) with Some e => Ok e | None => Panic end)
    (fun q => Ok (EFixed q)) (fun q p => Ok (EAdvice q p)) (fun q => Ok (EInstance q))
    (fun c => Ok (EChallenge c))
    (fun a => let! a := a in Ok (ENeg a))
    (fun a b => let! a := a in let! b := b in
                if contains_simple a || contains_simple b then Panic else Ok (ESum a b))
    (fun a b => let! a := a in let! b := b in
                if contains_simple a && contains_simple b then Panic else Ok (EProd a b))
    (fun a f => let! a := a in Ok (EScaled a f)).

Fixpoint rmap {A B} (f : A -> res B) (l : list A) : res (list B) :=
  match l with
  | [] => Ok []
  | a :: l => let! b := f a in let! l := rmap f l in Ok (b :: l)
  end.
Fixpoint unwrap_all {A} (l : list (option A)) : res (list A) :=
  match l with
  | [] => Ok []
  | Some a :: l => let! l := unwrap_all l in Ok (a :: l)
  | None :: _ => Panic
  end.
Definition set_some {A} (l : list (option A)) (i : nat) (a : A) : res (list (option A)) :=
  if i <? length l then Ok (upd l i (Some a)) else Panic.

(** The substitution in all gates and lookups (plonk/circuit.rs:1946-1960,
    2060-2074). *)
Definition substitute (reps : list expr) (map_ : list nat) (c : cs) : res cs :=
  let! gs := rmap (rmap (replace_selectors reps false)) (gates c) in
  let! ls := rmap (fun l : list expr * list expr =>
                     let! a := rmap (replace_selectors reps true) (fst l) in
                     let! b := rmap (replace_selectors reps true) (snd l) in
                     Ok (a, b)) (lookups c) in
  Ok (mkCs (num_fixed c) (num_advice c) (num_instance c) (num_selectors c) (num_challenges c)
        (advice_phases c) (challenge_phases c) gs (advice_queries c) (num_advice_queries c)
        (instance_queries c) (fixed_queries c) (perm_columns c) ls map_).

(** The degree of every selector (plonk/circuit.rs:1979-1984). *)
Fixpoint sel_degrees (polys : list expr) (degrees : list nat) : res (list nat) :=
  match polys with
  | [] => Ok degrees
  | p :: polys =>
      let! s := extract_simple p in
      match s with
      | None => sel_degrees polys degrees
      | Some s =>
          match nth_error degrees (sel_index s) with
          | None => Panic
          | Some d => sel_degrees polys (upd degrees (sel_index s) (Nat.max d (degree p)))
          end
      end
  end.

(** The allocating closure of [compress_selectors]
    (plonk/circuit.rs:2005-2014). *)
Definition alloc_column (s : cs * list nat) : res (expr * (cs * list nat)) :=
  let '(c, cols) := s in
  let! (col, c) := fixed_column c in
  let! (i, c) := query_fixed_index col cur c in
  Ok (EFixed (Query i col cur), (c, cols ++ [col])).

Fixpoint describe (i : nat) (acts : list (list bool)) (degrees : list nat) : list seldesc :=
  match acts, degrees with
  | a :: acts, d :: degrees => SelDesc i a d :: describe (S i) acts degrees
  | _, _ => []
  end.

(** The maps from selectors to columns and expressions
    (plonk/circuit.rs:2017-2022). *)
Fixpoint fill_maps (asgs : list selassign) (cols : list nat) (map_ : list (option nat))
    (reps : list (option expr)) : res (list (option nat) * list (option expr)) :=
  match asgs with
  | [] => Ok (map_, reps)
  | a :: asgs =>
      let! reps := set_some reps (sa_selector a) (sa_expr a) in
      match nth_error cols (sa_combination a) with
      | None => Panic
      | Some col =>
          let! map_ := set_some map_ (sa_selector a) col in
          fill_maps asgs cols map_ reps
      end
  end.

(** [compress_selectors] (plonk/circuit.rs:1970-2077). *)
Definition compress_selectors (c : cs) (acts : list (list bool))
    : res (cs * list (list Fr) * list selassign) :=
  if negb (Nat.eqb (length acts) (num_selectors c)) then Panic
  else
    let! degrees := sel_degrees (concat (gates c)) (repeat 0 (length acts)) in
    let! (polys, asgs, (c, cols)) :=
      process (describe 0 acts degrees) (cs_degree c) alloc_column (c, []) in
    let! (map_, reps) :=
      fill_maps asgs cols (repeat None (length asgs)) (repeat None (length asgs)) in
    let! map_ := unwrap_all map_ in
    let! reps := unwrap_all reps in
    let! c := substitute reps map_ c in
    Ok (c, polys, asgs).

(** The activation vectors key generation hands over: all false, then set by
    [enable_selector] (plonk/keygen.rs:56, 75-89, 224). *)
Definition selector_rows (c : cs) (n : nat) (asm : assembly) : list (list bool) :=
  map (fun s => map (fun row => existsb (fun e => Nat.eqb (fst e) s && Nat.eqb (snd e) row)
                                  (asm_enabled asm)) (seq 0 n))
    (seq 0 (num_selectors c)).

(** The loop of [ckb_recreate_side_effect] (plonk/circuit.rs:1901-1913). *)
Fixpoint replay (asgs : list selassign) (cols : list nat) (map_ : list (option nat))
    (reps : list (option expr)) (c : cs) : res (list (option nat) * list (option expr) * cs) :=
  match asgs with
  | [] => Ok (map_, reps, c)
  | a :: asgs =>
      let! reps := set_some reps (sa_selector a) (sa_expr a) in
      let! (cols, c) :=
        if length cols <=? sa_combination a then
          let! (col, c) := fixed_column c in
          let! (_, c) := query_fixed_index col cur c in
          Ok (cols ++ [col], c)
        else Ok (cols, c) in
      match nth_error cols (sa_combination a) with
      | None => Panic
      | Some col =>
          let! map_ := set_some map_ (sa_selector a) col in
          replay asgs cols map_ reps c
      end
  end.

(** [ckb_recreate_side_effect] (plonk/circuit.rs:1900-1961). *)
Definition recreate (c : cs) (asgs : list selassign) : res cs :=
  let! (map_, reps, c) :=
    replay asgs [] (repeat None (length asgs)) (repeat None (length asgs)) c in
  let! map_ := unwrap_all map_ in
  let! reps := unwrap_all reps in
  substitute reps map_ c.
