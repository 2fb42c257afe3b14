(** The algebra of proof verification: the evaluations a proof supplies, the
    equation the verifier checks between them, and the openings it asks the
    commitment scheme to check (halo2_proofs/src/plonk/verifier.rs and the
    permutation, lookup and vanishing arguments).

    Simplifications:
    - one proof per call (ckb_bf_verifier/src/main.rs passes one instance vector);
    - challenges are arguments instead of being squeezed from the transcript, and
      the proof's scalars are a list instead of being parsed from its bytes;
    - [QUERY_INSTANCE] is false (poly/kzg/multiopen/shplonk/verifier.rs:33), the
      other branch is dropped;
    - a commitment is named by its place in the proof or the key; checking the
      openings is left to the commitment scheme;
    - lengths of public columns are below 2^31 ([max_instance_len as i32]). *)
From Coq Require Import ZArith List Bool Arith.
From Verif Require Import Base Field Halo2Model PermModel SelectorModel SerdeModel DomainModel VkModel.
Import ListNotations.
Local Open Scope Z_scope.

(** ** Evaluation domain (poly/domain.rs) *)

(** [rotate_omega] (poly/domain.rs:496-506) *)
Definition rotate_omega (d : domain) (value : Fr) (rotation : Z) : Fr :=
  if 0 <=? rotation then (value * pow_vartime (d_omega d) rotation)%F
  else (value * pow_vartime (d_omega_inv d) (Z.abs rotation))%F.

(** [l_i_range] (poly/domain.rs:540-565) *)
Definition l_i_range (d : domain) (x xn : Fr) (rotations : list Z) : list Fr :=
  let results := batch_invert (map (fun r => (x - rotate_omega d f1 r)%F) rotations) in
  let common := ((xn - f1) * d_barycentric_weight d)%F in
  map (fun rr => rotate_omega d (snd rr * common)%F (fst rr)) (combine rotations results).

(** [a..b] *)
Definition zrange (a b : Z) : list Z := map (fun i => a + Z.of_nat i) (seq 0 (Z.to_nat (b - a))).

(** [compute_inner_product] (arithmetic.rs:365-375) *)
Definition inner_product (a b : list Fr) : res Fr :=
  if (length a =? length b)%nat then
    Ok (fold_left (fun acc ab => (acc + fst ab * snd ab)%F) (combine a b) f0)
  else Panic.

(** ** Public inputs (plonk/verifier.rs:159-203) *)
Definition rotation_bounds (qs : list (nat * Z)) : Z * Z :=
  fold_left (fun mm q => if snd q <? fst mm then (snd q, snd mm)
                         else if snd mm <? snd q then (fst mm, snd q) else mm) qs (0, 0).
Definition slice {A} (l : list A) (from to : Z) : res (list A) :=
  if (0 <=? from) && (from <=? to) && (to <=? lenZ l) then
    Ok (firstn (Z.to_nat (to - from)) (skipn (Z.to_nat from) l))
  else Panic.
Definition instance_evals (v : vkey) (pn : Z) (insts : list (list Fr)) (x : Fr) : res (list Fr) :=
  let xn := pow_vartime x pn in
  let (min_rotation, max_rotation) := rotation_bounds (instance_queries (vk_cs v)) in
  let max_len := fold_left Z.max (map lenZ insts) 0 in
  let ls := l_i_range (vk_domain v) x xn (zrange (- max_rotation) (max_len + Z.abs min_rotation)) in
  rmap (fun q : nat * Z =>
          match nth_error insts (fst q) with
          | None => Panic
          | Some inst =>
              let offset := max_rotation - snd q in
              let! part := slice ls offset (offset + lenZ inst) in
              inner_product inst part
          end) (instance_queries (vk_cs v)).

(** ** The proof's scalars, in the order they are read *)

(** EvaluatedSet (plonk/permutation/verifier.rs:18-24), lookup Evaluated
    (plonk/lookup/verifier.rs:28-36) *)
Record pset := PSet { ps_eval : Fr; ps_next : Fr; ps_last : option Fr }.
Record leval := LEval {
  le_product : Fr; le_product_next : Fr; le_input : Fr; le_input_inv : Fr; le_table : Fr }.
Record evals := Evals {
  ev_advice : list Fr; ev_fixed : list Fr; ev_random : Fr; ev_sigma : list Fr;
  ev_sets : list pset; ev_lookups : list leval }.

(** [columns.chunks(chunk_len)]; panics when [chunk_len] is zero *)
Fixpoint chunks_go {A} (fuel len : nat) (l : list A) : list (list A) :=
  match fuel with
  | O => []
  | S f => match l with [] => [] | _ => firstn len l :: chunks_go f len (skipn len l) end
  end.
Definition chunks {A} (len : nat) (l : list A) : list (list A) := chunks_go (length l) len l.
Definition chunk_len (v : vkey) : nat := (vk_degree v - 2)%nat.

(** [read_n_scalars] (transcript.rs); [None] is the error of a proof that is too
    short *)
Definition take (n : nat) (l : list Fr) : option (list Fr * list Fr) :=
  if (n <=? length l)%nat then Some (firstn n l, skipn n l) else None.
(** Committed::evaluate (plonk/permutation/verifier.rs:73-99) *)
Fixpoint read_sets (n : nat) (l : list Fr) : option (list pset * list Fr) :=
  match n with
  | O => Some ([], l)
  | S O => match l with
           | e :: nx :: l => Some ([PSet e nx None], l)
           | _ => None
           end
  | S k => match l with
           | e :: nx :: la :: l =>
               match read_sets k l with
               | Some (s, l) => Some (PSet e nx (Some la) :: s, l)
               | None => None
               end
           | _ => None
           end
  end.
(** Committed::evaluate (plonk/lookup/verifier.rs:69-89) *)
Fixpoint read_lookups (n : nat) (l : list Fr) : option (list leval * list Fr) :=
  match n with
  | O => Some ([], l)
  | S k => match l with
           | a :: b :: c :: d :: e :: l =>
               match read_lookups k l with
               | Some (s, l) => Some (LEval a b c d e :: s, l)
               | None => None
               end
           | _ => None
           end
  end.
(** plonk/verifier.rs:205-228 *)
Definition read_evals (v : vkey) (l : list Fr) : option (evals * list Fr) :=
  match take (length (advice_queries (vk_cs v))) l with None => None | Some (adv, l) =>
  match take (length (fixed_queries (vk_cs v))) l with None => None | Some (fix_, l) =>
  match l with [] => None | rnd :: l =>
  match take (length (vk_permutation v)) l with None => None | Some (sig, l) =>
  match read_sets (length (chunks (chunk_len v) (perm_columns (vk_cs v)))) l with None => None | Some (sets, l) =>
  match read_lookups (length (lookups (vk_cs v))) l with None => None | Some (lks, l) =>
  Some (Evals adv fix_ rnd sig sets lks, l)
  end end end end end end.

(** ** The constraints at the evaluation point *)

(** indexing that panics *)
Definition at_ {A} (l : list A) (i : nat) : res A :=
  match nth_error l i with Some a => Ok a | None => Panic end.
Definition lift1 (f : Fr -> Fr) (a : res Fr) : res Fr := let! a := a in Ok (f a).
Definition lift2 (f : Fr -> Fr -> Fr) (a b : res Fr) : res Fr := let! a := a in let! b := b in Ok (f a b).

(** the closures passed to [Expression::evaluate] (plonk/verifier.rs:259-271,
    plonk/lookup/verifier.rs:118-130) *)
Definition eval_at (fixed advice instance chs : list Fr) : expr -> res Fr :=
  evaluate (fun c => Ok c) (fun _ => Panic) (fun q => at_ fixed (q_index q))
    (fun q _ => at_ advice (q_index q)) (fun q => at_ instance (q_index q))
    (fun c => at_ chs (ch_index c)) (lift1 fopp) (lift2 fadd) (lift2 fmul)
    (fun a s => lift1 (fun a => (a * s)%F) a).

(** [get_any_query_index] (plonk/circuit.rs:1809-1851) followed by the indexing
    (plonk/permutation/verifier.rs:160-172) *)
Definition column_eval (c : cs) (fixed advice instance : list Fr) (col : column) : res Fr :=
  match col with
  | CAdvice a =>
      match position (fun q : advice_col * Z => acol_eqb (fst q) a && Z.eqb (snd q) cur) (advice_queries c) with
      | Some i => at_ advice i | None => Panic end
  | CFixed f =>
      match position (fun q : nat * Z => Nat.eqb (fst q) f && Z.eqb (snd q) cur) (fixed_queries c) with
      | Some i => at_ fixed i | None => Panic end
  | CInstance f =>
      match position (fun q : nat * Z => Nat.eqb (fst q) f && Z.eqb (snd q) cur) (instance_queries c) with
      | Some i => at_ instance i | None => Panic end
  end.

(** Evaluated::expressions of the permutation argument
    (plonk/permutation/verifier.rs:101-205) *)
Definition perm_first (l_0 : Fr) (sets : list pset) : list Fr :=
  match sets with [] => [] | s :: _ => [(l_0 * (f1 - ps_eval s))%F] end.
Definition perm_last (l_last : Fr) (sets : list pset) : list Fr :=
  match rev sets with [] => [] | s :: _ => [((ps_eval s * ps_eval s - ps_eval s) * l_last)%F] end.
Definition perm_links (l_0 : Fr) (sets : list pset) : res (list Fr) :=
  rmap (fun sp : pset * pset =>
          match ps_last (snd sp) with
          | Some last => Ok ((ps_eval (fst sp) - last) * l_0)%F
          | None => Panic
          end) (combine (tl sets) sets).
Definition perm_left (beta gamma next : Fr) (evs sigma : list Fr) : Fr :=
  fold_left (fun acc es => (acc * (fst es + beta * snd es + gamma))%F) (combine evs sigma) next.
Fixpoint perm_right (gamma : Fr) (evs : list Fr) (delta_cur acc : Fr) : Fr :=
  match evs with
  | [] => acc
  | e :: evs => perm_right gamma evs (delta_cur * DELTA)%F (acc * (e + delta_cur + gamma))%F
  end.
Fixpoint perm_products (column : column -> res Fr) (clen : nat) (beta gamma x active : Fr) (idx : nat)
    (sets : list pset) (cols : list (list Halo2Model.column)) (sigma : list (list Fr)) : res (list Fr) :=
  match sets, cols, sigma with
  | s :: sets, cs :: cols, sg :: sigma =>
      let! evs := rmap column cs in
      let left := perm_left beta gamma (ps_next s) evs sg in
      let right := perm_right gamma evs
        (beta * x * pow_vartime DELTA (Z.of_nat (idx * clen)))%F (ps_eval s) in
      let! rest := perm_products column clen beta gamma x active (S idx) sets cols sigma in
      Ok (((left - right) * active)%F :: rest)
  | _, _, _ => Ok []
  end.
Definition perm_expressions (v : vkey) (e : evals) (inst : list Fr)
    (l_0 l_last l_blind beta gamma x : Fr) : res (list Fr) :=
  if (chunk_len v =? 0)%nat then Panic else
  let cols := chunks (chunk_len v) (perm_columns (vk_cs v)) in
  let! links := perm_links l_0 (ev_sets e) in
  let! prods := perm_products (column_eval (vk_cs v) (ev_fixed e) (ev_advice e) inst) (chunk_len v)
    beta gamma x (f1 - (l_last + l_blind))%F 0 (ev_sets e) cols (chunks (chunk_len v) (ev_sigma e)) in
  Ok (perm_first l_0 (ev_sets e) ++ perm_last l_last (ev_sets e) ++ links ++ prods).

(** Evaluated::expressions of the lookup argument
    (plonk/lookup/verifier.rs:91-168) *)
Definition compress_evals (theta : Fr) (l : list Fr) : Fr :=
  fold_left (fun acc ev => (acc * theta + ev)%F) l f0.
Definition lookup_expressions (ev : expr -> res Fr) (l_0 l_last l_blind theta beta gamma : Fr)
    (le : leval) (arg : list expr * list expr) : res (list Fr) :=
  let active := (f1 - (l_last + l_blind))%F in
  let left := (le_product_next le * (le_input le + beta) * (le_table le + gamma))%F in
  let! inputs := rmap ev (fst arg) in
  let! tables := rmap ev (snd arg) in
  let right := (le_product le * (compress_evals theta inputs + beta) * (compress_evals theta tables + gamma))%F in
  Ok [(l_0 * (f1 - le_product le))%F;
      (l_last * (le_product le * le_product le - le_product le))%F;
      ((left - right) * active)%F;
      (l_0 * (le_input le - le_table le))%F;
      ((le_input le - le_table le) * (le_input le - le_input_inv le) * active)%F].

(** the three values of Lagrange polynomials (plonk/verifier.rs:233-247) *)
Definition l_values (v : vkey) (x xn : Fr) : res (Fr * Fr * Fr) :=
  let bf := blinding_factors (vk_cs v) in
  let ls := l_i_range (vk_domain v) x xn (zrange (- (Z.of_nat bf + 1)) 1) in
  if (length ls =? 2 + bf)%nat then
    let! l_last := at_ ls 0 in
    let l_blind := fold_left fadd (firstn bf (tl ls)) f0 in
    let! l_0 := at_ ls (1 + bf) in
    Ok (l_0, l_last, l_blind)
  else Panic.

(** all constraints (plonk/verifier.rs:249-310) *)
Definition expressions (v : vkey) (inst chs : list Fr) (l_0 l_last l_blind theta beta gamma x : Fr)
    (e : evals) : res (list Fr) :=
  let ev := eval_at (ev_fixed e) (ev_advice e) inst chs in
  let! gs := rmap ev (concat (gates (vk_cs v))) in
  let! ps := perm_expressions v e inst l_0 l_last l_blind beta gamma x in
  let! lks := rmap (fun la => lookup_expressions ev l_0 l_last l_blind theta beta gamma (fst la) (snd la))
                (combine (ev_lookups e) (lookups (vk_cs v))) in
  Ok (gs ++ ps ++ concat lks).

(** PartiallyEvaluated::verify (plonk/vanishing/verifier.rs:88-98):
    [invert().unwrap()] panics when x^n = 1 *)
Definition expected_h (y xn : Fr) (es : list Fr) : res Fr :=
  let h := fold_left (fun h v => (h * y + v)%F) es f0 in
  match finvert (xn - f1)%F with Some i => Ok (h * i)%F | None => Panic end.

(** the commitment to the quotient, assembled from its pieces
    (plonk/vanishing/verifier.rs:100-110); the pieces are anything that can be
    scaled and added *)
Definition h_combine {A} (scale : Fr -> A -> A) (add : A -> A -> A) (zero : A) (xn : Fr) (hs : list A) : A :=
  fold_left (fun acc c => add (scale xn acc) c) (rev hs) zero.

(** ** The openings handed to the commitment scheme *)
Inductive handle :=
| HAdvice (col : nat) | HFixed (col : nat) | HSigma (col : nat)
| HProduct (set : nat)
| HLookupProduct (l : nat) | HLookupInput (l : nat) | HLookupTable (l : nat)
| HQuotient | HRandom.
Definition opening := (handle * Fr * Fr)%type.
Definition enum {A} (l : list A) : list (nat * A) := combine (seq 0 (length l)) l.

(** permutation Evaluated::queries (plonk/permutation/verifier.rs:207-243) *)
Definition perm_queries (v : vkey) (x : Fr) (sets : list pset) : res (list opening) :=
  let x_next := rotate_omega (vk_domain v) x next in
  let x_last := rotate_omega (vk_domain v) x (- (Z.of_nat (blinding_factors (vk_cs v)) + 1)) in
  let! lasts := rmap (fun s : nat * pset =>
                        match ps_last (snd s) with
                        | Some e => Ok (HProduct (fst s), x_last, e)
                        | None => Panic
                        end) (tl (rev (enum sets))) in
  Ok (flat_map (fun s : nat * pset =>
                  [(HProduct (fst s), x, ps_eval (snd s)); (HProduct (fst s), x_next, ps_next (snd s))])
        (enum sets) ++ lasts).
(** lookup Evaluated::queries (plonk/lookup/verifier.rs:170-212) *)
Definition lookup_queries (v : vkey) (x : Fr) (l : nat * leval) : list opening :=
  let x_inv := rotate_omega (vk_domain v) x prev in
  let x_next := rotate_omega (vk_domain v) x next in
  let (i, le) := l in
  [(HLookupProduct i, x, le_product le); (HLookupInput i, x, le_input le);
   (HLookupTable i, x, le_table le); (HLookupInput i, x_inv, le_input_inv le);
   (HLookupProduct i, x_next, le_product_next le)].

(** [verify_proof] from the evaluations to the openings (plonk/verifier.rs:43-47,
    159-392) *)
Inductive verdict := VInvalidInstances | VPanic | VOpen (l : list opening).
Definition verify_openings (v : vkey) (pn : Z) (insts : list (list Fr)) (chs : list Fr)
    (theta beta gamma y x : Fr) (e : evals) : verdict :=
  if negb (length insts =? num_instance (vk_cs v))%nat then VInvalidInstances else
  let c := vk_cs v in
  let r :=
    let! inst := instance_evals v pn insts x in
    let xn := pow_vartime x pn in
    let! (l_0, l_last, l_blind) := l_values v x xn in
    let! es := expressions v inst chs l_0 l_last l_blind theta beta gamma x e in
    let! h := expected_h y xn es in
    let! pq := perm_queries v x (ev_sets e) in
    let! aq := rmap (fun iq : nat * (advice_col * Z) =>
                       let! ev := at_ (ev_advice e) (fst iq) in
                       Ok (HAdvice (ac_index (fst (snd iq))), rotate_omega (vk_domain v) x (snd (snd iq)), ev))
                 (enum (advice_queries c)) in
    let! fq := rmap (fun iq : nat * (nat * Z) =>
                       let! ev := at_ (ev_fixed e) (fst iq) in
                       Ok (HFixed (fst (snd iq)), rotate_omega (vk_domain v) x (snd (snd iq)), ev))
                 (enum (fixed_queries c)) in
    let sq := map (fun s : nat * Fr => (HSigma (fst s), x, snd s)) (enum (ev_sigma e)) in
    Ok (aq ++ pq ++ flat_map (lookup_queries v x) (enum (ev_lookups e)) ++ fq ++ sq ++
        [(HQuotient, x, h); (HRandom, x, ev_random e)]) in
  match r with Ok l => VOpen l | Panic => VPanic end.
