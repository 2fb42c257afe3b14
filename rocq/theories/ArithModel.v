(** Polynomial arithmetic: the Fourier transform, division by a linear factor,
    interpolation, multi-exponentiation (halo2_proofs/src/arithmetic.rs) and the
    changes of basis of an evaluation domain (poly/domain.rs).

    Simplifications:
    - the functions generic in a curve are over any type with the group
      operations they use; [double] is an addition, affine and projective
      coordinates of a point are the same point;
    - [parallelize] runs over one element at a time (arithmetic.rs:402-410), so
      its body is applied to every element with its index;
    - lengths are below 2^32 and indices never overflow. *)
From Coq Require Import ZArith List Arith Bool.
From Verif Require Import Base Moduli Field LimbModel DomainModel.
Import ListNotations.

Definition aget {A} (l : list A) (i : nat) : res A :=
  match nth_error l i with Some a => Ok a | None => Panic end.
Definition aset {A} (l : list A) (i : nat) (x : A) : res (list A) :=
  if i <? length l then Ok (upd l i x) else Panic.

(** [bitreverse] (arithmetic.rs:156-163): [r] collects the low bits of [n] *)
Fixpoint bitreverse_go (l n r : nat) : nat :=
  match l with O => r | S l => bitreverse_go l (n / 2) (2 * r + n mod 2) end.
Definition bitreverse (n l : nat) : nat := bitreverse_go l n 0.

Section Transform.
Context {G : Type}.
(** [group_add], [group_sub], [group_scale] *)
Variable add sub : G -> G -> G.
Variable scale : Fr -> G -> G.

(** [a.swap(i, j)] *)
Definition swap (a : list G) (i j : nat) : res (list G) :=
  let! x := aget a i in let! y := aget a j in
  let! a := aset a i y in aset a j x.
(** arithmetic.rs:169-174 *)
Fixpoint reorder (log_n : nat) (ks : list nat) (a : list G) : res (list G) :=
  match ks with
  | [] => Ok a
  | k :: ks =>
      let rk := bitreverse k log_n in
      let! a := (if k <? rk then swap a rk k else Ok a) in
      reorder log_n ks a
  end.
(** the butterflies of one block (arithmetic.rs:182-190), [count] left *)
Fixpoint butterflies (m k : nat) (w_m : Fr) (count j : nat) (w : Fr) (a : list G) : res (list G) :=
  match count with
  | O => Ok a
  | S count =>
      let! t := aget a (k + j + m) in
      let t := scale w t in
      let! u := aget a (k + j) in
      let! a := aset a (k + j + m) (sub u t) in
      let! a := aset a (k + j) (add u t) in
      butterflies m k w_m count (S j) (w * w_m)%F a
  end.
(** [while k < n] (arithmetic.rs:180-193): the blocks of length 2m from [k] on *)
Fixpoint blocks (m : nat) (w_m : Fr) (fuel k n : nat) (a : list G) : res (list G) :=
  match fuel with
  | O => Ok a
  | S fuel =>
      if k <? n then
        let! a := butterflies m k w_m m 0 f1 a in
        blocks m w_m fuel (k + 2 * m) n a
      else Ok a
  end.
(** the levels (arithmetic.rs:176-196) *)
Fixpoint levels (omega : Fr) (n : nat) (count m : nat) (a : list G) : res (list G) :=
  match count with
  | O => Ok a
  | S count =>
      let w_m := pow_vartime omega (Z.of_nat (n / (2 * m))) in
      let! a := blocks m w_m n 0 n a in
      levels omega n count (2 * m) a
  end.
(** [serial_fft], [best_fft] (arithmetic.rs:152-197) *)
Definition fft (a : list G) (omega : Fr) (log_n : nat) : res (list G) :=
  let n := length a in
  if n =? 2 ^ log_n then
    let! a := reorder log_n (seq 0 n) a in
    levels omega n log_n 1 a
  else Panic.

(** ** Changes of basis (poly/domain.rs) *)

(** [ifft] (poly/domain.rs:468-476) *)
Definition ifft (a : list G) (omega_inv : Fr) (log_n : nat) (divisor : Fr) : res (list G) :=
  let! a := fft a omega_inv log_n in Ok (map (scale divisor) a).
(** [f] on every element and its index *)
Definition mapi {A B} (f : nat -> A -> B) (l : list A) : list B :=
  map (fun ia => f (fst ia) (snd ia)) (combine (seq 0 (length l)) l).
(** [distribute_powers_zeta] (poly/domain.rs:437-453) *)
Definition distribute_powers_zeta (d : domain) (a : list G) (into_coset : bool) : list G :=
  let c1 := if into_coset then d_g_coset d else d_g_coset_inv d in
  let c2 := if into_coset then d_g_coset_inv d else d_g_coset d in
  mapi (fun i x => match i mod 3 with O => x | S O => scale c1 x | _ => scale c2 x end) a.
(** [distribute_powers] (poly/domain.rs:458-466) *)
Definition distribute_powers (a : list G) (c : Fr) : list G :=
  mapi (fun i x => scale (pow_vartime c (Z.of_nat i)) x) a.
(** [lagrange_to_coeff] (poly/domain.rs:253-263) *)
Definition lagrange_to_coeff (d : domain) (a : list G) : res (list G) :=
  if (lenZ a =? 2 ^ d_k d)%Z then ifft a (d_omega_inv d) (Z.to_nat (d_k d)) (d_ifft_divisor d) else Panic.
(** [coeff_to_extended_part] (poly/domain.rs:342-356) *)
Definition coeff_to_extended_part (d : domain) (a : list G) (factor : Fr) : res (list G) :=
  if (lenZ a =? 2 ^ d_k d)%Z then
    fft (distribute_powers a (d_g_coset d * factor)%F) (d_omega d) (Z.to_nat (d_k d))
  else Panic.
(** [extended_from_lagrange_vec] (poly/domain.rs:172-193): transposition.  [zero]
    fills the places no value is written to; a part shorter than n - 1 is
    sliced out of bounds. *)
Definition extended_from_lagrange_vec (zero : G) (d : domain) (values : list (list G)) : res (list G) :=
  if (lenZ values =? 2 ^ (d_extended_k d - d_k d))%Z then
    match values with
    | [] => Panic
    | v :: _ =>
        if ((lenZ v =? d_n d)%Z && forallb (fun p => (d_n d - 1 <=? lenZ p)%Z) values)%bool then
          Ok (flat_map (fun r => map (fun p => nth r p zero) values) (seq 0 (Z.to_nat (d_n d))))
        else Panic
    end
  else Panic.
(** [coeff_to_extended] (poly/domain.rs:267-281) *)
Definition coeff_to_extended (zero : G) (d : domain) (a : list G) : res (list G) :=
  if (lenZ a =? 2 ^ d_k d)%Z then
    fft (distribute_powers_zeta d a true ++ repeat zero (Z.to_nat (2 ^ d_extended_k d - 2 ^ d_k d)%Z))
      (d_extended_omega d) (Z.to_nat (d_extended_k d))
  else Panic.
(** [divide_by_vanishing_poly] (poly/domain.rs:409-429) *)
Definition divide_by_vanishing_poly (d : domain) (a : list G) : res (list G) :=
  if (lenZ a =? 2 ^ d_extended_k d)%Z then
    let t := d_t_evaluations d in
    Ok (mapi (fun i x => scale (nth (i mod length t) t f0) x) a)
  else Panic.
(** [extended_to_coeff] (poly/domain.rs:383-405) *)
Definition extended_to_coeff (d : domain) (a : list G) : res (list G) :=
  if (lenZ a =? 2 ^ d_extended_k d)%Z then
    let! a := ifft a (d_extended_omega_inv d) (Z.to_nat (d_extended_k d)) (d_extended_ifft_divisor d) in
    let a := distribute_powers_zeta d a false in
    Ok (firstn (Z.to_nat (d_n d * d_quotient_poly_degree d)%Z) a)
  else Panic.
End Transform.

(** ** Scalars *)

(** [eval_polynomial] (arithmetic.rs:353-360) *)
Definition eval_polynomial (poly : list Fr) (point : Fr) : Fr :=
  fold_left (fun acc c => (acc * point + c)%F) (rev poly) f0.

(** the loop of [kate_division] (arithmetic.rs:388-395) over the coefficients
    from the highest down, [count] places of the quotient left; the quotient is
    built from its highest coefficient *)
Fixpoint kate_go (b : Fr) (count : nat) (a : list Fr) (tmp : Fr) (q : list Fr) : list Fr :=
  match count, a with
  | S count, r :: a => let lead := (r - tmp)%F in kate_go b count a (lead * b)%F (lead :: q)
  | _, _ => q
  end.
(** [kate_division] (arithmetic.rs:379-398): [a.len() - 1] underflows on an empty
    polynomial *)
Definition kate_division (a : list Fr) (b : Fr) : res (list Fr) :=
  match length a with O => Panic | S l => Ok (kate_go (- b)%F l (rev a) f0 []) end.

(** the elements of a list but the [j]-th ([enumerate().filter(|k| k != j)]) *)
Definition others {A} (j : nat) (l : list A) : list A := firstn j l ++ skipn (S j) l.
(** one factor of an interpolation polynomial (arithmetic.rs:449-457) *)
Definition times_factor (tmp : list Fr) (denom x_k : Fr) : list Fr :=
  map (fun ab => (fst ab * (- denom * x_k) + snd ab * denom)%F) (combine (tmp ++ [f0]) (f0 :: tmp)).
(** [lagrange_interpolate] (arithmetic.rs:414-467); [batch_invert] leaves zeros.
    The assertions on lengths inside the loop always hold: [tmp] grows by one
    with every factor. *)
Definition lagrange_interpolate (points evals : list Fr) : res (list Fr) :=
  if length points =? length evals then
    match points, evals with
    | [_], [e] => Ok [e]
    | _, _ =>
        let poly j x_j eval :=
          let tmp := fold_left (fun tmp x_k => times_factor tmp (finv (x_j - x_k)%F) x_k) (others j points) [f1] in
          map (fun c => (c * eval)%F) tmp in
        Ok (fold_left (fun final jxe => map (fun ab => (fst ab + snd ab)%F)
              (combine final (poly (fst jxe) (fst (snd jxe)) (snd (snd jxe)))))
             (combine (seq 0 (length points)) (combine points evals)) (repeat f0 (length points)))
    end
  else Panic.

(** [evaluate_vanishing_polynomial] (arithmetic.rs:469-471) *)
Definition evaluate_vanishing_polynomial (roots : list Fr) (z : Fr) : Fr :=
  fold_left (fun acc point => ((z - point) * acc)%F) roots f1.
(** the first [n] elements of [powers] (arithmetic.rs:473-475) *)
Fixpoint powers_from (n : nat) (base cur : Fr) : list Fr :=
  match n with O => [] | S n => cur :: powers_from n base (base * cur)%F end.
Definition powers_of (n : nat) (base : Fr) : list Fr := powers_from n base f1.

(** ** Multi-exponentiation (arithmetic.rs:15-140) *)

(** [get_at] (arithmetic.rs:26-44) *)
Definition get_at (segment c : Z) (bytes : list Z) : Z :=
  (let skip_bits := segment * c in
   let skip_bytes := skip_bits / 8 in
   if 32 <=? skip_bytes then 0
   else
     let v := le_value (firstn 8 (skipn (Z.to_nat skip_bytes) bytes)) in
     Z.shiftr v (skip_bits - skip_bytes * 8) mod 2 ^ c)%Z.

Section Multiexp.
Context {G : Type}.
Variable add : G -> G -> G.
Variable identity : G.

(** a bucket is empty or holds a sum (arithmetic.rs:53-82) *)
Definition bucket_add (b : option G) (p : G) : option G :=
  match b with None => Some p | Some a => Some (add a p) end.
Definition bucket_sum (b : option G) (other : G) : G :=
  match b with None => other | Some a => add other a end.
(** the points sorted into buckets (arithmetic.rs:86-91) *)
Fixpoint fill_buckets (digits : list Z) (bases : list G) (bs : list (option G)) : res (list (option G)) :=
  match digits, bases with
  | d :: digits, p :: bases =>
      if Z.eqb d 0 then fill_buckets digits bases bs
      else let! b := aget bs (Z.to_nat (d - 1)%Z) in
           let! bs := aset bs (Z.to_nat (d - 1)%Z) (bucket_add b p) in
           fill_buckets digits bases bs
  | _, _ => Ok bs
  end.
(** summation by parts (arithmetic.rs:97-101) *)
Definition sum_buckets (bs : list (option G)) (acc : G) : G :=
  snd (fold_left (fun ra b => let running := bucket_sum b (fst ra) in (running, add (snd ra) running))
         (rev bs) (identity, acc)).
Fixpoint doublings (n : nat) (acc : G) : G :=
  match n with O => acc | S n => doublings n (add acc acc) end.
Fixpoint segments_down (c : Z) (count : nat) (reprs : list (list Z)) (bases : list G) (acc : G) : res G :=
  match count with
  | O => Ok acc
  | S count =>
      let acc := doublings (Z.to_nat c) acc in
      let digits := map (get_at (Z.of_nat count) c) reprs in
      let! bs := fill_buckets digits bases (repeat None (Z.to_nat (2 ^ c - 1)%Z)) in
      segments_down c count reprs bases (sum_buckets bs acc)
  end.
(** [best_multiexp], [multiexp_serial]; the bytes of a scalar are those of
    [to_repr] ([C31_repr]) *)
Definition best_multiexp (coeffs : list Fr) (bases : list G) : res G :=
  if length coeffs =? length bases then
    let c := (if (length bases <? 4)%nat then 1 else if (length bases <? 32)%nat then 3 else 4)%Z in
    segments_down c (Z.to_nat (256 / c + 1)%Z) (map (fun a => le_bytes 32 (fval a)) coeffs) bases identity
  else Panic.
End Multiexp.
