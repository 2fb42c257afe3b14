(** What serialised data may contain, independently of the readers and writers. *)
From Coq Require Import ZArith List.
From Verif Require Import Field LimbModel LimbSpec Halo2Model SelectorModel SerdeModel.
Import ListNotations.
Local Open Scope Z_scope.

(** the Rust types of the fields: a usize stored in 32 bits, an i32, a u8 *)
Definition fits32 (n : nat) : Prop := Z.of_nat n < 2 ^ 32.
Definition fits_i32 (z : Z) : Prop := - 2 ^ 31 <= z < 2 ^ 31.
Definition fits8 (n : nat) : Prop := Z.of_nat n < 256.
Definition fits_query (q : query) : Prop := fits32 (q_index q) /\ fits32 (q_col q) /\ fits_i32 (q_rot q).
Fixpoint fits (e : expr) : Prop :=
  match e with
  | EConst _ => True
  | ESelector s => fits32 (sel_index s)
  | EFixed q | EInstance q => fits_query q
  | EAdvice q p => fits_query q /\ fits8 p
  | EChallenge c => fits32 (ch_index c) /\ fits8 (ch_phase c)
  | ENeg a | EScaled a _ => fits a
  | ESum a b | EProd a b => fits a /\ fits b
  end.
Definition fits_assign (a : selassign) : Prop :=
  fits32 (sa_selector a) /\ fits32 (sa_combination a) /\ fits (sa_expr a).

(** nesting depth: the stack frames a recursive reader needs *)
Fixpoint depth (e : expr) : nat :=
  match e with
  | ENeg a | EScaled a _ => S (depth a)
  | ESum a b | EProd a b => S (Nat.max (depth a) (depth b))
  | _ => 1%nat
  end.

(** coordinates that are field elements *)
Definition fq_pair (a : fq2) : Prop := canonical q_pos (c0 a) /\ canonical q_pos (c1 a).
Definition g1_coords (a : g1) : Prop := canonical q_pos (g1_x a) /\ canonical q_pos (g1_y a).
Definition g2_coords (a : g2) : Prop := fq_pair (g2_x a) /\ fq_pair (g2_y a).
(** a point of y^2 = x^3 + 3, or the pair (0, 0) that stands for infinity *)
Definition g1_point (a : g1) (x y : Fq) : Prop :=
  represents (g1_x a) x /\ represents (g1_y a) y /\
  ((x = f0 /\ y = f0) \/ (y * y = x * x * x + of_Z q_pos 3)%F).

(** [l] is a proper prefix of [m] *)
Definition truncation {A} (l m : list A) : Prop := exists t, t <> [] /\ m = l ++ t.

(** parameters as the set-up makes them *)
Record valid_params (p : kzg) : Prop := {
  vp_n : kz_n p = 2 ^ kz_k p;
  vp_g : length (kz_g p) = Z.to_nat (2 ^ kz_k p);
  vp_gl : length (kz_gl p) = Z.to_nat (2 ^ kz_k p);
  vp_coords : forall a, In a (kz_g p) \/ In a (kz_gl p) -> g1_coords a;
  vp_g2 : g2_coords (kz_g2 p);
  vp_sg2 : g2_coords (kz_sg2 p)
}.
