(** What a trace stored in the circuit's processor columns should look like.
    Specification only: steps on field elements, with character codes from
    BFSpec. *)
From Coq Require Import ZArith List.
From Verif Require Import Field BFSpec VMModel CircuitModel Halo2Model.
Import ListNotations.
Local Open Scope F_scope.

(** The seven values of one row. *)
Record vrow := mkV {
  v_clk : Fr; v_ip : Fr; v_ci : Fr; v_ni : Fr; v_mp : Fr; v_mv : Fr; v_mvi : Fr
}.
(** Row [r] of the processor columns of configuration [c]. *)
Definition view (c : main_config) (A : nat -> nat -> Fr) (r : nat) : vrow :=
  let p := p_config c in
  mkV (A (ac_index (p_clk p)) r) (A (ac_index (p_ip p)) r) (A (ac_index (p_ci p)) r)
      (A (ac_index (p_ni p)) r) (A (ac_index (p_mp p)) r) (A (ac_index (p_mv p)) r)
      (A (ac_index (p_mvi p)) r).

Definition byte (x : Fr) : Prop := (0 <= fval x < 256)%Z.

(** What executing the instruction shown by row [a] makes of its successor. *)
Definition step_ok (a b : vrow) : Prop :=
  v_clk b = v_clk a + f1 /\
  (v_ci a = FrZ chr_inc ->
     v_ip b = v_ip a + f1 /\ v_mp b = v_mp a /\ fval (v_mv b) = ((fval (v_mv a) + 1) mod 256)%Z) /\
  (v_ci a = FrZ chr_dec ->
     v_ip b = v_ip a + f1 /\ v_mp b = v_mp a /\ fval (v_mv b) = ((fval (v_mv a) - 1) mod 256)%Z) /\
  (v_ci a = FrZ chr_right -> v_ip b = v_ip a + f1 /\ v_mp b = v_mp a + f1) /\
  (v_ci a = FrZ chr_left -> v_ip b = v_ip a + f1 /\ v_mp b = v_mp a - f1) /\
  (v_ci a = FrZ chr_out -> v_ip b = v_ip a + f1 /\ v_mp b = v_mp a /\ v_mv b = v_mv a) /\
  (v_ci a = FrZ chr_in -> v_ip b = v_ip a + f1 /\ v_mp b = v_mp a /\ byte (v_mv b)) /\
  (v_ci a = FrZ chr_open ->
     v_mp b = v_mp a /\ v_mv b = v_mv a /\
     (v_mv a = f0 -> v_ip b = v_ni a) /\ (v_mv a <> f0 -> v_ip b = v_ip a + FrZ 2)) /\
  (v_ci a = FrZ chr_close ->
     v_mp b = v_mp a /\ v_mv b = v_mv a /\
     (v_mv a <> f0 -> v_ip b = v_ni a) /\ (v_mv a = f0 -> v_ip b = v_ip a + FrZ 2)).
