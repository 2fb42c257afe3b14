(** The Blake2b transcript (halo2_proofs/src/transcript.rs): what the prover
    writes, what the verifier reads, and the challenges both squeeze.

    Simplifications:
    - the state of the hash is the list of bytes it was updated with;
      [hash] maps it to the 64 bytes of the digest (Blake2b with the
      personalisation "Halo2-Transcript" is not modelled, nothing is assumed of
      [hash]);
    - [coordinates] calls [Coordinates::from_xy] of the pasta_curves crate (not
      part of this project), which checks the point with [C::from_xy]
      (halo2curves derive/curve.rs:750-759). *)
From Coq Require Import ZArith List Bool Arith.
From Verif Require Import Base Field LimbModel SerdeModel.
Import ListNotations.
Local Open Scope Z_scope.

(** A reading transcript: the bytes absorbed and the bytes left to read. *)
Inductive tres (A : Type) := TOk (a : A) (absorbed rest : list Z) | TErr | TPanic.
Arguments TOk {A} _ _ _.
Arguments TErr {A}.
Arguments TPanic {A}.
Definition transcript A := list Z -> list Z -> tres A.
Definition tret {A} (a : A) : transcript A := fun st b => TOk a st b.
(** the [?] operator *)
Definition tbind {A B} (r : transcript A) (f : A -> transcript B) : transcript B := fun st b =>
  match r st b with TOk a st b => f a st b | TErr => TErr | TPanic => TPanic end.
Notation "'get!' x '<-' e ';' k" := (tbind e (fun x => k))
  (at level 200, x pattern, e at level 100, k at level 200, right associativity).
Definition tlift {A} (r : res A) : transcript A := fun st b =>
  match r with Ok a => TOk a st b | Panic => TPanic end.
Fixpoint trepeat {A} (n : nat) (r : transcript A) : transcript (list A) :=
  match n with
  | O => tret []
  | S n => get! x <- r; get! l <- trepeat n r; tret (x :: l)
  end.

(** BLAKE2B_PREFIX_CHALLENGE, _POINT, _SCALAR (transcript.rs:18-25) *)
Definition PREFIX_CHALLENGE := 0.
Definition PREFIX_POINT := 1.
Definition PREFIX_SCALAR := 2.

(** Challenge255::new, get_scalar (transcript.rs:477-491); [unwrap] panics *)
Definition challenge_scalar (digest : list Z) : res Fr :=
  match from_repr fr_params (to_repr fr_params (from_bytes_wide fr_params digest)) with
  | Some x => Ok (fr_value x)
  | None => Panic
  end.
(** the bytes [common_point], [common_scalar] (transcript.rs:210-225, 364-379)
    absorb *)
Definition point_bytes (p : g1) : list Z :=
  [PREFIX_POINT] ++ to_repr fq_params (g1_x p) ++ to_repr fq_params (g1_y p).
Definition scalar_bytes (s : Fr) : list Z := [PREFIX_SCALAR] ++ to_repr fr_params (fr_limbs s).

Section Transcript.
Variable hash : list Z -> list Z.

(** ** Reading *)

(** transcript.rs:203-208 *)
Definition squeeze : transcript Fr := fun st b =>
  let st := st ++ [PREFIX_CHALLENGE] in
  match challenge_scalar (hash st) with Ok c => TOk c st b | Panic => TPanic end.
(** transcript.rs:210-225 *)
Definition common_point (p : g1) : transcript unit := fun st b =>
  if is_on_curve p then TOk tt (st ++ point_bytes p) b else TErr.
Definition common_scalar (s : Fr) : transcript unit := fun st b => TOk tt (st ++ scalar_bytes s) b.
Definition read_bytes (n : nat) : transcript (list Z) := fun st b =>
  match read_exact n b with IOk l rest => TOk l st rest | IErr => TErr | IPanic => TPanic end.
(** transcript.rs:155-173 *)
Definition read_point : transcript g1 :=
  get! b <- read_bytes 32;
  match g1_from_bytes b with
  | None => fun _ _ => TErr
  | Some p => get! _ <- common_point p; tret p
  end.
Definition read_scalar : transcript Fr :=
  get! b <- read_bytes 32;
  match from_repr fr_params b with
  | None => fun _ _ => TErr
  | Some x => let s := fr_value x in get! _ <- common_scalar s; tret s
  end.

(** ** Writing: the bytes absorbed and the bytes written *)
Definition wstate := (list Z * list Z)%type.
(** transcript.rs:357-362 *)
Definition wsqueeze (w : wstate) : res (Fr * wstate) :=
  let st := fst w ++ [PREFIX_CHALLENGE] in
  let! c := challenge_scalar (hash st) in Ok (c, (st, snd w)).
(** transcript.rs:327-337; [None] is an error *)
Definition write_point (p : g1) (w : wstate) : option wstate :=
  if is_on_curve p then Some (fst w ++ point_bytes p, snd w ++ g1_to_bytes p) else None.
Definition write_scalar (s : Fr) (w : wstate) : wstate :=
  (fst w ++ scalar_bytes s, snd w ++ to_repr fr_params (fr_limbs s)).
End Transcript.
