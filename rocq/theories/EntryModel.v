(** The on-chain program (ckb_bf_verifier/src/main.rs) and the transaction
    witnesses the prover prepares for it (ckb_bf_prover/src/main.rs).

    Simplifications: reading the parameters, reading the key and verifying the
    proof are arguments, so that statements can range over all of them;
    [bf_verifier] instantiates the first two with the models of the code.
    [load_witness] is a system call of ckb_std (not part of this project): it
    succeeds with the length of the witness when there is one and it fits the
    buffer. *)
From Coq Require Import ZArith List Bool Arith.
From Verif Require Import Base Field Halo2Model VMModel SerdeModel VkModel.
Import ListNotations.

Definition load_witness (buffer : Z) (w : option (list Z)) : option (list Z) :=
  match w with
  | Some b => if (lenZ b <=? buffer)%Z then Some b else None
  | None => None
  end.

(** [array[i] = x] *)
Definition array_set {A} (l : list A) (i : nat) (x : A) : res (list A) :=
  if i <? length l then Ok (upd l i x) else Panic.
(** [(0..len).for_each(|idx| array[idx + 1] = value(idx))], from [idx] on *)
Fixpoint array_fill {A} (value : nat -> A) (n idx : nat) (l : list A) : res (list A) :=
  match n with
  | O => Ok l
  | S n => let! l := array_set l (idx + 1) (value idx) in array_fill value n (S idx) l
  end.

(** main.rs:73-79, 126: the code column *)
Definition decode_code (b : list Z) : res (list Fr) :=
  if negb (length b mod 2 =? 0) then Panic
  else
    let len := length b / 2 in
    let! a := array_set (repeat f0 1024) 0 (FrZ (Z.of_nat len)) in
    let! a := array_fill (fun i => FrZ (nth (2 * i) b 0 + 256 * nth (2 * i + 1) b 0)%Z) len 0 a in
    if length a <? len + 1 then Panic else Ok (firstn (len + 1) a).
(** main.rs:92-96, 126: the input column *)
Definition decode_input (b : list Z) : res (list Fr) :=
  let len := length b in
  let! a := array_set (repeat f0 1024) 0 (FrZ (Z.of_nat len)) in
  let! a := array_fill (fun i => FrZ (nth i b 0%Z)) len 0 a in
  if length a <? len + 1 then Panic else Ok (firstn (len + 1) a).

(** what a run of the program ends with *)
Inductive exit := Exit (code : Z) | Crash.

Section Entry.
Context {Params Key : Type}.
Variable read_params : list Z -> ior Params.
Variable read_key : list Z -> ior Key.
(** [verify_proof(..)]: [Ok true] when it returns [Ok] *)
Variable verify : Params -> Key -> list (list Fr) -> list Z -> res bool.

(** program_entry (main.rs:31-141); witnesses by index *)
Definition program_entry (witness : nat -> option (list Z)) : exit :=
  match load_witness 1024 (witness 0) with
  | None => Exit (-1)
  | Some params =>
  match load_witness 4096 (witness 1) with
  | None => Exit (-1)
  | Some key =>
  match load_witness 8192 (witness 2) with
  | None => Exit (-1)
  | Some proof =>
  match load_witness 2048 (witness 3) with
  | None => Exit (-1)
  | Some raw_code =>
  match decode_code raw_code with
  | Panic => Crash
  | Ok code =>
  match load_witness 1024 (witness 4) with
  | None => Exit (-1)
  | Some raw_input =>
  match decode_input raw_input with
  | Panic => Crash
  | Ok input =>
  match read_params params with
  | IPanic => Crash
  | IErr => Exit (-1)
  | IOk ps _ =>
  match read_key key with
  | IPanic => Crash
  | IErr => Exit (-1)
  | IOk vk _ =>
  match verify ps vk [code; input] proof with
  | Panic => Crash
  | Ok false => Exit (-2)
  | Ok true => Exit 0
  end end end end end end end end end end.
End Entry.

Definition bf_verifier (pr : profile) (stack : nat)
    (verify : kzg -> vkey -> list (list Fr) -> list Z -> res bool)
    (witness : nat -> option (list Z)) : exit :=
  program_entry (read_verifier_params pr) (read_vk pr stack RawBytes) verify witness.

(** The witnesses of the transaction (ckb_bf_prover/src/main.rs:80-119,
    ckb_bf_prover/src/ckb_tx.rs): parameters, key, proof, code, input. *)
Definition code_bytes (words : list Z) : list Z := flat_map (LimbModel.le_bytes 2) words.
Definition tx_witness (params key proof code input : list Z) (i : nat) : option (list Z) :=
  nth_error [params; key; proof; code; input] i.
