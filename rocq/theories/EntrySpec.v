(** What the on-chain program should do with its witnesses, independently of
    the way it decodes them. *)
From Coq Require Import ZArith List.
From Verif Require Import Base Field SerdeModel.
Import ListNotations.

(** bytes read as little-endian 16-bit words *)
Inductive words_of : list Z -> list Z -> Prop :=
| words_nil : words_of [] []
| words_cons lo hi b ws : words_of b ws -> words_of (lo :: hi :: b) ((lo + 256 * hi)%Z :: ws).

(** an instance column: the number of values, then the values *)
Definition column (l : list Z) : list Fr := FrZ (Z.of_nat (length l)) :: map FrZ l.

(** the witness [w] holds the bytes [b] and fits a buffer *)
Definition loads (buffer : Z) (w : option (list Z)) (b : list Z) : Prop :=
  w = Some b /\ (Z.of_nat (length b) <= buffer)%Z.

Section Reaches.
Context {Params Key : Type}.
Variable read_params : list Z -> ior Params.
Variable read_key : list Z -> ior Key.

(** the witnesses load and parse, and these are the arguments of the proof check *)
Definition reaches (witness : nat -> option (list Z)) (ps : Params) (vk : Key) (instances : list (list Fr)) (proof : list Z) : Prop :=
  exists params key code input words r r',
    loads 1024 (witness 0) params /\ loads 4096 (witness 1) key /\ loads 8192 (witness 2) proof /\
    loads 2048 (witness 3) code /\ loads 1024 (witness 4) input /\
    words_of code words /\ length words < 1024 /\ length input < 1024 /\
    instances = [column words; column input] /\
    read_params params = IOk ps r /\ read_key key = IOk vk r'.

(** some witness does not load, or the parameters or the key do not parse *)
Definition fails (witness : nat -> option (list Z)) : Prop :=
  (~ exists b, loads 1024 (witness 0) b) \/ (~ exists b, loads 4096 (witness 1) b) \/
  (~ exists b, loads 8192 (witness 2) b) \/ (~ exists b, loads 2048 (witness 3) b) \/
  (~ exists b, loads 1024 (witness 4) b) \/
  (exists b, loads 1024 (witness 0) b /\ forall ps r, read_params b <> IOk ps r) \/
  (exists b, loads 4096 (witness 1) b /\ forall vk r, read_key b <> IOk vk r).
End Reaches.
