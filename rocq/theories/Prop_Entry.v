(** Properties C24 to C27: the on-chain program. *)
From Coq Require Import ZArith List.
From Verif Require Import Base Moduli Field LimbModel LimbSpec VMModel Halo2Model CircuitModel CircuitFacts SelectorModel
  SerdeModel SerdeSpec DomainModel VkModel VkSpec EntryModel EntrySpec EntryFacts.
Import ListNotations.

(** C24: what the prover puts into the transaction decodes to the instance
    columns it used, for every program and input that fit. *)
Theorem C24_published : forall pr src ws input, compile_to_u16 pr src = Ok ws -> length ws < 1024 -> length input < 1024 ->
  exists code, compile pr src = Ok code /\
    decode_code (code_bytes ws) = Ok (nth 0 (public_inputs code input) []) /\
    decode_input input = Ok (nth 1 (public_inputs code input) []).
Proof. exact published. Qed.
Print Assumptions C24_published.

(** C24: any bytes decode to their little-endian words, preceded by their number. *)
Theorem C24_words : forall b ws, words_of b ws -> length ws < 1024 -> decode_code b = Ok (column ws).
Proof. exact decode_code_ok. Qed.
Print Assumptions C24_words.

(** [+[-,]] and three input bytes *)
Example C24_case : exists ws, compile_to_u16 Checked [43; 91; 45; 44; 93]%Z = Ok ws /\ ws = [43; 91; 7; 45; 44; 93; 3]%Z /\
  decode_code (code_bytes ws) = Ok (map FrZ [7; 43; 91; 7; 45; 44; 93; 3]%Z) /\ decode_input [255; 0; 97]%Z = Ok (map FrZ [3; 255; 0; 97]%Z).
Proof.
  exists [43; 91; 7; 45; 44; 93; 3]%Z. split; [reflexivity|]. split; [reflexivity|]. split.
  - rewrite (C24_words _ [43; 91; 7; 45; 44; 93; 3]%Z); [reflexivity| |]; [|repeat constructor].
    apply code_words. repeat constructor; vm_compute; congruence.
  - rewrite decode_input_spec. reflexivity.
Qed.
Example C24_case_words : words_of [1; 2; 0; 255]%Z [513; 65280]%Z.
Proof. apply (words_cons 1 2), (words_cons 0 255), words_nil. Qed.

(** C25 fails: witnesses that load make the program crash, whatever the
    parameters, the key, the proof and their parsers. *)
Theorem C25_refuted : exists code input, (lenZ code <= 2048)%Z /\ (lenZ input <= 1024)%Z /\
  forall Params Key rp rk verify params key proof, (lenZ params <= 1024 -> lenZ key <= 4096 -> lenZ proof <= 8192 ->
  @program_entry Params Key rp rk verify (tx_witness params key proof code input) = Crash)%Z.
Proof.
  exists [43%Z], []. split; [vm_compute; congruence|]. split; [vm_compute; congruence|]. apply crash_case.
  right. left. split; [vm_compute; congruence|cbn; congruence].
Qed.
Print Assumptions C25_refuted.

(** C25, what holds: the decoders crash exactly on an odd number of code bytes,
    on 1024 or more words, and on 1024 or more input bytes. *)
Theorem C25_code_partial : forall b, decode_code b = Panic <-> length b mod 2 <> 0 \/ (2048 <= lenZ b)%Z.
Proof. exact decode_code_panic. Qed.
Print Assumptions C25_code_partial.
Theorem C25_input_partial : forall b, decode_input b = Panic <-> (1024 <= lenZ b)%Z.
Proof. exact decode_input_panic. Qed.
Print Assumptions C25_input_partial.
(** a compiled program of 1024 words fits its buffer and crashes the decoder *)
Example C25_case : compile_to_u16 Checked (repeat 43%Z 1024) = Ok (repeat 43%Z 1024) /\
  lenZ (code_bytes (repeat 43%Z 1024)) = 2048%Z /\ decode_code (code_bytes (repeat 43%Z 1024)) = Panic.
Proof.
  split; [vm_compute; reflexivity|]. assert (L : lenZ (code_bytes (repeat 43%Z 1024)) = 2048%Z) by (vm_compute; reflexivity).
  split; [exact L|]. apply C25_code_partial. right. rewrite L. vm_compute. congruence.
Qed.
Example C25_case_input : decode_input (repeat 0%Z 1024) = Panic /\ decode_input (repeat 0%Z 1023) <> Panic.
Proof. split; [apply C25_input_partial|rewrite C25_input_partial]; vm_compute; congruence. Qed.

Section Codes.
Context {Params Key : Type}.
Variable read_params : list Z -> ior Params.
Variable read_key : list Z -> ior Key.
Variable verify : Params -> Key -> list (list Fr) -> list Z -> res bool.
Notation entry := (program_entry read_params read_key verify).
(** C26: the program returns 0 exactly when everything loads and parses and the
    proof check succeeds on the decoded instances. *)
Theorem C26_zero : forall witness, entry witness = Exit 0 <->
  exists ps vk ins proof, reaches read_params read_key witness ps vk ins proof /\ verify ps vk ins proof = Ok true.
Proof. exact (exit_zero read_params read_key verify). Qed.
(** C26: -2 exactly when the proof check fails. *)
Theorem C26_rejected : forall witness, entry witness = Exit (-2) <->
  exists ps vk ins proof, reaches read_params read_key witness ps vk ins proof /\ verify ps vk ins proof = Ok false.
Proof. exact (exit_reject read_params read_key verify). Qed.
(** C26: -1 only when something does not load or parse, and no other codes. *)
Theorem C26_failure : forall witness, entry witness = Exit (-1) -> fails read_params read_key witness.
Proof. exact (exit_fail read_params read_key verify). Qed.
Theorem C26_codes : forall witness,
  entry witness = Crash \/ entry witness = Exit 0 \/ entry witness = Exit (-1) \/ entry witness = Exit (-2).
Proof. exact (exit_codes read_params read_key verify). Qed.
(** C26, what holds of "a failure gives -1": it gives -1 or a crash, and -1 when
    neither the decoders nor the parsers crash. *)
Theorem C26_failure_partial : forall witness, fails read_params read_key witness -> entry witness = Exit (-1) \/ entry witness = Crash.
Proof. exact (fail_exit read_params read_key verify). Qed.
Theorem C26_failure_exact_partial : forall witness, fails read_params read_key witness -> ~ decode_crash witness ->
  (forall b, loads 1024 (witness 0) b -> read_params b <> IPanic) -> (forall b, loads 4096 (witness 1) b -> read_key b <> IPanic) ->
  entry witness = Exit (-1).
Proof. exact (fail_exit_exact read_params read_key verify). Qed.
End Codes.
Print Assumptions C26_zero.
Print Assumptions C26_rejected.
Print Assumptions C26_failure.
Print Assumptions C26_codes.
Print Assumptions C26_failure_partial.
Print Assumptions C26_failure_exact_partial.
(** C26 in full fails: a missing input witness behind an odd code witness. *)
Theorem C26_failure_refuted : exists witness : nat -> option (list Z), forall Params Key (rp : list Z -> ior Params) (rk : list Z -> ior Key) verify,
  fails rp rk witness /\ program_entry rp rk verify witness = Crash.
Proof.
  exists (fun i => match i with 4 => None | 3 => Some [43%Z] | _ => Some [] end). intros. split; [|reflexivity].
  unfold fails. do 4 right. left. intros (b & E & _). discriminate.
Qed.
Print Assumptions C26_failure_refuted.
(** a parser that returns the first byte, a check that compares proof and key *)
Definition c26_read (b : list Z) : ior Z := match b with x :: r => IOk x r | [] => IErr end.
Definition c26_verify (p k : Z) (ins : list (list Fr)) (x : list Z) : res bool := Ok (match x with y :: _ => Z.eqb k y | [] => false end).
Example C26_case : program_entry c26_read c26_read c26_verify (tx_witness [1] [7; 8] [7] [43; 0] [5])%Z = Exit 0 /\
  program_entry c26_read c26_read c26_verify (tx_witness [1] [8] [7] [43; 0] [5])%Z = Exit (-2) /\
  program_entry c26_read c26_read c26_verify (tx_witness [1] [] [7] [43; 0] [5])%Z = Exit (-1).
Proof. vm_compute. repeat split. Qed.
Example C26_case_reaches : reaches c26_read c26_read (tx_witness [1] [7; 8] [7] [43; 0] [5])%Z 1%Z 7%Z [column [43%Z]; column [5%Z]] [7%Z].
Proof.
  exists [1%Z], [7; 8]%Z, [43; 0]%Z, [5%Z], [43%Z], [], [8%Z]. unfold loads.
  repeat apply conj; try reflexivity; try (vm_compute; congruence); try (repeat constructor).
Qed.

(** C27: the prover's transaction is judged by the proof check alone, under
    whichever parameters and key it carries: any valid key is admitted. *)
Theorem C27_transaction : forall pr stack verify p p' vk proof src ws code input,
  valid_params p -> (1 <= kz_k p < 31)%Z -> shrink p SHRINK_K = Ok p' ->
  valid_key pr stack bcs vk -> (lenZ (write_vk RawBytes vk) <= 4096)%Z -> (lenZ proof <= 8192)%Z ->
  compile_to_u16 pr src = Ok ws -> compile pr src = Ok code -> length ws < 1024 -> length input < 1024 ->
  bf_verifier pr stack verify (tx_witness (write_kzg p') (write_vk RawBytes vk) proof (code_bytes ws) input) =
  match verify p' vk (public_inputs code input) proof with
  | Panic => Crash | Ok false => Exit (-2) | Ok true => Exit 0
  end.
Proof. exact transaction. Qed.
Print Assumptions C27_transaction.

Definition c27_params : kzg :=
  Kzg 1 2 (repeat g1_identity 2) (repeat g1_identity 2) (G2 (Fq2 lzero lzero) (Fq2 lzero lzero)) (G2 (Fq2 lzero lzero) (Fq2 lzero lzero)).
Example C27_case : valid_params c27_params /\ (1 <= kz_k c27_params < 31)%Z /\ shrink c27_params SHRINK_K = Ok c27_params /\
  exists v, valid_key Wrapping 18 bcs v /\ d_k (vk_domain v) = 9%Z /\ (lenZ (write_vk RawBytes v) <= 4096)%Z.
Proof.
  assert (Z0 : fq_pair (Fq2 lzero lzero)) by (split; apply lzero_canonical).
  split; [|split; [split; vm_compute; congruence|split; [reflexivity|]]].
  - constructor; try reflexivity; try (split; exact Z0). intros a [I|I]; apply repeat_spec in I; subst a; split; apply lzero_canonical.
  - destruct (odd_key Wrapping 18 9) as (v & V & K & _ & _ & L); [split; vm_compute; congruence|repeat constructor|]. eauto.
Qed.

(** C27 fails: two witness sets that differ in the key alone are both accepted;
    neither key is a generated one. *)
Theorem C27_refuted : exists verify w w' v v', bf_verifier Wrapping 18 verify w = Exit 0 /\ bf_verifier Wrapping 18 verify w' = Exit 0 /\
  w 1 = Some (write_vk RawBytes v) /\ w' 1 = Some (write_vk RawBytes v') /\
  valid_key Wrapping 18 bcs v /\ valid_key Wrapping 18 bcs v' /\
  d_k (vk_domain v) = 9%Z /\ d_k (vk_domain v') = 10%Z /\
  w 0 = w' 0 /\ w 2 = w' 2 /\ w 3 = w' 3 /\ w 4 = w' 4.
Proof.
  destruct C27_case as (P & K & _). exists (fun _ _ _ _ => Ok true).
  apply (any_key Wrapping 18 (fun _ _ _ _ => Ok true) c27_params [] [43%Z] [43%Z] []); try assumption;
    first [reflexivity|vm_compute; congruence|repeat constructor].
Qed.
Print Assumptions C27_refuted.
