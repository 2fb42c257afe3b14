(** Property C75: the key and the proof of a run fit the buffers of the on-chain
    program. *)
From Coq Require Import ZArith List Lia.
From Verif Require Import Base Moduli Field BFSpec CompileSpec VMModel TraceSpec LimbModel LimbSpec Halo2Model CircuitModel CircuitFacts KeygenFacts VMInv Completeness SelectorModel
  SerdeModel SerdeSpec DomainModel VkModel VkSpec VkFacts EntryModel EntrySpec EntryFacts ArithSpec TranscriptModel VerifierModel VerifierSpec VerifierProject KeySize
  Prop_Serde Prop_Entry.
Import ListNotations.

(** C75: the key generated for a completed run of a program that has instructions
    takes 4096 bytes at most, for every size of the circuit. *)
Theorem C75_key_fits : forall commit pr' k v pr src p inp c fuel s,
  parses src p -> (1 <= program_words p <= 65535)%Z -> in_range 8 inp ->
  compile pr src = Ok c -> run pr fuel (start c (easygen inp)) = Finished s ->
  (0 <= k < 63)%Z -> keygen_vk commit pr' k (mat s) = EOk v -> (lenZ (write_vk RawBytes v) <= 4096)%Z.
Proof. exact run_key_bytes. Qed.
Print Assumptions C75_key_fits.
(** C75: and a proof for it has at most 8192 bytes. *)
Theorem C75_proof_fits : forall commit pr k m v, (0 <= k < 63)%Z -> keygen_vk commit pr k m = EOk v -> (Z.of_nat (proof_size v) <= 8192)%Z.
Proof. intros commit pr k m v Hk K. exact (proj2 (proj2 (keygen_complete _ _ _ _ _ K Hk))). Qed.
Print Assumptions C75_proof_fits.
(** C75: so the transaction of a run is judged by its proof alone, if the program
    and the input have fewer than 1024 words and bytes. *)
Theorem C75_transaction : forall commit k v pr stack verify q q' src p inp ws fuel s proof,
  parses src p -> (1 <= program_words p < 1024)%Z -> in_range 8 inp -> compile_to_u16 pr src = Ok ws -> length inp < 1024 ->
  run pr fuel (start (map FrZ ws) (easygen inp)) = Finished s ->
  (forall l, g1_coords (commit l)) -> 18 <= stack -> (0 <= k < 63)%Z -> keygen_vk commit pr k (mat s) = EOk v ->
  valid_params q -> (1 <= kz_k q < 31)%Z -> shrink q SHRINK_K = Ok q' -> length proof = proof_size v ->
  bf_verifier pr stack verify (tx_witness (write_kzg q') (write_vk RawBytes v) proof (code_bytes ws) inp) =
  match verify q' v (statement ws inp) proof with
  | Panic => Crash | Ok false => Exit (-2) | Ok true => Exit 0
  end.
Proof. exact run_transaction. Qed.
Print Assumptions C75_transaction.

(** ",+." on "a" in a circuit of 512 rows *)
Definition c75_source : list Z := [44; 43; 46]%Z.
Example C75_case : exists s v, parses c75_source [BFSpec.In; Inc; Out] /\ program_words [BFSpec.In; Inc; Out] = 3%Z /\ in_range 8 [97%Z] /\
  compile_to_u16 Wrapping c75_source = Ok c75_source /\ run Wrapping 10 (start (map FrZ c75_source) (easygen [97%Z])) = Finished s /\
  (forall l : list Fr, g1_coords serde_g) /\ keygen_vk (fun _ => serde_g) Wrapping 9 (mat s) = EOk v /\
  valid_params c27_params /\ shrink c27_params SHRINK_K = Ok c27_params /\ (1 <= kz_k c27_params < 31)%Z.
Proof.
  destruct C47_case as (_ & _ & HC & _). destruct C27_case as (VP & VK & SH & _).
  assert (G : exists s, run Wrapping 10 (start (map FrZ c75_source) (easygen [97%Z])) = Finished s /\
     length (instruction_matrix (mat s)) = 7) by (apply fin_ex; vm_compute; reflexivity).
  destruct G as (s & Er & El).
  assert (P : parses c75_source [BFSpec.In; Inc; Out]) by apply P_in, P_inc, P_out, P_nil.
  assert (Hin : in_range 8 [97%Z]) by (repeat constructor; discriminate).
  assert (K : exists cc sc asm, bf_keygen 512 (mat s) = EOk (cc, sc, asm)).
  { refine (match C12_lemma Wrapping c75_source [BFSpec.In; Inc; Out] [97%Z] _ (map FrZ c75_source) 10 s 512 (fun _ => f0) P _ Hin _ _ eq_refl Er _ _ _ with
      ex_intro _ cc (ex_intro _ sc (ex_intro _ asm (ex_intro _ adv (conj K _)))) => ex_intro _ cc (ex_intro _ sc (ex_intro _ asm K)) end).
    - split; discriminate.
    - eapply E_in; [reflexivity|]. apply E_inc, E_out, E_nil.
    - reflexivity.
    - lia.
    - rewrite El. lia.
    - reflexivity. }
  destruct K as (cc & sc & asm & K).
  destruct (C47_total (fun _ => serde_g) Wrapping 9 (mat s) cc sc asm) as [v V]; [split; vm_compute; congruence|exact K|].
  exists s, v. repeat (split; [first [assumption|reflexivity]|]). exact (proj2 VK).
Qed.
