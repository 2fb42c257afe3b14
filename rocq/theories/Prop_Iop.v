(** Properties of the proof protocol: what accepted proofs show, which
    assignments can be proved, and what that means for the project's circuit. *)
From Coq Require Import ZArith List Permutation.
From Verif Require Import Base Moduli Field LimbSpec PolyFacts RootFacts BFSpec CompileSpec CircuitSpec VMModel CircuitModel Halo2Model
  PermModel PermSpec SelectorSpec DomainModel DomainSpec SerdeModel VkModel SoundSpec IopModel IopRows IopSpec ProverModel ProverSpec
  CircuitFacts ProverFacts IopComplete IopKey IopFull IopProject IopClaims.
Import List ListNotations.

(** C50.  Whoever answers enough challenges of every round with polynomials the
    verifier accepts holds an assignment that satisfies the circuit: the one
    read off the committed advice polynomials. *)
Theorem C50_sound : forall v k fixed copies F S insts chs advice,
  key_for v k fixed copies F S -> length chs = num_challenges (vk_cs v) ->
  (forall l, In l insts -> (Z.of_nat (length l) <= 2 ^ k)%Z) ->
  convincing v k insts chs F S advice ->
  satisfied (vk_cs v) copies (assigned (Z.to_nat (2 ^ k)) (d_omega (vk_domain v)) fixed advice insts chs) /\
  length insts = num_instance (vk_cs v).
Proof. exact iop_sound. Qed.
Print Assumptions C50_sound.

(** ",+." on "a" with 512 rows. *)
Example C50_case : exists v fixed copies F S insts chs advice,
  insts = public_inputs (map FrZ [44; 43; 46]%Z) [97%Z] /\
  key_for v 9 fixed copies F S /\ length chs = num_challenges (vk_cs v) /\
  (forall i, length (F i) <= 512 /\ length (S i) <= 512 /\ length (advice i) <= 512) /\
  (forall l, In l insts -> (Z.of_nat (length l) <= 2 ^ 9)%Z) /\
  (Z.of_nat (need_y v + lookup_width (vk_cs v)) < 2 ^ 60)%Z /\
  convincing v 9 insts chs F S advice.
Proof. exact small_proof. Qed.

(** C51.  A satisfying assignment can be proved: the columns the prover's code
    computes from it are accepted at every point outside the domain, unless a
    challenge makes a denominator zero, and enough challenges do not. *)
Theorem C51_prover_accepted : forall v k fixed copies F S,
  key_for v k fixed copies F S -> forall insts chs advice,
  length chs = num_challenges (vk_cs v) -> length insts = num_instance (vk_cs v) ->
  (forall l, In l insts -> (Z.of_nat (length l) <= 2 ^ k)%Z) ->
  let n := Z.to_nat (2 ^ k) in
  let a := assigned n (d_omega (vk_domain v)) fixed advice insts chs in
  satisfied (vk_cs v) copies a ->
  forall theta beta gamma product lproduct linput ltable random,
  permuted v n a theta linput ltable ->
  products v n a S linput ltable theta beta gamma product lproduct ->
  lucky v n a S theta beta gamma ->
  let P q := Committed advice F S product lproduct linput ltable q random in
  bounded v n (P (repeat [] (Z.to_nat (d_quotient_poly_degree (vk_domain v))))) ->
  forall y, exists quotient, bounded v n (P quotient) /\
    forall x, fpow x (2 ^ k)%Z <> f1 -> accepts v (2 ^ k) insts chs theta beta gamma y x (P quotient).
Proof. exact honest_accepted. Qed.
Print Assumptions C51_prover_accepted.

Example C51_case : exists v fixed copies F S insts chs advice theta beta gamma product lproduct linput ltable,
  let a := assigned 512 (d_omega (vk_domain v)) fixed advice insts chs in
  insts = public_inputs (map FrZ [44; 43; 46]%Z) [97%Z] /\
  key_for v 9 fixed copies F S /\ length chs = num_challenges (vk_cs v) /\ length insts = num_instance (vk_cs v) /\
  (forall l, In l insts -> (Z.of_nat (length l) <= 2 ^ 9)%Z) /\
  satisfied (vk_cs v) copies a /\
  permuted v 512 a theta linput ltable /\ products v 512 a S linput ltable theta beta gamma product lproduct /\
  lucky v 512 a S theta beta gamma /\
  bounded v 512 (Committed advice F S product lproduct linput ltable (repeat [] (Z.to_nat (d_quotient_poly_degree (vk_domain v)))) [f1]).
Proof. exact small_prover. Qed.

Theorem C51_complete : forall v k fixed copies F S,
  key_for v k fixed copies F S -> forall insts chs advice,
  length chs = num_challenges (vk_cs v) -> length insts = num_instance (vk_cs v) ->
  (forall l, In l insts -> (Z.of_nat (length l) <= 2 ^ k)%Z) ->
  satisfied (vk_cs v) copies (assigned (Z.to_nat (2 ^ k)) (d_omega (vk_domain v)) fixed advice insts chs) ->
  (forall i, length (F i) <= Z.to_nat (2 ^ k)) -> (forall i, length (S i) <= Z.to_nat (2 ^ k)) ->
  (forall i, length (advice i) <= Z.to_nat (2 ^ k)) ->
  (Z.of_nat (need_y v + lookup_width (vk_cs v)) < 2 ^ 60)%Z ->
  convincing v k insts chs F S advice.
Proof. exact complete. Qed.
Print Assumptions C51_complete.

(** An honest run of a program: the key is generated, the witness is synthesised,
    and the polynomials through the witness convince the verifier. *)
Theorem C51_honest_run : forall commit pr src p inp cfg c fuel s k,
  parses src p -> (1 <= program_words p <= 65535)%Z -> in_range 8 inp ->
  exec 8 p (initial inp) (Done cfg) -> unread cfg = [] ->
  compile pr src = Ok c -> VMModel.run pr fuel (start c (easygen inp)) = Finished s ->
  (9 <= k <= 24)%Z -> (lenZ (instruction_matrix (mat s)) + 6 < 2 ^ k)%Z ->
  exists v cols sigma,
    keygen_vk commit pr k (mat s) = EOk v /\
    vk_fixed v = map commit cols /\ vk_permutation v = map commit sigma /\
    (forall col, In col cols \/ In col sigma -> length col = Z.to_nat (2 ^ k)) /\
    (forall F S, interpolates (d_omega (vk_domain v)) cols F -> interpolates (d_omega (vk_domain v)) sigma S ->
      exists fixed copies, key_for v k fixed copies F S) /\
    forall F S chs,
      interpolates (d_omega (vk_domain v)) cols F -> interpolates (d_omega (vk_domain v)) sigma S ->
      (forall i, length (F i) <= Z.to_nat (2 ^ k) /\ length (S i) <= Z.to_nat (2 ^ k)) ->
      length chs = num_challenges (vk_cs v) ->
      exists adv advice,
        bf_witness (Z.to_nat (2 ^ k)) (mat s) (public_inputs c inp) (fun i => nth i chs f0) = EOk adv /\
        (forall i, length (advice i) <= Z.to_nat (2 ^ k)) /\
        (forall i r, r < Z.to_nat (2 ^ k) -> peval (advice i) (fpow (d_omega (vk_domain v)) (Z.of_nat r)) = adv i r) /\
        convincing v k (public_inputs c inp) chs F S advice.
Proof. exact honest_run. Qed.
Print Assumptions C51_honest_run.

(** C52.  With a generated key the verifier can be convinced of exactly the
    statements the circuit accepts (C14-C26 are about those). *)
Theorem C52_exactly_accepted : forall commit pr k m v,
  keygen_vk commit pr k m = EOk v -> (0 <= k < 63)%Z ->
  exists cols sigma,
    vk_fixed v = map commit cols /\ vk_permutation v = map commit sigma /\
    (forall col, In col cols \/ In col sigma -> length col = Z.to_nat (2 ^ k)) /\
    (forall F S, interpolates (d_omega (vk_domain v)) cols F -> interpolates (d_omega (vk_domain v)) sigma S ->
      exists fixed copies, key_for v k fixed copies F S) /\
    forall F S insts A0,
      interpolates (d_omega (vk_domain v)) cols F -> interpolates (d_omega (vk_domain v)) sigma S ->
      (forall i, length (F i) <= Z.to_nat (2 ^ k) /\ length (S i) <= Z.to_nat (2 ^ k)) ->
      (forall l, In l insts -> length l <= usable_rows (Z.to_nat (2 ^ k)) (vk_cs v)) ->
      (can_convince v k insts F S A0 <-> accepted (Z.to_nat (2 ^ k)) m insts conf A0).
Proof. exact accepted_iff. Qed.
Print Assumptions C52_exactly_accepted.

(** C53 is false: with the key of the honest run of ",+." on "a", which writes
    "b", a prover convinces the verifier of a run that writes "c". *)
Theorem C53_wrong_output_refuted : exists src p inp cfg c fuel s,
  parses src p /\ (1 <= program_words p <= 65535)%Z /\ in_range 8 inp /\ exec 8 p (initial inp) (Done cfg) /\
  compile Wrapping src = Ok c /\ VMModel.run Wrapping fuel (start c (easygen inp)) = Finished s /\
  written cfg = [98%Z] /\
  forall commit, exists v A0, keygen_vk commit Wrapping 9 (mat s) = EOk v /\
    provable commit v 9 (public_inputs c inp) A0 /\
    output_shown conf A0 (length (output_matrix (mat s))) = map FrZ [99%Z].
Proof. exact wrong_output_provable. Qed.
Print Assumptions C53_wrong_output_refuted.
Theorem C53_diverging_refuted : exists src p c s,
  parses src p /\ (forall o, ~ exec 8 p (initial []) o) /\ compile Wrapping src = Ok c /\
  (exists src' c' fuel, compile Wrapping src' = Ok c' /\ VMModel.run Wrapping fuel (start c' (easygen [])) = Finished s /\ length c' = length c) /\
  forall commit, exists v A0, keygen_vk commit Wrapping 9 (mat s) = EOk v /\ provable commit v 9 (public_inputs c []) A0.
Proof. exact diverging_provable. Qed.
Print Assumptions C53_diverging_refuted.

(** C54.  Of public columns the verifier only sees the sums of the entries whose
    positions agree modulo the number of rows. *)
Theorem C54_folded : forall v k fixed copies F S insts insts' chs theta beta gamma y x P,
  key_for v k fixed copies F S -> length insts = length insts' ->
  (forall i r, (r < Z.to_nat (2 ^ k))%nat ->
    folded (Z.to_nat (2 ^ k)) (nth i insts []) r = folded (Z.to_nat (2 ^ k)) (nth i insts' []) r) ->
  accepts v (2 ^ k) insts chs theta beta gamma y x P <-> accepts v (2 ^ k) insts' chs theta beta gamma y x P.
Proof. exact folded_same. Qed.
Print Assumptions C54_folded.

(** So a proof for a program is a proof for columns holding 512 zeros and then
    the program: the public columns are not determined. *)
Theorem C54_determined_refuted : exists src p inp cfg c fuel s,
  parses src p /\ (1 <= program_words p <= 65535)%Z /\ in_range 8 inp /\ exec 8 p (initial inp) (Done cfg) /\
  compile Wrapping src = Ok c /\ VMModel.run Wrapping fuel (start c (easygen inp)) = Finished s /\
  forall commit, exists v A0, keygen_vk commit Wrapping 9 (mat s) = EOk v /\
    provable commit v 9 (public_inputs c inp) A0 /\
    provable commit v 9 (map (app (repeat f0 512)) (public_inputs c inp)) A0.
Proof. exact moved_provable. Qed.
Print Assumptions C54_determined_refuted.

(** C55.  The prover's lookup columns: failure is reported exactly when an input
    is missing from the table; otherwise the results are permutations of input
    and table on the usable rows, and each row repeats the one before or shows
    the table's value. *)
Theorem C55_permuted_lookup : forall u inputs tables,
  match permute_pair u inputs tables with
  | PPanic => False
  | PFail => exists r, r < u /\ forall r', r' < u -> inputs r <> tables r'
  | POk (a', s') =>
      (forall r, r < u -> exists r', r' < u /\ inputs r = tables r') /\
      Permutation a' (map inputs (seq 0 u)) /\ Permutation s' (map tables (seq 0 u)) /\
      (forall r, r < u -> nth r a' f0 = nth r s' f0 \/ exists q, r = S q /\ nth r a' f0 = nth q a' f0)
  end.
Proof. exact permute_pair_is. Qed.
Print Assumptions C55_permuted_lookup.

(** inputs 3 1 1 3 1, table 0 1 2 3 3 *)
Example C55_case :
  permute_pair 5 (fun r => FrZ (nth r [3; 1; 1; 3; 1]%Z 0%Z)) (fun r => FrZ (nth r [0; 1; 2; 3; 3]%Z 0%Z)) =
    POk (map FrZ [1; 1; 1; 3; 3]%Z, map FrZ [1; 3; 2; 3; 0]%Z) /\
  permute_pair 2 (fun r => FrZ (Z.of_nat r)) (fun r => FrZ (Z.of_nat (S r))) = PFail.
Proof. split; vm_compute; reflexivity. Qed.

(** C56.  The verifier reads the evaluations of a proof back in the order the
    prover writes them. *)
Theorem C56_evaluations_read_back : forall v e rest,
  length (ev_advice e) = length (advice_queries (vk_cs v)) ->
  length (ev_fixed e) = length (fixed_queries (vk_cs v)) -> length (ev_sigma e) = length (vk_permutation v) ->
  length (ev_sets e) = length (chunks (chunk_len v) (perm_columns (vk_cs v))) ->
  (forall i s, nth_error (ev_sets e) i = Some s -> (ps_last s = None <-> S i = length (ev_sets e))) ->
  length (ev_lookups e) = length (lookups (vk_cs v)) ->
  read_evals v (write_evals e ++ rest) = Some (e, rest).
Proof. exact read_write. Qed.
Print Assumptions C56_evaluations_read_back.

(** the project's constraint system: of the scalars 0, 1, 2, ... the one after 52
    advice and 1 fixed evaluations is the random polynomial's; two running
    products and one lookup follow, 10 scalars *)
Example C56_case : forall d,
  match read_evals (VKey d [] [] bcs 11 []) (map (fun i => FrZ (Z.of_nat i)) (seq 0 70)) with
  | Some (e, rest) =>
      map fval (ev_advice e) = map Z.of_nat (seq 0 52) /\ map fval (ev_fixed e) = [52%Z] /\ fval (ev_random e) = 53%Z /\
      map (fun s => map fval (write_set s)) (ev_sets e) = [[54; 55; 56]; [57; 58]]%Z /\
      map (fun s => map fval (write_lookup s)) (ev_lookups e) = [[59; 60; 61; 62; 63]]%Z /\
      map fval (write_evals e) = map Z.of_nat (seq 0 64) /\ length rest = 6
  | None => False
  end.
Proof. intros d. vm_compute. repeat split. Qed.
