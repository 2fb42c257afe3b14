(** C76 - C79: the prover's evaluation of the constraints, proving keys, and
    the quotient polynomial. *)
From Coq Require Import ZArith List Bool Arith Lia.
From Verif Require Import Base Moduli Field LimbSpec LimbModel PolyFacts Halo2Model SelectorModel SelectorSpec CircuitModel VMModel PermModel PermSpec SerdeModel
  DomainModel VkModel IopModel IopSpec ProverModel ProverSpec ArithModel ArithSpec KzgModel VerifierModel VerifierSpec GraphModel GraphSpec CreateModel GraphFacts GraphThms GraphProject GraphCase.
Import ListNotations.
Local Open Scope nat_scope.

(** C76.  The graph built for the gates computes Horner's rule in y over the
    values of the gate polynomials, starting from the previous value. *)
Theorem C76_gates : forall c ev E prev size idx, 0 < size -> (forall e, In e (concat (gates c)) -> covered E size e) -> evaluator_new c = Ok ev ->
  graph_evaluate (ev_gates ev) E prev size idx = Ok (combined (en_y E) prev (map (eval (table E size) idx) (concat (gates c)))).
Proof. exact gates_evaluate. Qed.
Print Assumptions C76_gates.
(** the graph of a lookup: the compressed inputs and tables *)
Theorem C76_lookup : forall c ev E size idx i l, 0 < size -> nth_error (lookups c) i = Some l ->
  (forall e, In e (fst l) \/ In e (snd l) -> covered E size e) -> evaluator_new c = Ok ev ->
  exists g, nth_error (ev_lookup_graphs ev) i = Some g /\
  graph_evaluate g E f0 size idx =
    Ok ((combined (en_theta E) f0 (map (eval (table E size) idx) (fst l)) + en_beta E) *
        (combined (en_theta E) f0 (map (eval (table E size) idx) (snd l)) + en_gamma E))%F.
Proof. exact lookup_evaluate. Qed.
Print Assumptions C76_lookup.
(** building the graphs panics exactly when a selector is left *)
Theorem C76_selectors : forall c, evaluator_new c = Panic <->
  exists e, (In e (gate_exprs c) \/ In e (lookup_exprs c)) /\ meets_selector e = true.
Proof. exact evaluator_selectors. Qed.
Print Assumptions C76_selectors.

(** two gates and a lookup over four rows *)
Definition c76_a t := EAdvice (Query (Z.to_nat t) 0 t) 0.
Definition c76_f := EFixed (Query 0 0 0).
Definition c76_cs : cs :=
  mkCs 1 1 1 0 1 [0] [0]
    [[EProd c76_f (ESum (c76_a 1) (ENeg (EScaled (c76_a 0) (FrZ 3)))); ESum (EProd (c76_a 0) (c76_a 0)) (EConst (FrZ 2))];
     [EProd (EInstance (Query 0 0 (-1))) (EChallenge (Chal 0 0))]]
    [(ACol 0 0, 0%Z); (ACol 0 0, 1%Z)] [2] [(0, (-1)%Z)] [(0, 0%Z)] [] [([c76_a 0; EConst (FrZ 1)], [c76_f; c76_f])] [].
Definition c76_env : env := Env [map FrZ [5; 6; 7; 8]%Z] [map FrZ [1; 2; 3; 4]%Z] [map FrZ [9; 10; 11; 12]%Z] [FrZ 13] (FrZ 2) (FrZ 3) (FrZ 4) (FrZ 10).
Definition values (r : res Fr) : res Z := let! x := r in Ok (fval x).
(** row 3: a = 4, its successor is 1, f = 8, the public value before is 11 *)
Example C76_case : exists ev, evaluator_new c76_cs = Ok ev /\
  (forall e, In e (concat (gates c76_cs)) -> covered c76_env 4 e) /\
  values (graph_evaluate (ev_gates ev) c76_env (FrZ 1) 4 3) = Ok (((1 * 10 + 8 * (1 - 4 * 3)) * 10 + (4 * 4 + 2)) * 10 + 11 * 13 + Zpos r_pos)%Z /\
  match ev_lookup_graphs ev with
  | [g] => values (graph_evaluate g c76_env f0 4 3) = Ok ((4 * 4 + 1 + 2) * (8 * 4 + 8 + 3))%Z
  | _ => False
  end.
Proof.
  destruct (evaluator_new c76_cs) as [ev|] eqn:E; [|vm_compute in E; discriminate E].
  exists ev. split; [reflexivity|]. vm_compute in E. injection E as <-. split.
  - intros e [<-|[<-|[<-|[]]]]; cbn; repeat split; eauto.
  - split; vm_compute; reflexivity.
Qed.
Example C76_case_selector : evaluator_new (mkCs 0 0 0 1 0 [] [] [[ENeg (ESelector (Sel 0 true))]] [] [] [] [] [] [] []) = Panic /\
  evaluator_new (mkCs 0 0 0 1 0 [] [] [[EScaled (ESelector (Sel 0 true)) f0]] [] [] [] [] [] [] []) <> Panic.
Proof. split; vm_compute; [reflexivity|discriminate]. Qed.

(** C77.  Whenever a verifying key was generated for a run of the project's
    circuit, so is a proving key, and the two are about the same columns. *)
Theorem C77_proving_key : forall commit pr k m v, keygen_vk commit pr k m = EOk v -> (0 <= k < 63)%Z ->
  exists pk, keygen_pk pr k v m = EOk pk /\ matches commit v (Z.to_nat (2 ^ k)) pk.
Proof. exact key_matches. Qed.
Print Assumptions C77_proving_key.

Example C77_case : exists m v, keygen_vk (fun _ => g1_identity) Wrapping 9 m = EOk v.
Proof. destruct small_quotient as (m & v & H). decompose [ex and] H. eauto. Qed.

(** C78.  At every point of the extended coset, what the prover divides by the
    vanishing polynomial is the verifier's combination, in y, of the constraints
    at that point. *)
Theorem C78_numerator : forall commit pr k m v, keygen_vk commit pr k m = EOk v -> (0 <= k < 63)%Z ->
  forall pk, keygen_pk pr k v m = EOk pk -> forall insts chs theta beta gamma y,
  length insts = num_instance (vk_cs v) -> (forall l, In l insts -> (Z.of_nat (length l) <= 2 ^ k)%Z) -> length chs = num_challenges (vk_cs v) ->
  forall advice instance sets lks random, let n := Z.to_nat (2 ^ k) in
  polys_of n (num_advice (vk_cs v)) advice -> Forall2 (takes v n) (padded n insts) instance ->
  polys_of n (sets_count v) sets -> lookup_polys_of n (length (lookups (vk_cs v))) lks ->
  exists h, evaluate_h pk advice instance chs y beta gamma theta lks sets = Ok h /\
  Z.of_nat (length h) = (2 ^ d_extended_k (vk_domain v))%Z /\
  forall i, i < length h -> let x := (ZETA * fpow (d_extended_omega (vk_domain v)) (Z.of_nat i))%F in
    exists inst l_0 l_last l_blind es,
      instance_evals v (2 ^ k) insts x = Ok inst /\ l_values v x (fpow x (2 ^ k)) = Ok (l_0, l_last, l_blind) /\
      expressions v inst chs l_0 l_last l_blind theta beta gamma x (evaluations v advice (pk_fixed_polys pk) (pk_sigma_polys pk) sets lks random x) = Ok es /\
      nth i h f0 = combined y f0 es.
Proof. exact project_numerator. Qed.
Print Assumptions C78_numerator.

(** C79.  A prover whose assignment satisfies the circuit, and whose columns are
    the ones its code computes, finds a quotient: dividing, interpolating and
    cutting succeed, and the pieces are accepted at every point off the rows. *)
Theorem C79_quotient : forall commit pr k m v, keygen_vk commit pr k m = EOk v -> (0 <= k < 63)%Z ->
  forall pk, keygen_pk pr k v m = EOk pk -> forall insts chs theta beta gamma y,
  length insts = num_instance (vk_cs v) -> (forall l, In l insts -> (Z.of_nat (length l) <= 2 ^ k)%Z) -> length chs = num_challenges (vk_cs v) ->
  forall advice instance sets lks random, let n := Z.to_nat (2 ^ k) in
  polys_of n (num_advice (vk_cs v)) advice -> Forall2 (takes v n) (padded n insts) instance ->
  polys_of n (sets_count v) sets -> lookup_polys_of n (length (lookups (vk_cs v))) lks ->
  forall fixed copies, key_for v k fixed copies (fun i => nth i (pk_fixed_polys pk) []) (fun i => nth i (pk_sigma_polys pk) []) ->
  let P := commitments pk advice sets lks random in
  let a := assigned n (d_omega (vk_domain v)) fixed (fun i => nth i advice []) insts chs in
  let S_ := fun i => nth i (pk_sigma_polys pk) [] in
  satisfied (vk_cs v) copies a ->
  permuted v n a theta (cm_linput (P [])) (cm_ltable (P [])) ->
  products v n a S_ (cm_linput (P [])) (cm_ltable (P [])) theta beta gamma (cm_product (P [])) (cm_lproduct (P [])) ->
  lucky v n a S_ theta beta gamma -> length random <= n ->
  forall p, kz_n p = (2 ^ k)%Z -> exists h b q,
  evaluate_h pk advice instance chs y beta gamma theta lks sets = Ok h /\
  divide_by_vanishing_poly fmul (vk_domain v) h = Ok b /\ extended_to_coeff fadd fsub fmul (vk_domain v) b = Ok q /\
  let pieces := chunks_exact p (length q) q in
  bounded v n (P pieces) /\
  forall x, fpow x (2 ^ k) <> f1 -> accepts v (2 ^ k) insts chs theta beta gamma y x (P pieces).
Proof. exact project_quotient. Qed.
Print Assumptions C79_quotient.

(** ",+." on "a" with 512 rows *)
Example C79_case : exists m v pk insts chs theta beta gamma advice instance sets lks fixed copies,
  insts = public_inputs (map FrZ [44; 43; 46]%Z) [97%Z] /\
  keygen_vk (fun _ => g1_identity) Wrapping 9 m = EOk v /\ keygen_pk Wrapping 9 v m = EOk pk /\
  length insts = num_instance (vk_cs v) /\ (forall l, In l insts -> (Z.of_nat (length l) <= 2 ^ 9)%Z) /\ length chs = num_challenges (vk_cs v) /\
  polys_of 512 (num_advice (vk_cs v)) advice /\ Forall2 (takes v 512) (padded 512 insts) instance /\
  polys_of 512 (VerifierModel.sets_count v) sets /\ lookup_polys_of 512 (length (lookups (vk_cs v))) lks /\
  key_for v 9 fixed copies (fun i => nth i (pk_fixed_polys pk) []) (fun i => nth i (pk_sigma_polys pk) []) /\
  let P := commitments pk advice sets lks [f1] [] in
  let a := assigned 512 (d_omega (vk_domain v)) fixed (cm_advice P) insts chs in
  satisfied (vk_cs v) copies a /\ permuted v 512 a theta (cm_linput P) (cm_ltable P) /\
  products v 512 a (cm_sigma P) (cm_linput P) (cm_ltable P) theta beta gamma (cm_product P) (cm_lproduct P) /\
  lucky v 512 a (cm_sigma P) theta beta gamma.
Proof. exact small_quotient. Qed.
