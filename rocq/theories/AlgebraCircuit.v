(** The accumulator columns of a satisfying assignment. *)
From Coq Require Import ZArith List Bool Arith Lia Permutation.
From Verif Require Import Base Field FieldFacts VMModel ListFacts Halo2Model CircuitModel CircuitFacts LayoutFacts KeygenFacts
  CircuitSpec SoundSpec LocalSound PolyFacts AlgebraSpec AccFacts Repaired.
Import List ListNotations.
Local Open Scope F_scope.

Section Sat.
Variables (n : nat) (z : sizes) (inst : nat -> nat -> Fr) (ch : nat -> Fr) (A : nat -> nat -> Fr).
Hypothesis S : sat n z inst ch A.
Ltac row i s := pose proof (sat_rows _ _ _ _ _ S i) as Q;
  assert (On : sel_spec z s i = true) by (cbn [sel_spec]; apply Nat.ltb_lt; assumption).

Lemma sums_hold :
  running_sum (ch 9%nat) (entries A 20 (zo z)) (A 21%nat) /\
  running_sum (ch 10%nat) (entries A 22 (zu z)) (A 24%nat) /\
  running_sum (ch 8%nat) (entries A 25 (zg z)) (A 27%nat).
Proof.
  split; [|split]; intros i v Hi; apply nth_map_seq in Hi; destruct Hi as [Hi ->].
  - row i 12%nat. pose proof (e_out _ _ _ _ _ Q On) as G. cbv beta in G. apply Fr_sub_eq in G. rewrite G. fring.
  - row i 13%nat. pose proof (e_in _ _ _ _ _ Q On) as G. cbv beta in G. apply Fr_sub_eq in G. rewrite G. fring.
  - row i 14%nat. pose proof (e_code _ _ _ _ _ Q On) as G. cbv beta in G. apply Fr_sub_eq in G. rewrite G. fring.
Qed.
Lemma products_hold :
  running_product (ch 0%nat) (ch 1%nat) (ch 2%nat) (ch 3%nat) (triples A 0 4 5 (zp z)) (A 7%nat) /\
  running_product (ch 0%nat) (ch 1%nat) (ch 2%nat) (ch 3%nat) (triples A 11 12 13 (zm z)) (A 14%nat) /\
  running_product (ch 4%nat) (ch 5%nat) (ch 6%nat) (ch 7%nat) (triples A 2 1 3 (zp z)) (A 8%nat) /\
  A 7%nat (zp z) = A 14%nat (zm z).
Proof.
  split; [|split; [|split]]; [intros i v Hi; apply nth_map_seq in Hi; destruct Hi as [Hi ->]..|].
  - row i 4%nat. apply Fr_sub_eq. exact (e_pmem _ _ _ _ _ Q On).
  - row i 7%nat. apply Fr_sub_eq. exact (e_mem _ _ _ _ _ Q On).
  - row i 4%nat. apply Fr_sub_eq. exact (e_pinst _ _ _ _ _ Q On).
  - exact (sat_mem_prp _ _ _ _ _ S).
Qed.
End Sat.

Lemma C22_columns n m c s asm A insts ch :
  bf_keygen n m = EOk (c, s, asm) ->
  satisfied s (asm_copies asm) (assign_with n asm A insts ch) ->
  running_sum (ch (ch_index (output_rs_ch (challenges c))))
    (entries A (ac_index (o_val (out_config c))) (length (output_matrix m))) (A (ac_index (o_rs (out_config c)))) /\
  running_sum (ch (ch_index (input_rs_ch (challenges c))))
    (entries A (ac_index (u_val (in_config c))) (length (input_matrix m))) (A (ac_index (u_rs (in_config c)))) /\
  running_sum (ch (ch_index (inst_rs_ch (challenges c))))
    (entries A (ac_index (g_code (prog_config c))) (length (program m))) (A (ac_index (g_rs (prog_config c)))).
Proof.
  intros K H. pose proof (keygen_spec _ _ _ _ _ K) as (-> & -> & _).
  apply (satisfied_iff _ _ _ _ _ _ _ _ K) in H. exact (sums_hold _ _ _ _ _ H).
Qed.
Lemma C23_columns n m c s asm A insts ch :
  bf_keygen n m = EOk (c, s, asm) ->
  satisfied s (asm_copies asm) (assign_with n asm A insts ch) ->
  let h i := ch (ch_index (get_ch (challenges c) i)) in
  let p := p_config c in let t := m_config c in
  running_product (h 0%nat) (h 1%nat) (h 2%nat) (h 3%nat)
    (triples A (ac_index (p_clk p)) (ac_index (p_mp p)) (ac_index (p_mv p)) (length (processor_matrix m)))
    (A (ac_index (p_mem_prp p))) /\
  running_product (h 0%nat) (h 1%nat) (h 2%nat) (h 3%nat)
    (triples A (ac_index (t_clk t)) (ac_index (t_mp t)) (ac_index (t_mv t)) (length (memory_matrix m)))
    (A (ac_index (t_prp t))) /\
  running_product (h 4%nat) (h 5%nat) (h 6%nat) (h 7%nat)
    (triples A (ac_index (p_ip p)) (ac_index (p_ci p)) (ac_index (p_ni p)) (length (processor_matrix m)))
    (A (ac_index (p_inst_prp p))) /\
  A (ac_index (p_mem_prp p)) (length (processor_matrix m)) = A (ac_index (t_prp t)) (length (memory_matrix m)).
Proof.
  intros K H h p t. pose proof (keygen_spec _ _ _ _ _ K) as (-> & -> & _).
  apply (satisfied_iff _ _ _ _ _ _ _ _ K) in H. exact (products_hold _ _ _ _ _ H).
Qed.

(** An assignment accepted for every challenge whose two memory products start
    from one non-zero value has the same rows in both tables. *)
Lemma C23_circuit n m c A0 s0 :
  s0 <> f0 -> (Z.of_nat n < 2 ^ 64)%Z ->
  (exists s asm, bf_keygen n m = EOk (c, s, asm) /\
    forall ch, exists A insts,
      (forall col r, nth col (advice_phases s) 0%nat = 0%nat -> A col r = A0 col r) /\
      A (ac_index (p_mem_prp (p_config c))) 0%nat = s0 /\ A (ac_index (t_prp (m_config c))) 0%nat = s0 /\
      satisfied s (asm_copies asm) (assign_with n asm A insts ch)) ->
  Permutation
    (triples A0 (ac_index (p_clk (p_config c))) (ac_index (p_mp (p_config c))) (ac_index (p_mv (p_config c)))
       (length (processor_matrix m)))
    (triples A0 (ac_index (t_clk (m_config c))) (ac_index (t_mp (m_config c))) (ac_index (t_mv (m_config c)))
       (length (memory_matrix m))).
Proof.
  intros Hs Hn (s & asm & K & Hall). pose proof (keygen_spec _ _ _ _ _ K) as (-> & -> & F & _).
  unfold fits in F. cbn [sizes_of zp zm zi zo zu zg] in F.
  cbn [p_config m_config conf p_clk p_mp p_mv p_mem_prp t_clk t_mp t_mv t_prp ac_index] in *.
  apply (C23_lemma _ _ s0 Hs).
  - unfold triples. rewrite map_length, seq_length. lia.
  - unfold triples. rewrite map_length, seq_length. lia.
  - intros al a b c. destruct (Hall (ch4 0 al a b c)) as (A & insts & E & E1 & E2 & H).
    apply (satisfied_iff _ _ _ _ _ _ _ _ K) in H. destruct (products_hold _ _ _ _ _ H) as (P1 & P2 & _ & P3).
    exists (A 7%nat), (A 14%nat).
    assert (T : forall x y w k, nth x (advice_phases bcs) 0%nat = 0%nat -> nth y (advice_phases bcs) 0%nat = 0%nat ->
      nth w (advice_phases bcs) 0%nat = 0%nat -> triples A x y w k = triples A0 x y w k).
    { intros x y w k X Y Z. unfold triples. apply map_ext. intros r. rewrite !E by assumption. reflexivity. }
    rewrite T in P1 by reflexivity. rewrite T in P2 by reflexivity.
    split; [exact P1|]. split; [exact P2|]. split; [exact E1|]. split; [exact E2|].
    unfold triples. rewrite !map_length, !seq_length. exact P3.
Qed.
