(** Properties C35 and C36: selector compression and its replay. *)
From Coq Require Import ZArith List Bool.
From Verif Require Import Base Moduli Field Halo2Model CircuitModel CircuitFacts.
From Verif Require Import SelectorModel SelectorSpec SelectorFacts SelectorMain.
Import ListNotations.

(** C35: on every configured constraint system and all activation vectors,
    compression succeeds; every selector gets an expression that is non-zero
    exactly on its enabled rows, no selector is left, the degree does not grow,
    and the compressed system accepts exactly the same assignments. *)
Theorem C35_compress : forall c acts n, configured c -> length acts = num_selectors c ->
  (forall a, In a acts -> length a = n) -> (Z.of_nat (num_selectors c) < r_modulus)%Z ->
  exists c' polys asgs, compress_selectors c acts = Ok (c', polys, asgs) /\
    compressed c acts n c' polys (reps_of asgs).
Proof. exact compress_correct. Qed.
Print Assumptions C35_compress.

(** C35, C36: for every key generated for this project's circuit. *)
Theorem C35_project : forall n m cc sc asm, bf_keygen n m = EOk (cc, sc, asm) ->
  exists c' polys asgs, compress_selectors sc (selector_rows sc n asm) = Ok (c', polys, asgs) /\
    compressed sc (selector_rows sc n asm) n c' polys (reps_of asgs) /\
    recreate sc asgs = Ok c' /\
    forall advice insts ch,
      (satisfied sc (asm_copies asm) (assign_with n asm advice insts ch) <->
       satisfied c' (asm_copies asm) (extended sc polys (assign_with n asm advice insts ch))).
Proof. exact project_compressed. Qed.
Print Assumptions C35_project.

(** C36: replaying the recorded assignments on the configured constraint system
    gives the compressed constraint system, all fields included. *)
Theorem C36_recreate : forall c acts c' polys asgs, (Z.of_nat (num_selectors c) < r_modulus)%Z ->
  compress_selectors c acts = Ok (c', polys, asgs) -> recreate c asgs = Ok c'.
Proof. exact compress_recreate. Qed.
Print Assumptions C36_recreate.

(** two disjoint selectors of degree 2 share a column, a third that overlaps
    the first and an unused one get their own *)
Definition c35_cs : cs :=
  let v := EAdvice (Query 0 0 cur) 0 in
  mkCs 1 1 0 4 0 [0] [] [[ESelector (Sel 0 true) * v; ESelector (Sel 1 true) * (v - EConst f1)]%E;
                         [v * v * (v * ESelector (Sel 2 true))]%E]
    [(ACol 0 0, cur)] [1] [] [] [] [] [].
Definition c35_acts : list (list bool) :=
  [[true; false; true; false]; [false; true; false; false]; [true; false; false; true];
   [false; false; true; false]].
Example C35_hyp : configured c35_cs /\ length c35_acts = num_selectors c35_cs /\
  (forall a, In a c35_acts -> length a = 4) /\ (Z.of_nat (num_selectors c35_cs) < r_modulus)%Z.
Proof.
  split; [apply (configured_check (fun _ => true)); reflexivity|]. split; [reflexivity|].
  split; [intros a I; repeat (destruct I as [<-|I]; [reflexivity|]); destruct I|vm_compute; reflexivity].
Qed.
Example C35_case : exists c' polys asgs, compress_selectors c35_cs c35_acts = Ok (c', polys, asgs) /\
  map (map fval) polys = [[0; 0; 1; 0]; [1; 2; 1; 0]; [1; 0; 0; 1]]%Z /\
  map (fun a => (sa_selector a, sa_combination a)) asgs = [(3, 0); (0, 1); (1, 1); (2, 2)] /\
  num_fixed c' = 4 /\ recreate c35_cs asgs = Ok c'.
Proof.
  destruct (compress_selectors c35_cs c35_acts) as [[[c' polys] asgs]|] eqn:E; [|vm_compute in E; discriminate].
  exists c', polys, asgs. split; [reflexivity|].
  pose proof (C36_recreate c35_cs c35_acts c' polys asgs eq_refl E) as R.
  assert (X : match compress_selectors c35_cs c35_acts with
    | Ok (c', polys, asgs) =>
        map (map fval) polys = [[0; 0; 1; 0]; [1; 2; 1; 0]; [1; 0; 0; 1]]%Z /\
        map (fun a => (sa_selector a, sa_combination a)) asgs = [(3, 0); (0, 1); (1, 1); (2, 2)] /\ num_fixed c' = 4
    | Panic => False
    end) by (vm_compute; repeat split).
  rewrite E in X. destruct X as (X1 & X2 & X3). auto.
Qed.
(** this project's circuit, eight rows: fifteen selectors in fourteen columns *)
Definition c35_bf : list (list bool) :=
  map (fun s => map (fun r => if Nat.eqb s 3 then Nat.eqb r 0 else if Nat.eqb s 10 then Nat.eqb r 3 else r <? 3)
                  (seq 0 8)) (seq 0 15).
Example C35_case_project : match compress_selectors bcs c35_bf with
  | Ok (c', polys, asgs) => num_fixed c' = 15 /\ length polys = 14 /\ cs_degree c' = 11 /\
      map sa_selector asgs = [0; 1; 10; 2; 3; 4; 5; 6; 7; 8; 9; 11; 12; 13; 14]
  | Panic => False
  end.
Proof. vm_compute. repeat split. Qed.
