(** Columns that satisfy the circuit for any statement. *)
From Coq Require Import ZArith List Bool Arith Lia Permutation.
From Verif Require Import PolyFacts IopModel IopSpec ForgeSpec.
From Verif Require Import Base Field FieldFacts BFSpec CompileSpec VMModel VMSim VMInv TraceSpec ListFacts Halo2Model
  CircuitModel CircuitFacts LayoutFacts KeygenFacts CircuitSpec SoundSpec LocalSound WitnessFacts HonestFacts
  Completeness Forge Attack.
Import List ListNotations.
Local Open Scope nat_scope.

Lemma every_columns pr src p inp cfg c fuel s n asm insts outs :
  parses src p -> (1 <= program_words p <= 65535)%Z -> in_range 8 inp ->
  exec 8 p (initial inp) (Done cfg) ->
  compile pr src = Ok c -> VMModel.run pr fuel (start c (easygen inp)) = Finished s ->
  (Z.of_nat n < 2 ^ 64)%Z -> bf_keygen n (mat s) = EOk (conf, bcs, asm) ->
  length insts = 2 -> (forall l, List.In l insts -> length l <= n - 6) -> length outs = length (written cfg) ->
  exists A : columns, causal bcs A /\ (forall chs, satisfied bcs (asm_copies asm) (assign_with n asm (A chs) insts (fun i => nth i chs f0))) /\
    forall chs, output_shown conf (A chs) (length outs) = outs.
Proof.
  intros Hp Hw Hin He Hc Hr Hn HK Hl Hlen Ho.
  pose proof (keygen_spec _ _ _ _ _ HK) as (_ & _ & FT & _).
  assert (HP : (Z.of_nat (length (processor_matrix (mat s))) < 2 ^ 64)%Z) by (unfold KeygenFacts.fits in FT; cbn [sizes_of zp] in FT; lia).
  destruct (F_rec pr src p inp c fuel s Hp Hw Hin Hc Hr HP) as (W & rows & last & c' & ks & ipf & cf & _ & _ & R).
  pose proof (F_read pr src p inp cfg c fuel s n Hp Hw Hin He Hc Hr) as [_ Eo].
  set (inst := instance_fn insts).
  set (m := replaced (mat s) ks (fun k => inst 0 (S k)) (fun _ => f0) outs).
  assert (SS : same_sizes (mat s) m).
  { unfold same_sizes, m, replaced. cbn [processor_matrix memory_matrix instruction_matrix output_matrix input_matrix program].
    repeat split; auto.
    - rewrite (rr_T _ _ _ _ _ _ _ _ _ R), !map_length. reflexivity.
    - rewrite Eo, map_length. symmetry. exact Ho. }
  exists (fun chs => forge m f0 f0 f0 inst (fun i => nth i chs f0)). split; [|split].
  - intros chs chs' col r E. apply forge_phase0, E.
  - intros chs. apply (satisfied_iff _ _ _ _ _ _ _ _ HK). rewrite (same_sizes_of _ _ SS) in *. apply forge_sat; auto.
    + eapply replaced_local; exact R.
    + rewrite fold_h_inst_0, fold_h_iprp_0. reflexivity.
    + unfold m. rewrite (replaced_code _ _ _ _ _ _ _ _ _ R). reflexivity.
  - intros chs. change (length outs) with (length (output_matrix m)). apply forge_output.
Qed.
