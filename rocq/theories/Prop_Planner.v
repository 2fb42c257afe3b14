(** Property C38: regions never share a cell. *)
From Coq Require Import ZArith List.
From Verif Require Import Field Halo2Model VMModel CircuitModel CircuitFacts PlannerSpec PlannerFacts.
Import ListNotations.

(** C38: after any sequence of layouter calls, no cell belongs to two regions. *)
Theorem C38_disjoint : forall regions l, planned regions l ->
  length (lay_regions l) = length regions /\
  forall i j ops ops' s s' c row, i <> j ->
    nth_error regions i = Some ops -> nth_error regions j = Some ops' ->
    nth_error (lay_regions l) i = Some s -> nth_error (lay_regions l) j = Some s' ->
    ~ (occupies s ops c row /\ occupies s' ops' c row).
Proof. exact planned_disjoint. Qed.
Print Assumptions C38_disjoint.

(** C38: regions over pairwise disjoint columns all start at row 0. *)
Theorem C38_zero : forall regions l, planned regions l ->
  (forall i j ops ops' c, i < j -> nth_error regions i = Some ops -> nth_error regions j = Some ops' ->
     claims ops c -> claims ops' c -> False) ->
  lay_regions l = repeat 0 (length regions).
Proof. exact planned_zero. Qed.
Print Assumptions C38_zero.

(** C38: no row is wasted: just above a region that does not start at row 0 lies
    an earlier region in one of its columns. *)
Theorem C38_tight : forall regions l, planned regions l -> forall j ops' s',
  nth_error regions j = Some ops' -> nth_error (lay_regions l) j = Some (S s') ->
  exists i ops s c, i < j /\ nth_error regions i = Some ops /\ nth_error (lay_regions l) i = Some s /\
    claims ops' c /\ occupies s ops c s'.
Proof. exact planned_tight. Qed.
Print Assumptions C38_tight.

(** C38: this project's seven regions all start at row 0, for every trace. *)
Theorem C38_project : forall m ve l, load_table DOMAIN conf m ve lay_new = EOk l ->
  exists regions, planned regions l /\ length regions = 7 /\ lay_regions l = repeat 0 7.
Proof. exact project_planned. Qed.
Print Assumptions C38_project.

(** four regions: the second and fourth stack on the first, the third is beside
    them; an instance constraint in between *)
Definition c38_a := ACol 0 0.
Definition c38_b := ACol 1 0.
Definition c38_regions : list (list rop) :=
  [[RAdvice c38_a 0 None; RAdvice c38_a 2 None];
   [REnable (Sel 0 true) 0; RAdvice c38_a 1 None];
   [RAdvice c38_b 3 None];
   [RAdvice c38_b 0 None; REnable (Sel 0 true) 0]].
Definition c38_lay : lay :=
  assign_region (nth 3 c38_regions [])
    (constrain_instance (Cell 0 0 (CAdvice c38_a)) 0 0
      (assign_region (nth 2 c38_regions []) (assign_region (nth 1 c38_regions [])
        (assign_region (nth 0 c38_regions []) lay_new)))).
Example C38_case : planned c38_regions c38_lay /\ lay_regions c38_lay = [0; 3; 0; 5].
Proof.
  split; [|reflexivity]. apply (pl_region [_; _; _]), pl_instance, (pl_region [_; _]), (pl_region [_]), (pl_region []), pl_new.
Qed.
Example C38_case_zero : exists l, planned [nth 0 c38_regions []; nth 2 c38_regions []] l /\ lay_regions l = [0; 0].
Proof.
  eexists. split; [apply (pl_region [_]), (pl_region []), pl_new|reflexivity].
Qed.
