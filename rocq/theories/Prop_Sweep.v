(** C31, C32: the plane sweep preserves its operands and terminates. *)
From Coq Require Import QArith Qcanon Bool List Arith ZArith Lia.
From Verif Require Import QcTac Model_Base Model_Linear Spec_Base Spec_Sweep Spec_Literals Proof_Sweep6.
Import ListNotations.
Local Open Scope Z_scope.

(** C31: whatever is popped, however the line is kept and whichever pieces are
    examined, the pieces are parts of the inputs and make up the whole of them. *)
Theorem c31_any_history (first second : list segment) (o : operation) :
  Forall proper_seg (first ++ second) ->
  some_steps (from_segments_iterables first second) o ->
  operands_preserved (first ++ second) o.
Proof. intros. apply steps_preserved; auto. Qed.
Print Assumptions c31_any_history.

(** C31 for the sweep itself, with any shape of the tree and any stop. *)
Theorem c31_sweep (first second : list segment) fuel shape limit o events :
  Forall proper_seg (first ++ second) ->
  sweep fuel shape limit (from_segments_iterables first second) [] = Sweeps o events ->
  operands_preserved (first ++ second) o.
Proof. intros P Q. apply steps_preserved; auto. eapply sweep_steps; eauto. Qed.
Print Assumptions c31_sweep.

(** C32: the loop over the events ends within a number of iterations that depends
    on the number of input segments only. *)
Theorem c32_sweep_terminates (first second : list segment) fuel shape limit :
  Forall proper_seg (first ++ second) ->
  (enough (length (first ++ second)) <= fuel)%nat ->
  sweep fuel shape limit (from_segments_iterables first second) [] <> OutOfFuel.
Proof. intros. apply sweep_terminates; auto. Qed.
Print Assumptions c32_sweep_terminates.

(** Two crossing segments against one that overlaps and crosses them. *)
Example sweep_case :
  let first := [sg 0 0 4 4; sg 0 4 4 0] in
  let second := [sg 3 3 1 1; sg 0 1 4 1] in
  Forall proper_seg (first ++ second)
  /\ exists o events, sweep 100 (fun _ _ l => length l / 2)%nat None
       (from_segments_iterables first second) [] = Sweeps o events
     /\ length (op_endpoints o) = 24%nat.
Proof.
  cbv zeta. split.
  - repeat constructor; intros E; apply (f_equal (fun p => this (px p))) in E; vm_compute in E;
      discriminate.
  - eexists; eexists. split; [vm_compute; reflexivity|vm_compute; reflexivity].
Qed.
