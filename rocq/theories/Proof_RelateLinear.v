(** [relate_to] between multisegments and contours: counterexamples. *)
From Coq Require Import QArith Qcanon Bool List ZArith Lia.
From Verif Require Import QcTac Model_Base Model_Geometry Model_Linear Model_Relate Model_RelateLinear
  Spec_Base Spec_Segment Spec_Clip Spec_Contour Spec_Relate Spec_RelateLinear Spec_Literals
  Proof_Base Proof_Line Proof_SegRel Proof_SegOps Proof_RelateP Proof_Sweep20.
Import ListNotations.
Local Open Scope Qc_scope.

Lemma equal_refuted : forall shape fuel,
  exists first second,
    linear_operand first /\ linear_operand second
    /\ linear_relate_to fuel shape first second = Relates EQUAL
    /\ exists p, on_segs (parts second) p /\ ~ on_segs (parts first) p.
Proof.
  intros shape fuel. exists (GMultisegment [sg 0 0 1 0; sg 1 0 2 0]), (GMultisegment [sg 0 0 2 0; sg 0 5 2 5]).
  split; [split; [cbn; lia|apply non_crossing_literal; vm_compute; auto]|].
  split; [split; [cbn; lia|apply non_crossing_literal; vm_compute; auto]|].
  split; [vm_compute; reflexivity|]. exists (pt 0 5). split.
  - exists (sg 0 5 2 5). split; [cbn; auto|]. apply between_start.
  - intros (s & [<-|[<-|[]]] & O); unfold on_seg in O; apply (locate_spec _ _ _) in O; vm_compute in O; discriminate.
Qed.
Lemma overlap_refuted : forall shape fuel,
  exists first second,
    linear_operand first /\ linear_operand second
    /\ linear_relate_to fuel shape first second = Relates OVERLAP
    /\ forall p, on_segs (parts second) p -> on_segs (parts first) p.
Proof.
  intros shape fuel. exists (GMultisegment [sg 0 0 2 0; sg 0 5 2 5]), (GMultisegment [sg 0 0 1 0; sg 1 0 2 0]).
  split; [split; [cbn; lia|apply non_crossing_literal; vm_compute; auto]|].
  split; [split; [cbn; lia|apply non_crossing_literal; vm_compute; auto]|].
  split; [vm_compute; reflexivity|].
  assert (A : forall s, In s [sg 0 0 1 0; sg 1 0 2 0] -> seg_subset s (sg 0 0 2 0)).
  { intros s I p Op. apply (between_trans _ _ (seg_start s) (seg_end s)); auto;
    destruct I as [<-|[<-|[]]]; apply locate_spec; vm_compute; reflexivity. }
  intros p (s & I & O). exists (sg 0 0 2 0). split; [cbn; auto|]. apply (A s); auto.
Qed.
Definition halves : tree_shape := fun _ _ (l : list event) => (length l / 2)%nat.
Lemma symmetry_refuted : exists shape fuel first second,
  linear_operand first /\ linear_operand second
  /\ linear_relate_to fuel shape first second = Relates TOUCH
  /\ linear_relate_to fuel shape second first = Relates CROSS.
Proof.
  exists halves, 100%nat, (GMultisegment [sg 0 0 5 5; sg 0 0 (-5) 5]),
    (GMultisegment [sg 0 0 5 0; sg 0 0 0 5; sg 0 0 (-5) 0]).
  split; [split; [cbn; lia|apply non_crossing_literal; vm_compute; auto]|].
  split; [split; [cbn; lia|apply non_crossing_literal; vm_compute; auto]|].
  vm_compute. auto.
Qed.
Lemma contour_symmetry_refuted : exists shape fuel vertices segments,
  linear_operand (GContour vertices) /\ linear_operand (GMultisegment segments)
  /\ linear_relate_to fuel shape (GContour vertices) (GMultisegment segments) = Relates CROSS
  /\ linear_relate_to fuel shape (GMultisegment segments) (GContour vertices) = Relates TOUCH.
Proof.
  exists halves, 100%nat, [pt (-5) 0; pt 3 5; pt 5 5; pt 5 (-1); pt 1 (-1); pt (-1) 1],
    [sg 0 0 2 0; sg 100 100 101 100].
  split; [apply simple_literal; vm_compute; auto|].
  split; [split; [cbn; lia|apply non_crossing_literal; vm_compute; auto]|].
  vm_compute. auto.
Qed.
(** An end of a segment of the first inside another segment of the first: the common segment
    is missed, and TOUCH is said in both directions. *)
Lemma touch_refuted : exists shape fuel first second,
  linear_operand first /\ linear_operand second
  /\ linear_relate_to fuel shape first second = Relates TOUCH
  /\ linear_relate_to fuel shape second first = Relates TOUCH
  /\ exists s, In s (parts first) /\ In s (parts second).
Proof.
  exists halves, 100%nat, (GMultisegment [sg (-5) 0 5 0; sg 0 0 3 3]),
    (GMultisegment [sg 0 0 3 3; sg 0 1 1 3]).
  split; [split; [cbn; lia|apply non_crossing_literal; vm_compute; auto]|].
  split; [split; [cbn; lia|apply non_crossing_literal; vm_compute; auto]|].
  split; [vm_compute; reflexivity|]. split; [vm_compute; reflexivity|].
  exists (sg 0 0 3 3). cbn. auto.
Qed.
(** A contour with a leg between the arms of a cup: the assertion on the segments left by the
    second filter fails. *)
Definition tee : list point :=
  [pt 4 0; pt 6 0; pt 6 40; pt 30 40; pt 30 50; pt (-20) 50; pt (-20) 40; pt 4 40].
Definition cup : list point :=
  [pt 0 (-10); pt 10 (-10); pt 10 10; pt 9 10; pt 9 (-5); pt 1 (-5); pt 1 10; pt 0 10].
Lemma raises_refuted : forall shape fuel, exists vs vs',
  simple_contour vs /\ simple_contour vs'
  /\ linear_relate_to fuel shape (GContour vs) (GContour vs') = RelateRaises
  /\ linear_relate_to fuel shape (GContour vs') (GContour vs) = Relates DISJOINT.
Proof.
  intros shape fuel. exists tee, cup.
  split; [apply simple_literal; vm_compute; auto|]. split; [apply simple_literal; vm_compute; auto|].
  split; vm_compute; reflexivity.
Qed.
