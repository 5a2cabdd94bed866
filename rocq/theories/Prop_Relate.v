(** C38, C39, C54, C55: [relate_to] between a segment and a multisegment, a contour or
    a polygon. *)
From Coq Require Import QArith Qcanon Bool List ZArith Lia.
From Verif Require Import QcTac Model_Base Model_Geometry Model_Segment Model_Contour Model_Relate Model_Linear Model_Mixed
  Spec_Base Spec_Segment Spec_Clip Spec_Contour Spec_Relate Spec_Literals Proof_Contour3 Proof_Relate7 Proof_RelateP Proof_Sweep20.
Import ListNotations.
Local Open Scope Qc_scope.

(** ** C54 *)
Theorem c54_segment_to_multisegment : forall s l r,
  proper_seg s -> non_crossing l -> (2 <= length l)%nat ->
  (segment_relate_to_multisegment s l = Some r <-> segment_list_relation_spec r s l).
Proof. exact relate_multisegment_only. Qed.
Print Assumptions c54_segment_to_multisegment.
(** No assertion fails and exactly one relation holds. *)
Theorem c54_total : forall s l, proper_seg s -> non_crossing l -> (2 <= length l)%nat ->
  exists r, segment_relate_to_multisegment s l = Some r /\ segment_list_relation_spec r s l.
Proof. exact multisegment_relation_any. Qed.
Print Assumptions c54_total.
Theorem c54_multisegment_to_segment : forall l s r,
  proper_seg s -> non_crossing l -> (2 <= length l)%nat ->
  (multisegment_relate_to_segment l s = Some (complement r) <-> segment_list_relation_spec r s l).
Proof. exact relate_multisegment_back. Qed.
Print Assumptions c54_multisegment_to_segment.
Theorem c54_exclusive : forall s l r r', proper_seg s -> Forall proper_seg l -> l <> [] ->
  segment_list_relation_spec r s l -> segment_list_relation_spec r' s l -> r = r'.
Proof. exact spec_exclusive. Qed.
Print Assumptions c54_exclusive.

Example c54_example :
  non_crossing [sg 0 0 1 0; sg 1 0 3 0; sg 1 0 1 5] /\ proper_seg (sg 0 0 3 0)
  /\ segment_relate_to_multisegment (sg 0 0 3 0) [sg 0 0 1 0; sg 1 0 3 0; sg 1 0 1 5] = Some COMPONENT
  /\ segment_relate_to_multisegment (sg 0 0 3 0) [sg 0 0 1 0; sg 3 0 1 0] = Some EQUAL
  /\ segment_relate_to_multisegment (sg 0 0 3 0) [sg 2 0 1 0; sg 3 0 2 0] = Some COMPOSITE
  /\ segment_relate_to_multisegment (sg 0 0 3 0) [sg 2 0 5 0; sg 1 0 0 0] = Some OVERLAP
  /\ segment_relate_to_multisegment (sg 0 0 3 0) [sg 1 0 1 4; sg 1 0 2 (-3)] = Some CROSS
  /\ segment_relate_to_multisegment (sg 0 0 3 0) [sg 1 0 1 4; sg 2 0 2 (-3)] = Some TOUCH
  /\ segment_relate_to_multisegment (sg 0 0 3 0) [sg 1 1 1 4; sg 2 1 2 3] = Some DISJOINT
  /\ multisegment_relate_to_segment [sg 0 0 1 0; sg 1 0 3 0; sg 1 0 1 5] (sg 0 0 3 0) = Some COMPOSITE.
Proof.
  split; [apply non_crossing_literal; vm_compute; auto|].
  split; [intros E; vm_compute in E; discriminate|]. vm_compute. repeat split.
Qed.

(** ** C55 *)
Theorem c55_segment_to_contour : forall s vs r, proper_seg s -> simple_contour vs ->
  (segment_relate_to_contour s vs = Some r <-> segment_list_relation_spec r s (edges vs)).
Proof. exact relate_contour_only. Qed.
Print Assumptions c55_segment_to_contour.
Theorem c55_total : forall s vs, proper_seg s -> simple_contour vs ->
  exists r, segment_relate_to_contour s vs = Some r /\ segment_list_relation_spec r s (edges vs).
Proof. exact relate_contour_any. Qed.
Print Assumptions c55_total.
Theorem c55_contour_to_segment : forall vs s r, proper_seg s -> simple_contour vs ->
  (contour_relate_to_segment vs s = Some (complement r) <-> segment_list_relation_spec r s (edges vs)).
Proof. exact relate_contour_back. Qed.
Print Assumptions c55_contour_to_segment.

Example c55_example :
  simple_contour [pt 0 0; pt 4 0; pt 4 4; pt 2 1; pt 0 4]
  /\ segment_relate_to_contour (sg 0 1 4 1) [pt 0 0; pt 4 0; pt 4 4; pt 2 1; pt 0 4] = Some TOUCH
  /\ segment_relate_to_contour (sg 2 1 2 0) [pt 0 0; pt 4 0; pt 4 4; pt 2 1; pt 0 4] = Some TOUCH
  /\ segment_relate_to_contour (sg 2 2 2 0) [pt 0 0; pt 4 0; pt 4 4; pt 2 1; pt 0 4] = Some CROSS
  /\ segment_relate_to_contour (sg 1 0 2 0) [pt 0 0; pt 4 0; pt 4 4; pt 2 1; pt 0 4] = Some COMPONENT
  /\ segment_relate_to_contour (sg 1 0 7 0) [pt 0 0; pt 4 0; pt 4 4; pt 2 1; pt 0 4] = Some OVERLAP
  /\ segment_relate_to_contour (sg 1 1 1 2) [pt 0 0; pt 4 0; pt 4 4; pt 2 1; pt 0 4] = Some DISJOINT
  /\ contour_relate_to_segment [pt 0 0; pt 4 0; pt 4 4; pt 2 1; pt 0 4] (sg 1 0 2 0) = Some COMPOSITE.
Proof. split; [apply simple_literal; vm_compute; auto|]. vm_compute. repeat split. Qed.

(** ** C39: the order and the directions of segments, the first vertex and the
    orientation of a contour do not matter ... *)
Theorem c39_multisegment : forall s s' l l',
  proper_seg s -> non_crossing l -> (2 <= length l)%nat -> non_crossing l' -> (2 <= length l')%nat ->
  same_segment s s' -> same_set same_segment l l' ->
  segment_relate_to_multisegment s l = segment_relate_to_multisegment s' l'
  /\ multisegment_relate_to_segment l s = multisegment_relate_to_segment l' s'.
Proof. exact relate_multisegment_same. Qed.
Print Assumptions c39_multisegment.
Theorem c39_contour : forall s s' vs vs', proper_seg s -> simple_contour vs ->
  same_segment s s' -> same_cycle vs vs' ->
  segment_relate_to_contour s vs = segment_relate_to_contour s' vs'
  /\ contour_relate_to_segment vs s = contour_relate_to_segment vs' s'.
Proof. exact relate_contour_same. Qed.
Print Assumptions c39_contour.
(** ... but the orientation of the border of a polygon does: a diagonal of a square is
    ENCLOSED by the square or only TOUCHes it. *)
Theorem c39_polygon_refuted : exists s p q,
  proper_seg s /\ simple_contour (border p) /\ simple_contour (border q) /\ holes p = [] /\ holes q = []
  /\ polygon_eq p q = true
  /\ segment_relate_to_polygon s p = Some ENCLOSED /\ segment_relate_to_polygon s q = Some TOUCH.
Proof.
  exists (sg 0 0 4 4), (Poly [pt 0 0; pt 4 0; pt 4 4; pt 0 4] []), (Poly [pt 0 4; pt 4 4; pt 4 0; pt 0 0] []).
  split; [intros E; vm_compute in E; discriminate|].
  split; [apply simple_literal; vm_compute; auto|]. split; [apply simple_literal; vm_compute; auto|].
  vm_compute. repeat split.
Qed.
Print Assumptions c39_polygon_refuted.

Example c39_example :
  same_cycle [pt 0 0; pt 4 0; pt 4 4; pt 2 1; pt 0 4] [pt 2 1; pt 4 4; pt 4 0; pt 0 0; pt 0 4]
  /\ same_set same_segment [sg 0 0 1 0; sg 1 0 3 0] [sg 3 0 1 0; sg 0 0 1 0].
Proof.
  split.
  - right. exists [pt 0 4], [pt 2 1; pt 4 4; pt 4 0; pt 0 0]. auto.
  - unfold same_set, same_segment. cbn. split; intros x [<-|[<-|[]]]; eauto 8.
Qed.

(** ** C38 for a segment and a multisegment or a contour *)
Theorem c38_segment_multisegment : forall s l r, proper_seg s -> non_crossing l -> (2 <= length l)%nat ->
  (segment_relate_to_multisegment s l = Some r <-> multisegment_relate_to_segment l s = Some (complement r)).
Proof.
  intros s l r P NC L. rewrite (relate_multisegment_only s l r P NC L). symmetry. apply relate_multisegment_back; auto.
Qed.
Print Assumptions c38_segment_multisegment.
Theorem c38_segment_contour : forall s vs r, proper_seg s -> simple_contour vs ->
  (segment_relate_to_contour s vs = Some r <-> contour_relate_to_segment vs s = Some (complement r)).
Proof.
  intros s vs r P C. rewrite (relate_contour_only s vs r P C). symmetry. apply relate_contour_back; auto.
Qed.
Print Assumptions c38_segment_contour.

(** Between a segment and a polygon it fails: [Polygon.relate_to] returns the relation of
    the segment to the polygon instead of its complement ... *)
Theorem c38_polygon_refuted : exists fuel shape s p,
  proper_seg s /\ simple_contour (border p) /\ holes p = [] /\ contour_orientation (border p) = COUNTERCLOCKWISE
  /\ segment_relate_to_polygon s p = Some WITHIN
  /\ polygon_relate_to_segment fuel shape p s = Some WITHIN /\ complement WITHIN = COVER.
Proof.
  exists 100%nat, (fun _ _ l => (length l / 2)%nat), (sg 1 1 2 2), (Poly [pt 0 0; pt 6 0; pt 0 6] []).
  split; [intros E; vm_compute in E; discriminate|].
  split; [apply simple_literal; vm_compute; auto|]. vm_compute. repeat split.
Qed.
Print Assumptions c38_polygon_refuted.
(** ... the segments that the sweep line has left are not taken out of it, so that a segment
    outside of the polygon may be WITHIN it ... *)
Theorem c38_stale_refuted : exists fuel shape s p,
  proper_seg s /\ simple_contour (border p) /\ holes p = [] /\ contour_orientation (border p) = COUNTERCLOCKWISE
  /\ segment_relate_to_polygon s p = Some DISJOINT
  /\ polygon_relate_to_segment fuel shape p s = Some WITHIN.
Proof.
  exists 100%nat, (fun _ _ l => (length l / 2)%nat), (sg 20 1 30 2), (Poly [pt 0 0; pt 10 0; pt 40 40] []).
  split; [intros E; vm_compute in E; discriminate|].
  split; [apply simple_literal; vm_compute; auto|]. vm_compute. repeat split.
Qed.
Print Assumptions c38_stale_refuted.
(** ... and the orientation of the border is taken for counterclockwise. *)
Theorem c38_clockwise_refuted : exists fuel shape s p,
  proper_seg s /\ simple_contour (border p) /\ holes p = [] /\ contour_orientation (border p) = CLOCKWISE
  /\ segment_relate_to_polygon s p = Some WITHIN
  /\ polygon_relate_to_segment fuel shape p s = Some DISJOINT.
Proof.
  exists 100%nat, (fun _ _ l => (length l / 2)%nat), (sg 1 1 2 2), (Poly [pt 0 0; pt 0 6; pt 6 0] []).
  split; [intros E; vm_compute in E; discriminate|].
  split; [apply simple_literal; vm_compute; auto|]. vm_compute. repeat split.
Qed.
Print Assumptions c38_clockwise_refuted.
