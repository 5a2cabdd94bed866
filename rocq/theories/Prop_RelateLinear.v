(** C68, C69: [relate_to] between multisegments and contours. *)
From Coq Require Import QArith Qcanon Bool List ZArith Lia.
From Verif Require Import QcTac Model_Base Model_Geometry Model_Linear Model_Relate Model_RelateLinear
  Spec_Base Spec_Segment Spec_Clip Spec_Contour Spec_Relate Spec_Sweep Spec_RelateLinear Spec_Literals
  Proof_Sweep6 Proof_RelateP Proof_RelateLinear Proof_RelSweep7.
Import ListNotations.

(** ** C68: refuted without a further hypothesis *)
(** Multisegments of which [relate_to] says EQUAL, though a point of the second is not one of
    the first. *)
Theorem c68_equal_refuted : forall shape fuel,
  exists first second,
    linear_operand first /\ linear_operand second
    /\ linear_relate_to fuel shape first second = Relates EQUAL
    /\ exists p, on_segs (parts second) p /\ ~ on_segs (parts first) p.
Proof. exact equal_refuted. Qed.
Print Assumptions c68_equal_refuted.
(** Multisegments of which it says OVERLAP, though all points of the second are of the first. *)
Theorem c68_overlap_refuted : forall shape fuel,
  exists first second,
    linear_operand first /\ linear_operand second
    /\ linear_relate_to fuel shape first second = Relates OVERLAP
    /\ forall p, on_segs (parts second) p -> on_segs (parts first) p.
Proof. exact overlap_refuted. Qed.
Print Assumptions c68_overlap_refuted.
(** Multisegments of which it says TOUCH, though they have a whole segment in common. *)
Theorem c68_touch_refuted : exists shape fuel first second,
  linear_operand first /\ linear_operand second
  /\ linear_relate_to fuel shape first second = Relates TOUCH
  /\ linear_relate_to fuel shape second first = Relates TOUCH
  /\ exists s, In s (parts first) /\ In s (parts second).
Proof. exact touch_refuted. Qed.
Print Assumptions c68_touch_refuted.

(** Two simple contours, a plug between the arms of a cup, of which it raises an AssertionError
    one way and says DISJOINT the other. *)
Theorem c68_raises_refuted : forall shape fuel, exists vs vs',
  simple_contour vs /\ simple_contour vs'
  /\ linear_relate_to fuel shape (GContour vs) (GContour vs') = RelateRaises
  /\ linear_relate_to fuel shape (GContour vs') (GContour vs) = Relates DISJOINT.
Proof. exact raises_refuted. Qed.
Print Assumptions c68_raises_refuted.

(** ** C68: what holds *)
(** If the segments of each operand meet at endpoints only and no segment of one has just the
    points of the other, then the answer is the relation between the points of the operands,
    and the assertion can only fail when no point is common. *)
Theorem c68_relation : forall first second,
  joined_operand first -> joined_operand second ->
  (forall s, In s (parts first) -> ~ same_points s (parts second)) ->
  (forall s, In s (parts second) -> ~ same_points s (parts first)) ->
  forall fuel shape, (enough (length (parts first) + length (parts second)) <= fuel)%nat ->
  (exists r, linear_relate_to fuel shape first second = Relates r
     /\ linear_relation_spec r (parts first) (parts second))
  \/ (linear_relate_to fuel shape first second = RelateRaises
      /\ ~ exists p, on_segs (parts first) p /\ on_segs (parts second) p).
Proof. exact linear_relate_spec. Qed.
Print Assumptions c68_relation.
(** For two contours there is no further hypothesis. *)
Theorem c68_contours : forall vs vs' fuel shape, simple_contour vs -> simple_contour vs' ->
  (enough (length vs + length vs') <= fuel)%nat ->
  (exists r, linear_relate_to fuel shape (GContour vs) (GContour vs') = Relates r
     /\ linear_relation_spec r (edges vs) (edges vs'))
  \/ (linear_relate_to fuel shape (GContour vs) (GContour vs') = RelateRaises
      /\ ~ exists p, on_segs (edges vs) p /\ on_segs (edges vs') p).
Proof. exact contours_relate_spec. Qed.
Print Assumptions c68_contours.
(** The points determine the relation, but for CROSS and TOUCH. *)
Theorem c68_exclusive : forall l l' r r',
  Forall proper_seg l -> Forall proper_seg l' -> l <> [] -> l' <> [] ->
  linear_relation_spec r l l' -> linear_relation_spec r' l l' ->
  r = r' \/ (In r [CROSS; TOUCH] /\ In r' [CROSS; TOUCH]).
Proof. exact linear_spec_exclusive. Qed.
Print Assumptions c68_exclusive.

(** Contours that meet the hypotheses, with every relation that two contours can have. *)
Definition square : list point := [pt 0 0; pt 4 0; pt 4 4; pt 0 4].
Example c68_hypotheses : Forall simple_contour
  [square; [pt 0 4; pt 4 4; pt 4 0; pt 0 0]; [pt 2 2; pt 6 2; pt 6 6; pt 2 6]; [pt 4 1; pt 8 1; pt 8 3; pt 4 3];
   [pt 4 4; pt 8 4; pt 8 8]; [pt 1 1; pt 2 1; pt 1 2]].
Proof. repeat (apply Forall_cons; [apply simple_literal; vm_compute; reflexivity|]). constructor. Qed.
Example c68_results :
  map (fun vs => linear_relate_to (enough (4 + length vs)) halves (GContour square) (GContour vs))
    [[pt 0 4; pt 4 4; pt 4 0; pt 0 0]; [pt 2 2; pt 6 2; pt 6 6; pt 2 6]; [pt 4 1; pt 8 1; pt 8 3; pt 4 3];
     [pt 4 4; pt 8 4; pt 8 8]; [pt 1 1; pt 2 1; pt 1 2]]
  = [Relates EQUAL; Relates CROSS; Relates OVERLAP; Relates TOUCH; Relates DISJOINT].
Proof. vm_compute. reflexivity. Qed.

(** ** C69: refuted *)
(** Exchanging the operands does not complement the relation: CROSS one way, TOUCH the other;
    for two multisegments, and for a contour and a multisegment. *)
Theorem c69_symmetry_refuted : exists shape fuel first second,
  linear_operand first /\ linear_operand second
  /\ linear_relate_to fuel shape first second = Relates TOUCH
  /\ linear_relate_to fuel shape second first = Relates CROSS.
Proof. exact symmetry_refuted. Qed.
Print Assumptions c69_symmetry_refuted.
Theorem c69_contour_symmetry_refuted : exists shape fuel vertices segments,
  linear_operand (GContour vertices) /\ linear_operand (GMultisegment segments)
  /\ linear_relate_to fuel shape (GContour vertices) (GMultisegment segments) = Relates CROSS
  /\ linear_relate_to fuel shape (GMultisegment segments) (GContour vertices) = Relates TOUCH.
Proof. exact contour_symmetry_refuted. Qed.
Print Assumptions c69_contour_symmetry_refuted.
