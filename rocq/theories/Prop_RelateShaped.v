(** C70-C72: [relate_to] between two polygons. *)
From Coq Require Import QArith Qcanon Bool List ZArith Lia.
From Verif Require Import QcTac Model_Base Model_Geometry Model_Contour Model_Linear Model_Mixed Model_Shaped Model_Relate Model_RelateLinear Model_RelateShaped
  Spec_Base Spec_Segment Spec_Clip Spec_Contour Spec_Relate Spec_Bounds Spec_Literals Spec_Sweep Spec_Shaped Spec_RelateShaped
  Proof_Locate4 Proof_RelateP Proof_Sweep20 Proof_RelateShaped Proof_RelateMulti3.
Import ListNotations.
Local Open Scope Qc_scope.

(** C70: for two polygons whose borders go counterclockwise and whose holes go clockwise,
    [relate_to] never raises and returns the relation between the points of theirs. *)
Theorem c70_polygons_relation : forall p p' shape fuel,
  valid_polygon p -> valid_polygon p' -> oriented p -> oriented p' ->
  (enough (vertices_count p + vertices_count p') <= fuel)%nat ->
  exists r, polygon_relate_to_polygon fuel shape p p' = Relates r /\ shaped_relation p p' r.
Proof. exact polygons_related. Qed.
Print Assumptions c70_polygons_relation.
(** The relations exclude one another, so that the answer is the only right one. *)
Theorem c70_exclusive : forall p p' r r', valid_polygon p -> valid_polygon p' ->
  shaped_relation p p' r -> shaped_relation p p' r' -> r = r'.
Proof. exact shaped_exclusive. Qed.
Print Assumptions c70_exclusive.

(** C72: exchanging the operands complements the relation. *)
Theorem c72_polygons_exchange : forall p p' shape shape' fuel,
  valid_polygon p -> valid_polygon p' -> oriented p -> oriented p' ->
  (enough (vertices_count p + vertices_count p') <= fuel)%nat ->
  exists r, polygon_relate_to_polygon fuel shape p p' = Relates r
    /\ polygon_relate_to_polygon fuel shape' p' p = Relates (complement r).
Proof. exact polygons_exchanged. Qed.
Print Assumptions c72_polygons_exchange.

(** The hypotheses hold of a triangle with a hole and a triangle over the hole; the answers for
    these and for squares. *)
Definition holed : polygon := Poly [pt 0 0; pt 6 0; pt 0 6] [[pt 1 1; pt 1 2; pt 2 1]].
Definition over : polygon := Poly [pt 0 0; pt 3 0; pt 3 4] [].
Example relate_hypotheses : valid_polygon holed /\ valid_polygon over /\ oriented holed /\ oriented over.
Proof.
  assert (O : oriented holed /\ oriented over) by (split; (split; [vm_compute; reflexivity|]); [apply Forall_cons; [vm_compute; reflexivity|constructor]|constructor]).
  split; [|split; [|exact O]].
  - constructor.
    + apply Forall_cons; [apply simple_literal; vm_compute; reflexivity|]. apply Forall_cons; [apply simple_literal; vm_compute; reflexivity|constructor].
    + apply non_crossing_literal; vm_compute; reflexivity.
    + intros q h Of [<-|[]] I. unfold inside_ring in *.
      apply api_triangle in I; [|intros E; vm_compute in E; discriminate]. apply api_triangle; [intros E; vm_compute in E; discriminate|].
      clear Of. left. destruct q as [x y]. unfold pt, area2, Spec_Literals.q, Z2Qc, inject_Z in *. cbn [px py] in *.
      destruct I as [(A & B & C)|(A & B & C)]; repeat split; qlra.
    + intros q Of. repeat constructor.
  - constructor.
    + apply Forall_cons; [apply simple_literal; vm_compute; reflexivity|constructor].
    + apply non_crossing_literal; vm_compute; reflexivity.
    + intros q h Of [].
    + intros q Of. repeat constructor.
Qed.
Definition square (a b c d : Z) : polygon := Poly [pt a b; pt c b; pt c d; pt a d] [].
Example relate_answers : let f p p' := polygon_relate_to_polygon (enough (vertices_count p + vertices_count p')) (fun _ _ l => (length l / 2)%nat) p p' in
  f over holed = Relates OVERLAP /\ f (square 0 0 4 4) (square 0 0 4 4) = Relates EQUAL
  /\ f (square 1 1 2 2) (square 0 0 4 4) = Relates WITHIN /\ f (square 0 0 4 4) (square 1 1 2 2) = Relates COVER
  /\ f (square 0 0 2 2) (square 0 0 4 4) = Relates ENCLOSED /\ f (square 0 0 4 4) (square 0 0 2 2) = Relates ENCLOSES
  /\ f (square 0 0 4 4) (square 4 4 6 6) = Relates TOUCH /\ f (Poly [pt 0 0; pt 6 0; pt 0 6] []) (square 5 5 6 6) = Relates DISJOINT
  /\ f (Poly [pt 0 0; pt 3 2; pt 6 0; pt 3 3] []) (Poly [pt 0 0; pt 3 2; pt 6 0; pt 3 3] []) = Relates EQUAL
  /\ f (Poly [pt 0 0; pt 4 0; pt 4 1; pt 0 1] []) (Poly [pt 0 0; pt 4 0; pt 4 4; pt 0 4] [[pt 0 1; pt 3 3; pt 4 1]]) = Relates COMPONENT.
Proof. vm_compute. repeat split; reflexivity. Qed.

(** C71, refuted: the relation of two polygons is not a matter of the points of theirs.  A
    square drawn clockwise is said to [TOUCH] the same square drawn counterclockwise, although
    their interiors meet, they compare equal by [==], and each of them is [EQUAL] to itself; nothing checks the orientation
    when a contour or a polygon is made. *)
Definition ccw_square : polygon := Poly [pt 0 0; pt 4 0; pt 4 4; pt 0 4] [].
Definition cw_square : polygon := Poly [pt 0 4; pt 4 4; pt 4 0; pt 0 0] [].
Lemma squares_valid : valid_polygon ccw_square /\ valid_polygon cw_square.
Proof.
  split; (constructor;
    [apply Forall_cons; [apply simple_literal; vm_compute; reflexivity|constructor]
    |apply non_crossing_literal; vm_compute; reflexivity
    |intros q h O []
    |intros q O; repeat constructor]).
Qed.
Theorem c71_orientation_refuted : exists p p' shape fuel x,
  valid_polygon p /\ valid_polygon p' /\ (enough (vertices_count p + vertices_count p') <= fuel)%nat
  /\ polygon_relate_to_polygon fuel shape p p = Relates EQUAL
  /\ polygon_relate_to_polygon fuel shape p' p' = Relates EQUAL
  /\ polygon_relate_to_polygon fuel shape p p' = Relates TOUCH
  /\ geometry_locate (GPolygon p) x = INTERIOR /\ geometry_locate (GPolygon p') x = INTERIOR
  /\ polygon_eq p p' = true.
Proof.
  exists ccw_square, cw_square, (fun _ _ l => (length l / 2)%nat), (enough (vertices_count ccw_square + vertices_count cw_square)), (pt 1 1).
  split; [apply squares_valid|]. split; [apply squares_valid|]. split; [constructor|].
  repeat split; vm_compute; reflexivity.
Qed.
Print Assumptions c71_orientation_refuted.
