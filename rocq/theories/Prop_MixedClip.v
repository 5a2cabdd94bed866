(** C77, C78: the intersection of linear and shaped geometries, and the location of points in
    polygons and multipolygons.

    [shape] is how the search tree of the sweep line happens to be balanced, [fuel] a bound on
    the iterations: no bound beyond [enough] changes anything. *)
From Coq Require Import QArith Qcanon Bool List Arith ZArith Lia.
From Verif Require Import QcTac Model_Base Model_Geometry Model_Contour Model_Linear Model_Mixed Model_Multipolygon Model_MixedClip
  Spec_Base Spec_Segment Spec_Clip Spec_Contour Spec_Relate Spec_Bounds Spec_Sweep Spec_Literals Spec_Shaped Spec_Multipolygon Spec_RelateShaped Spec_MixedClip
  Proof_Locate4 Proof_RelateP Proof_Sweep20 Proof_Located Prop_RelateMixed.
Import ListNotations.
Local Open Scope Qc_scope.

(** C77: [a & b] and [b & a] for a segment, a multisegment or a contour [a] and a polygon or a
    multipolygon [b] consist of the points on the pieces of positive length of [a] all of whose
    points are in [b], given by segments that do not cross or overlap. *)
Theorem c77_intersection_exact : forall fuel shape a b, linear_input a -> valid_shaped b ->
  (enough (length (parts a) + shaped_size b) <= fuel)%nat ->
  (exists g, mixed_and fuel shape a b = Some (Clips g) /\ good_result g
     /\ forall q, on_geometry g q <-> on_contained_piece a b q)
  /\ (exists g, mixed_and fuel shape b a = Some (Clips g) /\ good_result g
     /\ forall q, on_geometry g q <-> on_contained_piece a b q).
Proof. exact mixed_and_contained. Qed.
Print Assumptions c77_intersection_exact.
(** So the result lies in both, and has every point of [a] inside [b]. *)
Theorem c77_intersection_points : forall fuel shape a b, linear_input a -> valid_shaped b ->
  (enough (length (parts a) + shaped_size b) <= fuel)%nat ->
  exists g, mixed_and fuel shape a b = Some (Clips g)
  /\ (forall q, on_geometry g q -> on_geometry a q /\ geometry_contains b q = true)
  /\ (forall q, on_geometry a q -> geometry_locate b q = INTERIOR -> on_geometry g q).
Proof. exact mixed_and_points. Qed.
Print Assumptions c77_intersection_points.

(** C78: a point is BOUNDARY of a valid polygon or multipolygon if it is on a contour of one of
    its polygons, INTERIOR if it is inside one of the polygons, and EXTERIOR otherwise; so [in]
    tells whether it belongs to one of the polygons. *)
Theorem c78_location_exact : forall g x, valid_shaped g ->
  (geometry_locate g x = INTERIOR <-> inside_some (polygons_of g) x)
  /\ (geometry_locate g x = BOUNDARY <-> boundary_some (polygons_of g) x).
Proof. exact located. Qed.
Print Assumptions c78_location_exact.
Theorem c78_contains_exact : forall g x, valid_shaped g -> (geometry_contains g x = true <-> in_shaped g x).
Proof. exact shaped_contains. Qed.
Print Assumptions c78_contains_exact.
Theorem c78_holes_apart : forall p h k x, valid_polygon p -> In h (holes p) -> In k (holes p) ->
  region_location h x = INTERIOR -> region_location k x <> BOUNDARY.
Proof. exact (fun p h k x V => hole_apart p V h k x). Qed.
Print Assumptions c78_holes_apart.

(** A polyline through a multipolygon of two triangles that leaves it and enters it again. *)
Example c77_example :
  let a := GMultisegment [sg (-5) 1 5 1; sg 5 1 15 1; sg 21 90 21 120] in
  let b := GMultipolygon [lower; upper] in
  linear_input a /\ valid_shaped b
  /\ mixed_and 3000 (fun _ _ l => (length l / 2)%nat) a b = Some (Clips (GMultisegment [sg 0 1 5 1; sg 5 1 9 1; sg 21 100 21 109]))
  /\ mixed_and 3000 (fun _ _ l => (length l / 2)%nat) b a = Some (Clips (GMultisegment [sg 0 1 5 1; sg 5 1 9 1; sg 21 100 21 109])).
Proof.
  cbv zeta. split; [split; [cbn; lia|apply non_crossing_literal; vm_compute; reflexivity]|]. split; [apply triangles_valid|].
  split; vm_compute; reflexivity.
Qed.
Example c77_polygon_example :
  let a := GContour [pt 1 1; pt 20 1; pt 20 20; pt 1 20] in
  linear_input a /\ valid_shaped (GPolygon lower)
  /\ mixed_and 3000 (fun _ _ l => (length l / 2)%nat) a (GPolygon lower) = Some (Clips (GMultisegment [sg 1 1 9 1; sg 1 1 1 9]))
  /\ mixed_and 3000 (fun _ _ l => (length l / 2)%nat) (GPolygon lower) (GSegment (sg 2 2 20 20)) = Some (Clips (GSegment (sg 2 2 5 5)))
  /\ mixed_and 3000 (fun _ _ l => (length l / 2)%nat) (GSegment (sg 2 0 20 0)) (GPolygon lower) = Some (Clips (GSegment (sg 2 0 10 0)))
  /\ mixed_and 3000 (fun _ _ l => (length l / 2)%nat) (GSegment (sg 10 0 20 0)) (GPolygon lower) = Some (Clips GEmpty).
Proof.
  cbv zeta. split; [split; [cbn; lia|apply non_crossing_literal; vm_compute; reflexivity]|].
  split; [destruct triangles_valid as [[_ V] _]; pose proof (vm_each _ V) as F; inversion F; auto|]. repeat split; vm_compute; reflexivity.
Qed.
Example c78_example : valid_shaped (GMultipolygon [lower; upper])
  /\ map (geometry_locate (GMultipolygon [lower; upper])) [pt 1 1; pt 5 5; pt 21 100; pt 21 101; pt 15 50] = [INTERIOR; BOUNDARY; BOUNDARY; INTERIOR; EXTERIOR].
Proof. split; [apply triangles_valid|vm_compute; reflexivity]. Qed.
