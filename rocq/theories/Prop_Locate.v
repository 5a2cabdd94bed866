(** C22-C27: point location in polylines, contours, polygons and multipolygons. *)
From Coq Require Import QArith Qcanon Bool List ZArith Lia Permutation.
From Verif Require Import QcTac Model_Base Model_Box Model_Geometry Model_Utils Model_Contour
  Spec_Base Spec_Segment Spec_Bounds Spec_Contour Spec_Literals Proof_Contour3 Proof_Locate3 Proof_Locate4.
Import ListNotations.
Local Open Scope Qc_scope.

(** ** C22 *)
Theorem c22_polyline_location : forall g p, linear_geometry g ->
  (geometry_locate g p = BOUNDARY <-> on_geometry g p)
  /\ (geometry_locate g p = EXTERIOR <-> ~ on_geometry g p)
  /\ (geometry_contains g p = true <-> on_geometry g p).
Proof. exact polyline_located. Qed.
Print Assumptions c22_polyline_location.
Example c22_example :
  linear_geometry (GContour [pt 0 0; pt 4 0; pt 0 4])
  /\ geometry_locate (GContour [pt 0 0; pt 4 0; pt 0 4]) (pt 2 2) = BOUNDARY
  /\ geometry_locate (GContour [pt 0 0; pt 4 0; pt 0 4]) (pt 1 1) = EXTERIOR
  /\ geometry_contains (GMultisegment [sg 0 0 1 1; sg 2 2 4 4]) (pt 3 3) = true.
Proof. vm_compute; auto. Qed.

(** ** C23 *)
Theorem c23_region_boundary : forall vs p, region_location vs p = BOUNDARY <-> on_contour vs p.
Proof. exact api_boundary. Qed.
Print Assumptions c23_region_boundary.
Example c23_example :
  region_location [pt 0 0; pt 4 0; pt 4 4; pt 2 1; pt 0 4] (pt 3 0) = BOUNDARY
  /\ region_location [pt 0 0; pt 4 0; pt 4 4; pt 2 1; pt 0 4] (pt 2 3) = EXTERIOR
  /\ region_location [pt 0 0; pt 4 0; pt 4 4; pt 2 1; pt 0 4] (pt 1 1) = INTERIOR.
Proof. vm_compute; auto. Qed.

(** ** C24 *)
Theorem c24_region_representation : forall vs vs' p, same_cycle vs vs' ->
  region_location vs p = region_location vs' p.
Proof. exact api_representation. Qed.
Print Assumptions c24_region_representation.
Example c24_example : same_cycle [pt 0 0; pt 4 0; pt 4 4; pt 0 4] [pt 4 0; pt 0 0; pt 0 4; pt 4 4].
Proof. right. exists [pt 0 4; pt 4 4], [pt 4 0; pt 0 0]. auto. Qed.

(** ** C25 *)
Theorem c25_constant_off_the_border : forall vs p q,
  (forall x, on_contour vs x -> ~ on_seg (Seg p q) x) -> region_location vs p = region_location vs q.
Proof. exact api_not_crossing. Qed.
Print Assumptions c25_constant_off_the_border.
Theorem c25_exterior_outside_box : forall vs p,
  ~ in_box (bounding_box (GContour vs)) p -> region_location vs p = EXTERIOR.
Proof. exact api_outside_box. Qed.
Print Assumptions c25_exterior_outside_box.
(** [n] is the number of edges met by the segment from [p] to a far away [q];
    the segment goes through no vertex, so it meets every one of them in its
    inside. *)
Theorem c25_crossing_parity : forall vs p q n,
  ~ on_contour vs p -> ~ in_box (bounding_box (GContour vs)) q ->
  (forall v, In v vs -> ~ on_seg (Seg p q) v) ->
  counts (fun e => meet e (Seg p q)) (edges vs) n ->
  region_location vs p = if Nat.odd n then INTERIOR else EXTERIOR.
Proof. exact api_parity. Qed.
Print Assumptions c25_crossing_parity.
(** There is such a segment for every point off the border. *)
Theorem c25_crossing_parity_applies : forall vs p, ~ on_contour vs p -> exists q n,
  ~ in_box (bounding_box (GContour vs)) q /\ (forall v, In v vs -> ~ on_seg (Seg p q) v)
  /\ counts (fun e => meet e (Seg p q)) (edges vs) n.
Proof. exact far_ray. Qed.
Print Assumptions c25_crossing_parity_applies.
Example c25_example : ~ on_contour [pt 0 0; pt 4 0; pt 4 4; pt 2 1; pt 0 4] (pt 1 1)
  /\ ~ in_box (bounding_box (GContour [pt 0 0; pt 4 0; pt 4 4; pt 2 1; pt 0 4])) (pt 9 2).
Proof. split; [rewrite <- api_boundary; vm_compute; discriminate|]. intros [[_ H] _]. apply H. reflexivity. Qed.

(** ** C26 *)
Theorem c26_triangle : forall a b c p, area2 a b c <> 0 ->
  (region_location [a; b; c] p = INTERIOR
   <-> (0 < area2 a b p /\ 0 < area2 b c p /\ 0 < area2 c a p)
       \/ (area2 a b p < 0 /\ area2 b c p < 0 /\ area2 c a p < 0)).
Proof. exact api_triangle. Qed.
Print Assumptions c26_triangle.
(** Strictly convex borders, in any representation. *)
Theorem c26_convex : forall vs vs' p,
  (3 <= length vs)%nat -> strictly_convex_ccw vs -> same_cycle vs vs' ->
  (region_location vs' p = INTERIOR
   <-> forall e, In e (edges vs) -> 0 < area2 (seg_start e) (seg_end e) p).
Proof. exact api_convex. Qed.
Print Assumptions c26_convex.
Example c26_example : strictly_convex_ccw [pt 0 0; pt 4 0; pt 4 4; pt 0 4]
  /\ region_location [pt 0 0; pt 0 4; pt 4 4; pt 4 0] (pt 1 3) = INTERIOR
  /\ region_location [pt 0 0; pt 0 4; pt 4 4; pt 4 0] (pt 5 3) = EXTERIOR
  /\ area2 (pt 0 0) (pt 4 0) (pt 0 4) <> 0.
Proof. split; [exact convex_square|]. split; [vm_compute; auto|]. split; [vm_compute; auto|discriminate]. Qed.

(** ** C27 *)
Theorem c27_polygon : forall b hs p, let g := GPolygon (Poly b hs) in
  (geometry_locate g p = INTERIOR <->
     region_location b p = INTERIOR /\ forall h, In h hs -> region_location h p = EXTERIOR)
  /\ (region_location b p <> INTERIOR -> geometry_locate g p = region_location b p)
  /\ (forall l1 h l2, hs = l1 ++ h :: l2 -> region_location b p = INTERIOR ->
       (forall k, In k l1 -> region_location k p = EXTERIOR) ->
       (region_location h p = INTERIOR -> geometry_locate g p = EXTERIOR)
       /\ (region_location h p = BOUNDARY -> geometry_locate g p = BOUNDARY)).
Proof. exact api_polygon. Qed.
Print Assumptions c27_polygon.
(** For holes no one of which has a border point inside another. *)
Theorem c27_polygon_sets : forall b hs p, let g := GPolygon (Poly b hs) in
  (forall h k, In h hs -> In k hs -> region_location h p = INTERIOR -> region_location k p <> BOUNDARY) ->
  (geometry_locate g p = EXTERIOR <-> region_location b p = EXTERIOR
     \/ region_location b p = INTERIOR /\ exists h, In h hs /\ region_location h p = INTERIOR)
  /\ (geometry_locate g p = BOUNDARY <-> region_location b p = BOUNDARY
     \/ region_location b p = INTERIOR /\ exists h, In h hs /\ region_location h p = BOUNDARY).
Proof. exact api_polygon_sets. Qed.
Print Assumptions c27_polygon_sets.
Theorem c27_multipolygon : forall l p, let g := GMultipolygon l in
  ((forall q, In q l -> geometry_locate (GPolygon q) p = EXTERIOR) -> geometry_locate g p = EXTERIOR)
  /\ (forall l1 q l2, l = l1 ++ q :: l2 -> (forall r, In r l1 -> geometry_locate (GPolygon r) p = EXTERIOR) ->
      geometry_locate (GPolygon q) p <> EXTERIOR -> geometry_locate g p = geometry_locate (GPolygon q) p).
Proof. exact api_multipolygon. Qed.
Print Assumptions c27_multipolygon.
Theorem c27_contains : forall g p, geometry_contains g p = true <-> geometry_locate g p <> EXTERIOR.
Proof. exact api_contains. Qed.
Print Assumptions c27_contains.
Theorem c27_multipolygon_contains : forall l p,
  geometry_contains (GMultipolygon l) p = true <-> exists q, In q l /\ geometry_contains (GPolygon q) p = true.
Proof. exact multipolygon_contains. Qed.
Print Assumptions c27_multipolygon_contains.
Example c27_example :
  let g := Poly [pt 0 0; pt 9 0; pt 9 9; pt 0 9] [[pt 1 1; pt 4 1; pt 1 4]; [pt 6 6; pt 8 6; pt 8 8]] in
  map (geometry_locate (GPolygon g)) [pt 2 2; pt 7 6; pt 5 5; pt 9 1; pt 10 1]
  = [EXTERIOR; BOUNDARY; INTERIOR; BOUNDARY; EXTERIOR]
  /\ geometry_locate (GMultipolygon [g; Poly [pt 2 1; pt 3 2; pt 1 3] []]) (pt 2 2) = INTERIOR.
Proof. vm_compute; auto. Qed.
