(** Vocabulary for the set operations on polygons, in terms of points only. *)
From Coq Require Import QArith Qcanon List Bool Arith.
From Verif Require Import QcTac Model_Base Model_Geometry Model_Contour Spec_Base Spec_Segment Spec_Clip Spec_Contour Spec_Relate.
Import ListNotations.

(** The border and the holes of a polygon, and their edges. *)
Definition rings (p : polygon) : list (list point) := border p :: holes p.
Definition outlines (l : list (list point)) : list segment := flat_map edges l.
(** The answers of [Polygon(Contour(vs), []).locate] and of [Polygon.locate]. *)
Definition inside_ring (vs : list point) (q : point) : Prop := region_location vs q = INTERIOR.
Definition inside_polygon (p : polygon) (q : point) : Prop := geometry_locate (GPolygon p) q = INTERIOR.
Definition off_outlines (l : list (list point)) (q : point) : Prop := ~ on_segs (outlines l) q.

(** A valid polygon: every contour is simple, edges of all contours have in common at most an
    endpoint of one of them, and away from the outlines what is inside a hole is inside the border
    and in no other hole. *)
Record valid_polygon (p : polygon) : Prop := {
  vp_simple : Forall simple_contour (rings p);
  vp_edges : non_crossing (outlines (rings p));
  vp_within : forall q h, off_outlines (rings p) q -> In h (holes p) -> inside_ring h q -> inside_ring (border p) q;
  vp_apart : forall q, off_outlines (rings p) q ->
    ForallOrdPairs (fun h h' => ~ (inside_ring h q /\ inside_ring h' q)) (holes p) }.

(** The contours of the polygons that a geometry is made of. *)
Definition geometry_rings (g : geometry) : list (list point) :=
  match g with
  | GPolygon p => rings p
  | GMultipolygon l => flat_map rings l
  | _ => []
  end.
(** Inside by the even-odd rule: [q] is inside an odd number of the contours. *)
Definition inside_odd (l : list (list point)) (q : point) : Prop :=
  exists k, counts (fun vs => inside_ring vs q) l k /\ Nat.odd k = true.

(** The number of vertices of a polygon. *)
Definition vertices_count (p : polygon) : nat := length (concat (rings p)).
(** Empty, a polygon, or a multipolygon of at least two polygons. *)
Definition shaped (g : geometry) : Prop :=
  match g with
  | GEmpty | GPolygon _ => True
  | GMultipolygon l => (2 <= length l)%nat
  | _ => False
  end.
