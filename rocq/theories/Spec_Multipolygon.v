(** Vocabulary for the set operations on polygons and multipolygons. *)
From Coq Require Import QArith Qcanon List Bool Arith.
From Verif Require Import QcTac Model_Base Model_Geometry Model_Contour Spec_Base Spec_Segment Spec_Clip Spec_Contour Spec_Relate Spec_Shaped.
Import ListNotations.

(** The answer of [locate] of a geometry. *)
Definition inside (g : geometry) (q : point) : Prop := geometry_locate g q = INTERIOR.

(** A valid multipolygon: at least two polygons, each of them valid, edges of all of them have in
    common at most an endpoint of one of them, and no point is inside two of them. *)
Record valid_polygons (l : list polygon) : Prop := {
  vm_each : Forall valid_polygon l;
  vm_edges : non_crossing (outlines (flat_map rings l));
  vm_apart : ForallOrdPairs (fun p p' => forall q, ~ (inside_polygon p q /\ inside_polygon p' q)) l }.
Definition valid_shaped (g : geometry) : Prop :=
  match g with
  | GPolygon p => valid_polygon p
  | GMultipolygon l => (2 <= length l)%nat /\ valid_polygons l
  | _ => False
  end.
(** The number of vertices of a polygon or a multipolygon. *)
Definition shaped_size (g : geometry) : nat := length (concat (geometry_rings g)).
