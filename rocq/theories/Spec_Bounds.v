(** Points of any geometry, for statements about bounding boxes: the points of
    its segments and, for shaped geometries, the points of the outlines
    (borders and holes). *)
From Coq Require Import QArith Qcanon List.
From Verif Require Import QcTac Model_Base Model_Box Model_Geometry
  Spec_Base Spec_Segment.
Import ListNotations.

Definition vertices_of (g : geometry) : list point :=
  match g with
  | GEmpty => []
  | GSegment s => [seg_start s; seg_end s]
  | GMultisegment l => flat_map (fun s => [seg_start s; seg_end s]) l
  | GContour vs => vs
  | GPolygon p => border p
  | GMultipolygon ps => flat_map border ps
  end.
(** A geometry the constructors accept ... *)
Definition constructed (g : geometry) : Prop :=
  match g with
  | GEmpty => False
  | GSegment _ => True
  | GMultisegment l => 2 <= length l
  | GContour vs => 3 <= length vs
  | GPolygon p => 3 <= length (border p)
  | GMultipolygon ps => 2 <= length ps /\ Forall (fun p => 3 <= length (border p)) ps
  end%nat.
(** ... a multisegment or a contour the constructors accept ... *)
Definition multisegmental (g : geometry) : Prop :=
  match g with GMultisegment _ | GContour _ => constructed g | _ => False end.
(** ... and the points on its outline. *)
Definition on_outline (g : geometry) (p : point) : Prop :=
  match g with
  | GEmpty => False
  | GPolygon q => on_segs (edges (border q)) p
  | GMultipolygon qs => exists q, In q qs /\ on_segs (edges (border q)) p
  | _ => on_segs (parts g) p
  end.
