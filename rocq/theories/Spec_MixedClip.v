(** The meaning of the intersection of a linear and a shaped geometry, in terms of points. *)
From Coq Require Import QArith Qcanon List.
From Verif Require Import QcTac Model_Base Model_Geometry Model_Contour Spec_Base Spec_Segment Spec_Clip Spec_Bounds
  Spec_Shaped Spec_Multipolygon Spec_RelateShaped.
Import ListNotations.

(** A segment with two endpoints, or a multisegment or a contour the constructors accept the
    segments of which do not cross or overlap one another. *)
Definition linear_input (g : geometry) : Prop :=
  match g with
  | GSegment s => proper_seg s
  | GMultisegment _ | GContour _ => multisegmental g /\ non_crossing (parts g)
  | _ => False
  end.
(** The points of a polygon or a multipolygon, with their outlines. *)
Definition in_some (l : list polygon) (x : point) : Prop := exists p, In p l /\ region p x.
Definition in_shaped (g : geometry) (x : point) : Prop := in_some (polygons_of g) x.
(** [q] is on a piece of positive length of one of the segments that lies within the polygons. *)
Definition on_piece_within (segments : list segment) (l : list polygon) (q : point) : Prop :=
  exists s t, In s segments /\ seg_subset t s /\ proper_seg t /\ on_seg t q
    /\ forall x, on_seg t x -> in_some l x.
(** The same with the answers of [in]. *)
Definition on_contained_piece (a b : geometry) (q : point) : Prop :=
  exists s t, In s (parts a) /\ seg_subset t s /\ proper_seg t /\ on_seg t q
    /\ forall x, on_seg t x -> geometry_contains b x = true.
