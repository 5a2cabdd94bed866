(** The operators [&], [|], [-] and [^] between linear geometries, Empty among them, and [&]
    of a linear and a shaped geometry: which function handles which operands. *)
From Coq Require Import QArith Qcanon Bool List Arith.
From Verif Require Import QcTac Model_Base Model_Geometry Model_Segment Model_Linear Model_MixedClip.
Import ListNotations.

(** [__and__]: rene/_geometries/base_empty.py:31-33, base_segment.py:122-173,
    base_multisegment.py:155-208 and base_contour.py:170-223, the cases of two linear
    operands; [None] for other operands. *)
Definition linear_and (fuel : nat) (shape : tree_shape) (first second : geometry)
  : option clip_outcome :=
  match first, second with
  | GEmpty, (GEmpty | GSegment _ | GMultisegment _ | GContour _) => Some (Clips first)
  | (GSegment _ | GMultisegment _ | GContour _), GEmpty => Some (Clips second)
  | GSegment s, (GMultisegment _ | GContour _) =>
      Some (clip_of (intersect_segment_with_multisegmental s second))
  | GSegment s, GSegment t => Some (Clips (intersect_segment_with_segment s t))
  | (GMultisegment _ | GContour _), (GMultisegment _ | GContour _) =>
      Some (intersect_multisegmental_with_multisegmental fuel shape first second)
  | (GMultisegment _ | GContour _), GSegment t =>
      Some (clip_of (intersect_multisegmental_with_segment first t))
  | _, _ => None
  end.
(** [__or__]: base_empty.py:56-58, base_segment.py:214-242, base_multisegment.py:246-274
    and base_contour.py:281-309, likewise. *)
Definition linear_or (fuel : nat) (shape : tree_shape) (first second : geometry)
  : option clip_outcome :=
  match first, second with
  | GEmpty, (GEmpty | GSegment _ | GMultisegment _ | GContour _) => Some (Clips second)
  | (GSegment _ | GMultisegment _ | GContour _), GEmpty => Some (Clips first)
  | GSegment s, (GMultisegment _ | GContour _) =>
      Some (clip_of (unite_segment_with_multisegmental s second))
  | GSegment s, GSegment t => Some (clip_of (unite_segment_with_segment s t))
  | (GMultisegment _ | GContour _), (GMultisegment _ | GContour _) =>
      Some (unite_multisegmental_with_multisegmental fuel shape first second)
  | (GMultisegment _ | GContour _), GSegment t =>
      Some (clip_of (unite_multisegmental_with_segment first t))
  | _, _ => None
  end.
(** [__sub__]: base_empty.py:69-71, base_segment.py:271-301, base_multisegment.py:308-362
    and base_contour.py:344-398, likewise. *)
Definition linear_sub (fuel : nat) (shape : tree_shape) (first second : geometry)
  : option clip_outcome :=
  match first, second with
  | GEmpty, (GEmpty | GSegment _ | GMultisegment _ | GContour _) => Some (Clips first)
  | (GSegment _ | GMultisegment _ | GContour _), GEmpty => Some (Clips first)
  | GSegment s, (GMultisegment _ | GContour _) =>
      Some (subtract_multisegmental_from_segment fuel shape s second)
  | GSegment s, GSegment t => Some (clip_of (subtract_segment_from_segment s t))
  | (GMultisegment _ | GContour _), (GMultisegment _ | GContour _) =>
      Some (subtract_multisegmental_from_multisegmental fuel shape first second)
  | (GMultisegment _ | GContour _), GSegment t =>
      Some (clip_of (subtract_segment_from_multisegmental first t))
  | _, _ => None
  end.
(** [__xor__]: base_empty.py:82-84, base_segment.py:324-354, base_multisegment.py:385-415
    and base_contour.py:421-451, likewise. *)
Definition linear_xor (fuel : nat) (shape : tree_shape) (first second : geometry)
  : option clip_outcome :=
  match first, second with
  | GEmpty, (GEmpty | GSegment _ | GMultisegment _ | GContour _) => Some (Clips second)
  | (GSegment _ | GMultisegment _ | GContour _), GEmpty => Some (Clips first)
  | GSegment s, (GMultisegment _ | GContour _) =>
      Some (symmetric_subtract_multisegmental_from_segment fuel shape s second)
  | GSegment s, GSegment t => Some (clip_of (symmetric_subtract_segment_from_segment s t))
  | (GMultisegment _ | GContour _), (GMultisegment _ | GContour _) =>
      Some (symmetric_subtract_multisegmental_from_multisegmental fuel shape first second)
  | (GMultisegment _ | GContour _), GSegment t =>
      Some (symmetric_subtract_segment_from_multisegmental fuel shape first t)
  | _, _ => None
  end.
(** [__and__] of a linear geometry, Empty among them, and a polygon or a multipolygon, in
    either order: base_empty.py:31-33, base_polygon.py:124-182, base_multipolygon.py:131-189
    and as in [mixed_and]. *)
Definition linear_and_shaped (fuel : nat) (shape : tree_shape) (first second : geometry)
  : option clip_outcome :=
  match first, second with
  | GEmpty, (GPolygon _ | GMultipolygon _) => Some (Clips first)
  | (GPolygon _ | GMultipolygon _), GEmpty => Some (Clips second)
  | _, _ => mixed_and fuel shape first second
  end.
