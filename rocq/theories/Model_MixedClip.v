(** Model of the intersections of a segment, a multisegment or a contour with a polygon or a
    multipolygon: the drivers of rene/_clipping/intersection.py over the sweep of
    rene/_clipping/mixed.py (Model_Mixed).

    Lists of indices are modelled by the lists of the elements with these indices.  A
    multisegment or a contour is given as the geometry, a multipolygon by the list of its
    polygons. *)
From Coq Require Import QArith Qcanon Bool List Arith.
From Verif Require Import QcTac Model_Base Model_Box Model_Utils Model_Geometry Model_Contour Model_Linear
  Model_Mixed Model_Multipolygon.
Import ListNotations.

(** The end of every function of this file: the loop over the events with a limit of the
    abscissa, left events only (as in intersection.py:253-259), and
    [collect_maybe_empty_segments] of [reduce_events] (260-265). *)
Definition collect_mixed (outcome : mixed_outcome) : clip_outcome :=
  match outcome with
  | SweepsMixed m events => clip_of (collect_maybe_empty_segments (reduce_mixed m events))
  | MixedFails => Raises
  | MixedRunsOut => RunsOut
  end.

(** rene/_clipping/intersection.py:169-266 [intersect_multipolygon_with_multisegmental]. *)
Definition intersect_multipolygon_with_multisegmental (fuel : nat) (shape : tree_shape)
  (first : list polygon) (second : geometry) : clip_outcome :=
  let first_box := multipolygon_box first in
  let second_box := bounding_box second in
  if do_boxes_have_no_common_continuum first_box second_box then Clips GEmpty
  else
    match sharing_continuum second_box first, with_common_continuum first_box (segments_of second) with
    | [], _ | _, [] => Clips GEmpty
    | first_common, second_common =>
        let max_min_x := q_max (least_x first_common) (min_x_of second_common) in
        let min_max_x := q_min (greatest_x first_common) (max_x_of second_common) in
        collect_mixed
          (sweep_mixed shaped_linear_intersection true shape fuel false min_max_x
             (clip_mixed (reaching max_min_x min_max_x (polygons_segments first_common))
                         (reaching max_min_x min_max_x second_common)) [])
    end.

(** rene/_clipping/intersection.py:353-426 [intersect_multipolygon_with_segment]. *)
Definition intersect_multipolygon_with_segment (fuel : nat) (shape : tree_shape)
  (first : list polygon) (second : segment) : clip_outcome :=
  let first_box := multipolygon_box first in
  let second_box := segment_bounding_box second in
  if do_boxes_have_no_common_continuum first_box second_box then Clips GEmpty
  else
    match sharing_continuum second_box first with
    | [] => Clips GEmpty
    | first_common =>
        let max_min_x := q_max (least_x first_common) (min_x second_box) in
        let min_max_x := q_min (greatest_x first_common) (max_x second_box) in
        collect_mixed
          (sweep_mixed shaped_linear_intersection true shape fuel false min_max_x
             (clip_mixed (reaching max_min_x min_max_x (polygons_segments first_common)) [second]) [])
    end.

(** rene/_clipping/intersection.py:429-526 [intersect_multisegmental_with_multipolygon]. *)
Definition intersect_multisegmental_with_multipolygon (fuel : nat) (shape : tree_shape)
  (first : geometry) (second : list polygon) : clip_outcome :=
  let first_box := bounding_box first in
  let second_box := multipolygon_box second in
  if do_boxes_have_no_common_continuum first_box second_box then Clips GEmpty
  else
    match with_common_continuum second_box (segments_of first), sharing_continuum first_box second with
    | [], _ | _, [] => Clips GEmpty
    | first_common, second_common =>
        let max_min_x := q_max (min_x_of first_common) (least_x second_common) in
        let min_max_x := q_min (max_x_of first_common) (greatest_x second_common) in
        collect_mixed
          (sweep_mixed linear_shaped_intersection true shape fuel false min_max_x
             (clip_mixed (reaching max_min_x min_max_x first_common)
                         (reaching max_min_x min_max_x (polygons_segments second_common))) [])
    end.

(** rene/_clipping/intersection.py:626-705 [intersect_multisegmental_with_polygon]. *)
Definition intersect_multisegmental_with_polygon (fuel : nat) (shape : tree_shape)
  (first : geometry) (second : polygon) : clip_outcome :=
  let first_box := bounding_box first in
  let second_box := polygon_box second in
  if do_boxes_have_no_common_continuum first_box second_box then Clips GEmpty
  else
    match with_common_continuum second_box (segments_of first) with
    | [] => Clips GEmpty
    | first_common =>
        let max_min_x := q_max (min_x_of first_common) (min_x second_box) in
        let min_max_x := q_min (max_x_of first_common) (max_x second_box) in
        collect_mixed
          (sweep_mixed linear_shaped_intersection true shape fuel false min_max_x
             (clip_mixed (reaching max_min_x min_max_x first_common)
                         (reaching max_min_x min_max_x
                            (polygon_to_correctly_oriented_segments second))) [])
    end.

(** rene/_clipping/intersection.py:831-910 [intersect_polygon_with_multisegmental]. *)
Definition intersect_polygon_with_multisegmental (fuel : nat) (shape : tree_shape)
  (first : polygon) (second : geometry) : clip_outcome :=
  let first_box := polygon_box first in
  let second_box := bounding_box second in
  if do_boxes_have_no_common_continuum first_box second_box then Clips GEmpty
  else
    match with_common_continuum first_box (segments_of second) with
    | [] => Clips GEmpty
    | second_common =>
        let max_min_x := q_max (min_x first_box) (min_x_of second_common) in
        let min_max_x := q_min (max_x first_box) (max_x_of second_common) in
        collect_mixed
          (sweep_mixed shaped_linear_intersection true shape fuel false min_max_x
             (clip_mixed (reaching max_min_x min_max_x
                            (polygon_to_correctly_oriented_segments first))
                         (reaching max_min_x min_max_x second_common)) [])
    end.

(** rene/_clipping/intersection.py:1054-1127 [intersect_segment_with_multipolygon]. *)
Definition intersect_segment_with_multipolygon (fuel : nat) (shape : tree_shape)
  (first : segment) (second : list polygon) : clip_outcome :=
  let first_box := segment_bounding_box first in
  let second_box := multipolygon_box second in
  if do_boxes_have_no_common_continuum first_box second_box then Clips GEmpty
  else
    match sharing_continuum first_box second with
    | [] => Clips GEmpty
    | second_common =>
        let max_min_x := q_max (min_x first_box) (least_x second_common) in
        let min_max_x := q_min (max_x first_box) (greatest_x second_common) in
        collect_mixed
          (sweep_mixed linear_shaped_intersection true shape fuel false min_max_x
             (clip_mixed [first]
                (reaching max_min_x min_max_x (polygons_segments second_common))) [])
    end.

(** The cases of a linear and a shaped operand of [__and__]: rene/_geometries/
    base_segment.py:122-173, base_multisegment.py:155-208, base_contour.py:170-223,
    base_polygon.py:124-182 and base_multipolygon.py:131-189; [None] for other operands. *)
Definition mixed_and (fuel : nat) (shape : tree_shape) (first second : geometry)
  : option clip_outcome :=
  match first, second with
  | GSegment s, GPolygon p => Some (intersect_segment_with_polygon fuel shape s p)
  | GSegment s, GMultipolygon l => Some (intersect_segment_with_multipolygon fuel shape s l)
  | (GMultisegment _ | GContour _), GPolygon p =>
      Some (intersect_multisegmental_with_polygon fuel shape first p)
  | (GMultisegment _ | GContour _), GMultipolygon l =>
      Some (intersect_multisegmental_with_multipolygon fuel shape first l)
  | GPolygon p, GSegment s => Some (intersect_polygon_with_segment fuel shape p s)
  | GMultipolygon l, GSegment s => Some (intersect_multipolygon_with_segment fuel shape l s)
  | GPolygon p, (GMultisegment _ | GContour _) =>
      Some (intersect_polygon_with_multisegmental fuel shape p second)
  | GMultipolygon l, (GMultisegment _ | GContour _) =>
      Some (intersect_multipolygon_with_multisegmental fuel shape l second)
  | _, _ => None
  end.
