(** Model of the differences of a multisegment or a contour and a polygon or a multipolygon: the
    drivers of rene/_clipping/difference.py over the sweep of rene/_clipping/mixed.py
    (Model_Mixed, which has the one for a polygon).

    Lists of indices are modelled by the lists of the elements with these indices. *)
From Coq Require Import QArith Qcanon Bool List Arith.
From Verif Require Import QcTac Model_Base Model_Box Model_Utils Model_Geometry Model_Contour Model_Linear
  Model_Mixed Model_Multipolygon.
Import ListNotations.

(** rene/_clipping/difference.py:162-250 [subtract_multipolygon_from_multisegmental]. *)
Definition subtract_multipolygon_from_multisegmental (fuel : nat) (shape : tree_shape)
  (minuend : geometry) (subtrahend : list polygon) : clip_outcome :=
  let minuend_box := bounding_box minuend in
  let subtrahend_box := multipolygon_box subtrahend in
  if do_boxes_have_no_common_area minuend_box subtrahend_box then Clips minuend
  else
    match with_common_continuum subtrahend_box (segments_of minuend),
          sharing_continuum minuend_box subtrahend with
    | [], _ | _, [] => Clips minuend
    | minuend_common, subtrahend_common =>
        let minuend_max_x := max_x_of minuend_common in
        let minuend_min_x := min_x_of minuend_common in
        match sweep_mixed linear_shaped_difference true shape fuel true minuend_max_x
                (clip_mixed minuend_common
                   (reaching minuend_min_x minuend_max_x (polygons_segments subtrahend_common))) [] with
        | SweepsMixed m events =>
            clip_of (collect_maybe_empty_segments
              (reduce_mixed m events
               ++ without_common_continuum subtrahend_box (segments_of minuend)))
        | MixedFails => Raises
        | MixedRunsOut => RunsOut
        end
    end.

(** The cases of a linear minuend and a shaped subtrahend of [__sub__]: rene/_geometries/
    base_multisegment.py:308-362 and base_contour.py:344-398.  [None] for other operands: in
    particular base_segment.py:271-301 has no shaped subtrahends (see C47), so that
    difference.py:324-390 and 761-811 are never called. *)
Definition mixed_sub (fuel : nat) (shape : tree_shape) (minuend subtrahend : geometry)
  : option clip_outcome :=
  match minuend, subtrahend with
  | (GMultisegment _ | GContour _), GPolygon p =>
      Some (subtract_polygon_from_multisegmental fuel shape minuend p)
  | (GMultisegment _ | GContour _), GMultipolygon l =>
      Some (subtract_multipolygon_from_multisegmental fuel shape minuend l)
  | _, _ => None
  end.
