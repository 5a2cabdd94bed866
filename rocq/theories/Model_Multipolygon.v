(** Model of the set operations with multipolygons: the drivers of rene/_clipping/intersection.py,
    union.py, difference.py and symmetric_difference.py over the sweep of Model_Shaped.

    A multipolygon is given by the list of its polygons.  Lists of the indices of polygons are
    modelled by the lists of the polygons with these indices. *)
From Coq Require Import QArith Qcanon Bool List Arith.
From Verif Require Import QcTac Model_Base Model_Box Model_Utils Model_Geometry Model_Contour Model_Linear
  Model_Mixed Model_Shaped.
Import ListNotations.

(** The box of a polygon, and of a multipolygon. *)
Definition polygon_box (p : polygon) : box := bounding_box (GPolygon p).
Definition multipolygon_box (l : list polygon) : box := bounding_box (GMultipolygon l).

(** rene/_utils.py:371-376 [to_boxes_have_common_area] followed by 165-170
    [flags_to_false_indices], [flags_to_true_indices] and indexing, or 387-396
    [to_boxes_ids_with_common_area]. *)
Definition sharing_area (b : box) (l : list polygon) : list polygon :=
  filter (fun p => do_boxes_have_common_area (polygon_box p) b) l.
Definition not_sharing_area (b : box) (l : list polygon) : list polygon :=
  filter (fun p => negb (do_boxes_have_common_area (polygon_box p) b)) l.
(** rene/_utils.py:379-384 [to_boxes_have_common_continuum], in the same way. *)
Definition sharing_continuum (b : box) (l : list polygon) : list polygon :=
  filter (fun p => do_boxes_have_common_continuum (polygon_box p) b) l.
Definition not_sharing_continuum (b : box) (l : list polygon) : list polygon :=
  filter (fun p => negb (do_boxes_have_common_continuum (polygon_box p) b)) l.

(** The [min] and [max] over the boxes of polygons. *)
Definition least_x (l : list polygon) : Qc := min_of (map (fun p => min_x (polygon_box p)) l).
Definition greatest_x (l : list polygon) : Qc := max_of (map (fun p => max_x (polygon_box p)) l).
(** The segments of polygons, one after another. *)
Definition polygons_segments (l : list polygon) : list segment :=
  flat_map polygon_to_correctly_oriented_segments l.

(** ** rene/_clipping/intersection.py *)

(** Lines 67-166 [intersect_multipolygon_with_multipolygon]. *)
Definition intersect_multipolygon_with_multipolygon (fuel : nat) (shape : tree_shape)
  (first second : list polygon) : clip_outcome :=
  let first_box := multipolygon_box first in
  let second_box := multipolygon_box second in
  if do_boxes_have_no_common_area first_box second_box then Clips GEmpty
  else
    match sharing_area second_box first, sharing_area first_box second with
    | [], _ | _, [] => Clips GEmpty
    | first_common, second_common =>
        let max_min_x := q_max (least_x first_common) (least_x second_common) in
        let min_max_x := q_min (greatest_x first_common) (greatest_x second_common) in
        clip_polygons shaped_intersection collect_maybe_empty_polygons fuel shape
          (Some min_max_x)
          (reaching max_min_x min_max_x (polygons_segments first_common))
          (reaching max_min_x min_max_x (polygons_segments second_common))
    end.

(** Lines 269-350 [intersect_multipolygon_with_polygon]. *)
Definition intersect_multipolygon_with_polygon (fuel : nat) (shape : tree_shape)
  (first : list polygon) (second : polygon) : clip_outcome :=
  let first_box := multipolygon_box first in
  let second_box := polygon_box second in
  if do_boxes_have_no_common_area first_box second_box then Clips GEmpty
  else
    match sharing_area second_box first with
    | [] => Clips GEmpty
    | first_common =>
        let max_min_x := q_max (least_x first_common) (min_x second_box) in
        let min_max_x := q_min (greatest_x first_common) (max_x second_box) in
        clip_polygons shaped_intersection collect_maybe_empty_polygons fuel shape
          (Some min_max_x)
          (reaching max_min_x min_max_x (polygons_segments first_common))
          (reaching max_min_x min_max_x (polygon_to_correctly_oriented_segments second))
    end.

(** Lines 747-828 [intersect_polygon_with_multipolygon]. *)
Definition intersect_polygon_with_multipolygon (fuel : nat) (shape : tree_shape)
  (first : polygon) (second : list polygon) : clip_outcome :=
  let first_box := polygon_box first in
  let second_box := multipolygon_box second in
  if do_boxes_have_no_common_area first_box second_box then Clips GEmpty
  else
    match sharing_area first_box second with
    | [] => Clips GEmpty
    | second_common =>
        let max_min_x := q_max (min_x first_box) (least_x second_common) in
        let min_max_x := q_min (max_x first_box) (greatest_x second_common) in
        clip_polygons shaped_intersection collect_maybe_empty_polygons fuel shape
          (Some min_max_x)
          (reaching max_min_x min_max_x (polygon_to_correctly_oriented_segments first))
          (reaching max_min_x min_max_x (polygons_segments second_common))
    end.

(** ** rene/_clipping/union.py *)

(** Lines 50-126 [unite_multipolygon_with_multipolygon]. *)
Definition unite_multipolygon_with_multipolygon (fuel : nat) (shape : tree_shape)
  (first second : list polygon) : clip_outcome :=
  let first_box := multipolygon_box first in
  let second_box := multipolygon_box second in
  if do_boxes_have_no_common_continuum first_box second_box
  then clip_of (new_multipolygon (first ++ second))
  else
    match sharing_continuum second_box first, sharing_continuum first_box second with
    | [], _ | _, [] => clip_of (new_multipolygon (first ++ second))
    | first_common, second_common =>
        clip_polygons shaped_union
          (fun polygons => collect_non_empty_polygons
             (polygons ++ not_sharing_continuum second_box first
                       ++ not_sharing_continuum first_box second))
          fuel shape None
          (polygons_segments first_common) (polygons_segments second_common)
    end.

(** Lines 129-179 [unite_multipolygon_with_polygon]. *)
Definition unite_multipolygon_with_polygon (fuel : nat) (shape : tree_shape)
  (first : list polygon) (second : polygon) : clip_outcome :=
  let first_box := multipolygon_box first in
  let second_box := polygon_box second in
  if do_boxes_have_no_common_continuum first_box second_box
  then clip_of (new_multipolygon (first ++ [second]))
  else
    match sharing_continuum second_box first with
    | [] => clip_of (new_multipolygon (first ++ [second]))
    | first_common =>
        clip_polygons shaped_union
          (fun polygons => collect_non_empty_polygons
             (polygons ++ not_sharing_continuum second_box first))
          fuel shape None
          (polygons_segments first_common) (polygon_to_correctly_oriented_segments second)
    end.

(** Lines 364-417 [unite_polygon_with_multipolygon]. *)
Definition unite_polygon_with_multipolygon (fuel : nat) (shape : tree_shape)
  (first : polygon) (second : list polygon) : clip_outcome :=
  let first_box := polygon_box first in
  let second_box := multipolygon_box second in
  if do_boxes_have_no_common_continuum first_box second_box
  then clip_of (new_multipolygon (first :: second))
  else
    match sharing_continuum first_box second with
    | [] => clip_of (new_multipolygon (first :: second))
    | second_common =>
        clip_polygons shaped_union
          (fun polygons => collect_non_empty_polygons
             (polygons ++ not_sharing_continuum first_box second))
          fuel shape None
          (polygon_to_correctly_oriented_segments first) (polygons_segments second_common)
    end.

(** ** rene/_clipping/difference.py *)

(** Lines 69-159 [subtract_multipolygon_from_multipolygon]. *)
Definition subtract_multipolygon_from_multipolygon (fuel : nat) (shape : tree_shape)
  (minuend subtrahend : list polygon) : clip_outcome :=
  let minuend_box := multipolygon_box minuend in
  let subtrahend_box := multipolygon_box subtrahend in
  if do_boxes_have_no_common_area minuend_box subtrahend_box
  then Clips (GMultipolygon minuend)
  else
    match sharing_area subtrahend_box minuend, sharing_area minuend_box subtrahend with
    | [], _ | _, [] => Clips (GMultipolygon minuend)
    | minuend_common, subtrahend_common =>
        let minuend_max_x := greatest_x minuend_common in
        let minuend_min_x := least_x minuend_common in
        clip_polygons shaped_difference
          (fun polygons => collect_maybe_empty_polygons
             (polygons ++ not_sharing_area subtrahend_box minuend))
          fuel shape (Some minuend_max_x)
          (polygons_segments minuend_common)
          (reaching minuend_min_x minuend_max_x (polygons_segments subtrahend_common))
    end.

(** Lines 253-321 [subtract_multipolygon_from_polygon]. *)
Definition subtract_multipolygon_from_polygon (fuel : nat) (shape : tree_shape)
  (minuend : polygon) (subtrahend : list polygon) : clip_outcome :=
  let minuend_box := polygon_box minuend in
  let subtrahend_box := multipolygon_box subtrahend in
  if do_boxes_have_no_common_area minuend_box subtrahend_box
  then Clips (GPolygon minuend)
  else
    match sharing_area minuend_box subtrahend with
    | [] => Clips (GPolygon minuend)
    | subtrahend_common =>
        clip_polygons shaped_difference collect_maybe_empty_polygons fuel shape
          (Some (max_x minuend_box))
          (polygon_to_correctly_oriented_segments minuend)
          (reaching (min_x minuend_box) (max_x minuend_box)
             (polygons_segments subtrahend_common))
    end.

(** Lines 549-625 [subtract_polygon_from_multipolygon]. *)
Definition subtract_polygon_from_multipolygon (fuel : nat) (shape : tree_shape)
  (minuend : list polygon) (subtrahend : polygon) : clip_outcome :=
  let minuend_box := multipolygon_box minuend in
  let subtrahend_box := polygon_box subtrahend in
  if do_boxes_have_no_common_area minuend_box subtrahend_box
  then Clips (GMultipolygon minuend)
  else
    match sharing_area subtrahend_box minuend with
    | [] => Clips (GMultipolygon minuend)
    | minuend_common =>
        let minuend_max_x := greatest_x minuend_common in
        let minuend_min_x := least_x minuend_common in
        clip_polygons shaped_difference
          (fun polygons => collect_maybe_empty_polygons
             (polygons ++ not_sharing_area subtrahend_box minuend))
          fuel shape (Some minuend_max_x)
          (polygons_segments minuend_common)
          (reaching minuend_min_x minuend_max_x
             (polygon_to_correctly_oriented_segments subtrahend))
    end.

(** ** rene/_clipping/symmetric_difference.py *)

(** Lines 218-305 [symmetric_subtract_multipolygon_from_multipolygon]. *)
Definition symmetric_subtract_multipolygon_from_multipolygon (fuel : nat) (shape : tree_shape)
  (minuend subtrahend : list polygon) : clip_outcome :=
  let minuend_box := multipolygon_box minuend in
  let subtrahend_box := multipolygon_box subtrahend in
  if do_boxes_have_no_common_continuum minuend_box subtrahend_box
  then clip_of (new_multipolygon (minuend ++ subtrahend))
  else
    match sharing_continuum subtrahend_box minuend,
          sharing_continuum minuend_box subtrahend with
    | [], _ | _, [] => clip_of (new_multipolygon (minuend ++ subtrahend))
    | minuend_common, subtrahend_common =>
        clip_polygons shaped_symmetric_difference
          (fun polygons => collect_maybe_empty_polygons
             (polygons ++ not_sharing_continuum subtrahend_box minuend
                       ++ not_sharing_continuum minuend_box subtrahend))
          fuel shape None
          (polygons_segments minuend_common) (polygons_segments subtrahend_common)
    end.

(** Lines 90-150 [symmetric_subtract_polygon_from_multipolygon]. *)
Definition symmetric_subtract_polygon_from_multipolygon (fuel : nat) (shape : tree_shape)
  (minuend : list polygon) (subtrahend : polygon) : clip_outcome :=
  let minuend_box := multipolygon_box minuend in
  let subtrahend_box := polygon_box subtrahend in
  if do_boxes_have_no_common_continuum minuend_box subtrahend_box
  then clip_of (new_multipolygon (minuend ++ [subtrahend]))
  else
    match sharing_continuum subtrahend_box minuend with
    | [] => clip_of (new_multipolygon (minuend ++ [subtrahend]))
    | minuend_common =>
        clip_polygons shaped_symmetric_difference
          (fun polygons => collect_maybe_empty_polygons
             (polygons ++ not_sharing_continuum subtrahend_box minuend))
          fuel shape None
          (polygons_segments minuend_common)
          (polygon_to_correctly_oriented_segments subtrahend)
    end.

(** Lines 153-215 [symmetric_subtract_multipolygon_from_polygon]. *)
Definition symmetric_subtract_multipolygon_from_polygon (fuel : nat) (shape : tree_shape)
  (minuend : polygon) (subtrahend : list polygon) : clip_outcome :=
  let minuend_box := polygon_box minuend in
  let subtrahend_box := multipolygon_box subtrahend in
  if do_boxes_have_no_common_continuum minuend_box subtrahend_box
  then clip_of (new_multipolygon (minuend :: subtrahend))
  else
    match sharing_continuum minuend_box subtrahend with
    | [] => clip_of (new_multipolygon (minuend :: subtrahend))
    | subtrahend_common =>
        clip_polygons shaped_symmetric_difference
          (fun polygons => collect_maybe_empty_polygons
             (polygons ++ not_sharing_continuum minuend_box subtrahend))
          fuel shape None
          (polygon_to_correctly_oriented_segments minuend)
          (polygons_segments subtrahend_common)
    end.

(** ** The operators *)

(** The cases of two shaped operands of [__and__], [__or__], [__sub__] and [__xor__]:
    rene/_geometries/base_polygon.py:124-182, 222-254, 285-319, 340-374 and
    base_multipolygon.py:131-195, 225-257, 288-322, 343-377; [None] for other operands. *)
Definition shaped_and (fuel : nat) (shape : tree_shape) (first second : geometry)
  : option clip_outcome :=
  match first, second with
  | GMultipolygon l, GMultipolygon m => Some (intersect_multipolygon_with_multipolygon fuel shape l m)
  | GMultipolygon l, GPolygon p => Some (intersect_multipolygon_with_polygon fuel shape l p)
  | GPolygon p, GMultipolygon m => Some (intersect_polygon_with_multipolygon fuel shape p m)
  | GPolygon p, GPolygon q => Some (intersect_polygon_with_polygon fuel shape p q)
  | _, _ => None
  end.
Definition shaped_or (fuel : nat) (shape : tree_shape) (first second : geometry)
  : option clip_outcome :=
  match first, second with
  | GMultipolygon l, GMultipolygon m => Some (unite_multipolygon_with_multipolygon fuel shape l m)
  | GMultipolygon l, GPolygon p => Some (unite_multipolygon_with_polygon fuel shape l p)
  | GPolygon p, GMultipolygon m => Some (unite_polygon_with_multipolygon fuel shape p m)
  | GPolygon p, GPolygon q => Some (unite_polygon_with_polygon fuel shape p q)
  | _, _ => None
  end.
Definition shaped_sub (fuel : nat) (shape : tree_shape) (first second : geometry)
  : option clip_outcome :=
  match first, second with
  | GMultipolygon l, GMultipolygon m => Some (subtract_multipolygon_from_multipolygon fuel shape l m)
  | GMultipolygon l, GPolygon p => Some (subtract_polygon_from_multipolygon fuel shape l p)
  | GPolygon p, GMultipolygon m => Some (subtract_multipolygon_from_polygon fuel shape p m)
  | GPolygon p, GPolygon q => Some (subtract_polygon_from_polygon fuel shape p q)
  | _, _ => None
  end.
Definition shaped_xor (fuel : nat) (shape : tree_shape) (first second : geometry)
  : option clip_outcome :=
  match first, second with
  | GMultipolygon l, GMultipolygon m =>
      Some (symmetric_subtract_multipolygon_from_multipolygon fuel shape l m)
  | GMultipolygon l, GPolygon p => Some (symmetric_subtract_polygon_from_multipolygon fuel shape l p)
  | GPolygon p, GMultipolygon m => Some (symmetric_subtract_multipolygon_from_polygon fuel shape p m)
  | GPolygon p, GPolygon q => Some (symmetric_subtract_polygon_from_polygon fuel shape p q)
  | _, _ => None
  end.
