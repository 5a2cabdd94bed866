(** Model of [relate_to] between polygons and multipolygons:
    rene/_relating/multipolygon.py and rene/_relating/polygon.py over the sweep of
    rene/_relating/shaped.py (Model_RelateShaped).

    A multipolygon is given by the list of its polygons.  Lists of the indices of polygons are
    modelled by the lists of the polygons with these indices. *)
From Coq Require Import QArith Qcanon Bool List Arith.
From Verif Require Import QcTac Model_Base Model_Box Model_Utils Model_Geometry Model_Contour Model_Linear
  Model_Mixed Model_Shaped Model_Multipolygon Model_Relate Model_RelateLinear Model_RelateShaped.
Import ListNotations.

(** rene/_utils.py:411-420 [to_boxes_ids_with_intersection] followed by indexing. *)
Definition intersecting (b : box) (l : list polygon) : list polygon :=
  filter (fun p => negb (box_disjoint_with (polygon_box p) b)) l.
(** The filter by [min_x] of rene/_relating/multipolygon.py:74-78, 83-87, 141-145 and
    rene/_relating/polygon.py:58-62. *)
Definition reached (min_max_x : Qc) (l : list polygon) : list polygon :=
  filter (fun p => negb (qltb min_max_x (min_x (polygon_box p)))) l.
(** The argument of [Operation.from_segments_iterables] in these functions. *)
Definition related_segments (b : box) (l : list polygon) : list segment :=
  flat_map (fun p => polygon_to_segments p b) l.

(** rene/_relating/multipolygon.py:29-97 [relate_to_multipolygon]. *)
Definition multipolygon_relate_to_multipolygon (fuel : nat) (shape : tree_shape)
  (first second : list polygon) : relate_outcome :=
  let first_box := multipolygon_box first in
  let second_box := multipolygon_box second in
  if box_disjoint_with first_box second_box then Relates DISJOINT
  else
    match intersecting second_box first, intersecting first_box second with
    | [], _ | _, [] => Relates DISJOINT
    | first_common, second_common =>
        let min_max_x := q_min (greatest_x first_common) (greatest_x second_common) in
        match reached min_max_x first_common, reached min_max_x second_common with
        | [], _ | _, [] => Relates DISJOINT
        | first_polygons, second_polygons =>
            match clip_shaped (related_segments second_box first_polygons)
                    (related_segments first_box second_polygons) with
            | None => RelateRaises
            | Some s =>
                shaped_to_relation fuel shape s
                  (length first_polygons =? length first)%nat
                  (length second_polygons =? length second)%nat min_max_x
            end
        end
    end.

(** rene/_relating/multipolygon.py:112-160 [relate_to_polygon]; [RelateRaises] stands for the
    failure of the assertion as well. *)
Definition multipolygon_relate_to_polygon (fuel : nat) (shape : tree_shape)
  (first : list polygon) (second : polygon) : relate_outcome :=
  let first_box := multipolygon_box first in
  let second_box := polygon_box second in
  if box_disjoint_with first_box second_box then Relates DISJOINT
  else
    match intersecting second_box first with
    | [] => Relates DISJOINT
    | first_common =>
        let min_max_x := q_min (max_x second_box) (greatest_x first_common) in
        match reached min_max_x first_common with
        | [] => RelateRaises
        | first_polygons =>
            match clip_shaped (related_segments second_box first_polygons)
                    (polygon_to_segments second first_box) with
            | None => RelateRaises
            | Some s =>
                shaped_to_relation fuel shape s
                  (length first_polygons =? length first)%nat true min_max_x
            end
        end
    end.

(** rene/_relating/polygon.py:29-75 [relate_to_multipolygon]; [RelateRaises] stands for the
    failure of the assertion as well. *)
Definition polygon_relate_to_multipolygon (fuel : nat) (shape : tree_shape)
  (first : polygon) (second : list polygon) : relate_outcome :=
  let first_box := polygon_box first in
  let second_box := multipolygon_box second in
  if box_disjoint_with first_box second_box then Relates DISJOINT
  else
    match intersecting first_box second with
    | [] => Relates DISJOINT
    | second_common =>
        let min_max_x := q_min (max_x first_box) (greatest_x second_common) in
        match reached min_max_x second_common with
        | [] => RelateRaises
        | second_polygons =>
            match clip_shaped (polygon_to_segments first second_box)
                    (related_segments first_box second_polygons) with
            | None => RelateRaises
            | Some s =>
                shaped_to_relation fuel shape s true
                  (length second_polygons =? length second)%nat min_max_x
            end
        end
    end.

(** [relate_to] of polygons and multipolygons with one another
    (rene/_geometries/base_polygon.py:76-87 and base_multipolygon.py:80-93); the other operands
    are modelled elsewhere and stand for [None] here. *)
Definition shaped_relate_to (fuel : nat) (shape : tree_shape) (self other : geometry)
  : option relate_outcome :=
  match self, other with
  | GPolygon p, GPolygon p' => Some (polygon_relate_to_polygon fuel shape p p')
  | GPolygon p, GMultipolygon l => Some (polygon_relate_to_multipolygon fuel shape p l)
  | GMultipolygon l, GPolygon p => Some (multipolygon_relate_to_polygon fuel shape l p)
  | GMultipolygon l, GMultipolygon l' => Some (multipolygon_relate_to_multipolygon fuel shape l l')
  | _, _ => None
  end.
