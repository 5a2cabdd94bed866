(** Model of [relate_to] between a linear geometry and a polygon or a multipolygon:
    rene/_relating/polygon.py, multipolygon.py, multisegmental.py and segment.py over the sweep
    of rene/_relating/mixed.py (Model_Mixed).

    Lists of indices are modelled by the lists of the elements with these indices.  In
    Model_Mixed the relation is [None] when an assertion fails or the fuel is not enough; here
    both stand for [RelateRunsOut], and [RelateRaises] is kept for what the functions of these
    files raise themselves. *)
From Coq Require Import QArith Qcanon Bool List Arith.
From Verif Require Import QcTac Model_Base Model_Box Model_Utils Model_Geometry Model_Contour Model_Segment
  Model_Linear Model_Relate Model_RelateLinear Model_Mixed Model_Multipolygon Model_RelateMultipolygon.
Import ListNotations.

Definition outcome_of_mixed (r : option relation) : relate_outcome :=
  match r with Some r => Relates r | None => RelateRunsOut end.

(** The answer for the only segment of several that meets the other geometry
    (rene/_relating/multipolygon.py:236-247, polygon.py:171-182, multisegmental.py:59-70,
    267-278). *)
Definition of_only_segment (r : relate_outcome) : relate_outcome :=
  match r with
  | Relates COMPONENT => Relates TOUCH
  | Relates ENCLOSED | Relates WITHIN => Relates CROSS
  | r => r
  end.

(** rene/_relating/multipolygon.py:160-198 [relate_to_segment]; rene/_relating/segment.py:38-74
    [relate_to_multipolygon] is the same with the operands exchanged. *)
Definition segment_with_multipolygon (linear_is_first : bool) (fuel : nat) (shape : tree_shape)
  (l : list polygon) (s : segment) : relate_outcome :=
  let b := segment_bounding_box s in
  match intersecting b l with
  | [] => Relates DISJOINT
  | common =>
      let min_max_x := q_min (max_x b) (greatest_x common) in
      match reached min_max_x common with
      | [] => RelateRaises
      | polygons =>
          outcome_of_mixed
            (mixed_to_relation linear_is_first shape fuel true min_max_x
               (if linear_is_first
                then relate_linear_shaped [s] (related_segments b polygons)
                else relate_shaped_linear (related_segments b polygons) [s]))
      end
  end.
Definition multipolygon_relate_to_segment := segment_with_multipolygon false.
Definition segment_relate_to_multipolygon := segment_with_multipolygon true.

(** The filter by [min_x] of rene/_relating/multipolygon.py:272-276, multisegmental.py:90-94. *)
Definition reached_segments (min_max_x : Qc) (l : list segment) : list segment :=
  filter (fun s => negb (qltb min_max_x (min_x (segment_bounding_box s)))) l.

(** rene/_relating/multipolygon.py:204-291 [relate_to_multisegmental]: the geometry is a contour
    or a multisegment.  [max] of no abscissas raises. *)
Definition multipolygon_relate_to_multisegmental (fuel : nat) (shape : tree_shape)
  (l : list polygon) (g : geometry) : relate_outcome :=
  let first_box := multipolygon_box l in
  let second_box := bounding_box g in
  if box_disjoint_with first_box second_box then Relates DISJOINT
  else
    match with_intersection first_box (segments_of g) with
    | [] => Relates DISJOINT
    | [s] => of_only_segment (multipolygon_relate_to_segment fuel shape l s)
    | segments_common =>
        match intersecting second_box l with
        | [] => RelateRaises
        | common =>
            let min_max_x := q_min (greatest_x common) (max_x_of segments_common) in
            match reached min_max_x common, reached_segments min_max_x segments_common with
            | [], _ | _, [] => RelateRaises
            | polygons, segments =>
                outcome_of_mixed
                  (mixed_to_relation false shape fuel
                     (length segments_common =? length (segments_of g))%nat min_max_x
                     (relate_shaped_linear (related_segments second_box polygons) segments))
            end
        end
    end.

(** rene/_relating/multisegmental.py:30-114 [relate_to_multipolygon]. *)
Definition multisegmental_relate_to_multipolygon (fuel : nat) (shape : tree_shape)
  (g : geometry) (l : list polygon) : relate_outcome :=
  let first_box := bounding_box g in
  let second_box := multipolygon_box l in
  if box_disjoint_with first_box second_box then Relates DISJOINT
  else
    match with_intersection second_box (segments_of g) with
    | [] => Relates DISJOINT
    | [s] => of_only_segment (segment_relate_to_multipolygon fuel shape l s)
    | segments_common =>
        match intersecting first_box l with
        | [] => Relates DISJOINT
        | common =>
            let min_max_x := q_min (max_x_of segments_common) (greatest_x common) in
            match reached min_max_x common, reached_segments min_max_x segments_common with
            | [], _ | _, [] => RelateRaises
            | polygons, segments =>
                outcome_of_mixed
                  (mixed_to_relation true shape fuel
                     (length segments_common =? length (segments_of g))%nat min_max_x
                     (relate_linear_shaped segments (related_segments first_box polygons)))
            end
        end
    end.

(** rene/_relating/polygon.py:140-200 [relate_to_multisegmental]. *)
Definition polygon_relate_to_multisegmental (fuel : nat) (shape : tree_shape)
  (p : polygon) (g : geometry) : relate_outcome :=
  let first_box := bounding_box (GPolygon p) in
  let second_box := bounding_box g in
  if box_disjoint_with first_box second_box then Relates DISJOINT
  else
    match with_intersection first_box (segments_of g) with
    | [] => Relates DISJOINT
    | [s] => of_only_segment (outcome_of_mixed (polygon_relate_to_segment fuel shape p s))
    | segments =>
        outcome_of_mixed
          (mixed_to_relation false shape fuel
             (length segments =? length (segments_of g))%nat
             (q_min (max_x first_box) (max_x_of segments))
             (relate_shaped_linear (polygon_to_segments p second_box) segments))
    end.
