(** Model of the plane sweep for a linear operand against a shaped one: rene/_clipping/mixed.py
    and rene/_relating/mixed.py, with the operations built on them.

    Both classes [Operation] repeat the code of rene/_clipping/linear.py for the events queue,
    the sweep line (but for [_remove] of the relating one) and [_detect_intersection], so these
    parts are the ones of Model_Linear; see there for the containers. *)
From Coq Require Import QArith Qcanon Bool List Arith.
From Verif Require Import QcTac Model_Base Model_Box Model_Geometry Model_Contour Model_Segment Model_Linear.
Import ListNotations.

(** rene/_clipping/mixed.py:67-81, rene/_relating/mixed.py:154-166: the attributes.  The
    lists of flags get a [False] whenever an event is divided; here a flag that was never
    assigned is absent.  The relating operation has neither [mo_overlap] nor [mo_result]:
    nothing of it reads them. *)
Record mixed_operation := MixedOperation {
  mo : operation;
  mo_interior : list bool;  (** have_interior_to_left *)
  mo_other : list bool;     (** _other_have_interior_to_left *)
  mo_overlap : list bool;   (** _have_overlap *)
  mo_result : list bool     (** _are_from_result *) }.
Definition flag (l : list bool) (i : nat) : bool := nth i l false.
Definition set_flag (l : list bool) (i : nat) (v : bool) : list bool :=
  Model_Utils.set_nth (l ++ repeat false (S i - length l)) i v.
Definition with_operation (m : mixed_operation) (o : operation) : mixed_operation :=
  MixedOperation o (mo_interior m) (mo_other m) (mo_overlap m) (mo_result m).

(** rene/_clipping/mixed.py:531-546 [_populate_with_segments], rene/_relating/mixed.py:650-664
    [_populate_with_shaped_segments]: the flags (the endpoints are those of
    Model_Linear). *)
Definition segment_flag (s : segment) : bool := negb (point_lt (seg_end s) (seg_start s)).
(** rene/_clipping/mixed.py:26-50 [from_segments_iterables] with 83-133 [__init__]. *)
Definition clip_mixed (first second : list segment) : mixed_operation :=
  MixedOperation (from_segments_iterables first second)
    (map segment_flag first ++ map segment_flag second) [] [] [].
(** rene/_relating/mixed.py:522-546 and 555-579 [from_segments_iterables] of
    [LinearShapedOperation] and [ShapedLinearOperation]; 667-682
    [_populate_with_linear_segments]. *)
Definition relate_linear_shaped (first second : list segment) : mixed_operation :=
  MixedOperation (from_segments_iterables first second)
    (map (fun _ => false) first ++ map segment_flag second) [] [] [].
Definition relate_shaped_linear (first second : list segment) : mixed_operation :=
  MixedOperation (from_segments_iterables first second)
    (map segment_flag first ++ map (fun _ => false) second) [] [] [].

(** rene/_clipping/mixed.py:452-457 [_is_left_event_outside]. *)
Definition is_left_event_outside (m : mixed_operation) (e : event) : bool :=
  negb (flag (mo_other m) (left_event_to_position e))
  && negb (flag (mo_overlap m) (left_event_to_position e)).

Section Process.
(** [_detect_if_left_event_from_result]; whether [_remove] removes. *)
Variable from_result : mixed_operation -> event -> bool.
Variable removes : bool.
Variable shape : tree_shape.

(** rene/_clipping/mixed.py:205-225, rene/_relating/mixed.py:247-265
    [_compute_left_event_fields]. *)
Definition compute_left_event_fields (m : mixed_operation) (e : event) (below : option event)
  : mixed_operation :=
  let position := left_event_to_position e in
  let m :=
    match below with
    | None => m
    | Some b =>
        MixedOperation (mo m) (mo_interior m)
          (set_flag (mo_other m) position
             (if Bool.eqb (is_left_event_from_first_operand (mo m) e)
                          (is_left_event_from_first_operand (mo m) b)
              then flag (mo_other m) (left_event_to_position b)
              else flag (mo_interior m) (left_event_to_segment_id (mo m) b)))
          (mo_overlap m) (mo_result m)
    end in
  MixedOperation (mo m) (mo_interior m) (mo_other m) (mo_overlap m)
    (set_flag (mo_result m) position (from_result m e)).

(** rene/_clipping/mixed.py:227-333, rene/_relating/mixed.py:267-364
    [_detect_intersection]: what it does to the events is what the one of linear.py does;
    it returns [True] when the two overlap and start at the same point. *)
Definition overlap_from_start (o : operation) (below e : event) : bool :=
  orientation_is (orient (to_event_end o below) (to_event_start o below) (to_event_start o e))
                 COLLINEAR
  && orientation_is (orient (to_event_end o below) (to_event_start o below) (to_event_end o e))
                    COLLINEAR
  && point_eq (to_event_start o e) (to_event_start o below).
Definition detect_mixed (m : mixed_operation) (below e : event)
  : option (mixed_operation * bool) :=
  match detect_intersection (mo m) below e with
  | None => None
  | Some o =>
      if overlap_from_start (mo m) below e
      then Some (MixedOperation o (mo_interior m) (mo_other m)
                   (set_flag (set_flag (mo_overlap m) (left_event_to_position below) true)
                             (left_event_to_position e) true) (mo_result m), true)
      else Some (with_operation m o, false)
  end.

(** rene/_clipping/mixed.py:138-177 [__iter__], rene/_relating/mixed.py:443-472
    [_process_event]: the body for the popped event, with whether the event is yielded. *)
Definition process_mixed (m : mixed_operation) (e : event) : option (mixed_operation * bool) :=
  if is_event_right e
  then
    let opposite_event := to_opposite_event (mo m) e in
    if is_event_left opposite_event
    then
      match find_event shape 0 (mo m) opposite_event with
      | Some equal_segment_event =>
          let above := above_event shape 1 (mo m) equal_segment_event in
          let below := below_event shape 2 (mo m) equal_segment_event in
          let m := if removes
                   then with_operation m (remove_event shape 3 (mo m) equal_segment_event)
                   else m in
          match below, above with
          | Some below, Some above =>
              match detect_mixed m below above with
              | Some (m, _) => Some (m, true)
              | None => None
              end
          | _, _ => Some (m, true)
          end
      | None => Some (m, true)
      end
    else None
  else
    match find_event shape 0 (mo m) e with
    | Some _ => Some (m, false)
    | None =>
        let m := with_operation m (add_event shape 1 (mo m) e) in
        let above := above_event shape 2 (mo m) e in
        let below := below_event shape 3 (mo m) e in
        let m := compute_left_event_fields m e below in
        match
          match above with
          | None => Some m
          | Some a =>
              match detect_mixed m e a with
              | None => None
              | Some (m, true) =>
                  Some (compute_left_event_fields (compute_left_event_fields m e below) a
                          (Some e))
              | Some (m, false) => Some m
              end
          end
        with
        | None => None
        | Some m =>
            match below with
            | None => Some (m, true)
            | Some b =>
                match detect_mixed m b e with
                | None => None
                | Some (m, true) =>
                    let below_below := below_event shape 4 (mo m) b in
                    Some (compute_left_event_fields
                            (compute_left_event_fields m b below_below) e (Some b), true)
                | Some (m, false) => Some (m, true)
                end
            end
        end
    end.

Definition pop_mixed (m : mixed_operation) : option (event * mixed_operation) :=
  match pop (tick (mo m)) with
  | None => None
  | Some (e, o) => Some (e, with_operation m o)
  end.

(** The loops of the callers over [__iter__]: difference.py:689-693 ([every] event is
    recorded), intersection.py:695-700 (left events only). *)
Inductive mixed_outcome :=
| SweepsMixed (m : mixed_operation) (events : list event)
| MixedFails
| MixedRunsOut.
Fixpoint sweep_mixed (fuel : nat) (every : bool) (limit : Qc) (m : mixed_operation)
  (events : list event) : mixed_outcome :=
  match fuel with
  | O => MixedRunsOut
  | S fuel =>
      match op_queue (mo m) with
      | [] => SweepsMixed m events
      | _ =>
          match pop_mixed m with
          | None => MixedFails
          | Some (e, m) =>
              match process_mixed m e with
              | None => MixedFails
              | Some (m, yields) =>
                  if yields && is_beyond (Some limit) (mo m) e then SweepsMixed m events
                  else sweep_mixed fuel every limit m
                         (if yields && (every || is_event_left e) then events ++ [e]
                          else events)
              end
          end
      end
  end.
End Process.

(** rene/_clipping/mixed.py:52-62 [reduce_events] with 441-444 [_is_event_from_result]. *)
Definition reduce_mixed (m : mixed_operation) (events : list event) : list segment :=
  map (to_event_endpoints (mo m))
      (filter (fun e => flag (mo_result m) (left_event_to_position (to_left_event (mo m) e)))
              events).

(** rene/_clipping/difference.py:45-49 [LinearShapedDifference]. *)
Definition linear_shaped_difference (m : mixed_operation) (e : event) : bool :=
  is_left_event_from_first_operand (mo m) e && is_left_event_outside m e.
(** rene/_clipping/intersection.py:40-44 [LinearShapedIntersection]. *)
Definition linear_shaped_intersection (m : mixed_operation) (e : event) : bool :=
  is_left_event_from_first_operand (mo m) e && negb (is_left_event_outside m e).
(** rene/_clipping/intersection.py:47-51 [ShapedLinearIntersection]. *)
Definition shaped_linear_intersection (m : mixed_operation) (e : event) : bool :=
  negb (is_left_event_from_first_operand (mo m) e) && negb (is_left_event_outside m e).

(** rene/_clipping/difference.py:628-700 [subtract_polygon_from_multisegmental]. *)
Definition subtract_polygon_from_multisegmental (fuel : nat) (shape : tree_shape)
  (minuend : geometry) (subtrahend : polygon) : clip_outcome :=
  let minuend_box := bounding_box minuend in
  let subtrahend_box := bounding_box (GPolygon subtrahend) in
  if do_boxes_have_no_common_area minuend_box subtrahend_box then Clips minuend
  else
    match with_common_continuum subtrahend_box (segments_of minuend) with
    | [] => Clips minuend
    | common =>
        let minuend_max_x := max_x_of common in
        let minuend_min_x := min_x_of common in
        match sweep_mixed linear_shaped_difference true shape fuel true minuend_max_x
                (clip_mixed common
                   (reaching minuend_min_x minuend_max_x
                      (polygon_to_correctly_oriented_segments subtrahend))) [] with
        | SweepsMixed m events =>
            clip_of (collect_maybe_empty_segments
              (reduce_mixed m events
               ++ without_common_continuum subtrahend_box (segments_of minuend)))
        | MixedFails => Raises
        | MixedRunsOut => RunsOut
        end
    end.
(** rene/_clipping/difference.py:761-811 [subtract_polygon_from_segment]. *)
Definition subtract_polygon_from_segment (fuel : nat) (shape : tree_shape)
  (minuend : segment) (subtrahend : polygon) : clip_outcome :=
  let minuend_box := segment_bounding_box minuend in
  let subtrahend_box := bounding_box (GPolygon subtrahend) in
  if do_boxes_have_no_common_area minuend_box subtrahend_box then Clips (GSegment minuend)
  else
    match sweep_mixed linear_shaped_difference true shape fuel true (max_x minuend_box)
            (clip_mixed [minuend]
               (reaching (min_x minuend_box) (max_x minuend_box)
                  (polygon_to_correctly_oriented_segments subtrahend))) [] with
    | SweepsMixed m events => clip_of (collect_maybe_empty_segments (reduce_mixed m events))
    | MixedFails => Raises
    | MixedRunsOut => RunsOut
    end.
(** rene/_clipping/intersection.py:1169-1218 [intersect_segment_with_polygon]. *)
Definition intersect_segment_with_polygon (fuel : nat) (shape : tree_shape)
  (first : segment) (second : polygon) : clip_outcome :=
  let first_box := segment_bounding_box first in
  let second_box := bounding_box (GPolygon second) in
  if do_boxes_have_no_common_continuum first_box second_box then Clips GEmpty
  else
    let max_min_x := q_max (min_x first_box) (min_x second_box) in
    let min_max_x := q_min (max_x first_box) (max_x second_box) in
    match sweep_mixed linear_shaped_intersection true shape fuel false min_max_x
            (clip_mixed [first]
               (reaching max_min_x min_max_x
                  (polygon_to_correctly_oriented_segments second))) [] with
    | SweepsMixed m events => clip_of (collect_maybe_empty_segments (reduce_mixed m events))
    | MixedFails => Raises
    | MixedRunsOut => RunsOut
    end.
(** rene/_clipping/intersection.py:973-1022 [intersect_polygon_with_segment]. *)
Definition intersect_polygon_with_segment (fuel : nat) (shape : tree_shape)
  (first : polygon) (second : segment) : clip_outcome :=
  let first_box := bounding_box (GPolygon first) in
  let second_box := segment_bounding_box second in
  if do_boxes_have_no_common_continuum first_box second_box then Clips GEmpty
  else
    let max_min_x := q_max (min_x first_box) (min_x second_box) in
    let min_max_x := q_min (max_x first_box) (max_x second_box) in
    match sweep_mixed shaped_linear_intersection true shape fuel false min_max_x
            (clip_mixed
               (reaching max_min_x min_max_x
                  (polygon_to_correctly_oriented_segments first)) [second]) [] with
    | SweepsMixed m events => clip_of (collect_maybe_empty_segments (reduce_mixed m events))
    | MixedFails => Raises
    | MixedRunsOut => RunsOut
    end.

(** ** Relating *)

(** rene/_relating/mixed.py:588-648 [RelationState]. *)
Record relation_state := RelationState {
  linear_subset : bool;      (** linear_is_subset_of_shaped *)
  border_subset : bool;      (** shaped_border_is_subset_of_linear *)
  meets_interior : bool;     (** linear_intersects_shaped_interior *)
  meets_border : bool        (** linear_intersects_shaped_border *) }.

Section Relate.
Variable linear_is_first : bool.
Variable shape : tree_shape.
(** rene/_relating/mixed.py:548-549, 581-584 [is_event_from_linear]. *)
Definition is_event_from_linear (m : mixed_operation) (e : event) : bool :=
  Bool.eqb (is_event_from_first_operand (mo m) e) linear_is_first.
(** rene/_relating/mixed.py:55-66 [is_left_event_inside], [is_left_event_outside],
    [is_event_inside], [is_event_outside]. *)
Definition is_event_inside (m : mixed_operation) (e : event) : bool :=
  flag (mo_other m) (left_event_to_position (to_left_event (mo m) e)).
(** rene/_relating/mixed.py:45-51 [has_border_intersection] with rene/_utils.py [all_same]. *)
Definition has_border_intersection (m : mixed_operation) (events : list event) : bool :=
  match events with
  | [] => false
  | e :: rest =>
      negb (forallb (fun f => Bool.eqb (is_event_from_first_operand (mo m) f)
                                       (is_event_from_first_operand (mo m) e)) rest)
  end.
(** What both branches of [update] and line 111-123 do for an event of the linear
    operand. *)
Definition see_linear (s : relation_state) (m : mixed_operation) (e : event) : relation_state :=
  RelationState (linear_subset s && is_event_inside m e) (border_subset s)
    (meets_interior s || is_event_inside m e) (meets_border s).
Definition see_border (s : relation_state) : relation_state :=
  RelationState (linear_subset s) false (meets_interior s) (meets_border s).
(** [itertools.groupby] by [to_event_end]. *)
Fixpoint group_by_end (o : operation) (events : list event) : list (point * list event) :=
  match events with
  | [] => []
  | e :: rest =>
      match group_by_end o rest with
      | (key, group) :: groups =>
          if point_eq (to_event_end o e) key
          then (to_event_end o e, e :: group) :: groups
          else (to_event_end o e, [e]) :: (key, group) :: groups
      | [] => [(to_event_end o e, [e])]
      end
  end.
Fixpoint see_groups (s : relation_state) (m : mixed_operation)
  (groups : list (point * list event)) : option relation_state :=
  match groups with
  | [] => Some s
  | (_, [e]) :: rest =>
      see_groups (if is_event_from_linear m e then see_linear s m e else see_border s) m rest
  | (_, [_; _]) :: rest => see_groups s m rest
  | _ => None
  end.
(** rene/_relating/mixed.py:589-643 [RelationState.update] (the assertions on the operand of
    the events are [has_border_intersection]). *)
Definition update_relation_state (s : relation_state) (m : mixed_operation)
  (events : list event) : option relation_state :=
  if has_border_intersection m events
  then see_groups (RelationState (linear_subset s) (border_subset s) (meets_interior s) true)
         m (group_by_end (mo m) (filter is_event_left events))
  else
    match events with
    | [] => None
    | e :: _ => Some (if is_event_from_linear m e then see_linear s m e else see_border s)
    end.
(** rene/_relating/mixed.py:124-150: the relation of the state. *)
Definition mixed_relation (s : relation_state) : relation :=
  if border_subset s
  then if linear_subset s
       then if meets_interior s then ENCLOSED else COMPONENT
       else if meets_interior s then CROSS else TOUCH
  else if linear_subset s
  then if meets_interior s
       then if meets_border s then ENCLOSED else WITHIN
       else COMPONENT
  else if meets_interior s then CROSS
  else if meets_border s then TOUCH else DISJOINT.
(** rene/_relating/mixed.py:85-123: the loop; [None] when the fuel is not enough or an
    assertion fails. *)
Fixpoint relation_loop (fuel : nat) (min_max_x : Qc) (m : mixed_operation) (s : relation_state)
  (previous_start : point) (same_start_events : list event) : option relation :=
  match fuel with
  | O => None
  | S fuel =>
      match op_queue (mo m) with
      | [] =>
          match update_relation_state s m same_start_events with
          | Some s => Some (mixed_relation s)
          | None => None
          end
      | _ =>
          match pop_mixed m with
          | None => None
          | Some (e, m) =>
              let start := to_event_start (mo m) e in
              let proceed s previous_start same_start_events :=
                match process_mixed (fun _ _ => false) false shape m e with
                | None => None
                | Some (m, _) =>
                    relation_loop fuel min_max_x m s previous_start same_start_events
                end in
              if point_eq start previous_start
              then proceed s previous_start (same_start_events ++ [e])
              else
                match update_relation_state s m same_start_events with
                | None => None
                | Some s =>
                    if meets_interior s && negb (linear_subset s) then Some (mixed_relation s)
                    else if qltb min_max_x (px start)
                    then Some (mixed_relation
                                 (if is_event_from_linear m e then see_linear s m e
                                  else see_border s))
                    else proceed s start [e]
                end
          end
      end
  end.
(** rene/_relating/mixed.py:74-150 [to_relation]. *)
Definition mixed_to_relation (fuel : nat) (linear_is_subset_of_shaped : bool) (min_max_x : Qc)
  (m : mixed_operation) : option relation :=
  match op_queue (mo m) with
  | [] => None
  | _ =>
      match pop_mixed m with
      | None => None
      | Some (e, m) =>
          match process_mixed (fun _ _ => false) false shape m e with
          | None => None
          | Some (m, _) =>
              relation_loop fuel min_max_x m
                (RelationState linear_is_subset_of_shaped true false false)
                (to_event_start (mo m) e) [e]
          end
      end
  end.
End Relate.

(** rene/_relating/utils.py:10-22 [polygon_to_segments]. *)
Definition polygon_to_segments (p : polygon) (b : box) : list segment :=
  to_contour_segments (border p)
  ++ flat_map to_contour_segments
       (filter (fun hole => negb (box_disjoint_with (contour_box hole) b)) (holes p)).
(** rene/_relating/polygon.py:115-137 [relate_to_segment], which [Polygon.relate_to] returns
    for a segment (rene/_geometries/base_polygon.py:88-91). *)
Definition polygon_relate_to_segment (fuel : nat) (shape : tree_shape) (p : polygon)
  (s : segment) : option relation :=
  let polygon_box := bounding_box (GPolygon p) in
  let segment_box := segment_bounding_box s in
  if box_disjoint_with polygon_box segment_box then Some DISJOINT
  else mixed_to_relation false shape fuel true (q_min (max_x segment_box) (max_x polygon_box))
         (relate_shaped_linear (polygon_to_segments p segment_box) [s]).
