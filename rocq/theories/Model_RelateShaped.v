(** Model of [relate_to] between polygons: rene/_relating/shaped.py with polygon.py and utils.py.

    The class [Operation] of rene/_relating/shaped.py repeats the code of
    rene/_clipping/shaped.py for the events queue, the sweep line, [_detect_intersection] and
    [_divide], and its [_process_event] (lines 490-520) is the body of the loop there; the files
    events_queue_key.py and sweep_line_key.py of the two packages are the same. So these parts
    are the ones of Model_Shaped, where [_detect_if_left_event_from_result] is taken to be
    constantly false: the attributes [_are_from_result], [_below_event_from_result],
    [_starts_ids] and the current endpoint of the clipping are none of this class, and nothing
    below reads them. *)
From Coq Require Import QArith Qcanon Bool List Arith.
From Verif Require Import QcTac Model_Base Model_Box Model_Utils Model_Geometry Model_Contour Model_Linear
  Model_Relate Model_Mixed Model_Shaped Model_RelateLinear.
Import ListNotations.

Definition nothing_selected (s : shaped_operation) (e : event) : bool := false.

(** rene/_relating/shaped.py:549-553 [EventKind]. *)
Inductive event_kind := COMMON_POLYLINE_SEGMENT | COMMON_REGION_EDGE | INSIDE | OUTSIDE.
(** rene/_relating/shaped.py:59-73 [classify_event]. *)
Definition classify_event (s : shaped_operation) (e : event) : event_kind :=
  let left_event := to_left_event (so s) e in
  match kind_of s left_event with
  | NO_OVERLAP => if other_flag s left_event then INSIDE else OUTSIDE
  | DIFFERENT_ORIENTATION => COMMON_POLYLINE_SEGMENT
  | SAME_ORIENTATION => COMMON_REGION_EDGE
  end.

(** rene/_relating/shaped.py:75-91 [has_edges_cross]: the loop over the events; the flags of
    the second and of the first operand. *)
Fixpoint edges_cross_loop (s : shaped_operation) (events : list event)
  (second_flag first_flag : option bool) : bool :=
  match events with
  | [] => false
  | e :: rest =>
      let left_event := to_left_event (so s) e in
      if kind_is (kind_of s left_event) NO_OVERLAP
      then
        let from_first := is_left_event_from_first_operand (so s) left_event in
        let event_is_inside := other_flag s left_event in
        match (if from_first then first_flag else second_flag) with
        | None =>
            if from_first then edges_cross_loop s rest second_flag (Some event_is_inside)
            else edges_cross_loop s rest (Some event_is_inside) first_flag
        | Some previous_event_is_inside =>
            if Bool.eqb previous_event_is_inside event_is_inside
            then edges_cross_loop s rest second_flag first_flag
            else true
        end
      else edges_cross_loop s rest second_flag first_flag
  end.
Definition has_edges_cross (s : shaped_operation) (same_start_events : list event) : bool :=
  edges_cross_loop s same_start_events None None.

(** rene/_relating/shaped.py:634-680: the attributes of [RelationState]. *)
Record shaped_state := ShapedState {
  ss_boundaries_intersect : bool;
  ss_first_boundary_intersects_second_interior : bool;
  ss_first_is_subset : bool;
  ss_has_continuous_intersection : bool;
  ss_second_boundary_intersects_first_interior : bool;
  ss_second_is_subset : bool }.
(** rene/_relating/shaped.py:575-586, 606-621: an event of the kind INSIDE. *)
Definition meets_interior (from_first : bool) (r : shaped_state) : shaped_state :=
  if from_first
  then ShapedState (ss_boundaries_intersect r) true (ss_first_is_subset r) true
         (ss_second_boundary_intersects_first_interior r) false
  else ShapedState (ss_boundaries_intersect r) (ss_first_boundary_intersects_second_interior r)
         false true true (ss_second_is_subset r).
(** rene/_relating/shaped.py:587-593, 622-632 and 138-142: the operand is not a subset. *)
Definition not_subset (from_first : bool) (r : shaped_state) : shaped_state :=
  if from_first
  then ShapedState (ss_boundaries_intersect r) (ss_first_boundary_intersects_second_interior r)
         false (ss_has_continuous_intersection r)
         (ss_second_boundary_intersects_first_interior r) (ss_second_is_subset r)
  else ShapedState (ss_boundaries_intersect r) (ss_first_boundary_intersects_second_interior r)
         (ss_first_is_subset r) (ss_has_continuous_intersection r)
         (ss_second_boundary_intersects_first_interior r) false.
(** rene/_relating/shaped.py:601-632: the body of the loop over the events. *)
Definition update_by_event (s : shaped_operation) (r : shaped_state) (e : event) : shaped_state :=
  match classify_event s e with
  | COMMON_REGION_EDGE =>
      ShapedState (ss_boundaries_intersect r) (ss_first_boundary_intersects_second_interior r)
        (ss_first_is_subset r) true (ss_second_boundary_intersects_first_interior r)
        (ss_second_is_subset r)
  | INSIDE => meets_interior (is_event_from_first_operand (so s) e) r
  | OUTSIDE | COMMON_POLYLINE_SEGMENT => not_subset (is_event_from_first_operand (so s) e) r
  end.
(** rene/_relating/shaped.py:563-632 [update]; [None]: the
    assertion of line 588 fails. *)
Definition update_shaped (s : shaped_operation) (same_start_events : list event)
  (r : shaped_state) : option shaped_state :=
  if all_same (map (is_event_from_first_operand (so s)) same_start_events)
  then
    let e := hd O same_start_events in
    match classify_event s e with
    | INSIDE => Some (meets_interior (is_event_from_first_operand (so s) e) r)
    | OUTSIDE => Some (not_subset (is_event_from_first_operand (so s) e) r)
    | _ => None
    end
  else if has_edges_cross s same_start_events
  then Some (ShapedState (ss_boundaries_intersect r)
               (ss_first_boundary_intersects_second_interior r) false true
               (ss_second_boundary_intersects_first_interior r) false)
  else Some (fold_left (update_by_event s) same_start_events
               (ShapedState true (ss_first_boundary_intersects_second_interior r)
                  (ss_first_is_subset r) (ss_has_continuous_intersection r)
                  (ss_second_boundary_intersects_first_interior r) (ss_second_is_subset r))).

(** rene/_relating/shaped.py:152-187: what is returned. *)
Definition shaped_state_relation (r : shaped_state) : relation :=
  if ss_boundaries_intersect r
  then
    if ss_first_is_subset r
    then if ss_second_is_subset r then EQUAL
         else if ss_first_boundary_intersects_second_interior r then ENCLOSED else COMPONENT
    else if ss_second_is_subset r
    then if ss_second_boundary_intersects_first_interior r then ENCLOSES else COMPOSITE
    else if ss_has_continuous_intersection r then OVERLAP else TOUCH
  else if ss_second_is_subset r then COVER
  else if ss_first_is_subset r then WITHIN
  else if ss_has_continuous_intersection r then OVERLAP else DISJOINT.
Definition shaped_outcome_of (r : option shaped_state) : relate_outcome :=
  match r with Some r => Relates (shaped_state_relation r) | None => RelateRaises end.

(** rene/_relating/shaped.py:123-151: the loop; the event is popped by [pop_shaped] and
    processed by [process_shaped] of the clipping. *)
Fixpoint shaped_relation_loop (fuel : nat) (shape : tree_shape) (min_max_x : Qc)
  (s : shaped_operation) (previous_start : point) (same_start_events : list event)
  (r : shaped_state) : relate_outcome :=
  match fuel with
  | O => RelateRunsOut
  | S fuel =>
      match op_queue (so s) with
      | [] => shaped_outcome_of (update_shaped s same_start_events r)
      | _ =>
          match pop_shaped s with
          | None => RelateRaises
          | Some (e, s) =>
              let start := to_event_start (so s) e in
              if point_eq start previous_start
              then
                match process_shaped nothing_selected shape s e with
                | None => RelateRaises
                | Some (s, _) =>
                    shaped_relation_loop fuel shape min_max_x s previous_start
                      (same_start_events ++ [e]) r
                end
              else
                match update_shaped s same_start_events r with
                | None => RelateRaises
                | Some r =>
                    if ss_has_continuous_intersection r && negb (ss_first_is_subset r)
                       && negb (ss_second_is_subset r)
                    then Relates (shaped_state_relation r)
                    else if qltb min_max_x (px start)
                    then Relates (shaped_state_relation
                           (not_subset (is_event_from_first_operand (so s) e) r))
                    else
                      match process_shaped nothing_selected shape s e with
                      | None => RelateRaises
                      | Some (s, _) => shaped_relation_loop fuel shape min_max_x s start [e] r
                      end
                end
          end
      end
  end.
(** rene/_relating/shaped.py:103-187 [to_relation]; there is no event to pop if there are no
    segments. *)
Definition shaped_to_relation (fuel : nat) (shape : tree_shape) (s : shaped_operation)
  (first_is_subset second_is_subset : bool) (min_max_x : Qc) : relate_outcome :=
  match op_queue (so s) with
  | [] => RelateRaises
  | _ =>
      match pop_shaped s with
      | None => RelateRaises
      | Some (e, s) =>
          match process_shaped nothing_selected shape s e with
          | None => RelateRaises
          | Some (s, _) =>
              shaped_relation_loop fuel shape min_max_x s (to_event_start (so s) e) [e]
                (ShapedState false false first_is_subset false false second_is_subset)
          end
      end
  end.

(** rene/_relating/polygon.py:86-111 [relate_to_polygon], called by
    rene/_geometries/base_polygon.py:84-87 [relate_to]. *)
Definition polygon_relate_to_polygon (fuel : nat) (shape : tree_shape) (first second : polygon)
  : relate_outcome :=
  let first_box := bounding_box (GPolygon first) in
  let second_box := bounding_box (GPolygon second) in
  if box_disjoint_with first_box second_box then Relates DISJOINT
  else
    match clip_shaped (polygon_to_segments first second_box)
            (polygon_to_segments second first_box) with
    | None => RelateRaises
    | Some s =>
        shaped_to_relation fuel shape s true true (q_min (max_x first_box) (max_x second_box))
    end.
