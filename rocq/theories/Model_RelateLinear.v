(** Model of [relate_to] between multisegments and contours: rene/_relating/linear.py and
    multisegmental.py with contour.py and multisegment.py.

    The class [Operation] of rene/_relating/linear.py has the events queue, the sweep line and
    [_detect_intersection] of rene/_clipping/linear.py (the files events_queue_key.py and
    sweep_line_key.py of the two packages are the same), and its [_process_event] (lines
    428-448) is the body of the loop there, so these parts are the ones of Model_Linear. *)
From Coq Require Import QArith Qcanon Bool List Arith.
From Verif Require Import QcTac Model_Base Model_Box Model_Geometry Model_Contour Model_Linear Model_Relate.
Import ListNotations.

(** rene/_relating/linear.py:478-487 [dot_multiply]. *)
Definition dot_multiply (first_start first_end second_start second_end : point) : Qc :=
  ((px first_end - px first_start) * (px second_end - px second_start)
   + (py first_end - py first_start) * (py second_end - py second_start))%Qc.
(** rene/_relating/linear.py:526-529 [squared_distance]. *)
Definition squared_distance (start end_ : point) : Qc :=
  ((px start - px end_) * (px start - px end_) + (py start - py end_) * (py start - py end_))%Qc.
(** rene/_relating/linear.py:466-475 [to_signed_point_event_squared_cosine]. *)
Definition signed_squared_cosine (o : operation) (p : point) (e : event) : Qc :=
  let start := to_event_start o e in
  let end_ := to_event_end o e in
  let dot_product := dot_multiply start p start end_ in
  ((if qltb 0 dot_product then dot_product * dot_product else - (dot_product * dot_product))
   / squared_distance start end_)%Qc.

(** rene/_relating/linear.py:496-523 [is_point_in_angle]. *)
Definition is_point_in_angle (p vertex first_ray_point second_ray_point : point)
  (angle_orientation : orientation) : bool :=
  let first_half_orientation := orient vertex first_ray_point p in
  let second_half_orientation := orient vertex p second_ray_point in
  if orientation_is first_half_orientation COLLINEAR
  then orientation_is second_half_orientation angle_orientation
  else if orientation_is second_half_orientation COLLINEAR
  then orientation_is first_half_orientation angle_orientation
  else orientation_is first_half_orientation second_half_orientation
       && orientation_is first_half_orientation
            (if orientation_is angle_orientation COLLINEAR then COUNTERCLOCKWISE
             else angle_orientation).

(** rene/_utils.py:27-34 [all_same], of booleans. *)
Definition all_same (l : list bool) : bool :=
  match l with
  | [] => true
  | value :: rest => forallb (Bool.eqb value) rest
  end.

(** Python's [min] with a key: the first of the least elements. *)
Fixpoint min_by (key : event -> Qc) (best : event) (rest : list event) : event :=
  match rest with
  | [] => best
  | e :: rest => min_by key (if qltb (key e) (key best) then e else best) rest
  end.

(** rene/_relating/linear.py:49-98 [has_crossing]. *)
Definition has_crossing (o : operation) (same_start_events : list event) : bool :=
  if (length same_start_events <? 4)%nat then false
  else
    let from_first_events := filter (is_event_from_first_operand o) same_start_events in
    let from_second_events :=
      filter (fun e => negb (is_event_from_first_operand o e)) same_start_events in
    if negb ((1 <? length from_first_events)%nat
             && (length from_first_events <? length same_start_events - 1)%nat)
    then false
    else
      match from_second_events with
      | [] => false
      | second :: rest =>
          let start := to_event_start o (hd O same_start_events) in
          let base_event :=
            min_by (signed_squared_cosine o (to_event_end o second)) second rest in
          let base_end := to_event_end o base_event in
          let largest_angle_event := min_by (signed_squared_cosine o base_end) second rest in
          let largest_angle_end := to_event_end o largest_angle_event in
          let base_orientation := orient start base_end largest_angle_end in
          negb (all_same
            (map (fun e => is_point_in_angle (to_event_end o e) start base_end
                             largest_angle_end base_orientation) from_first_events))
      end.

(** rene/_relating/linear.py:100-104 [has_intersection]. *)
Definition has_intersection (o : operation) (same_start_events : list event) : bool :=
  negb (all_same (map (is_event_from_first_operand o) same_start_events)).

(** rene/_relating/linear.py:604-633: the attributes of [RelationState]. *)
Record relation_state := RelationState {
  rs_first_is_subset : bool;
  rs_second_is_subset : bool;
  rs_has_crossing : bool;
  rs_has_intersection : bool;
  rs_has_overlap : bool }.
Definition drop_first (s : relation_state) : relation_state :=
  RelationState false (rs_second_is_subset s) (rs_has_crossing s) (rs_has_intersection s)
    (rs_has_overlap s).
Definition drop_second (s : relation_state) : relation_state :=
  RelationState (rs_first_is_subset s) false (rs_has_crossing s) (rs_has_intersection s)
    (rs_has_overlap s).

(** [itertools.groupby] with the end of an event as the key. *)
Fixpoint group_by_end (o : operation) (events : list event) : list (list event) :=
  match events with
  | [] => []
  | e :: rest =>
      match group_by_end o rest with
      | (x :: group) :: groups =>
          if point_eq (to_event_end o e) (to_event_end o x)
          then (e :: x :: group) :: groups
          else [e] :: (x :: group) :: groups
      | groups => [e] :: groups
      end
  end.
(** rene/_relating/linear.py:567-588 [_detect_touch_or_overlap]: the loop; [None]: the
    assertion of line 581 fails. *)
Fixpoint detect_touch_or_overlap (o : operation) (groups : list (list event))
  (s : relation_state) : option relation_state :=
  match groups with
  | [] => Some s
  | [] :: groups => detect_touch_or_overlap o groups s
  | [e] :: groups =>
      detect_touch_or_overlap o groups
        (if is_event_from_first_operand o e then drop_first s else drop_second s)
  | [_; _] :: groups =>
      detect_touch_or_overlap o groups
        (RelationState (rs_first_is_subset s) (rs_second_is_subset s) (rs_has_crossing s)
           (rs_has_intersection s) true)
  | _ :: _ => None
  end.
(** rene/_relating/linear.py:557-565 [_detect_crossing]. *)
Definition detect_crossing (o : operation) (same_start_events : list event)
  (s : relation_state) : relation_state :=
  RelationState (rs_first_is_subset s) (rs_second_is_subset s)
    (rs_has_crossing s || has_crossing o same_start_events) (rs_has_intersection s)
    (rs_has_overlap s).
(** rene/_relating/linear.py:533-555 [update]; the assertions of lines 544-547 and 551-554
    hold where there is no intersection. *)
Definition update_state (o : operation) (same_start_events : list event) (s : relation_state)
  : option relation_state :=
  if has_intersection o same_start_events
  then
    match
      detect_touch_or_overlap o
        (group_by_end o (filter is_event_left same_start_events))
        (RelationState (rs_first_is_subset s) (rs_second_is_subset s) (rs_has_crossing s) true
           (rs_has_overlap s))
    with
    | None => None
    | Some s => Some (detect_crossing o same_start_events s)
    end
  else if is_event_from_first_operand o (hd O same_start_events) then Some (drop_first s)
  else Some (drop_second s).

(** rene/_relating/linear.py:165-178: what is returned. *)
Definition state_relation (s : relation_state) : relation :=
  if rs_first_is_subset s then if rs_second_is_subset s then EQUAL else COMPONENT
  else if rs_second_is_subset s then COMPOSITE
  else if rs_has_overlap s then OVERLAP
  else if rs_has_crossing s then CROSS
  else if rs_has_intersection s then TOUCH
  else DISJOINT.

(** A relation is returned; an exception is raised; the given number of turns is not
    enough. *)
Inductive relate_outcome := Relates (r : relation) | RelateRaises | RelateRunsOut.
Definition outcome_of (s : option relation_state) : relate_outcome :=
  match s with Some s => Relates (state_relation s) | None => RelateRaises end.

(** rene/_relating/linear.py:136-164: the loop. *)
Fixpoint relation_loop (fuel : nat) (shape : tree_shape) (min_max_x : Qc) (o : operation)
  (previous_start : point) (same_start_events : list event) (s : relation_state)
  : relate_outcome :=
  match fuel with
  | O => RelateRunsOut
  | S fuel =>
      match op_queue o with
      | [] => outcome_of (update_state o same_start_events s)
      | _ =>
          match pop (tick o) with
          | None => RelateRaises
          | Some (e, o) =>
              let start := to_event_start o e in
              if point_eq start previous_start
              then
                match process_event shape o e with
                | None => RelateRaises
                | Some o =>
                    relation_loop fuel shape min_max_x o previous_start
                      (same_start_events ++ [e]) s
                end
              else
                match update_state o same_start_events s with
                | None => RelateRaises
                | Some s =>
                    if rs_has_overlap s && negb (rs_first_is_subset s)
                       && negb (rs_second_is_subset s)
                    then Relates (state_relation s)
                    else if qltb min_max_x (px start)
                    then Relates (state_relation
                           (if is_event_from_first_operand o e then drop_first s
                            else drop_second s))
                    else
                      match process_event shape o e with
                      | None => RelateRaises
                      | Some o => relation_loop fuel shape min_max_x o start [e] s
                      end
                end
          end
      end
  end.
(** rene/_relating/linear.py:117-178 [to_relation]. *)
Definition to_relation (fuel : nat) (shape : tree_shape) (o : operation)
  (first_is_subset second_is_subset : bool) (min_max_x : Qc) : relate_outcome :=
  match pop (tick o) with
  | None => RelateRaises
  | Some (e, o) =>
      match process_event shape o e with
      | None => RelateRaises
      | Some o =>
          relation_loop fuel shape min_max_x o (to_event_start o e) [e]
            (RelationState first_is_subset second_is_subset false false false)
      end
  end.

(** rene/_utils.py:411-420 [to_boxes_ids_with_intersection] and indexing: the segments whose
    boxes have common points with the box. *)
Definition with_intersection (b : box) (segments : list segment) : list segment :=
  filter (fun s => negb (box_disjoint_with (segment_bounding_box s) b)) segments.
(** rene/_relating/multisegmental.py:210-217, 220-227: the filter of abscissas. *)
Definition in_range (max_min_x min_max_x : Qc) (segments : list segment) : list segment :=
  filter (fun s => qleb max_min_x (max_x (segment_bounding_box s))
                   && qleb (min_x (segment_bounding_box s)) min_max_x) segments.

Definition outcome_of_relation (r : option relation) : relate_outcome :=
  match r with Some r => Relates r | None => RelateRaises end.

(** rene/_relating/multisegmental.py:119-245 [relate_to_multisegmental]. *)
Definition relate_to_multisegmental
  (first_to_second_relater second_to_first_relater : point -> point -> list segment -> option relation)
  (fuel : nat) (shape : tree_shape) (first second : geometry) : relate_outcome :=
  let first_box := bounding_box first in
  let second_box := bounding_box second in
  if box_disjoint_with first_box second_box then Relates DISJOINT
  else
    let first_segments := segments_of first in
    match with_intersection second_box first_segments with
    | [] => Relates DISJOINT
    | [first_segment] =>
        outcome_of_relation
          (option_map
             (fun r => if relation_is r COMPONENT || relation_is r EQUAL then OVERLAP else r)
             (first_to_second_relater (seg_start first_segment) (seg_end first_segment)
                (segments_of second)))
    | first_intersecting =>
        let second_segments := segments_of second in
        match with_intersection first_box second_segments with
        | [] => Relates DISJOINT
        | [second_segment] =>
            outcome_of_relation
              (option_map
                 (fun r =>
                    if relation_is r COMPONENT
                       || ((relation_is r COMPOSITE || relation_is r EQUAL)
                           && negb (length first_intersecting =? length first_segments)%nat)
                    then OVERLAP else complement r)
                 (second_to_first_relater (seg_start second_segment) (seg_end second_segment)
                    first_intersecting))
        | second_intersecting =>
            let max_min_x := q_max (min_x_of first_intersecting) (min_x_of second_intersecting) in
            let min_max_x := q_min (max_x_of first_intersecting) (max_x_of second_intersecting) in
            match in_range max_min_x min_max_x first_intersecting,
                  in_range max_min_x min_max_x second_intersecting with
            | [], _ => Relates DISJOINT
            | _, [] => RelateRaises
            | first_intersecting, second_intersecting =>
                to_relation fuel shape
                  (from_segments_iterables first_intersecting second_intersecting)
                  (length first_intersecting =? length first_segments)%nat
                  (length second_intersecting =? length second_segments)%nat min_max_x
            end
        end
    end.

(** The relater of the endpoints of a segment to the segments of a geometry:
    rene/_relating/contour.py:28-37, 66-79, multisegment.py:30-44, 77-96. *)
Definition segments_relater (g : geometry) : point -> point -> list segment -> option relation :=
  match g with
  | GContour _ => relate_to_contour_segments
  | _ => relate_to_multisegment_segments
  end.
(** The cases of [relate_to] of rene/_geometries/base_contour.py:111-137 and
    base_multisegment.py:87-124 for contours and multisegments: rene/_relating/contour.py:21-40,
    54-82, multisegment.py:21-48, 67-99. *)
Definition linear_relate_to (fuel : nat) (shape : tree_shape) (first second : geometry)
  : relate_outcome :=
  relate_to_multisegmental (segments_relater second) (segments_relater first) fuel shape
    first second.
