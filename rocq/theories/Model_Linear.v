(** Model of rene's plane sweep for linear operands: [linear.Operation] with its
    events queue and sweep line, and the four operations built on it.

    Two containers come from libraries that are not part of the repository:
    - [prioq.base.PriorityQueue] is modelled by the list of its events; popping
      scans the list for an event that precedes the others by
      [EventsQueueKey.__lt__];
    - [dendroid.red_black.map_] is modelled by the list of its values in the order
      of the tree; a lookup descends a binary search tree over this list whose
      roots are chosen by an arbitrary function [shape], so nothing is assumed
      about how the tree is balanced.
    Python's AssertionError is modelled by [None], or by [AssertionFails]. *)
From Coq Require Import QArith Qcanon Bool List Arith.
From Verif Require Import QcTac Model_Base Model_Box Model_Geometry Model_Utils.
Import ListNotations.

(** rene/_clipping/event.py:6 [Event]. *)
Definition event := nat.
(** rene/_clipping/event.py:10-11 and rene/_utils.py:177-182. *)
Definition is_event_left (e : event) : bool := Nat.even e.
Definition is_event_right (e : event) : bool := Nat.odd e.
(** rene/_clipping/event.py:14-16 [left_event_to_position]. *)
Definition left_event_to_position (e : event) : nat := (e / 2)%nat.

Definition origin : point := Pt 0 0.

(** rene/_clipping/linear.py:70-122: the attributes of [Operation] (the two
    callbacks are those of the exact context, [second_segments_count] is not read
    by anything modelled here).  [op_clock] is not an attribute: it counts the
    iterations so that the shape of the tree may differ from one to another. *)
Record operation := Operation {
  op_first_count : nat;
  op_endpoints : list point;
  op_opposites : list event;
  op_segments_ids : list nat;
  op_queue : list event;
  op_line : list event;
  op_clock : nat }.

(** rene/_clipping/linear.py:61-62 [to_event_start]. *)
Definition to_event_start (o : operation) (e : event) : point :=
  nth e (op_endpoints o) origin.
(** rene/_clipping/linear.py:64-65 [to_opposite_event]. *)
Definition to_opposite_event (o : operation) (e : event) : event :=
  nth e (op_opposites o) O.
(** rene/_clipping/linear.py:58-59 [to_event_end]. *)
Definition to_event_end (o : operation) (e : event) : point :=
  to_event_start o (to_opposite_event o e).
(** rene/_clipping/linear.py:344-345 [_left_event_to_segment_id]. *)
Definition left_event_to_segment_id (o : operation) (e : event) : nat :=
  nth (left_event_to_position e) (op_segments_ids o) O.
(** rene/_clipping/linear.py:339-342 [_is_left_event_from_first_operand]. *)
Definition is_left_event_from_first_operand (o : operation) (e : event) : bool :=
  (left_event_to_segment_id o e <? op_first_count o)%nat.
(** rene/_clipping/linear.py:362-363 [_to_left_event]. *)
Definition to_left_event (o : operation) (e : event) : event :=
  if is_event_left e then e else to_opposite_event o e.
(** rene/_clipping/linear.py:334-337 [_is_event_from_first_operand]. *)
Definition is_event_from_first_operand (o : operation) (e : event) : bool :=
  is_left_event_from_first_operand o (to_left_event o e).

(** rene/_clipping/linear.py:379-386 [_populate_with_segments]. *)
Definition populate_with_segments (segments : list segment) : list point :=
  flat_map (fun s => let (start, end_) := to_sorted_pair (seg_start s) (seg_end s) in
                     [start; end_]) segments.

(** rene/_clipping/linear.py:27-47 [from_segments_iterables] and 81-122
    [__init__]. *)
Definition from_segments_iterables (first second : list segment) : operation :=
  let endpoints := populate_with_segments first ++ populate_with_segments second in
  let first_count := (length (populate_with_segments first) / 2)%nat in
  let second_count := (length endpoints / 2 - first_count)%nat in
  let segments_count := (first_count + second_count)%nat in
  let initial_events_count := (2 * segments_count)%nat in
  {| op_first_count := first_count;
     op_endpoints := endpoints;
     op_opposites :=
       map (fun index => (index / 2 * 2 + (if Nat.even index then 1 else 0))%nat)
           (seq 0 initial_events_count);
     op_segments_ids := seq 0 segments_count;
     op_queue := seq 0 initial_events_count;
     op_line := [];
     op_clock := 0 |}.

(** rene/_clipping/events_queue_key.py:43-89 [EventsQueueKey.__lt__]; [None]: the
    assertion of lines 77-79 fails. *)
Definition queue_key_lt (o : operation) (e other : event) : option bool :=
  let start := to_event_start o e in
  let other_start := to_event_start o other in
  if negb (qeqb (px start) (px other_start))
  then Some (qltb (px start) (px other_start))
  else if negb (qeqb (py start) (py other_start))
  then Some (qltb (py start) (py other_start))
  else if negb (Bool.eqb (is_event_left e) (is_event_left other))
  then Some (negb (is_event_left e))
  else
    let other_end_orientation :=
      orient start (to_event_end o e) (to_event_end o other) in
    if orientation_is other_end_orientation COLLINEAR
    then if negb (Bool.eqb (is_event_from_first_operand o e)
                           (is_event_from_first_operand o other))
         then Some (is_event_from_first_operand o other)
         else None
    else Some (orientation_is other_end_orientation
                 (if is_event_left e then COUNTERCLOCKWISE else CLOCKWISE)).

(** rene/_clipping/sweep_line_key.py:42-91 [SweepLineKey.__lt__] (the operand of a
    left event never changes, so reading it now is reading the attribute). *)
Definition line_key_lt (o : operation) (e other : event) : bool :=
  let start := to_event_start o e in
  let other_start := to_event_start o other in
  let end_ := to_event_end o e in
  let other_end := to_event_end o other in
  let other_start_orientation := orient start end_ other_start in
  let other_end_orientation := orient start end_ other_end in
  if orientation_is other_start_orientation other_end_orientation
  then
    if negb (orientation_is other_start_orientation COLLINEAR)
    then orientation_is other_start_orientation COUNTERCLOCKWISE
    else if negb (Bool.eqb (is_left_event_from_first_operand o e)
                           (is_left_event_from_first_operand o other))
    then is_left_event_from_first_operand o e
    else if negb (qeqb (py start) (py other_start))
    then qltb (py start) (py other_start)
    else if negb (qeqb (px start) (px other_start))
    then qltb (px start) (px other_start)
    else if negb (qeqb (py end_) (py other_end))
    then qltb (py end_) (py other_end)
    else qltb (px end_) (px other_end)
  else
    let start_orientation := orient other_start other_end start in
    let end_orientation := orient other_start other_end end_ in
    if orientation_is start_orientation end_orientation
    then orientation_is start_orientation CLOCKWISE
    else if orientation_is other_start_orientation COLLINEAR
    then orientation_is other_end_orientation COUNTERCLOCKWISE
    else if orientation_is start_orientation COLLINEAR
    then orientation_is end_orientation CLOCKWISE
    else if orientation_is end_orientation COLLINEAR
    then orientation_is start_orientation CLOCKWISE
    else orientation_is other_start_orientation COUNTERCLOCKWISE.

(** ** The queue *)

(** The event of [candidates] or [best] found by scanning. *)
Fixpoint queue_min (o : operation) (best : event) (candidates : list event)
  : option event :=
  match candidates with
  | [] => Some best
  | e :: rest =>
      match queue_key_lt o e best with
      | None => None
      | Some true => queue_min o e rest
      | Some false => queue_min o best rest
      end
  end.
Definition set_queue (o : operation) (queue : list event) : operation :=
  {| op_first_count := op_first_count o; op_endpoints := op_endpoints o;
     op_opposites := op_opposites o; op_segments_ids := op_segments_ids o;
     op_queue := queue; op_line := op_line o; op_clock := op_clock o |}.
Definition set_line (o : operation) (line : list event) : operation :=
  {| op_first_count := op_first_count o; op_endpoints := op_endpoints o;
     op_opposites := op_opposites o; op_segments_ids := op_segments_ids o;
     op_queue := op_queue o; op_line := line; op_clock := op_clock o |}.
Definition tick (o : operation) : operation :=
  {| op_first_count := op_first_count o; op_endpoints := op_endpoints o;
     op_opposites := op_opposites o; op_segments_ids := op_segments_ids o;
     op_queue := op_queue o; op_line := op_line o; op_clock := S (op_clock o) |}.
(** Leaves out the first occurrence of an event. *)
Fixpoint drop_event (e : event) (l : list event) : list event :=
  match l with
  | [] => []
  | x :: r => if (x =? e)%nat then r else x :: drop_event e r
  end.
(** rene/_clipping/linear.py:347-348 [_pop] on a non-empty queue. *)
Definition pop (o : operation) : option (event * operation) :=
  match op_queue o with
  | [] => None
  | e :: rest =>
      match queue_min o e rest with
      | None => None
      | Some best => Some (best, set_queue o (drop_event best (op_queue o)))
      end
  end.
(** rene/_clipping/linear.py:350-351 [_push]. *)
Definition push (o : operation) (e : event) : operation :=
  set_queue o (op_queue o ++ [e]).

(** ** The sweep line *)

(** The choice of a root for every contiguous part of the tree, at every
    iteration and for every operation on the map within it. *)
Definition tree_shape := nat -> nat -> list event -> nat.

(** Lookup of the key of [e]: the entries below it, the entry with an equal key,
    the entries above. *)
Fixpoint search (fuel : nat) (root : list event -> nat) (o : operation) (e : event)
  (entries : list event) : list event * option event * list event :=
  match fuel with
  | O => ([], None, entries)
  | S fuel =>
      let i := Nat.modulo (root entries) (length entries) in
      match nth_error entries i with
      | None => ([], None, [])
      | Some x =>
          let lower := firstn i entries in
          let upper := skipn (S i) entries in
          if line_key_lt o e x
          then let '(below, found, above) := search fuel root o e lower in
               (below, found, above ++ x :: upper)
          else if line_key_lt o x e
          then let '(below, found, above) := search fuel root o e upper in
               (lower ++ x :: below, found, above)
          else (lower, Some x, upper)
      end
  end.
Definition lookup (shape : tree_shape) (index : nat) (o : operation) (e : event)
  : list event * option event * list event :=
  search (length (op_line o)) (shape (op_clock o) index) o e (op_line o).

(** rene/_clipping/linear.py:330-332 [_find]. *)
Definition find_event (shape : tree_shape) (index : nat) (o : operation) (e : event)
  : option event :=
  let '(_, found, _) := lookup shape index o e in found.
(** rene/_clipping/linear.py:154-159 [_above]: [next] of the found entry, [None]
    when the key is absent or nothing follows it (KeyError). *)
Definition above_event (shape : tree_shape) (index : nat) (o : operation) (e : event)
  : option event :=
  let '(_, found, above) := lookup shape index o e in
  match found with None => None | Some _ => hd_error above end.
(** rene/_clipping/linear.py:165-170 [_below]. *)
Definition below_event (shape : tree_shape) (index : nat) (o : operation) (e : event)
  : option event :=
  let '(below, found, _) := lookup shape index o e in
  match found with None => None | Some _ => hd_error (rev below) end.
(** rene/_clipping/linear.py:161-163 [_add]. *)
Definition add_event (shape : tree_shape) (index : nat) (o : operation) (e : event)
  : operation :=
  let '(below, _, above) := lookup shape index o e in
  set_line o (below ++ e :: above).
(** rene/_clipping/linear.py:353-355 [_remove]; the key is present. *)
Definition remove_event (shape : tree_shape) (index : nat) (o : operation) (e : event)
  : operation :=
  let '(below, _, above) := lookup shape index o e in
  set_line o (below ++ above).

(** ** Divisions *)

(** rene/_clipping/linear.py:276-298 [_divide] followed by the two pushes all of
    its callers do (the operation, the events pushed first and second are
    [mid_point_to_event_start_event] and [mid_point_to_event_end_event]).  The
    assertions of lines 289-297 compare an identifier with its own copy. *)
Definition divide_event_by_midpoint (o : operation) (e : event) (mid_point : point)
  : option operation :=
  if is_event_left e then
    let opposite_event := to_opposite_event o e in
    let mid_point_to_event_end_event := length (op_endpoints o) in
    let mid_point_to_event_start_event := S (length (op_endpoints o)) in
    let opposites :=
      set_nth (op_opposites o ++ [opposite_event]) opposite_event
              mid_point_to_event_end_event in
    let opposites :=
      set_nth (opposites ++ [e]) e mid_point_to_event_start_event in
    let o' :=
      {| op_first_count := op_first_count o;
         op_endpoints := op_endpoints o ++ [mid_point; mid_point];
         op_opposites := opposites;
         op_segments_ids := op_segments_ids o ++ [left_event_to_segment_id o e];
         op_queue := op_queue o; op_line := op_line o; op_clock := op_clock o |} in
    Some (push (push o' mid_point_to_event_start_event) mid_point_to_event_end_event)
  else None.

Definition then_divide (o : option operation) (e : event) (mid_point : point)
  : option operation :=
  match o with
  | None => None
  | Some o => divide_event_by_midpoint o e mid_point
  end.

(** rene/_clipping/linear.py:172-274 [_detect_intersection], with 300-308
    [_divide_event_by_mid_segment_event_endpoints] and 319-328
    [_divide_overlapping_events] in place. *)
Definition detect_intersection (o : operation) (below e : event) : option operation :=
  let start := to_event_start o e in
  let end_ := to_event_end o e in
  let below_start := to_event_start o below in
  let below_end := to_event_end o below in
  let start_orientation := orient below_end below_start start in
  let end_orientation := orient below_end below_start end_ in
  if orientation_is start_orientation end_orientation
  then
    if orientation_is start_orientation COLLINEAR
    then
      if negb (Bool.eqb (is_left_event_from_first_operand o below)
                        (is_left_event_from_first_operand o e))
         || point_eq end_ below_start || point_eq start below_end
      then
        if point_eq start below_start
        then
          if negb (point_eq end_ below_end)
          then
            let '(max_end_event, min_end_event) :=
              if point_lt end_ below_end then (below, e) else (e, below) in
            divide_event_by_midpoint o max_end_event (to_event_end o min_end_event)
          else Some o
        else if point_eq end_ below_end
        then
          let '(max_start_event, min_start_event) :=
            if point_lt start below_start then (below, e) else (e, below) in
          divide_event_by_midpoint o min_start_event (to_event_start o max_start_event)
        else if point_lt below_start start && point_lt start below_end
        then
          if point_lt end_ below_end
          then then_divide (divide_event_by_midpoint o below end_) below start
          else then_divide (divide_event_by_midpoint o e below_end) below start
        else if point_lt start below_start && point_lt below_start end_
        then
          if point_lt below_end end_
          then then_divide (divide_event_by_midpoint o e below_end) e below_start
          else then_divide (divide_event_by_midpoint o below end_) e below_start
        else Some o
      else None
    else Some o
  else if orientation_is start_orientation COLLINEAR
  then
    if point_lt below_start start && point_lt start below_end
    then divide_event_by_midpoint o below start
    else Some o
  else if orientation_is end_orientation COLLINEAR
  then
    if point_lt below_start end_ && point_lt end_ below_end
    then divide_event_by_midpoint o below end_
    else Some o
  else
    let below_start_orientation := orient start end_ below_start in
    let below_end_orientation := orient start end_ below_end in
    if orientation_is below_start_orientation COLLINEAR
    then
      if negb (orientation_is below_end_orientation COLLINEAR)
      then
        if point_lt start below_start && point_lt below_start end_
        then divide_event_by_midpoint o e below_start
        else Some o
      else None
    else if orientation_is below_end_orientation COLLINEAR
    then
      if point_lt start below_end && point_lt below_end end_
      then divide_event_by_midpoint o e below_end
      else Some o
    else if negb (orientation_is below_start_orientation below_end_orientation)
    then
      let cross_point := to_segments_intersection start end_ below_start below_end in
      if point_lt start cross_point && point_lt cross_point end_
         && point_lt below_start cross_point && point_lt cross_point below_end
      then then_divide (divide_event_by_midpoint o below cross_point) e cross_point
      else None
    else Some o.

Definition detect_optional (o : operation) (below e : option event) : option operation :=
  match below, e with
  | Some below, Some e => detect_intersection o below e
  | _, _ => Some o
  end.

(** ** Iteration *)

(** rene/_clipping/linear.py:127-152 [__iter__]: the body of the loop for the
    popped event. *)
Definition process_event (shape : tree_shape) (o : operation) (e : event)
  : option operation :=
  if is_event_right e
  then
    let opposite_event := to_opposite_event o e in
    if is_event_left opposite_event
    then
      match find_event shape 0 o opposite_event with
      | Some equal_segment_event =>
          let above := above_event shape 1 o equal_segment_event in
          let below := below_event shape 2 o equal_segment_event in
          detect_optional (remove_event shape 3 o equal_segment_event) below above
      | None => Some o
      end
    else None
  else
    match find_event shape 0 o e with
    | None =>
        let o := add_event shape 1 o e in
        let above := above_event shape 2 o e in
        let below := below_event shape 3 o e in
        match detect_optional o (Some e) above with
        | None => None
        | Some o => detect_optional o below (Some e)
        end
    | Some _ => Some o
    end.

(** The outcome of a sweep: it ends, leaving the operation and the recorded left
    events; an assertion fails; or the given number of iterations was not
    enough. *)
Inductive sweep_outcome :=
| Sweeps (o : operation) (events : list event)
| AssertionFails
| OutOfFuel.

(** The loops of the callers over [__iter__], e.g. union.py:225-229 without and
    intersection.py:609-614 with a right limit of the abscissa: after the event is
    processed and yielded, the loop is left when the event is beyond the limit,
    else the opposite of a right event is recorded. *)
Definition is_beyond (limit : option Qc) (o : operation) (e : event) : bool :=
  match limit with
  | None => false
  | Some x => qltb x (px (to_event_start o e))
  end.
Fixpoint sweep (fuel : nat) (shape : tree_shape) (limit : option Qc) (o : operation)
  (events : list event) : sweep_outcome :=
  match fuel with
  | O => OutOfFuel
  | S fuel =>
      match op_queue o with
      | [] => Sweeps o events
      | _ =>
          match pop (tick o) with
          | None => AssertionFails
          | Some (e, o) =>
              match process_event shape o e with
              | None => AssertionFails
              | Some o =>
                  if is_beyond limit o e then Sweeps o events
                  else sweep fuel shape limit o
                         (if is_event_right e
                          then events ++ [to_opposite_event o e] else events)
              end
          end
      end
  end.

(** ** Reduction of the recorded events *)

(** rene/_clipping/linear.py:357-360 [_to_event_endpoints]. *)
Definition to_event_endpoints (o : operation) (e : event) : segment :=
  Seg (to_event_start o e) (to_event_end o e).
(** Python's [itertools.groupby] with the endpoints as the key (tuples of points
    are compared with [==] element by element). *)
Definition same_endpoints (s t : segment) : bool :=
  point_eq (seg_start s) (seg_start t) && point_eq (seg_end s) (seg_end t).
Fixpoint group_events (o : operation) (events : list event)
  : list (segment * list event) :=
  match events with
  | [] => []
  | e :: rest =>
      match group_events o rest with
      | (key, group) :: groups =>
          if same_endpoints (to_event_endpoints o e) key
          then (to_event_endpoints o e, e :: group) :: groups
          else (to_event_endpoints o e, [e]) :: (key, group) :: groups
      | [] => [(to_event_endpoints o e, [e])]
      end
  end.
(** rene/_clipping/utils.py:5-11 [has_two_or_more_elements]. *)
Definition has_two_or_more_elements {A : Type} (l : list A) : bool :=
  match l with _ :: _ :: _ => true | _ => false end.

Definition reduce_groups (keep : list event -> bool) (o : operation)
  (events : list event) : list segment :=
  map fst (filter (fun group => keep (snd group)) (group_events o events)).
(** rene/_clipping/union.py:22-34 [LinearUnion.reduce_events]. *)
Definition reduce_union (o : operation) : list event -> list segment :=
  reduce_groups (fun _ => true) o.
(** rene/_clipping/intersection.py:24-37 [LinearIntersection.reduce_events]. *)
Definition reduce_intersection (o : operation) : list event -> list segment :=
  reduce_groups has_two_or_more_elements o.
(** rene/_clipping/difference.py:26-42 [LinearDifference.reduce_events]. *)
Definition reduce_difference (o : operation) : list event -> list segment :=
  reduce_groups (forallb (is_event_from_first_operand o)) o.
(** rene/_clipping/symmetric_difference.py:23-36
    [LinearSymmetricDifference.reduce_events]. *)
Definition reduce_symmetric_difference (o : operation) : list event -> list segment :=
  reduce_groups (fun group => negb (has_two_or_more_elements group)) o.

(** ** The operations *)

Inductive clip_outcome :=
| Clips (g : geometry)
| Raises  (** AssertionError or ValueError *)
| RunsOut.

Definition clip_of (g : option geometry) : clip_outcome :=
  match g with Some g => Clips g | None => Raises end.

(** rene/_utils.py:379-384 [to_boxes_have_common_continuum] followed by 165-170
    [flags_to_false_indices], [flags_to_true_indices] and indexing, or 399-408
    [to_boxes_ids_with_common_continuum]: the segments whose boxes have, or do not
    have, a common continuum with the box. *)
Definition with_common_continuum (b : box) (segments : list segment) : list segment :=
  filter (fun s => do_boxes_have_common_continuum (segment_bounding_box s) b) segments.
Definition without_common_continuum (b : box) (segments : list segment) : list segment :=
  filter (fun s => negb (do_boxes_have_common_continuum (segment_bounding_box s) b))
         segments.

(** Python's [min]/[max] over a non-empty generator of scalars. *)
Definition min_of (values : list Qc) : Qc :=
  match values with [] => 0%Qc | v :: r => fold_left q_min r v end.
Definition max_of (values : list Qc) : Qc :=
  match values with [] => 0%Qc | v :: r => fold_left q_max r v end.
Definition min_x_of (segments : list segment) : Qc :=
  min_of (map (fun s => min_x (segment_bounding_box s)) segments).
Definition max_x_of (segments : list segment) : Qc :=
  max_of (map (fun s => max_x (segment_bounding_box s)) segments).
(** The filter of the generators of intersection.py:592-608, difference.py:447-454:
    the segments that reach into the given range of abscissas. *)
Definition reaching (low high : Qc) (segments : list segment) : list segment :=
  filter (fun s => qleb low (q_max (px (seg_start s)) (px (seg_end s)))
                   && qleb (q_min (px (seg_start s)) (px (seg_end s))) high) segments.

(** rene/_clipping/union.py:182-251 [unite_multisegmental_with_multisegmental]. *)
Definition unite_multisegmental_with_multisegmental
  (fuel : nat) (shape : tree_shape) (first second : geometry) : clip_outcome :=
  let first_box := bounding_box first in
  let second_box := bounding_box second in
  let first_segments := segments_of first in
  let second_segments := segments_of second in
  let both := new_multisegment (first_segments ++ second_segments) in
  if do_boxes_have_no_common_continuum first_box second_box then clip_of both
  else
    match with_common_continuum second_box first_segments,
          with_common_continuum first_box second_segments with
    | [], _ | _, [] => clip_of both
    | first_common, second_common =>
        match sweep fuel shape None
                (from_segments_iterables first_common second_common) [] with
        | Sweeps o events =>
            clip_of (collect_non_empty_segments
              (reduce_union o events
               ++ without_common_continuum second_box first_segments
               ++ without_common_continuum first_box second_segments))
        | AssertionFails => Raises
        | OutOfFuel => RunsOut
        end
    end.

(** rene/_clipping/intersection.py:529-625
    [intersect_multisegmental_with_multisegmental]. *)
Definition intersect_multisegmental_with_multisegmental
  (fuel : nat) (shape : tree_shape) (first second : geometry) : clip_outcome :=
  let first_box := bounding_box first in
  let second_box := bounding_box second in
  if do_boxes_have_no_common_continuum first_box second_box then Clips GEmpty
  else
    match with_common_continuum second_box (segments_of first),
          with_common_continuum first_box (segments_of second) with
    | [], _ | _, [] => Clips GEmpty
    | first_common, second_common =>
        let max_min_x := q_max (min_x_of first_common) (min_x_of second_common) in
        let min_max_x := q_min (max_x_of first_common) (max_x_of second_common) in
        match sweep fuel shape (Some min_max_x)
                (from_segments_iterables (reaching max_min_x min_max_x first_common)
                                         (reaching max_min_x min_max_x second_common))
                [] with
        | Sweeps o events =>
            clip_of (collect_maybe_empty_segments (reduce_intersection o events))
        | AssertionFails => Raises
        | OutOfFuel => RunsOut
        end
    end.

(** rene/_clipping/difference.py:393-479
    [subtract_multisegmental_from_multisegmental]. *)
Definition subtract_multisegmental_from_multisegmental
  (fuel : nat) (shape : tree_shape) (minuend subtrahend : geometry) : clip_outcome :=
  let minuend_box := bounding_box minuend in
  let subtrahend_box := bounding_box subtrahend in
  if do_boxes_have_no_common_continuum minuend_box subtrahend_box then Clips minuend
  else
    match with_common_continuum subtrahend_box (segments_of minuend),
          with_common_continuum minuend_box (segments_of subtrahend) with
    | [], _ | _, [] => Clips minuend
    | minuend_common, subtrahend_common =>
        let minuend_max_x := max_x_of minuend_common in
        let minuend_min_x := min_x_of minuend_common in
        match sweep fuel shape (Some minuend_max_x)
                (from_segments_iterables minuend_common
                   (reaching minuend_min_x minuend_max_x subtrahend_common)) [] with
        | Sweeps o events =>
            clip_of (collect_maybe_empty_segments
              (reduce_difference o events
               ++ without_common_continuum subtrahend_box (segments_of minuend)))
        | AssertionFails => Raises
        | OutOfFuel => RunsOut
        end
    end.

(** rene/_clipping/difference.py:482-545 [subtract_multisegmental_from_segment]. *)
Definition subtract_multisegmental_from_segment
  (fuel : nat) (shape : tree_shape) (minuend : segment) (subtrahend : geometry)
  : clip_outcome :=
  let minuend_box := segment_bounding_box minuend in
  let subtrahend_box := bounding_box subtrahend in
  if do_boxes_have_no_common_continuum minuend_box subtrahend_box
  then Clips (GSegment minuend)
  else
    match with_common_continuum minuend_box (segments_of subtrahend) with
    | [] => Clips (GSegment minuend)
    | subtrahend_common =>
        match sweep fuel shape (Some (max_x minuend_box))
                (from_segments_iterables [minuend]
                   (reaching (min_x minuend_box) (max_x minuend_box)
                             subtrahend_common)) [] with
        | Sweeps o events =>
            clip_of (collect_maybe_empty_segments (reduce_difference o events))
        | AssertionFails => Raises
        | OutOfFuel => RunsOut
        end
    end.

(** rene/_clipping/symmetric_difference.py:383-441
    [symmetric_subtract_multisegmental_from_segment]. *)
Definition symmetric_subtract_multisegmental_from_segment
  (fuel : nat) (shape : tree_shape) (minuend : segment) (subtrahend : geometry)
  : clip_outcome :=
  let minuend_box := segment_bounding_box minuend in
  let subtrahend_box := bounding_box subtrahend in
  let subtrahend_segments := segments_of subtrahend in
  let both := new_multisegment (minuend :: subtrahend_segments) in
  if do_boxes_have_no_common_continuum minuend_box subtrahend_box then clip_of both
  else
    match with_common_continuum minuend_box subtrahend_segments with
    | [] => clip_of both
    | subtrahend_common =>
        match sweep fuel shape None
                (from_segments_iterables [minuend] subtrahend_common) [] with
        | Sweeps o events =>
            clip_of (collect_maybe_empty_segments
              (reduce_symmetric_difference o events
               ++ without_common_continuum minuend_box subtrahend_segments))
        | AssertionFails => Raises
        | OutOfFuel => RunsOut
        end
    end.

(** rene/_clipping/symmetric_difference.py:444-500
    [symmetric_subtract_segment_from_multisegmental]. *)
Definition symmetric_subtract_segment_from_multisegmental
  (fuel : nat) (shape : tree_shape) (minuend : geometry) (subtrahend : segment)
  : clip_outcome :=
  let minuend_box := bounding_box minuend in
  let subtrahend_box := segment_bounding_box subtrahend in
  let minuend_segments := segments_of minuend in
  let both := new_multisegment (minuend_segments ++ [subtrahend]) in
  if do_boxes_have_no_common_continuum minuend_box subtrahend_box then clip_of both
  else
    match with_common_continuum subtrahend_box minuend_segments with
    | [] => clip_of both
    | minuend_common =>
        match sweep fuel shape None
                (from_segments_iterables minuend_common [subtrahend]) [] with
        | Sweeps o events =>
            clip_of (collect_maybe_empty_segments
              (reduce_symmetric_difference o events
               ++ without_common_continuum subtrahend_box minuend_segments))
        | AssertionFails => Raises
        | OutOfFuel => RunsOut
        end
    end.

(** rene/_clipping/symmetric_difference.py:503-583
    [symmetric_subtract_multisegmental_from_multisegmental]. *)
Definition symmetric_subtract_multisegmental_from_multisegmental
  (fuel : nat) (shape : tree_shape) (minuend subtrahend : geometry) : clip_outcome :=
  let minuend_box := bounding_box minuend in
  let subtrahend_box := bounding_box subtrahend in
  let minuend_segments := segments_of minuend in
  let subtrahend_segments := segments_of subtrahend in
  let both := new_multisegment (minuend_segments ++ subtrahend_segments) in
  if do_boxes_have_no_common_continuum minuend_box subtrahend_box then clip_of both
  else
    match with_common_continuum subtrahend_box minuend_segments,
          with_common_continuum minuend_box subtrahend_segments with
    | [], _ | _, [] => clip_of both
    | minuend_common, subtrahend_common =>
        match sweep fuel shape None
                (from_segments_iterables minuend_common subtrahend_common) [] with
        | Sweeps o events =>
            clip_of (collect_maybe_empty_segments
              (reduce_symmetric_difference o events
               ++ without_common_continuum subtrahend_box minuend_segments
               ++ without_common_continuum minuend_box subtrahend_segments))
        | AssertionFails => Raises
        | OutOfFuel => RunsOut
        end
    end.
