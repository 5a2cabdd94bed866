(** Model of rene/_bentley_ottmann: the plane sweep that lists the intersections of
    segments, and of [Multisegment.is_valid] and [Contour.is_valid] built on it.

    The library containers are modelled as in [Model_Linear]: the sweep line is the
    list of its events searched along arbitrary tree shapes; the queue is a list.
    The events queue key is not total here (equal segments have equal keys), so the
    popped event is chosen by an arbitrary function [pick] among the events no event
    of the queue precedes.  Python's AssertionError and the ValueError of removing an
    absent element are modelled by [None]. *)
From Coq Require Import QArith Qcanon Bool List Arith.
From Verif Require Import QcTac Model_Base Model_Box Model_Geometry Model_Utils Model_Contour
  Model_Linear.
Import ListNotations.

(** rene/_bentley_ottmann/events_registry.py:96-122: the attributes of [EventsRegistry].
    Those shared with [linear.Operation] (endpoints, opposites, segments ids, queue,
    sweep line) are kept in its record with 0 as the count of the segments of the first
    operand; [unique] is [False] in the only call. *)
Record registry := Registry {
  rg_op : operation;
  rg_min_collinear : list nat }.

(** rene/_bentley_ottmann/event.py:12-18. *)
Definition segment_id_to_left_event (segment_id : nat) : event := (2 * segment_id)%nat.
Definition segment_id_to_right_event (segment_id : nat) : event := (2 * segment_id + 1)%nat.

(** rene/_bentley_ottmann/events_registry.py:32-60 [from_segments]: event [2 i] is the
    lesser endpoint of the segment number [i], event [2 i + 1] the greater one. *)
Definition registry_from_segments (segments : list segment) : registry :=
  {| rg_op := from_segments_iterables [] segments;
     rg_min_collinear := seq 0 (length segments) |}.

(** rene/_bentley_ottmann/events_queue_key.py:36-66 [EventsQueueKey.__lt__]. *)
Definition registry_queue_key_lt (o : operation) (e other : event) : bool :=
  let start := to_event_start o e in
  let other_start := to_event_start o other in
  if negb (qeqb (px start) (px other_start))
  then qltb (px start) (px other_start)
  else if negb (qeqb (py start) (py other_start))
  then qltb (py start) (py other_start)
  else if negb (Bool.eqb (is_event_left e) (is_event_left other))
  then negb (is_event_left e)
  else point_lt (to_event_end o e) (to_event_end o other).

(** rene/_bentley_ottmann/sweep_line_key.py:36-80 [SweepLineKey.__lt__]. *)
Definition registry_line_key_lt (o : operation) (e other : event) : bool :=
  let start := to_event_start o e in
  let other_start := to_event_start o other in
  let end_ := to_event_end o e in
  let other_end := to_event_end o other in
  let other_start_orientation := orient start end_ other_start in
  let other_end_orientation := orient start end_ other_end in
  if orientation_is other_start_orientation other_end_orientation
  then
    if negb (orientation_is other_start_orientation COLLINEAR)
    then orientation_is other_start_orientation COUNTERCLOCKWISE
    else if qeqb (py start) (py other_start)
    then
      if negb (qeqb (px start) (px other_start))
      then qltb (px start) (px other_start)
      else if negb (qeqb (py end_) (py other_end))
      then qltb (py end_) (py other_end)
      else qltb (px end_) (px other_end)
    else qltb (py start) (py other_start)
  else
    let start_orientation := orient other_start other_end start in
    let end_orientation := orient other_start other_end end_ in
    if orientation_is start_orientation end_orientation
    then orientation_is start_orientation CLOCKWISE
    else if orientation_is other_start_orientation COLLINEAR
    then orientation_is other_end_orientation COUNTERCLOCKWISE
    else if orientation_is start_orientation COLLINEAR
    then orientation_is end_orientation CLOCKWISE
    else if orientation_is end_orientation COLLINEAR
    then orientation_is start_orientation CLOCKWISE
    else orientation_is other_start_orientation COUNTERCLOCKWISE.

(** ** The queue *)

Definition queue_choice := nat -> list event -> nat.
(** The events of the queue no event of the queue precedes. *)
Definition queue_heads (o : operation) : list event :=
  filter (fun e => forallb (fun x => negb (registry_queue_key_lt o x e)) (op_queue o))
         (op_queue o).
(** rene/_bentley_ottmann/events_registry.py:425-426 [_pop]. *)
Definition registry_pop (pick : queue_choice) (o : operation) : option (event * operation) :=
  let heads := queue_heads o in
  match nth_error heads (Nat.modulo (pick (op_clock o) heads) (length heads)) with
  | None => None
  | Some e => Some (e, set_queue o (drop_event e (op_queue o)))
  end.

(** ** The sweep line *)

Fixpoint registry_search (fuel : nat) (root : list event -> nat) (o : operation) (e : event)
  (entries : list event) : list event * option event * list event :=
  match fuel with
  | O => ([], None, entries)
  | S fuel =>
      let i := Nat.modulo (root entries) (length entries) in
      match nth_error entries i with
      | None => ([], None, [])
      | Some x =>
          let lower := firstn i entries in
          let upper := skipn (S i) entries in
          if registry_line_key_lt o e x
          then let '(below, found, above) := registry_search fuel root o e lower in
               (below, found, above ++ x :: upper)
          else if registry_line_key_lt o x e
          then let '(below, found, above) := registry_search fuel root o e upper in
               (lower ++ x :: below, found, above)
          else (lower, Some x, upper)
      end
  end.
Definition registry_lookup (shape : tree_shape) (index : nat) (o : operation) (e : event)
  : list event * option event * list event :=
  registry_search (length (op_line o)) (shape (op_clock o) index) o e (op_line o).

(** rene/_bentley_ottmann/events_registry.py:373-392 [_find]: the greatest entry not
    above the event, if it has the same endpoints. *)
Definition registry_find (shape : tree_shape) (index : nat) (o : operation) (e : event)
  : option event :=
  let '(below, found, _) := registry_lookup shape index o e in
  let candidate := match found with Some x => Some x | None => hd_error (rev below) end in
  match candidate with
  | None => None
  | Some x =>
      if point_eq (to_event_start o x) (to_event_start o e)
         && point_eq (to_event_end o x) (to_event_end o e)
      then Some x else None
  end.
(** rene/_bentley_ottmann/events_registry.py:177-182 [_above]. *)
Definition registry_above (shape : tree_shape) (index : nat) (o : operation) (e : event)
  : option event :=
  let '(_, found, above) := registry_lookup shape index o e in
  match found with None => None | Some _ => hd_error above end.
(** rene/_bentley_ottmann/events_registry.py:188-193 [_below]. *)
Definition registry_below (shape : tree_shape) (index : nat) (o : operation) (e : event)
  : option event :=
  let '(below, found, _) := registry_lookup shape index o e in
  match found with None => None | Some _ => hd_error (rev below) end.
(** rene/_bentley_ottmann/events_registry.py:184-186 [_add]; a set keeps an equal
    element. *)
Definition registry_add (shape : tree_shape) (index : nat) (o : operation) (e : event)
  : operation :=
  let '(below, found, above) := registry_lookup shape index o e in
  match found with
  | None => set_line o (below ++ e :: above)
  | Some _ => o
  end.
(** rene/_bentley_ottmann/events_registry.py:431-433 [_remove]. *)
Definition registry_remove (shape : tree_shape) (index : nat) (o : operation) (e : event)
  : option operation :=
  let '(below, found, above) := registry_lookup shape index o e in
  match found with
  | None => None
  | Some _ => Some (set_line o (below ++ above))
  end.

(** ** Collinear segments *)

(** rene/_bentley_ottmann/events_registry.py:394-423 [_merge_equal_segment_events]. *)
Definition merge_equal_segment_events (r : registry) (first second : event) : registry :=
  let mins := rg_min_collinear r in
  let first_segment_id := left_event_to_segment_id (rg_op r) first in
  let second_segment_id := left_event_to_segment_id (rg_op r) second in
  let first_min := nth first_segment_id mins O in
  let second_min := nth second_segment_id mins O in
  let min_id := Nat.min first_min second_min in
  Registry (rg_op r)
    (set_nth (set_nth (set_nth (set_nth mins first_segment_id min_id)
                               second_segment_id min_id)
                      first_min min_id)
             second_min min_id).
(** rene/_bentley_ottmann/events_registry.py:439-446 [_to_min_collinear_segment_id]
    with the number of iterations. *)
Fixpoint min_collinear_loop (fuel : nat) (mins : list nat) (candidate iterations : nat)
  : nat * nat :=
  match fuel with
  | O => (candidate, iterations)
  | S fuel =>
      if (nth candidate mins O =? candidate)%nat then (candidate, iterations)
      else min_collinear_loop fuel mins (nth candidate mins O) (S iterations)
  end.
Definition to_min_collinear_segment_id (r : registry) (segment_id : nat) : option nat :=
  let (candidate, iterations) :=
    min_collinear_loop (S segment_id) (rg_min_collinear r) segment_id O in
  if (iterations <? 3)%nat then Some candidate else None.
(** rene/_bentley_ottmann/events_registry.py:66-71 [are_collinear]. *)
Definition are_collinear (r : registry) (first second : nat) : option bool :=
  match to_min_collinear_segment_id r first, to_min_collinear_segment_id r second with
  | Some x, Some y => Some (x =? y)%nat
  | _, _ => None
  end.

(** ** Divisions *)

(** rene/_bentley_ottmann/events_registry.py:291-305 [_divide]: the operation, the events
    [mid_point_to_event_start_event] and [mid_point_to_event_end_event]. *)
Definition divide (o : operation) (e : event) (mid_point : point)
  : option (operation * event * event) :=
  if is_event_left e then
    let opposite_event := to_opposite_event o e in
    let mid_point_to_event_end_event := length (op_endpoints o) in
    let mid_point_to_event_start_event := S (length (op_endpoints o)) in
    let opposites :=
      set_nth (op_opposites o ++ [opposite_event]) opposite_event
              mid_point_to_event_end_event in
    let opposites :=
      set_nth (opposites ++ [e]) e mid_point_to_event_start_event in
    Some ({| op_first_count := op_first_count o;
             op_endpoints := op_endpoints o ++ [mid_point; mid_point];
             op_opposites := opposites;
             op_segments_ids := op_segments_ids o ++ [left_event_to_segment_id o e];
             op_queue := op_queue o; op_line := op_line o; op_clock := op_clock o |},
          mid_point_to_event_start_event, mid_point_to_event_end_event)
  else None.
Definition set_op (r : registry) (o : operation) : registry := Registry o (rg_min_collinear r).

(** rene/_bentley_ottmann/events_registry.py:327-334 [_divide_event_by_midpoint]. *)
Definition registry_divide (r : registry) (e : event) (p : point) : option registry :=
  match divide (rg_op r) e p with
  | None => None
  | Some (o, to_start, to_end) => Some (set_op r (push (push o to_start) to_end))
  end.
(** [_divide], [_push] of the event to the start and [_merge_equal_segment_events] of
    another event with the event to the end, as in lines 321-325, 366-371, 233-243. *)
Definition divide_and_merge (r : registry) (e : event) (p : point) (other : event)
  : option registry :=
  match divide (rg_op r) e p with
  | None => None
  | Some (o, to_start, to_end) =>
      Some (merge_equal_segment_events (set_op r (push o to_start)) other to_end)
  end.
(** rene/_bentley_ottmann/events_registry.py:307-325
    [_divide_event_by_mid_segment_event_endpoints]. *)
Definition divide_by_mid_segment (r : registry) (e mid_event : event) (mid_start mid_end : point)
  : option registry :=
  match registry_divide r e mid_end with
  | None => None
  | Some r => divide_and_merge r e mid_start mid_event
  end.
(** rene/_bentley_ottmann/events_registry.py:350-371 [_divide_overlapping_events]. *)
Definition divide_overlapping (r : registry) (min_start_event max_start_event : event)
  (max_start min_end : point) : option registry :=
  match registry_divide r max_start_event min_end with
  | None => None
  | Some r => divide_and_merge r min_start_event max_start max_start_event
  end.
(** rene/_bentley_ottmann/events_registry.py:336-348
    [_divide_event_by_midpoint_checking_above]. *)
Definition divide_checking_above (shape : tree_shape) (index : nat) (r : registry) (e : event)
  (p : point) : option registry :=
  match registry_above shape index (rg_op r) e with
  | Some above =>
      if point_eq (to_event_start (rg_op r) above) (to_event_start (rg_op r) e)
         && point_eq (to_event_end (rg_op r) above) p
      then
        match registry_remove shape (S index) (rg_op r) above with
        | None => None
        | Some o =>
            match registry_divide (set_op r o) e p with
            | None => None
            | Some r => Some (merge_equal_segment_events r e above)
            end
        end
      else registry_divide r e p
  | None => registry_divide r e p
  end.

(** rene/_bentley_ottmann/events_registry.py:195-289 [_detect_intersection]; [index]
    numbers the lookups in the sweep line. *)
Definition registry_detect (shape : tree_shape) (index : nat) (r : registry) (below e : event)
  : option registry :=
  let o := rg_op r in
  let start := to_event_start o e in
  let end_ := to_event_end o e in
  let below_start := to_event_start o below in
  let below_end := to_event_end o below in
  let start_orientation := orient below_end below_start start in
  let end_orientation := orient below_end below_start end_ in
  if orientation_is start_orientation end_orientation
  then
    if orientation_is start_orientation COLLINEAR
    then
      if point_eq start below_start
      then
        if point_eq end_ below_end then None
        else
          let '(max_end_event, min_end_event) :=
            if point_lt end_ below_end then (below, e) else (e, below) in
          match registry_remove shape index o max_end_event with
          | None => None
          | Some o =>
              match divide o max_end_event (to_event_end o min_end_event) with
              | None => None
              | Some (o, _, to_end) =>
                  Some (merge_equal_segment_events (set_op r (push o to_end)) e below)
              end
          end
      else if point_eq end_ below_end
      then
        let '(max_start_event, min_start_event) :=
          if point_lt start below_start then (below, e) else (e, below) in
        divide_and_merge r min_start_event (to_event_start o max_start_event) max_start_event
      else if point_lt below_start start && point_lt start below_end
      then
        if point_lt end_ below_end
        then divide_by_mid_segment r below e start end_
        else divide_overlapping r below e start below_end
      else if point_lt start below_start && point_lt below_start end_
      then
        if point_lt below_end end_
        then divide_by_mid_segment r e below below_start below_end
        else divide_overlapping r e below below_start end_
      else Some r
    else Some r
  else if orientation_is start_orientation COLLINEAR
  then
    if point_lt below_start start && point_lt start below_end
    then registry_divide r below start
    else Some r
  else if orientation_is end_orientation COLLINEAR
  then
    if point_lt below_start end_ && point_lt end_ below_end
    then registry_divide r below end_
    else Some r
  else
    let below_start_orientation := orient start end_ below_start in
    let below_end_orientation := orient start end_ below_end in
    if orientation_is below_start_orientation COLLINEAR
    then
      if orientation_is below_end_orientation COLLINEAR then None
      else if point_lt start below_start && point_lt below_start end_
      then divide_checking_above shape index r e below_start
      else Some r
    else if orientation_is below_end_orientation COLLINEAR
    then
      if point_lt start below_end && point_lt below_end end_
      then divide_checking_above shape index r e below_end
      else Some r
    else if negb (orientation_is below_start_orientation below_end_orientation)
    then
      let cross_point := to_segments_intersection start end_ below_start below_end in
      if point_lt start cross_point && point_lt cross_point end_
         && point_lt below_start cross_point && point_lt cross_point below_end
      then
        match registry_divide r below cross_point with
        | None => None
        | Some r => divide_checking_above shape index r e cross_point
        end
      else None
    else Some r.
Definition registry_detect_optional (shape : tree_shape) (index : nat) (r : registry)
  (below e : option event) : option registry :=
  match below, e with
  | Some below, Some e => registry_detect shape index r below e
  | _, _ => Some r
  end.

(** ** Iteration *)

(** rene/_bentley_ottmann/events_registry.py:138-175 [__iter__]: the body of the loop for
    the popped event, which is always yielded because [unique] is [False]. *)
Definition registry_process (shape : tree_shape) (r : registry) (e : event) : option registry :=
  let o := rg_op r in
  if is_event_left e
  then
    match registry_find shape 0 o e with
    | None =>
        let r := set_op r (registry_add shape 1 o e) in
        match registry_detect_optional shape 3 r (registry_below shape 2 (rg_op r) e) (Some e) with
        | None => None
        | Some r =>
            registry_detect_optional shape 6 r (Some e) (registry_above shape 5 (rg_op r) e)
        end
    | Some equal_segment_event => Some (merge_equal_segment_events r equal_segment_event e)
    end
  else
    let opposite_event := to_opposite_event o e in
    if is_event_left opposite_event
    then
      match registry_find shape 0 o opposite_event with
      | Some equal_segment_event =>
          let above := registry_above shape 1 o equal_segment_event in
          let below := registry_below shape 2 o equal_segment_event in
          match registry_remove shape 3 o equal_segment_event with
          | None => None
          | Some o =>
              match registry_detect_optional shape 4 (set_op r o) below above with
              | None => None
              | Some r =>
                  (* [event != equal_segment_event]: one is right, the other is left *)
                  Some (if negb (e =? equal_segment_event)%nat
                        then merge_equal_segment_events r equal_segment_event opposite_event
                        else r)
              end
          end
      | None => Some r
      end
    else None.

(** ** Intersections *)

(** rene/_bentley_ottmann/base.py:14-66 [Intersection]. *)
Record intersection := Intersection {
  in_first : nat;
  in_second : nat;
  in_relation : relation;
  in_start : point;
  in_end : point }.

(** rene/_bentley_ottmann/events_registry.py:76-91. *)
Definition to_event_segment_id (o : operation) (e : event) : nat :=
  left_event_to_segment_id o (if is_event_left e then e else to_opposite_event o e).
Definition to_segment_start (o : operation) (segment_id : nat) : point :=
  to_event_start o (segment_id_to_left_event segment_id).
Definition to_segment_end (o : operation) (segment_id : nat) : point :=
  to_event_start o (segment_id_to_right_event segment_id).

(** rene/_bentley_ottmann/base.py:116-163: the body of the loop of
    [segments_ids_containing_point_to_intersections]. *)
Definition to_intersection (r : registry) (p : point) (first second : nat)
  : option intersection :=
  let first_start := to_segment_start (rg_op r) first in
  let first_end := to_segment_end (rg_op r) first in
  let second_start := to_segment_start (rg_op r) second in
  let second_end := to_segment_end (rg_op r) second in
  if (first =? second)%nat then Some (Intersection first second EQUAL first_start first_end)
  else
    match are_collinear r first second with
    | None => None
    | Some false =>
        Some (Intersection first second
          (if point_eq first_start p || point_eq first_end p
              || point_eq second_start p || point_eq second_end p
           then TOUCH else CROSS) p p)
    | Some true =>
        Some
          (if point_eq (point_max first_start second_start) (point_min first_end second_end)
           then Intersection first second TOUCH p p
           else if point_eq first_start second_start
           then
             if point_eq first_end second_end
             then Intersection first second EQUAL first_start first_end
             else if point_gt first_end second_end
             then Intersection first second COMPOSITE first_start second_end
             else Intersection first second COMPONENT first_start first_end
           else if point_gt first_start second_start
           then
             if point_gt first_end second_end
             then Intersection first second OVERLAP first_start second_end
             else Intersection first second COMPONENT first_start first_end
           else if point_lt first_end second_end
           then Intersection first second OVERLAP second_start first_end
           else Intersection first second COMPOSITE second_start second_end)
    end.

(** Python's [itertools.combinations(ids, 2)]. *)
Fixpoint pairs_of (ids : list nat) : list (nat * nat) :=
  match ids with
  | [] => []
  | i :: rest => map (pair i) rest ++ pairs_of rest
  end.

(** A consumer of the intersections: it goes on with a state or returns early. *)
Section Consumer.
Context {A : Type}.
Variable visit : A -> intersection -> A + bool.

Inductive consumed :=
| GoesOn (a : A)
| ReturnsEarly (b : bool)
| VisitRaises.

(** rene/_bentley_ottmann/base.py:109-163
    [segments_ids_containing_point_to_intersections]. *)
Fixpoint visit_pairs (r : registry) (p : point) (pairs : list (nat * nat)) (a : A) : consumed :=
  match pairs with
  | [] => GoesOn a
  | (first, second) :: rest =>
      match to_intersection r p first second with
      | None => VisitRaises
      | Some i =>
          match visit a i with
          | inl a => visit_pairs r p rest a
          | inr b => ReturnsEarly b
          end
      end
  end.

Inductive intersections_outcome :=
| AllVisited (a : A)
| Returned (b : bool)
| SweepRaises
| SweepRunsOut.

(** rene/_bentley_ottmann/base.py:69-106 [sweep]; [group] is the current start with the
    identifiers of the segments that contain it, [None] before the first event. *)
Fixpoint sweep_intersections (fuel : nat) (shape : tree_shape) (pick : queue_choice)
  (r : registry) (group : option (point * list nat)) (a : A) : intersections_outcome :=
  match fuel with
  | O => SweepRunsOut
  | S fuel =>
      match op_queue (rg_op r) with
      | [] =>
          match group with
          | None => SweepRaises
          | Some (p, ids) =>
              match visit_pairs r p (pairs_of ids) a with
              | GoesOn a => AllVisited a
              | ReturnsEarly b => Returned b
              | VisitRaises => SweepRaises
              end
          end
      | _ =>
          match registry_pop pick (tick (rg_op r)) with
          | None => SweepRaises
          | Some (e, o) =>
              match registry_process shape (set_op r o) e with
              | None => SweepRaises
              | Some r =>
                  let start := to_event_start (rg_op r) e in
                  let id := to_event_segment_id (rg_op r) e in
                  match group with
                  | None => sweep_intersections fuel shape pick r (Some (start, [id])) a
                  | Some (p, ids) =>
                      if point_eq start p
                      then sweep_intersections fuel shape pick r (Some (p, ids ++ [id])) a
                      else
                        match visit_pairs r p (pairs_of ids) a with
                        | GoesOn a =>
                            sweep_intersections fuel shape pick r (Some (start, [id])) a
                        | ReturnsEarly b => Returned b
                        | VisitRaises => SweepRaises
                        end
                  end
              end
          end
      end
  end.
End Consumer.
Arguments consumed : clear implicits.
Arguments intersections_outcome : clear implicits.

Inductive validity :=
| Validity (b : bool)
| ValidityRaises  (** AssertionError or ValueError *)
| ValidityRunsOut.

(** rene/_geometries/base_multisegment.py:70-78 [Multisegment.is_valid]. *)
Definition visit_touch (a : unit) (i : intersection) : unit + bool :=
  if relation_is (in_relation i) TOUCH then inl a else inr false.
Definition multisegment_is_valid (fuel : nat) (shape : tree_shape) (pick : queue_choice)
  (segments : list segment) : validity :=
  match sweep_intersections visit_touch fuel shape pick (registry_from_segments segments) None tt
  with
  | AllVisited _ => Validity true
  | Returned b => Validity b
  | SweepRaises => ValidityRaises
  | SweepRunsOut => ValidityRunsOut
  end.

(** rene/_geometries/base_contour.py:476-508 [_neighbour_segments_vertices_touch]. *)
Definition absolute_difference (i j : nat) : nat := ((i - j) + (j - i))%nat.
Definition neighbour_segments_vertices_touch (i : intersection) (segments : list segment) : bool :=
  let first_segment := nth (in_first i) segments (Seg origin origin) in
  let second_segment := nth (in_second i) segments (Seg origin origin) in
  relation_is (in_relation i) TOUCH
  && (point_eq (in_start i) (seg_start first_segment)
      || point_eq (in_start i) (seg_end first_segment))
  && (point_eq (in_start i) (seg_start second_segment)
      || point_eq (in_start i) (seg_end second_segment))
  && ((absolute_difference (in_first i) (in_second i) =? 1)%nat
      || (in_first i =? length segments - 1)%nat && (in_second i =? 0)%nat
      || (in_second i =? length segments - 1)%nat && (in_first i =? 0)%nat).
(** rene/_geometries/base_contour.py:82-99 [Contour.is_valid]. *)
Definition visit_neighbours (segments : list segment) (count : nat) (i : intersection)
  : nat + bool :=
  if neighbour_segments_vertices_touch i segments then inl (S count) else inr false.
Definition contour_is_valid (fuel : nat) (shape : tree_shape) (pick : queue_choice)
  (vertices : list point) : validity :=
  if are_contour_vertices_non_degenerate vertices
  then
    let segments := to_contour_segments vertices in
    if (length segments <? 3)%nat then Validity false
    else
      match sweep_intersections (visit_neighbours segments) fuel shape pick
              (registry_from_segments segments) None O
      with
      | AllVisited count => Validity (count =? length segments)%nat
      | Returned b => Validity b
      | SweepRaises => ValidityRaises
      | SweepRunsOut => ValidityRunsOut
      end
  else Validity false.
