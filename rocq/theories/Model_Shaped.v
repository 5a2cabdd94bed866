(** Model of the plane sweep for two shaped operands: rene/_clipping/shaped.py, and of the
    set operations on two polygons built on it.

    The class [Operation] repeats the code of rene/_clipping/linear.py for the events queue,
    the sweep line and what [_detect_intersection] does to the events (the arguments of the
    orienteer that it exchanges flip the sign of both of the values it compares), so these
    parts are the ones of Model_Linear; see there for the containers. *)
From Coq Require Import QArith Qcanon Bool List Arith.
From Verif Require Import QcTac Model_Base Model_Box Model_Utils Model_Geometry Model_Contour Model_Linear
  Model_Mixed.
Import ListNotations.

(** rene/_clipping/shaped.py:787-790 [OverlapKind]. *)
Inductive overlap_kind := NO_OVERLAP | SAME_ORIENTATION | DIFFERENT_ORIENTATION.
Definition kind_is (a b : overlap_kind) : bool :=
  match a, b with
  | NO_OVERLAP, NO_OVERLAP | SAME_ORIENTATION, SAME_ORIENTATION
  | DIFFERENT_ORIENTATION, DIFFERENT_ORIENTATION => true
  | _, _ => false
  end.

(** A list of attributes: entries that were never assigned have the default [d] (whenever an
    event is divided such an entry is appended to every list, lines 499-506, 510-512). *)
Definition put {A : Type} (d : A) (l : list A) (i : nat) (v : A) : list A :=
  set_nth (l ++ repeat d (S i - length l)) i v.

(** rene/_clipping/shaped.py:165-245: the attributes. UNDEFINED_EVENT and UNDEFINED_INDEX are
    [None]. *)
Record shaped_operation := ShapedOperation {
  so : operation;
  so_interior : list bool;            (** have_interior_to_left *)
  so_other : list bool;               (** _other_have_interior_to_left *)
  so_kinds : list overlap_kind;       (** _overlap_kinds *)
  so_result : list bool;              (** _are_from_result *)
  so_below : list (option event);     (** _below_event_from_result *)
  so_starts : list (option nat);      (** _starts_ids *)
  so_current_first : event;           (** _current_endpoint_first_event *)
  so_current_id : nat                 (** _current_endpoint_id *) }.
Definition with_base (s : shaped_operation) (o : operation) : shaped_operation :=
  ShapedOperation o (so_interior s) (so_other s) (so_kinds s) (so_result s) (so_below s)
    (so_starts s) (so_current_first s) (so_current_id s).
Definition other_flag (s : shaped_operation) (e : event) : bool :=
  nth (left_event_to_position e) (so_other s) false.
Definition kind_of (s : shaped_operation) (e : event) : overlap_kind :=
  nth (left_event_to_position e) (so_kinds s) NO_OVERLAP.
Definition result_flag (s : shaped_operation) (e : event) : bool :=
  nth (left_event_to_position e) (so_result s) false.
Definition below_result (s : shaped_operation) (e : event) : option event :=
  nth (left_event_to_position e) (so_below s) None.
Definition start_id (s : shaped_operation) (e : event) : option nat := nth e (so_starts s) None.
Definition interior_flag (s : shaped_operation) (e : event) : bool :=
  nth (left_event_to_segment_id (so s) e) (so_interior s) false.

(** rene/_clipping/shaped.py:34-63 [from_segments_iterables] with 185-245 [__init__] and
    793-808 [_populate_with_segments]; [_peek] of an empty queue gives an event that nothing
    reads. *)
Definition clip_shaped (first second : list segment) : option shaped_operation :=
  let o := from_segments_iterables first second in
  match
    match op_queue o with
    | [] => Some O
    | e :: rest => queue_min o e rest
    end
  with
  | None => None
  | Some first_event =>
      Some (ShapedOperation o (map segment_flag first ++ map segment_flag second)
              [] [] [] [] [] first_event O)
  end.

(** rene/_clipping/shaped.py:620-626 [_is_left_event_inside]. *)
Definition is_inside (s : shaped_operation) (e : event) : bool :=
  other_flag s e && kind_is (kind_of s e) NO_OVERLAP.
(** rene/_clipping/shaped.py:633-639 [_is_left_event_outside]. *)
Definition is_outside (s : shaped_operation) (e : event) : bool :=
  negb (other_flag s e) && kind_is (kind_of s e) NO_OVERLAP.
(** rene/_clipping/shaped.py:641-645 [_is_left_event_overlapping]. *)
Definition is_overlapping (s : shaped_operation) (e : event) : bool :=
  negb (kind_is (kind_of s e) NO_OVERLAP).
(** rene/_clipping/shaped.py:595-603 [_is_left_event_common_polyline_component]. *)
Definition is_common_polyline_component (s : shaped_operation) (e : event) : bool :=
  kind_is (kind_of s e) DIFFERENT_ORIENTATION.
(** rene/_clipping/shaped.py:605-609 [_is_left_event_common_region_boundary]. *)
Definition is_common_region_boundary (s : shaped_operation) (e : event) : bool :=
  kind_is (kind_of s e) SAME_ORIENTATION.
(** rene/_clipping/shaped.py:647-649 [_is_left_event_vertical]. *)
Definition is_vertical (s : shaped_operation) (e : event) : bool :=
  qeqb (px (to_event_start (so s) e)) (px (to_event_end (so s) e)).

(** [_detect_if_left_event_from_result] of rene/_clipping/intersection.py:54-59
    [ShapedIntersection], union.py:37-42 [ShapedUnion], difference.py:52-61
    [ShapedDifference], symmetric_difference.py:39-41 [ShapedSymmetricDifference]. *)
Definition shaped_intersection (s : shaped_operation) (e : event) : bool :=
  is_inside s e
  || (negb (is_left_event_from_first_operand (so s) e) && is_common_region_boundary s e).
Definition shaped_union (s : shaped_operation) (e : event) : bool :=
  is_outside s e
  || (negb (is_left_event_from_first_operand (so s) e) && is_common_region_boundary s e).
Definition shaped_difference (s : shaped_operation) (e : event) : bool :=
  if is_left_event_from_first_operand (so s) e then is_outside s e
  else is_inside s e || is_common_polyline_component s e.
Definition shaped_symmetric_difference (s : shaped_operation) (e : event) : bool :=
  negb (is_overlapping s e).

Section Process.
(** [_detect_if_left_event_from_result]. *)
Variable from_result : shaped_operation -> event -> bool.
Variable shape : tree_shape.

(** rene/_clipping/shaped.py:324-352 [_compute_left_event_fields]. *)
Definition compute_fields (s : shaped_operation) (e : event) (below : option event)
  : shaped_operation :=
  let position := left_event_to_position e in
  let s :=
    match below with
    | None => s
    | Some b =>
        let other :=
          if Bool.eqb (is_left_event_from_first_operand (so s) e)
                      (is_left_event_from_first_operand (so s) b)
          then other_flag s b
          else interior_flag s b in
        let s :=
          ShapedOperation (so s) (so_interior s) (put false (so_other s) position other)
            (so_kinds s) (so_result s) (so_below s) (so_starts s) (so_current_first s)
            (so_current_id s) in
        ShapedOperation (so s) (so_interior s) (so_other s) (so_kinds s) (so_result s)
          (put None (so_below s) position
             (if negb (from_result s b) || is_vertical s b then below_result s b else Some b))
          (so_starts s) (so_current_first s) (so_current_id s)
    end in
  ShapedOperation (so s) (so_interior s) (so_other s) (so_kinds s)
    (put false (so_result s) position (from_result s e)) (so_below s) (so_starts s)
    (so_current_first s) (so_current_id s).

(** rene/_clipping/shaped.py:401-494 [_detect_intersection]. *)
Definition detect_shaped (s : shaped_operation) (below e : event)
  : option (shaped_operation * bool) :=
  match detect_intersection (so s) below e with
  | None => None
  | Some o =>
      if overlap_from_start (so s) below e
      then
        let kind := if Bool.eqb (interior_flag s e) (interior_flag s below)
                    then SAME_ORIENTATION else DIFFERENT_ORIENTATION in
        Some (ShapedOperation o (so_interior s) (so_other s)
                (put NO_OVERLAP
                   (put NO_OVERLAP (so_kinds s) (left_event_to_position below) kind)
                   (left_event_to_position e) kind)
                (so_result s) (so_below s) (so_starts s) (so_current_first s)
                (so_current_id s), true)
      else Some (with_base s o, false)
  end.

(** rene/_clipping/shaped.py:250-293 [__iter__]: the body of the loop after line 257 for the
    popped event, with whether the event is yielded. *)
Definition process_shaped (s : shaped_operation) (e : event) : option (shaped_operation * bool) :=
  if is_event_right e
  then
    let opposite_event := to_opposite_event (so s) e in
    if is_event_left opposite_event
    then
      match find_event shape 0 (so s) opposite_event with
      | Some equal_segment_event =>
          let above := above_event shape 1 (so s) equal_segment_event in
          let below := below_event shape 2 (so s) equal_segment_event in
          let s := with_base s (remove_event shape 3 (so s) equal_segment_event) in
          match below, above with
          | Some below, Some above =>
              match detect_shaped s below above with
              | Some (s, _) => Some (s, true)
              | None => None
              end
          | _, _ => Some (s, true)
          end
      | None => Some (s, true)
      end
    else None
  else
    match find_event shape 0 (so s) e with
    | Some _ => Some (s, false)
    | None =>
        let s := with_base s (add_event shape 1 (so s) e) in
        let below := below_event shape 2 (so s) e in
        let s := compute_fields s e below in
        let above := above_event shape 3 (so s) e in
        match
          match above with
          | None => Some s
          | Some a =>
              match detect_shaped s e a with
              | None => None
              | Some (s, true) => Some (compute_fields (compute_fields s e below) a (Some e))
              | Some (s, false) => Some s
              end
          end
        with
        | None => None
        | Some s =>
            match below with
            | None => Some (s, true)
            | Some b =>
                match detect_shaped s b e with
                | None => None
                | Some (s, true) =>
                    let below_below := below_event shape 4 (so s) b in
                    Some (compute_fields (compute_fields s b below_below) e (Some b), true)
                | Some (s, false) => Some (s, true)
                end
            end
        end
    end.

(** rene/_clipping/shaped.py:250-257 [__iter__]: the event is popped and the identifier of its
    start is recorded. *)
Definition mark_start (s : shaped_operation) (e : event) : shaped_operation :=
  let same := point_eq (to_event_start (so s) (so_current_first s)) (to_event_start (so s) e) in
  let first_event := if same then so_current_first s else e in
  let id := if same then so_current_id s else S (so_current_id s) in
  ShapedOperation (so s) (so_interior s) (so_other s) (so_kinds s) (so_result s) (so_below s)
    (put None (so_starts s) e (Some id)) first_event id.
Definition pop_shaped (s : shaped_operation) : option (event * shaped_operation) :=
  match pop (tick (so s)) with
  | None => None
  | Some (e, o) => Some (e, mark_start (with_base s o) e)
  end.

(** The loops of the callers over [__iter__]: [list(operation)], or intersection.py:961-965,
    difference.py:749-753 with the limit of the abscissa. *)
Inductive shaped_outcome :=
| SweepsShaped (s : shaped_operation) (events : list event)
| ShapedFails
| ShapedRunsOut.
Fixpoint sweep_shaped (fuel : nat) (limit : option Qc) (s : shaped_operation)
  (events : list event) : shaped_outcome :=
  match fuel with
  | O => ShapedRunsOut
  | S fuel =>
      match op_queue (so s) with
      | [] => SweepsShaped s events
      | _ =>
          match pop_shaped s with
          | None => ShapedFails
          | Some (e, s) =>
              match process_shaped s e with
              | None => ShapedFails
              | Some (s, yields) =>
                  if yields && is_beyond limit (so s) e then SweepsShaped s events
                  else sweep_shaped fuel limit s (if yields then events ++ [e] else events)
              end
          end
      end
  end.
End Process.

(** ** Reduction of the recorded events *)

(** rene/_clipping/shaped.py:616-618 [_is_event_from_result]. *)
Definition is_event_from_result (s : shaped_operation) (e : event) : bool :=
  result_flag s (to_left_event (so s) e).

(** Python's [list.sort] with [EventsQueueKey] as the key (line 76); insertion, for the key
    gives different events a strict order.  [None]: an assertion of the comparison fails. *)
Fixpoint insert_event (o : operation) (e : event) (l : list event) : option (list event) :=
  match l with
  | [] => Some [e]
  | x :: rest =>
      match queue_key_lt o e x with
      | None => None
      | Some true => Some (e :: x :: rest)
      | Some false =>
          match insert_event o e rest with
          | None => None
          | Some rest => Some (x :: rest)
          end
      end
  end.
Fixpoint sort_events (o : operation) (l : list event) : option (list event) :=
  match l with
  | [] => Some []
  | e :: rest =>
      match sort_events o rest with
      | None => None
      | Some rest => insert_event o e rest
      end
  end.

(** rene/_clipping/shaped.py:77-79: [events_ids], the position of an event in the list. *)
Fixpoint index_of (e : event) (l : list event) : option nat :=
  match l with
  | [] => None
  | x :: rest => if (x =? e)%nat then Some O
                 else match index_of e rest with None => None | Some i => Some (S i) end
  end.

(** rene/_clipping/shaped.py:552-590 [_events_to_connectivity]: one turn of the loop gives
    the entries for the events that start at one point, [rights] right ones followed by
    [lefts] others, from the position [i] on. *)
Fixpoint count_while {A : Type} (P : A -> bool) (l : list A) : nat :=
  match l with
  | [] => O
  | x :: rest => if P x then S (count_while P rest) else O
  end.
Definition connect_group (i rights lefts : nat) : list nat :=
  (match rights with
   | O => []
   | S r => seq (S i) r ++ [match lefts with O => i | S l => (i + rights + l)%nat end]
   end)
  ++ (match lefts with
      | O => []
      | S l => [match rights with O => (i + l)%nat | S _ => i end] ++ seq (i + rights) l
      end).
Fixpoint events_to_connectivity (fuel : nat) (o : operation) (i : nat) (events : list event)
  : list nat :=
  match fuel, events with
  | S fuel, e :: _ =>
      let start := to_event_start o e in
      let rights :=
        count_while (fun x => point_eq (to_event_start o x) start && negb (is_event_left x))
                    events in
      let lefts :=
        count_while (fun x => point_eq (to_event_start o x) start) (skipn rights events) in
      connect_group i rights lefts
      ++ events_to_connectivity fuel o (i + rights + lefts) (skipn (rights + lefts) events)
  | _, _ => []
  end.

(** The lists that [reduce_events] keeps, indexed by the positions of the events and by the
    contours. *)
Record reduction := Reduction {
  are_processed : list bool;          (** are_events_processed *)
  from_in_to_out : list bool;         (** are_from_in_to_out *)
  contour_ids : list (option nat);    (** contours_ids *)
  are_internal : list bool;
  depths : list nat;
  hole_ids : list (list nat);         (** holes *)
  parents : list (option nat);
  contours : list (list point)        (** contours_vertices *) }.

(** rene/_clipping/shaped.py:811-824 [_to_next_event_id]: [None] when the search does not end
    in the given number of turns, [Some None] for UNDEFINED_INDEX. *)
Fixpoint next_event_id (fuel : nat) (processed : list bool) (connectivity : list nat)
  (event_id candidate : nat) : option (option nat) :=
  match fuel with
  | O => None
  | S fuel =>
      let candidate := nth candidate connectivity O in
      if negb (nth candidate processed false) then Some (Some candidate)
      else if (candidate =? event_id)%nat then Some None
      else next_event_id fuel processed connectivity event_id candidate
  end.

Section Reduce.
Variable s : shaped_operation.
Variable events : list event.
Variable connectivity : list nat.
Notation o := (so s).

(** rene/_clipping/shaped.py:354-392 [_compute_relations]; [None]: a list is indexed with
    UNDEFINED_INDEX. *)
Definition compute_relations (r : reduction) (e : event) (contour_id : nat) : option reduction :=
  let extend (holes_ : list (list nat)) (parent : option nat) (depth : nat) (internal : bool) :=
    Some (Reduction (are_processed r) (from_in_to_out r) (contour_ids r)
            (are_internal r ++ [internal]) (depths r ++ [depth]) (holes_ ++ [[]])
            (parents r ++ [parent]) (contours r)) in
  match below_result s e with
  | None => extend (hole_ids r) None O false
  | Some b =>
      match index_of b events with
      | None => None
      | Some b_id =>
          match nth b_id (contour_ids r) None with
          | None => None
          | Some below_contour =>
              if negb (nth b_id (from_in_to_out r) false)
              then
                if negb (nth below_contour (are_internal r) false)
                then extend (set_nth (hole_ids r) below_contour
                               (nth below_contour (hole_ids r) [] ++ [contour_id]))
                       (Some below_contour) (S (nth below_contour (depths r) O)) true
                else extend (hole_ids r) None O false
              else if nth below_contour (are_internal r) false
              then
                match nth below_contour (parents r) None with
                | None => None
                | Some parent =>
                    extend (set_nth (hole_ids r) parent
                              (nth parent (hole_ids r) [] ++ [contour_id]))
                      (Some parent) (nth below_contour (depths r) O) true
                end
              else extend (hole_ids r) None O false
          end
      end
  end.

(** rene/_clipping/shaped.py:707-757 [_to_contour_events]: the loop of lines 725-747. [None]:
    an assertion fails, a list is indexed with UNDEFINED_INDEX, or the number of turns is not
    enough; the list of the visited endpoints is that of [visited] that are not [None]. *)
Fixpoint contour_events_loop (fuel : nat) (processed : list bool) (contour_start : point)
  (cursor : event) (opposite_id : nat) (visited : list (option nat)) (result : list event)
  : option (list event) :=
  if point_eq (to_event_end o cursor) contour_start then Some result
  else
    match fuel with
    | O => None
    | S fuel =>
        match start_id s (to_opposite_event o cursor) with
        | None => None
        | Some end_id =>
            match
              match nth end_id visited None with
              | None => Some (set_nth visited end_id (Some (length result)), result)
              | Some O => None
              | Some position => Some (visited, firstn position result)
              end
            with
            | None => None
            | Some (visited, result) =>
                match next_event_id (S (length events)) processed connectivity opposite_id
                        opposite_id with
                | None => None
                | Some None => Some result
                | Some (Some event_id) =>
                    let cursor := nth event_id events O in
                    match index_of (to_opposite_event o cursor) events with
                    | None => None
                    | Some opposite_id =>
                        contour_events_loop fuel processed contour_start cursor opposite_id
                          visited (result ++ [cursor])
                    end
                end
            end
        end
    end.
(** rene/_clipping/shaped.py:707-757 [_to_contour_events]; [visited_endpoints_positions] is
    the same list of UNDEFINED_INDEX before and after it. *)
Definition to_contour_events (processed : list bool) (e : event) : option (list event) :=
  match start_id s e, index_of (to_opposite_event o e) events with
  | Some id, Some opposite_id =>
      contour_events_loop (S (length events)) processed (to_event_start o e) e opposite_id
        (set_nth (repeat None (S (so_current_id s))) id (Some O)) [e]
  | _, _ => None
  end.

(** rene/_clipping/shaped.py:664-691 [_process_contour_events]. *)
Definition index_in (e : event) : nat :=
  match index_of e events with None => length events | Some i => i end.
Definition process_contour_event (contour_id : nat) (r : reduction) (e : event) : reduction :=
  let opposite := to_opposite_event o e in
  Reduction (set_nth (set_nth (are_processed r) (index_in e) true) (index_in opposite) true)
    (if is_event_left e then set_nth (from_in_to_out r) (index_in e) false
     else set_nth (from_in_to_out r) (index_in opposite) true)
    (set_nth (contour_ids r) (index_in (if is_event_left e then e else opposite))
             (Some contour_id))
    (are_internal r) (depths r) (hole_ids r) (parents r) (contours r).

(** rene/_clipping/shaped.py:394-399 [_contour_events_to_vertices]; [None]: the assertion of
    rene/_utils.py:351. *)
Definition contour_events_to_vertices (contour_events : list event) : option (list point) :=
  let vertices :=
    to_event_start o (hd O contour_events)
    :: map (to_event_end o) (removelast contour_events) in
  if (length vertices <? 3)%nat then None else Some (shrink_collinear_vertices vertices).

(** rene/_clipping/shaped.py:97-131: the body of the loop. *)
Definition reduce_event (r : reduction) (event_id : nat) (e : event) : option reduction :=
  if nth event_id (are_processed r) false then Some r
  else
    let contour_id := length (contours r) in
    match compute_relations r e contour_id with
    | None => None
    | Some r =>
        match to_contour_events (are_processed r) e with
        | None => None
        | Some contour_events =>
            let r := fold_left (process_contour_event contour_id) contour_events r in
            match contour_events_to_vertices contour_events with
            | None => None
            | Some vertices =>
                let vertices :=
                  if Nat.odd (nth contour_id (depths r) O) then rotate_sequence vertices
                  else vertices in
                Some (Reduction (are_processed r) (from_in_to_out r) (contour_ids r)
                        (are_internal r) (depths r) (hole_ids r) (parents r)
                        (contours r ++ [vertices]))
            end
        end
    end.
Fixpoint reduce_loop (r : reduction) (event_id : nat) (rest : list event) : option reduction :=
  match rest with
  | [] => Some r
  | e :: rest =>
      match reduce_event r event_id e with
      | None => None
      | Some r => reduce_loop r (S event_id) rest
      end
  end.
End Reduce.

(** rene/_clipping/shaped.py:132-157: the polygons; [None]: a contour with less than three
    vertices. *)
Definition contour_of (r : reduction) (id : nat) : option (list point) :=
  match new_contour (nth id (contours r) []) with
  | Some (GContour vertices) => Some vertices
  | _ => None
  end.
Fixpoint all_some {A : Type} (l : list (option A)) : option (list A) :=
  match l with
  | [] => Some []
  | None :: _ => None
  | Some x :: rest => match all_some rest with None => None | Some rest => Some (x :: rest) end
  end.
Definition polygon_of (r : reduction) (id : nat) : option polygon :=
  match contour_of r id, all_some (map (contour_of r) (nth id (hole_ids r) [])) with
  | Some border_, Some holes_ => Some (Poly border_ holes_)
  | _, _ => None
  end.
Definition polygons_of (r : reduction) : option (list polygon) :=
  all_some (flat_map (fun id =>
    if nth id (are_internal r) false
    then map (polygon_of r) (nth id (hole_ids r) [])
    else [polygon_of r id]) (seq 0 (length (contours r)))).

(** rene/_clipping/shaped.py:65-157 [reduce_events]; [None]: an assertion fails, or another
    of the reasons above. *)
Definition reduce_shaped (s : shaped_operation) (events : list event) : option (list polygon) :=
  match filter (is_event_from_result s) events with
  | [] => Some []
  | events =>
      match sort_events (so s) events with
      | None => None
      | Some events =>
          if forallb (fun e => match index_of (to_opposite_event (so s) e) events with
                               | None => false | Some _ => true end) events
          then
            let n := length events in
            match reduce_loop s events (events_to_connectivity n (so s) 0 events)
                    (Reduction (repeat false n) (repeat false n) (repeat None n)
                       [] [] [] [] []) 0 events with
            | None => None
            | Some r => polygons_of r
            end
          else None
      end
  end.

(** ** The operations *)

Definition clip_polygons (from_result : shaped_operation -> event -> bool)
  (collect : list polygon -> option geometry) (fuel : nat) (shape : tree_shape)
  (limit : option Qc) (first second : list segment) : clip_outcome :=
  match clip_shaped first second with
  | None => Raises
  | Some s =>
      match sweep_shaped from_result shape fuel limit s [] with
      | SweepsShaped s events =>
          match reduce_shaped s events with
          | Some polygons => clip_of (collect polygons)
          | None => Raises
          end
      | ShapedFails => Raises
      | ShapedRunsOut => RunsOut
      end
  end.

(** rene/_clipping/intersection.py:914-970 [intersect_polygon_with_polygon]. *)
Definition intersect_polygon_with_polygon (fuel : nat) (shape : tree_shape)
  (first second : polygon) : clip_outcome :=
  let first_box := bounding_box (GPolygon first) in
  let second_box := bounding_box (GPolygon second) in
  if do_boxes_have_no_common_area first_box second_box then Clips GEmpty
  else
    let max_min_x := q_max (min_x first_box) (min_x second_box) in
    let min_max_x := q_min (max_x first_box) (max_x second_box) in
    clip_polygons shaped_intersection collect_maybe_empty_polygons fuel shape (Some min_max_x)
      (reaching max_min_x min_max_x (polygon_to_correctly_oriented_segments first))
      (reaching max_min_x min_max_x (polygon_to_correctly_oriented_segments second)).

(** rene/_clipping/union.py:421-448 [unite_polygon_with_polygon]. *)
Definition unite_polygon_with_polygon (fuel : nat) (shape : tree_shape)
  (first second : polygon) : clip_outcome :=
  let first_box := bounding_box (GPolygon first) in
  let second_box := bounding_box (GPolygon second) in
  if do_boxes_have_no_common_continuum first_box second_box
  then clip_of (new_multipolygon [first; second])
  else
    clip_polygons shaped_union collect_non_empty_polygons fuel shape None
      (polygon_to_correctly_oriented_segments first)
      (polygon_to_correctly_oriented_segments second).

(** rene/_clipping/difference.py:703-758 [subtract_polygon_from_polygon]. *)
Definition subtract_polygon_from_polygon (fuel : nat) (shape : tree_shape)
  (minuend subtrahend : polygon) : clip_outcome :=
  let minuend_box := bounding_box (GPolygon minuend) in
  let subtrahend_box := bounding_box (GPolygon subtrahend) in
  if do_boxes_have_no_common_area minuend_box subtrahend_box then Clips (GPolygon minuend)
  else
    clip_polygons shaped_difference collect_maybe_empty_polygons fuel shape
      (Some (max_x minuend_box))
      (polygon_to_correctly_oriented_segments minuend)
      (reaching (min_x minuend_box) (max_x minuend_box)
         (polygon_to_correctly_oriented_segments subtrahend)).

(** rene/_clipping/symmetric_difference.py:49-87 [symmetric_subtract_polygon_from_polygon]. *)
Definition symmetric_subtract_polygon_from_polygon (fuel : nat) (shape : tree_shape)
  (minuend subtrahend : polygon) : clip_outcome :=
  let first_box := bounding_box (GPolygon minuend) in
  let second_box := bounding_box (GPolygon subtrahend) in
  if do_boxes_have_no_common_continuum first_box second_box
  then clip_of (new_multipolygon [minuend; subtrahend])
  else
    clip_polygons shaped_symmetric_difference collect_maybe_empty_polygons fuel shape None
      (polygon_to_correctly_oriented_segments minuend)
      (polygon_to_correctly_oriented_segments subtrahend).
