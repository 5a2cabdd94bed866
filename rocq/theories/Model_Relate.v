(** Model of [relate_to] where one operand is a segment:
    rene/_relating/segment_endpoints.py and rene/_relating/segment.py.
    [None] stands for AssertionError. *)
From Coq Require Import QArith Qcanon Bool List ZArith Arith.
From Verif Require Import QcTac Model_Base Model_Box Model_Geometry Model_Segment Model_Contour.
Import ListNotations.

(** ** Segment and contour *)

(** The locals of the loop of [relate_to_contour_segments]; [touched] is the pair
    [last_touched_edge_index], [last_touched_edge_start]. *)
Record contour_state := ContourState {
  cs_no_cross : bool;
  cs_no_touch : bool;
  cs_touched : option (nat * point) }.
Inductive contour_step :=
| Returns (r : relation)
| Continues (s : contour_state)
| StepFails.

(** The condition [start != p != end]. *)
Definition differs_from_both (start end_ p : point) : bool :=
  negb (point_eq start p) && negb (point_eq p end_).

(** rene/_relating/segment_endpoints.py:38-77: the body of the loop. *)
Definition relate_to_contour_segment (start end_ : point) (index : nat) (edge : segment)
  (s : contour_state) : contour_step :=
  match relate_to_segment_endpoints start end_ (seg_start edge) (seg_end edge) with
  | Some COMPONENT | Some EQUAL => Returns COMPONENT
  | Some OVERLAP | Some COMPOSITE => Returns OVERLAP
  | Some TOUCH =>
      let touched := Some (index, seg_start edge) in
      if cs_no_touch s then Continues (ContourState (cs_no_cross s) false touched)
      else if cs_no_cross s then
        match cs_touched s with
        | None => StepFails
        | Some (last_index, last_start) =>
            Continues (ContourState
              (negb ((index - last_index =? 1)%nat
                     && differs_from_both start end_ (seg_start edge)
                     && differs_from_both start end_ (seg_end edge)
                     && orientation_is (orient start end_ (seg_start edge)) COLLINEAR
                     && point_vertex_line_divides_angle start (seg_start edge)
                          last_start (seg_end edge)))
              false touched)
        end
      else Continues (ContourState false false touched)
  | Some CROSS => Continues (ContourState false (cs_no_touch s) (cs_touched s))
  | Some DISJOINT => Continues s
  | _ => StepFails
  end.
(** ... and the loop. *)
Fixpoint relate_to_contour_loop (start end_ : point) (index : nat) (edges : list segment)
  (s : contour_state) : contour_step :=
  match edges with
  | [] => Continues s
  | edge :: rest =>
      match relate_to_contour_segment start end_ index edge s with
      | Continues s => relate_to_contour_loop start end_ (S index) rest s
      | done => done
      end
  end.
(** rene/_relating/segment_endpoints.py:28-103 [relate_to_contour_segments]
    (IndexError for no segments at all is [None]). *)
Definition relate_to_contour_segments (start end_ : point) (edges : list segment)
  : option relation :=
  match edges with
  | [] => None
  | first :: _ =>
      match relate_to_contour_loop start end_ 0 edges (ContourState true true None) with
      | StepFails => None
      | Returns r => Some r
      | Continues s =>
          let no_cross :=
            match cs_touched s with
            | Some (last_index, last_start) =>
                if negb (cs_no_touch s) && cs_no_cross s
                   && (last_index =? length edges - 1)%nat
                   && differs_from_both start end_ (seg_start first)
                   && differs_from_both start end_ (seg_end first)
                   && orientation_is (orient start end_ (seg_start first)) COLLINEAR
                then negb (point_vertex_line_divides_angle start (seg_start first)
                             last_start (seg_end first))
                else cs_no_cross s
            | None => cs_no_cross s
            end in
          Some (if no_cross then if cs_no_touch s then DISJOINT else TOUCH else CROSS)
      end
  end.

(** rene/_geometries/base_segment.py:61-62, rene/_relating/segment.py:27-35,
    segment_endpoints.py:18-25: [Segment.relate_to(Contour)]. *)
Definition segment_relate_to_contour (s : segment) (vertices : list point) : option relation :=
  relate_to_contour_segments (seg_start s) (seg_end s) (to_contour_segments vertices).
(** rene/_relating/contour.py:99-106: [Contour.relate_to(Segment)]. *)
Definition contour_relate_to_segment (vertices : list point) (s : segment) : option relation :=
  option_map complement (segment_relate_to_contour s vertices).

(** ** Segment and multisegment *)

Record multisegment_state := MultisegmentState {
  ms_start : point;
  ms_end : point;
  ms_superset : bool;
  ms_no_touch : bool;
  ms_no_cross : bool;
  ms_no_overlap : bool;
  ms_clockwise : list Qc;
  ms_counterclockwise : list Qc;
  ms_components : list (point * point) }.

(** rene/_relating/segment_endpoints.py:148-237: the body of the loop; [None]: the
    relation COMPONENT is returned. *)
Definition relate_to_multisegment_segment (original_start original_end : point)
  (part : segment) (s : multisegment_state) : option (option multisegment_state) :=
  let part_start := seg_start part in
  let part_end := seg_end part in
  match relate_to_segment_endpoints original_start original_end part_start part_end with
  | None => None
  | Some COMPONENT | Some EQUAL => Some None
  | Some COMPOSITE =>
      Some (Some
        (if point_eq (ms_start s) part_start || point_eq (ms_start s) part_end
         then MultisegmentState (point_max part_start part_end) (ms_end s) (ms_superset s)
                (ms_no_touch s) (ms_no_cross s) false (ms_clockwise s)
                (ms_counterclockwise s) (ms_components s)
         else if point_eq (ms_end s) part_start || point_eq (ms_end s) part_end
         then MultisegmentState (ms_start s) (point_min part_start part_end) (ms_superset s)
                (ms_no_touch s) (ms_no_cross s) false (ms_clockwise s)
                (ms_counterclockwise s) (ms_components s)
         else MultisegmentState (ms_start s) (ms_end s) (ms_superset s)
                (ms_no_touch s) (ms_no_cross s) false (ms_clockwise s)
                (ms_counterclockwise s)
                (ms_components s ++ [to_sorted_pair part_start part_end])))
  | Some OVERLAP =>
      let (start, end_) :=
        subtract_segments_overlap (ms_start s) (ms_end s) part_start part_end in
      Some (Some (MultisegmentState start end_ false (ms_no_touch s) (ms_no_cross s) false
                    (ms_clockwise s) (ms_counterclockwise s) (ms_components s)))
  | Some relation =>
      Some (Some
        (if ms_no_overlap s
         then if relation_is relation TOUCH
              then
                if ms_no_cross s
                   && (negb (point_eq part_start original_start)
                       && negb (point_eq original_start part_end))
                   && (negb (point_eq part_start original_end)
                       && negb (point_eq original_end part_end))
                then
                  let scale := to_segments_intersection_scale
                                 original_start original_end part_start part_end in
                  let non_touched_endpoint :=
                    if location_is (locate_point_in_segment original_start original_end part_end)
                         BOUNDARY
                    then part_start else part_end in
                  if orientation_is (orient original_start original_end non_touched_endpoint)
                       COUNTERCLOCKWISE
                  then MultisegmentState (ms_start s) (ms_end s) false false (ms_no_cross s)
                         true (ms_clockwise s) (ms_counterclockwise s ++ [scale])
                         (ms_components s)
                  else MultisegmentState (ms_start s) (ms_end s) false false (ms_no_cross s)
                         true (ms_clockwise s ++ [scale]) (ms_counterclockwise s)
                         (ms_components s)
                else MultisegmentState (ms_start s) (ms_end s) false false (ms_no_cross s)
                       true (ms_clockwise s) (ms_counterclockwise s) (ms_components s)
              else MultisegmentState (ms_start s) (ms_end s) false (ms_no_touch s)
                     (ms_no_cross s && negb (relation_is relation CROSS)) true
                     (ms_clockwise s) (ms_counterclockwise s) (ms_components s)
         else MultisegmentState (ms_start s) (ms_end s) false (ms_no_touch s) (ms_no_cross s)
                false (ms_clockwise s) (ms_counterclockwise s) (ms_components s)))
  end.
(** ... and the loop. *)
Fixpoint relate_to_multisegment_loop (original_start original_end : point)
  (segments : list segment) (s : multisegment_state) : option (option multisegment_state) :=
  match segments with
  | [] => Some (Some s)
  | part :: rest =>
      match relate_to_multisegment_segment original_start original_end part s with
      | Some (Some s) => relate_to_multisegment_loop original_start original_end rest s
      | done => done
      end
  end.

(** [any(scale in set(more) for scale in less)]. *)
Definition have_common (less more : list Qc) : bool :=
  existsb (fun scale => existsb (qeqb scale) more) less.
(** rene/_relating/segment_endpoints.py:264-270: the least start and the greatest end
    of the components. *)
Definition min_component_start (first : point * point) (components : list (point * point))
  : point :=
  fold_left (fun p component => if point_gt p (fst component) then fst component else p)
            components (fst first).
Definition max_component_end (first : point * point) (components : list (point * point))
  : point :=
  fold_left (fun p component => if point_lt p (snd component) then snd component else p)
            components (snd first).

(** rene/_relating/segment_endpoints.py:238-293: after the loop. *)
Definition multisegment_relation (s : multisegment_state) : relation :=
  let inside := if ms_superset s then EQUAL else COMPONENT in
  let outside := if ms_superset s then COMPOSITE else OVERLAP in
  if ms_no_overlap s then
    let no_cross :=
      ms_no_cross s &&
      negb (match ms_clockwise s, ms_counterclockwise s with
            | [], _ | _, [] => false
            | clockwise, counterclockwise =>
                if (length clockwise <? length counterclockwise)%nat
                then have_common clockwise counterclockwise
                else have_common counterclockwise clockwise
            end) in
    if ms_no_touch s && no_cross then DISJOINT else if no_cross then TOUCH else CROSS
  else
    match ms_components s with
    | first :: rest =>
        let starts := map fst (ms_components s) in
        let max_end := max_component_end first rest in
        if point_eq (min_component_start first rest) (ms_start s)
           && point_eq max_end (ms_end s)
           && forallb (fun component => existsb (point_eq (snd component)) starts
                                        || point_eq (snd component) max_end) (ms_components s)
        then inside else outside
    | [] => if point_eq (ms_start s) (ms_end s) then inside else outside
    end.

(** rene/_relating/segment_endpoints.py:124-293 [relate_to_multisegment_segments]. *)
Definition relate_to_multisegment_segments (start end_ : point) (segments : list segment)
  : option relation :=
  let (start, end_) := if point_gt start end_ then (end_, start) else (start, end_) in
  match relate_to_multisegment_loop start end_ segments
          (MultisegmentState start end_ true true true true [] [] []) with
  | None => None
  | Some None => Some COMPONENT
  | Some (Some s) => Some (multisegment_relation s)
  end.

(** rene/_geometries/base_segment.py:69-75, rene/_relating/segment.py:107-121,
    segment_endpoints.py:106-121: [Segment.relate_to(Multisegment)]. *)
Definition segment_relate_to_multisegment (s : segment) (segments : list segment)
  : option relation :=
  relate_to_multisegment_segments (seg_start s) (seg_end s) segments.
(** rene/_relating/multisegment.py:109-118: [Multisegment.relate_to(Segment)]. *)
Definition multisegment_relate_to_segment (segments : list segment) (s : segment)
  : option relation :=
  option_map complement (segment_relate_to_multisegment s segments).

(** ** Segment and region *)

(** The locals of [_relate_to_region_border]. *)
Record border_state := BorderState {
  bs_touch : bool;
  bs_overlap : bool;
  bs_touched : option (nat * point) }.
Definition is_none_of (start end_ p q : point) : bool :=
  negb (point_eq start p) && negb (point_eq start q)
  && negb (point_eq end_ p) && negb (point_eq end_ q).

(** rene/_relating/segment_endpoints.py:485-532: the loop. *)
Fixpoint relate_to_region_border_loop (start end_ : point) (index : nat) (edges : list segment)
  (s : border_state) : option (relation + border_state) :=
  match edges with
  | [] => Some (inr s)
  | edge :: rest =>
      let continue_ := relate_to_region_border_loop start end_ (S index) rest in
      let edge_start := seg_start edge in
      let edge_end := seg_end edge in
      match relate_to_segment_endpoints edge_start edge_end start end_ with
      | None => None
      | Some COMPONENT | Some OVERLAP => continue_ (BorderState (bs_touch s) true (bs_touched s))
      | Some COMPOSITE | Some EQUAL => Some (inl COMPONENT)
      | Some CROSS => Some (inl CROSS)
      | Some TOUCH =>
          let next := BorderState true (bs_overlap s) (Some (index, edge_start)) in
          if negb (bs_touch s) then continue_ next
          else
            match bs_touched s with
            | None => None
            | Some (last_index, last_start) =>
                if (index - last_index =? 1)%nat
                   && is_none_of start end_ edge_start edge_end
                   && orientation_is (orient start end_ edge_start) COLLINEAR
                   && point_vertex_line_divides_angle start edge_start last_start edge_end
                then Some (inl CROSS) else continue_ next
            end
      | Some _ => continue_ s
      end
  end.
(** rene/_relating/segment_endpoints.py:470-565 [_relate_to_region_border]. *)
Definition relate_to_region_border (start end_ : point) (edges : list segment)
  : option relation :=
  match relate_to_region_border_loop start end_ 0 edges (BorderState false false None) with
  | None => None
  | Some (inl r) => Some r
  | Some (inr s) =>
      let default := if bs_overlap s then OVERLAP else if bs_touch s then TOUCH else DISJOINT in
      match bs_touched s, edges with
      | Some (last_index, _), first :: _ =>
          if (last_index =? length edges - 1)%nat then
            match relate_to_segment_endpoints (seg_start first) (seg_end first) start end_ with
            | None => None
            | Some r =>
                if relation_is r TOUCH
                   && is_none_of start end_ (seg_start first) (seg_end first)
                   && orientation_is (orient start end_ (seg_start first)) COLLINEAR
                   && point_vertex_line_divides_angle start (seg_start first)
                        (seg_start (last edges first)) (seg_end first)
                then Some CROSS else Some default
            end
          else Some default
      | _, _ => Some default
      end
  end.

(** rene/_relating/segment_endpoints.py:568-592 [_locate_point_in_region]. *)
Fixpoint locate_with_index (edges : list segment) (p : point) (index : nat) (inside : bool)
  : option nat * location :=
  match edges with
  | [] => (None, if inside then INTERIOR else EXTERIOR)
  | edge :: rest =>
      if location_is (locate_point_in_segment (seg_start edge) (seg_end edge) p) BOUNDARY
      then (Some index, BOUNDARY)
      else locate_with_index rest p (S index)
             (if edge_toggles edge p then negb inside else inside)
  end.

(** [edges[index]] with a wrapped index. *)
Definition edge_at (edges : list segment) (index : nat) : segment :=
  nth index edges (Seg (Pt 0 0) (Pt 0 0)).
Definition next_edge (edges : list segment) (index : nat) : segment :=
  edge_at edges ((index + 1) mod length edges).
Definition prev_edge (edges : list segment) (index : nat) : segment :=
  match index with
  | O => edge_at edges (length edges - 1)
  | S index => edge_at edges index
  end.

(** rene/_relating/segment_endpoints.py:390-431 (for [start], [reflex] is [false]) and
    432-467 (for [end], [reflex] is [true]): whether the segment leaves its endpoint
    [p], found on the edge number [index], towards [q] outside of the region.  The
    branch [p == edge_end] differs: for [start] it has no case for a reflex vertex. *)
Definition leaves_outside (edges : list segment) (index : nat) (p q : point)
  (reverse_orientation reflex : bool) : bool :=
  let edge := edge_at edges index in
  let edge_start := seg_start edge in
  let edge_end := seg_end edge in
  let border_orientation := if reverse_orientation then CLOCKWISE else COUNTERCLOCKWISE in
  let is_border_orientation o := orientation_is o border_orientation in
  if point_eq p edge_start then
    let prev_start := if reverse_orientation then seg_end (next_edge edges index)
                      else seg_start (prev_edge edges index) in
    let first := orient edge_start prev_start q in
    let second := orient edge_end edge_start q in
    if is_border_orientation (orient prev_start edge_start edge_end)
    then is_border_orientation first || is_border_orientation second
    else orientation_is first second && is_border_orientation second
  else if point_eq p edge_end then
    let next_end := if reverse_orientation then seg_start (prev_edge edges index)
                    else seg_end (next_edge edges index) in
    let first := orient edge_end edge_start q in
    let second := orient next_end edge_end q in
    if is_border_orientation (orient edge_start edge_end next_end)
    then is_border_orientation first || is_border_orientation second
         || (negb reflex && (orientation_is first second && is_border_orientation second))
    else reflex && (orientation_is first second && is_border_orientation second)
  else is_border_orientation (orient edge_end edge_start q).

(** rene/_relating/segment_endpoints.py:353-467 [relate_to_region]. *)
Definition relate_to_region (start end_ : point) (border_ : list point)
  (reverse_orientation : bool) : option relation :=
  let edges := to_contour_segments border_ in
  match relate_to_region_border start end_ edges with
  | None => None
  | Some CROSS => Some CROSS
  | Some COMPONENT => Some COMPONENT
  | Some relation_with_border =>
      let (start_index, start_location) := locate_with_index edges start 0 false in
      if relation_is relation_with_border DISJOINT
      then Some (if location_is start_location EXTERIOR then DISJOINT else WITHIN)
      else
      match start_location, start_index with
      | EXTERIOR, _ => Some TOUCH
      | INTERIOR, _ => Some ENCLOSED
      | BOUNDARY, None => None
      | BOUNDARY, Some start_index =>
          let (end_index, end_location) := locate_with_index edges end_ 0 false in
          match end_location, end_index with
          | EXTERIOR, _ => Some TOUCH
          | INTERIOR, _ => Some ENCLOSED
          | BOUNDARY, None => None
          | BOUNDARY, Some end_index =>
              Some (if leaves_outside edges start_index start end_ reverse_orientation false
                       || leaves_outside edges end_index end_ start reverse_orientation true
                    then TOUCH else ENCLOSED)
          end
      end
  end.

(** rene/_relating/segment.py:124-160 [relate_to_polygon] for a polygon with at most one
    hole ([None] for more: they take a plane sweep that is not part of this model), with
    163-177 [relate_to_region] in place. *)
Definition segment_relate_to_polygon (s : segment) (p : polygon) : option relation :=
  match relate_to_region (seg_start s) (seg_end s) (border p) false with
  | None => None
  | Some without_holes =>
      match holes p with
      | [] => Some without_holes
      | hole :: rest =>
          if relation_is without_holes WITHIN || relation_is without_holes ENCLOSED
          then
            match rest with
            | [] =>
                match relate_to_region (seg_start s) (seg_end s) hole true with
                | Some DISJOINT => Some without_holes
                | Some TOUCH => Some ENCLOSED
                | Some ENCLOSED => Some TOUCH
                | Some WITHIN => Some DISJOINT
                | r => r
                end
            | _ :: _ => None
            end
          else Some without_holes
      end
  end.
