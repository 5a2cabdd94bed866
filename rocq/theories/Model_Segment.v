(** Model of the operations with a segment that do not need a plane sweep:
    segment x segment relation and set operations, and the loops for
    segment x multisegment/contour ("multisegmental"). *)
From Coq Require Import QArith Qcanon Bool List ZArith.
From Verif Require Import QcTac Model_Base Model_Box Model_Geometry.
Import ListNotations.
Local Open Scope Qc_scope.

Definition is_collinear (o : orientation) : bool := orientation_is o COLLINEAR.

(** rene/_relating/segment_endpoints.py:296-350
    [relate_to_segment_endpoints].  The assertion [first_start != first_end] is
    a precondition of the theorems; the assertion at 339 is the [None]. *)
Definition relate_to_segment_endpoints
  (first_start first_end second_start second_end : point) : option relation :=
  let (first_start, first_end) := to_sorted_pair first_start first_end in
  let (second_start, second_end) := to_sorted_pair second_start second_end in
  if point_eq first_start second_start && point_eq first_end second_end
  then Some EQUAL
  else
  let second_start_orientation := orient first_end first_start second_start in
  let second_end_orientation := orient first_end first_start second_end in
  if orientation_is second_start_orientation second_end_orientation then
    if negb (is_collinear second_start_orientation) then Some DISJOINT
    else if point_eq first_start second_start then
      if point_lt second_end first_end then Some COMPOSITE else Some COMPONENT
    else if point_eq first_end second_end then
      if point_lt second_start first_start then Some COMPONENT
      else Some COMPOSITE
    else if point_eq first_start second_end || point_eq first_end second_start
    then Some TOUCH
    else if point_lt first_start second_start && point_lt second_start first_end
    then if point_lt second_end first_end then Some COMPOSITE else Some OVERLAP
    else if point_lt second_start first_start && point_lt first_start second_end
    then if point_lt first_end second_end then Some COMPONENT else Some OVERLAP
    else Some DISJOINT
  else if is_collinear second_start_orientation then
    if point_le first_start second_start && point_le second_start first_end
    then Some TOUCH else Some DISJOINT
  else if is_collinear second_end_orientation then
    if point_le first_start second_end && point_le second_end first_end
    then Some TOUCH else Some DISJOINT
  else
  let first_start_orientation := orient second_start second_end first_start in
  let first_end_orientation := orient second_start second_end first_end in
  if orientation_is first_start_orientation first_end_orientation then
    if negb (is_collinear first_start_orientation) then Some DISJOINT else None
  else if is_collinear first_start_orientation then
    if point_lt second_start first_start && point_lt first_start second_end
    then Some TOUCH else Some DISJOINT
  else if is_collinear first_end_orientation then
    if point_lt second_start first_end && point_lt first_end second_end
    then Some TOUCH else Some DISJOINT
  else Some CROSS.

(** rene/_geometries/base_segment.py:84-85 and rene/_relating/segment.py
    [relate_to_segment]: [Segment.relate_to] for a segment. *)
Definition segment_relate_to_segment (first second : segment)
  : option relation :=
  relate_to_segment_endpoints (seg_start first) (seg_end first)
    (seg_start second) (seg_end second).

(** rene/_clipping/intersection.py:1025-1051
    [intersect_segments_with_common_continuum_bounding_boxes]. *)
Definition intersect_segments_with_common_continuum_bounding_boxes
  (start end_ other_start other_end : point) : option segment :=
  let (start, end_) := to_sorted_pair start end_ in
  let (other_start, other_end) := to_sorted_pair other_start other_end in
  if (point_eq start other_start || is_collinear (orient end_ start other_start))
     && (point_eq end_ other_end || is_collinear (orient end_ start other_end))
  then Some (Seg (point_max start other_start) (point_min end_ other_end))
  else None.

(** rene/_clipping/intersection.py:1221-1241 [intersect_segment_with_segment],
    i.e. [Segment.__and__] for a segment. *)
Definition intersect_segment_with_segment (first second : segment) : geometry :=
  if do_boxes_have_no_common_continuum
       (segment_bounding_box first) (segment_bounding_box second)
  then GEmpty
  else match intersect_segments_with_common_continuum_bounding_boxes
               (seg_start first) (seg_end first)
               (seg_start second) (seg_end second) with
       | None => GEmpty
       | Some s => GSegment s
       end.

(** The condition "both orientations are not collinear and differ" that occurs
    in all the functions below. *)
Definition on_opposite_sides (first second : orientation) : bool :=
  negb (is_collinear first) && negb (is_collinear second)
  && negb (orientation_is first second).

(** rene/_clipping/difference.py:917-995 [subtract_segment_from_segment], i.e.
    [Segment.__sub__] for a segment. *)
Definition subtract_segment_from_segment (minuend subtrahend : segment)
  : option geometry :=
  let (minuend_start, minuend_end) :=
    to_sorted_pair (seg_start minuend) (seg_end minuend) in
  let (subtrahend_start, subtrahend_end) :=
    to_sorted_pair (seg_start subtrahend) (seg_end subtrahend) in
  if point_eq minuend_start subtrahend_start
     && point_eq minuend_end subtrahend_end
  then Some GEmpty
  else
  let subtrahend_start_orientation :=
    orient minuend_end minuend_start subtrahend_start in
  let subtrahend_end_orientation :=
    orient minuend_end minuend_start subtrahend_end in
  if on_opposite_sides subtrahend_start_orientation subtrahend_end_orientation
  then
    let minuend_start_orientation :=
      orient subtrahend_start subtrahend_end minuend_start in
    let minuend_end_orientation :=
      orient subtrahend_start subtrahend_end minuend_end in
    if on_opposite_sides minuend_start_orientation minuend_end_orientation
    then
      let cross_point := to_segments_intersection
        minuend_start minuend_end subtrahend_start subtrahend_end in
      new_multisegment [Seg minuend_start cross_point;
                        Seg cross_point minuend_end]
    else Some (GSegment minuend)
  else if is_collinear subtrahend_start_orientation
          && is_collinear subtrahend_end_orientation
          && point_lt subtrahend_start minuend_end
          && point_lt minuend_start subtrahend_end
  then
    if point_eq minuend_start subtrahend_start then
      if point_lt subtrahend_end minuend_end
      then Some (GSegment (Seg subtrahend_end minuend_end))
      else Some GEmpty
    else if point_eq minuend_end subtrahend_end then
      if point_lt subtrahend_start minuend_start then Some GEmpty
      else Some (GSegment (Seg subtrahend_start minuend_start))
    else if point_lt minuend_start subtrahend_start then
      if point_lt subtrahend_end minuend_end
      then new_multisegment [Seg minuend_start subtrahend_start;
                             Seg subtrahend_end minuend_end]
      else Some (GSegment (Seg minuend_start subtrahend_start))
    else if point_lt subtrahend_start minuend_start then
      if point_lt minuend_end subtrahend_end then Some GEmpty
      else Some (GSegment (Seg subtrahend_end minuend_end))
    else Some (GSegment minuend)
  else Some (GSegment minuend).

(** rene/_clipping/symmetric_difference.py:309-378
    [symmetric_subtract_segment_from_segment], i.e. [Segment.__xor__] for a
    segment. *)
Definition symmetric_subtract_segment_from_segment
  (minuend subtrahend : segment) : option geometry :=
  let (minuend_start, minuend_end) :=
    to_sorted_pair (seg_start minuend) (seg_end minuend) in
  let (subtrahend_start, subtrahend_end) :=
    to_sorted_pair (seg_start subtrahend) (seg_end subtrahend) in
  if point_eq subtrahend_start minuend_start
     && point_eq subtrahend_end minuend_end
  then Some GEmpty
  else
  let subtrahend_start_orientation :=
    orient minuend_end minuend_start subtrahend_start in
  let subtrahend_end_orientation :=
    orient minuend_end minuend_start subtrahend_end in
  let default := new_multisegment [minuend; subtrahend] in
  if on_opposite_sides subtrahend_start_orientation subtrahend_end_orientation
  then
    let minuend_start_orientation :=
      orient subtrahend_start subtrahend_end minuend_start in
    let minuend_end_orientation :=
      orient subtrahend_start subtrahend_end minuend_end in
    if on_opposite_sides minuend_start_orientation minuend_end_orientation
    then
      let cross_point := to_segments_intersection
        minuend_start minuend_end subtrahend_start subtrahend_end in
      new_multisegment [Seg minuend_start cross_point;
                        Seg cross_point minuend_end;
                        Seg subtrahend_start cross_point;
                        Seg cross_point subtrahend_end]
    else default
  else if is_collinear subtrahend_start_orientation
          && is_collinear subtrahend_end_orientation
  then
    if point_eq minuend_start subtrahend_start
    then Some (GSegment (Seg minuend_end subtrahend_end))
    else if point_eq minuend_end subtrahend_end
    then Some (GSegment (Seg minuend_start subtrahend_start))
    else if point_eq minuend_start subtrahend_end
    then Some (GSegment (Seg subtrahend_start minuend_end))
    else if point_eq minuend_end subtrahend_start
    then Some (GSegment (Seg minuend_start subtrahend_end))
    else if point_lt subtrahend_start minuend_end
            && point_lt minuend_start subtrahend_end
    then new_multisegment [Seg minuend_start subtrahend_start;
                           Seg subtrahend_end minuend_end]
    else default
  else default.

(** rene/_clipping/union.py:561-610 [unite_segment_with_segment], i.e.
    [Segment.__or__] for a segment. *)
Definition unite_segment_with_segment (first second : segment)
  : option geometry :=
  let (first_start, first_end) :=
    to_sorted_pair (seg_start first) (seg_end first) in
  let (second_start, second_end) :=
    to_sorted_pair (seg_start second) (seg_end second) in
  if point_eq first_start second_start && point_eq first_end second_end
  then Some (GSegment first)
  else
  let second_start_orientation := orient first_end first_start second_start in
  let second_end_orientation := orient first_end first_start second_end in
  let default := new_multisegment [first; second] in
  if on_opposite_sides second_start_orientation second_end_orientation
  then
    let first_start_orientation := orient second_start second_end first_start in
    let first_end_orientation := orient second_start second_end first_end in
    if on_opposite_sides first_start_orientation first_end_orientation
    then
      let cross_point := to_segments_intersection
        first_start first_end second_start second_end in
      new_multisegment [Seg first_start cross_point; Seg cross_point first_end;
                        Seg second_start cross_point;
                        Seg cross_point second_end]
    else default
  else if is_collinear second_start_orientation
          && is_collinear second_end_orientation
          && point_le second_start first_end && point_le first_start second_end
  then Some (GSegment (Seg (point_min first_start second_start)
                           (point_max first_end second_end)))
  else default.

(** rene/_clipping/intersection.py:725-741 (the comprehension) of
    [intersect_multisegmental_with_segment]. *)
Definition intersect_multisegmental_with_segment_parts
  (segments : list segment) (second : segment) : list segment :=
  flat_map (fun first_segment =>
    if do_boxes_have_common_continuum
         (segment_bounding_box first_segment) (segment_bounding_box second)
    then match intersect_segments_with_common_continuum_bounding_boxes
                 (seg_start first_segment) (seg_end first_segment)
                 (seg_start second) (seg_end second) with
         | Some s => [s]
         | None => []
         end
    else []) segments.

(** rene/_clipping/intersection.py:708-744
    [intersect_multisegmental_with_segment]. *)
Definition intersect_multisegmental_with_segment
  (first : geometry) (second : segment) : option geometry :=
  collect_maybe_empty_segments
    (intersect_multisegmental_with_segment_parts (segments_of first) second).

(** rene/_clipping/intersection.py:1146-1166, the comprehension. *)
Definition intersect_segment_with_multisegmental_parts
  (first : segment) (segments : list segment) : list segment :=
  flat_map (fun second_segment =>
    if do_boxes_have_common_continuum
         (segment_bounding_box second_segment) (segment_bounding_box first)
    then match intersect_segments_with_common_continuum_bounding_boxes
                 (seg_start first) (seg_end first)
                 (seg_start second_segment) (seg_end second_segment) with
         | Some s => [s]
         | None => []
         end
    else []) segments.

(** rene/_clipping/intersection.py:1130-1166
    [intersect_segment_with_multisegmental]. *)
Definition intersect_segment_with_multisegmental
  (first : segment) (second : geometry) : option geometry :=
  collect_maybe_empty_segments
    (intersect_segment_with_multisegmental_parts first (segments_of second)).

(** rene/_clipping/difference.py:845-913, the loop of
    [subtract_segment_from_multisegmental]; [rest] is
    [minuend_segments[index + 1:]]. *)
Fixpoint subtract_segment_from_segments (segments : list segment)
  (subtrahend_bounding_box : box) (subtrahend_start subtrahend_end : point)
  : list segment :=
  match segments with
  | [] => []
  | minuend_segment :: rest =>
      let continue_ := subtract_segment_from_segments rest
        subtrahend_bounding_box subtrahend_start subtrahend_end in
      if box_disjoint_with (segment_bounding_box minuend_segment)
                           subtrahend_bounding_box
      then minuend_segment :: continue_
      else
      let (minuend_start, minuend_end) :=
        to_sorted_pair (seg_start minuend_segment) (seg_end minuend_segment) in
      if point_eq subtrahend_start minuend_start
         && point_eq subtrahend_end minuend_end
      then rest
      else
      let minuend_start_orientation :=
        orient subtrahend_end subtrahend_start minuend_start in
      let minuend_end_orientation :=
        orient subtrahend_end subtrahend_start minuend_end in
      if on_opposite_sides minuend_start_orientation minuend_end_orientation
      then
        let subtrahend_start_orientation :=
          orient minuend_start minuend_end subtrahend_start in
        let subtrahend_end_orientation :=
          orient minuend_start minuend_end subtrahend_end in
        if on_opposite_sides subtrahend_start_orientation
                             subtrahend_end_orientation
        then
          let cross_point := to_segments_intersection
            minuend_start minuend_end subtrahend_start subtrahend_end in
          Seg minuend_start cross_point :: Seg cross_point minuend_end
          :: continue_
        else minuend_segment :: continue_
      else if is_collinear minuend_start_orientation
              && is_collinear minuend_end_orientation
      then
        if point_eq subtrahend_start minuend_start then
          if point_lt subtrahend_end minuend_end
          then Seg subtrahend_end minuend_end :: continue_
          else continue_
        else if point_eq subtrahend_end minuend_end then
          if point_lt minuend_start subtrahend_start
          then Seg minuend_start subtrahend_start :: continue_
          else continue_
        else if point_lt subtrahend_start minuend_start
                && point_lt minuend_start subtrahend_end then
          if point_lt subtrahend_end minuend_end
          then Seg subtrahend_end minuend_end :: continue_
          else continue_
        else if point_lt minuend_start subtrahend_start
                && point_lt subtrahend_start minuend_end then
          Seg minuend_start subtrahend_start
          :: (if point_lt subtrahend_end minuend_end
              then Seg subtrahend_end minuend_end :: continue_
              else continue_)
        else minuend_segment :: continue_
      else minuend_segment :: continue_
  end.

(** rene/_clipping/difference.py:814-914
    [subtract_segment_from_multisegmental]. *)
Definition subtract_segment_from_multisegmental
  (minuend : geometry) (subtrahend : segment) : option geometry :=
  let subtrahend_bounding_box := segment_bounding_box subtrahend in
  if do_boxes_have_no_common_continuum
       (bounding_box minuend) subtrahend_bounding_box
  then Some minuend
  else
  let (subtrahend_start, subtrahend_end) :=
    to_sorted_pair (seg_start subtrahend) (seg_end subtrahend) in
  collect_maybe_empty_segments
    (subtract_segment_from_segments (segments_of minuend)
       subtrahend_bounding_box subtrahend_start subtrahend_end).

(** rene/_clipping/union.py:275-349, the loop of
    [unite_multisegmental_with_segment]: the appended segments and the
    [second_break_points]. *)
Fixpoint unite_segments_with_segment (segments : list segment)
  (second_bounding_box : box) (second_start second_end : point)
  : list segment * list point :=
  match segments with
  | [] => ([], [])
  | first_segment :: rest =>
      let '(segs, points) := unite_segments_with_segment rest
        second_bounding_box second_start second_end in
      if box_disjoint_with (segment_bounding_box first_segment)
                           second_bounding_box
      then (first_segment :: segs, points)
      else
      let (first_start, first_end) :=
        to_sorted_pair (seg_start first_segment) (seg_end first_segment) in
      if point_eq second_start first_start && point_eq second_end first_end
      then (rest, [])
      else
      let first_start_orientation := orient second_end second_start first_start in
      let first_end_orientation := orient second_end second_start first_end in
      if orientation_is first_start_orientation first_end_orientation then
        if is_collinear first_start_orientation then
          if point_eq second_start first_start then
            if point_lt second_end first_end
            then (Seg second_end first_end :: segs, points)
            else (segs, points)
          else if point_eq second_end first_end then
            if point_lt first_start second_start
            then (Seg first_start second_start :: segs, points)
            else (segs, points)
          else if point_lt second_start first_start
                  && point_lt first_start second_end then
            if point_lt second_end first_end
            then (Seg second_end first_end :: segs, points)
            else (segs, points)
          else if point_lt first_start second_start
                  && point_lt second_start first_end then
            (Seg first_start second_start
             :: (if point_lt second_end first_end
                 then Seg second_end first_end :: segs else segs), points)
          else (first_segment :: segs, points)
        else (first_segment :: segs, points)
      else if is_collinear first_start_orientation then
        if point_lt second_start first_start && point_lt first_start second_end
        then (first_segment :: segs, first_start :: points)
        else (first_segment :: segs, points)
      else if is_collinear first_end_orientation then
        if point_lt second_start first_end && point_lt first_end second_end
        then (first_segment :: segs, first_end :: points)
        else (first_segment :: segs, points)
      else
      let second_start_orientation := orient first_start first_end second_start in
      let second_end_orientation := orient first_start first_end second_end in
      if is_collinear second_start_orientation then
        if point_lt first_start second_start && point_lt second_start first_end
        then (Seg first_start second_start :: Seg second_start first_end :: segs,
              points)
        else (first_segment :: segs, points)
      else if is_collinear second_end_orientation then
        if point_lt first_start second_end && point_lt second_end first_end
        then (Seg first_start second_end :: Seg second_end first_end :: segs,
              points)
        else (first_segment :: segs, points)
      else if negb (orientation_is second_start_orientation
                                   second_end_orientation) then
        let cross_point := to_segments_intersection
          first_start first_end second_start second_end in
        (Seg first_start cross_point :: Seg cross_point first_end :: segs,
         cross_point :: points)
      else (first_segment :: segs, points)
  end.

(** Python's [list.sort] on points (insertion sort; equal points are
    indistinguishable so stability plays no role). *)
Fixpoint insert_point (p : point) (l : list point) : list point :=
  match l with
  | [] => [p]
  | q :: r => if point_lt q p then q :: insert_point p r else p :: l
  end.
Definition sort_points (l : list point) : list point :=
  fold_right insert_point [] l.

(** rene/_utils.py:161-162 [deduplicate], i.e. the keys of [itertools.groupby]. *)
Fixpoint deduplicate_points (l : list point) : list point :=
  match l with
  | [] => []
  | p :: r =>
      match r with
      | [] => [p]
      | q :: _ => if point_eq p q then deduplicate_points r
                  else p :: deduplicate_points r
      end
  end.

(** rene/_clipping/union.py:351-357: cutting the segment at the break points. *)
Fixpoint cut_at (start : point) (points : list point) (end_ : point)
  : list segment :=
  match points with
  | [] => [Seg start end_]
  | p :: r => Seg start p :: cut_at p r end_
  end.
Definition cut_segment (whole : segment) (start end_ : point)
  (break_points : list point) : list segment :=
  match break_points with
  | [] => [whole]
  | _ => cut_at start (deduplicate_points (sort_points break_points)) end_
  end.

(** rene/_clipping/union.py:254-361 [unite_multisegmental_with_segment]. *)
Definition unite_multisegmental_with_segment (first : geometry)
  (second : segment) : option geometry :=
  let second_bounding_box := segment_bounding_box second in
  if do_boxes_have_no_common_continuum (bounding_box first) second_bounding_box
  then new_multisegment (segments_of first ++ [second])
  else
  let (second_start, second_end) :=
    to_sorted_pair (seg_start second) (seg_end second) in
  let (segments, break_points) :=
    unite_segments_with_segment (segments_of first)
      second_bounding_box second_start second_end in
  collect_non_empty_segments
    (segments ++ cut_segment second second_start second_end break_points).

(** rene/_clipping/union.py:451-558 [unite_segment_with_multisegmental]: the
    loop is literally the one above with the roles of first and second
    renamed (checked line by line, 472-546 against 275-349). *)
Definition unite_segment_with_multisegmental (first : segment)
  (second : geometry) : option geometry :=
  let first_bounding_box := segment_bounding_box first in
  if do_boxes_have_no_common_continuum first_bounding_box (bounding_box second)
  then new_multisegment (first :: segments_of second)
  else
  let (first_start, first_end) :=
    to_sorted_pair (seg_start first) (seg_end first) in
  let (segments, break_points) :=
    unite_segments_with_segment (segments_of second)
      first_bounding_box first_start first_end in
  collect_non_empty_segments
    (segments ++ cut_segment first first_start first_end break_points).
