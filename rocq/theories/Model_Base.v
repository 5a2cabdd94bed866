(** Model of rene's primitive layer: enumerations, exact scalars, points,
    orientation, segments' raw predicates.

    Scalars: rene.exact works with [rithm.fraction.Fraction], normalised exact
    rationals.  They are modelled by [Qc], Coq's canonical rationals, on which
    Leibniz equality is numeric equality.  Conversion of ints/floats to
    Fraction in constructors is not modelled. *)
From Coq Require Import QArith Qcanon Bool List ZArith.
From Verif Require Import QcTac.
Import ListNotations.
Local Open Scope Qc_scope.

(** rene/_enums.py:16-23 [Location]. *)
Inductive location := BOUNDARY | EXTERIOR | INTERIOR.

(** rene/_enums.py:26-31 [Orientation]. *)
Inductive orientation := CLOCKWISE | COLLINEAR | COUNTERCLOCKWISE.

(** rene/_enums.py:34-81 [Relation]. *)
Inductive relation :=
  COMPONENT | COMPOSITE | COVER | CROSS | DISJOINT | ENCLOSED | ENCLOSES
| EQUAL | OVERLAP | TOUCH | WITHIN.

(** Python's [is] on enumeration members. *)
Definition location_is (a b : location) : bool :=
  match a, b with
  | BOUNDARY, BOUNDARY | EXTERIOR, EXTERIOR | INTERIOR, INTERIOR => true
  | _, _ => false
  end.
Definition orientation_is (a b : orientation) : bool :=
  match a, b with
  | CLOCKWISE, CLOCKWISE | COLLINEAR, COLLINEAR
  | COUNTERCLOCKWISE, COUNTERCLOCKWISE => true
  | _, _ => false
  end.
Definition relation_is (a b : relation) : bool :=
  match a, b with
  | COMPONENT, COMPONENT | COMPOSITE, COMPOSITE | COVER, COVER | CROSS, CROSS
  | DISJOINT, DISJOINT | ENCLOSED, ENCLOSED | ENCLOSES, ENCLOSES
  | EQUAL, EQUAL | OVERLAP, OVERLAP | TOUCH, TOUCH | WITHIN, WITHIN => true
  | _, _ => false
  end.

(** rene/_enums.py:82-105 [Relation.complement]. *)
Definition complement (r : relation) : relation :=
  if relation_is r CROSS || relation_is r DISJOINT || relation_is r EQUAL
     || relation_is r OVERLAP || relation_is r TOUCH
  then r
  else if relation_is r COMPONENT then COMPOSITE
  else if relation_is r COMPOSITE then COMPONENT
  else if relation_is r COVER then WITHIN
  else if relation_is r ENCLOSED then ENCLOSES
  else if relation_is r ENCLOSES then ENCLOSED
  else COVER.

(** rene/_geometries/base_point.py:9-21, rene/_exact/point.py [Point]. *)
Record point := Pt { px : Qc; py : Qc }.

(** rene/_geometries/base_point.py:28-33 [BasePoint.__eq__]. *)
Definition point_eq (p q : point) : bool :=
  qeqb (px p) (px q) && qeqb (py p) (py q).
(** rene/_geometries/base_point.py:41-46 [BasePoint.__ge__]. *)
Definition point_ge (p q : point) : bool :=
  qltb (px q) (px p) || (qeqb (px p) (px q) && qleb (py q) (py p)).
(** rene/_geometries/base_point.py:54-59 [BasePoint.__gt__]. *)
Definition point_gt (p q : point) : bool :=
  qltb (px q) (px p) || (qeqb (px p) (px q) && qltb (py q) (py p)).
(** rene/_geometries/base_point.py:70-75 [BasePoint.__le__]. *)
Definition point_le (p q : point) : bool :=
  qltb (px p) (px q) || (qeqb (px p) (px q) && qleb (py p) (py q)).
(** rene/_geometries/base_point.py:83-88 [BasePoint.__lt__]. *)
Definition point_lt (p q : point) : bool :=
  qltb (px p) (px q) || (qeqb (px p) (px q) && qltb (py p) (py q)).
(** rene/_geometries/base_point.py:61-62 [BasePoint.__hash__]: the tuple that
    is handed to Python's [hash]; the hash of a tuple of normalised fractions
    is a function of it and is not modelled further. *)
Definition point_hash_key (p : point) : Qc * Qc := (px p, py p).

(** rene/_utils.py:149-158 [cross_multiply]. *)
Definition cross_multiply (first_start first_end second_start second_end : point)
  : Qc :=
  (px first_end - px first_start) * (py second_end - py second_start)
  - (py first_end - py first_start) * (px second_end - px second_start).

(** rene/_utils.py:471-472 [to_sign]. *)
Definition to_sign (value : Qc) : Z :=
  if qltb 0 value then 1%Z else if negb (qeqb value 0) then (-1)%Z else 0%Z.

(** rene/_exact/__init__.py:30-46 [orient], the [orienteer] of the exact
    context. *)
Definition orient (vertex first_ray_point second_ray_point : point)
  : orientation :=
  let raw := to_sign (cross_multiply vertex first_ray_point
                                     vertex second_ray_point) in
  if (raw =? 0)%Z then COLLINEAR
  else if (0 <? raw)%Z then COUNTERCLOCKWISE else CLOCKWISE.

(** rene/_exact/__init__.py:63-72 [to_segments_intersection_scale].  Python
    raises ZeroDivisionError for a zero denominator, [Qc] division returns 0:
    the theorems only use it with a non-zero denominator. *)
Definition to_segments_intersection_scale
  (first_start first_end second_start second_end : point) : Qc :=
  cross_multiply first_start second_start second_start second_end
  / cross_multiply first_start first_end second_start second_end.

(** rene/_exact/__init__.py:49-60 [to_segments_intersection], the
    [segments_intersector] of the exact context. *)
Definition to_segments_intersection
  (first_start first_end second_start second_end : point) : point :=
  let scale := to_segments_intersection_scale
                 first_start first_end second_start second_end in
  Pt (px first_start + (px first_end - px first_start) * scale)
     (py first_start + (py first_end - py first_start) * scale).

(** rene/_utils.py:475-478 [to_sorted_pair] at points. *)
Definition to_sorted_pair (first second : point) : point * point :=
  if point_lt first second then (first, second) else (second, first).

(** Python's [min]/[max] of two points: the first extremal argument wins. *)
Definition point_min (p q : point) : point := if point_lt q p then q else p.
Definition point_max (p q : point) : point := if point_gt q p then q else p.
(** Python's [min]/[max] of two scalars. *)
Definition q_min (a b : Qc) : Qc := if qltb b a then b else a.
Definition q_max (a b : Qc) : Qc := if qltb a b then b else a.

(** rene/_exact/segment.py:16-55 [Segment].  The constructor performs no
    checks. *)
Record segment := Seg { seg_start : point; seg_end : point }.

(** rene/_utils.py:239-266 [locate_point_in_segment]. *)
Definition locate_point_in_segment (start end_ point_ : point) : location :=
  if point_eq start point_
     || point_eq end_ point_
     || ((if qleb (px start) (px end_)
          then qleb (px start) (px point_) && qleb (px point_) (px end_)
          else qltb (px end_) (px point_) && qltb (px point_) (px start))
         && (if qleb (py start) (py end_)
             then qleb (py start) (py point_) && qleb (py point_) (py end_)
             else qltb (py end_) (py point_) && qltb (py point_) (py start))
         && orientation_is (orient start end_ point_) COLLINEAR)
  then BOUNDARY
  else EXTERIOR.

(** rene/_geometries/base_segment.py:54-57 [BaseSegment.locate]. *)
Definition segment_locate (s : segment) (p : point) : location :=
  locate_point_in_segment (seg_start s) (seg_end s) p.

(** rene/_geometries/base_segment.py:175-176 [BaseSegment.__contains__]. *)
Definition segment_contains (s : segment) (p : point) : bool :=
  negb (location_is (segment_locate s p) EXTERIOR).

(** rene/_geometries/base_segment.py:189-195 [BaseSegment.__eq__]. *)
Definition segment_eq (s t : segment) : bool :=
  (point_eq (seg_start s) (seg_start t) && point_eq (seg_end s) (seg_end t))
  || (point_eq (seg_start s) (seg_end t) && point_eq (seg_end s) (seg_start t)).

(** rene/_geometries/base_segment.py:178-179 [BaseSegment.__hash__]: the
    elements of the hashed frozenset. *)
Definition segment_hash_key (s : segment) : list point :=
  [seg_start s; seg_end s].

(** rene/_utils.py:306-316 [point_vertex_line_divides_angle]. *)
Definition point_vertex_line_divides_angle
  (point_ vertex first_ray_point second_ray_point : point) : bool :=
  orientation_is (orient vertex first_ray_point point_)
                 (orient vertex point_ second_ray_point).

(** rene/_utils.py:185-213 [locate_point_in_point_point_point_circle]. *)
Definition locate_point_in_point_point_point_circle
  (point_ first second third : point) : location :=
  let first_dx := px first - px point_ in
  let first_dy := py first - py point_ in
  let second_dx := px second - px point_ in
  let second_dy := py second - py point_ in
  let third_dx := px third - px point_ in
  let third_dy := py third - py point_ in
  let raw := to_sign
    ((first_dx * first_dx + first_dy * first_dy)
       * (second_dx * third_dy - second_dy * third_dx)
     - (second_dx * second_dx + second_dy * second_dy)
       * (first_dx * third_dy - first_dy * third_dx)
     + (third_dx * third_dx + third_dy * third_dy)
       * (first_dx * second_dy - first_dy * second_dx)) in
  if (raw =? 0)%Z then BOUNDARY
  else if (0 <? raw)%Z then INTERIOR else EXTERIOR.

(** rene/_utils.py:499-514 [subtract_segments_overlap]. *)
Definition subtract_segments_overlap
  (minuend_start minuend_end subtrahend_start subtrahend_end : point)
  : point * point :=
  let (minuend_start, minuend_end) := to_sorted_pair minuend_start minuend_end in
  let (subtrahend_start, subtrahend_end) :=
    to_sorted_pair subtrahend_start subtrahend_end in
  if point_lt subtrahend_start minuend_start
     && point_lt minuend_start subtrahend_end
  then (subtrahend_end, minuend_end)
  else (minuend_start, subtrahend_start).
