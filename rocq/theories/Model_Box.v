(** Model of rene's boxes: [BaseBox], the box filters of rene/_utils.py and the
    bounding boxes of all geometries.  The decision trees were transcribed
    mechanically (Python [ast] to Gallina); [None] models a failed [assert]. *)
From Coq Require Import QArith Qcanon Bool List ZArith.
From Verif Require Import QcTac Model_Base.
Import ListNotations.
Local Open Scope Qc_scope.

(** rene/_exact/box.py:16-64 [Box]; the argument order of the constructor is
    [Box(min_x, max_x, min_y, max_y)]. *)
Record box := Box { min_x : Qc; max_x : Qc; min_y : Qc; max_y : Qc }.

(** rene/_geometries/base_box.py:29-35 [BaseBox.covers]. *)
Definition box_covers (self other : box) : bool :=
  ((qltb (max_x other) (max_x self)) && (qltb (max_y other) (max_y self)) && (qltb (min_x self) (min_x other)) && (qltb (min_y self) (min_y other))).

(** rene/_geometries/base_box.py:37-43 [BaseBox.disjoint_with]. *)
Definition box_disjoint_with (self other : box) : bool :=
  ((qltb (max_x self) (min_x other)) || (qltb (max_y self) (min_y other)) || (qltb (max_x other) (min_x self)) || (qltb (max_y other) (min_y self))).

(** rene/_geometries/base_box.py:101-107 [BaseBox.equals_to]. *)
Definition box_equals_to (self other : box) : bool :=
  ((qeqb (min_x self) (min_x other)) && (qeqb (max_x self) (max_x other)) && (qeqb (min_y self) (min_y other)) && (qeqb (max_y self) (max_y other))).

(** rene/_geometries/base_box.py:109-110 [BaseBox.is_valid]. *)
Definition box_is_valid (self : box) : bool :=
  ((qleb (min_x self) (max_x self)) && (qleb (min_y self) (max_y self))).

(** rene/_geometries/base_box.py:112-138 [BaseBox.overlaps]. *)
Definition box_overlaps (self other : box) : bool :=
  if negb ((qltb (min_x self) (max_x other)) && (qltb (min_x other) (max_x self)) && (qltb (min_y self) (max_y other)) && (qltb (min_y other) (max_y self))) then
    (false)
  else
  if qltb (max_x other) (max_x self) then
    ((qltb (min_x other) (min_x self)) || (qltb (min_y other) (min_y self)) || (qltb (max_y self) (max_y other)))
  else
  if qltb (max_x self) (max_x other) then
    ((qltb (min_x self) (min_x other)) || (qltb (min_y self) (min_y other)) || (qltb (max_y other) (max_y self)))
  else
  if qltb (min_x other) (min_x self) then
    ((qltb (min_y self) (min_y other)) || (qltb (max_y other) (max_y self)))
  else
  if qltb (min_x self) (min_x other) then
    ((qltb (min_y other) (min_y self)) || (qltb (max_y self) (max_y other)))
  else
  (((qltb (min_y other) (min_y self)) && (qltb (max_y other) (max_y self))) || ((qltb (min_y self) (min_y other)) && (qltb (max_y self) (max_y other)))).

(** rene/_geometries/base_box.py:140-391 [BaseBox.relate_to]. *)
Definition box_relate_to (self other : box) : option relation :=
  if qeqb (max_x self) (max_x other) then
    if qeqb (min_x self) (min_x other) then
      if qeqb (max_y self) (max_y other) then
        if qeqb (min_y self) (min_y other) then
          Some EQUAL
        else
        if qltb (min_y other) (min_y self) then
          Some ENCLOSED
        else
        if qltb (min_y self) (min_y other) then
        Some ENCLOSES
        else None
      else
      if qltb (max_y other) (max_y self) then
        if qeqb (min_y self) (max_y other) then
          Some TOUCH
        else
        if qltb (max_y other) (min_y self) then
          Some DISJOINT
        else
        if qltb (min_y self) (max_y other) then
        (if qltb (min_y other) (min_y self) then Some OVERLAP else Some ENCLOSES)
        else None
      else
      if qltb (max_y self) (max_y other) then
      if qeqb (max_y self) (min_y other) then
        Some TOUCH
      else
      if qltb (min_y other) (max_y self) then
        (if qltb (min_y self) (min_y other) then Some OVERLAP else Some ENCLOSED)
      else
      if qltb (max_y self) (min_y other) then
      Some DISJOINT
      else None
      else None
    else
    if qltb (min_x other) (min_x self) then
      if qeqb (max_y self) (max_y other) then
        (if qltb (min_y self) (min_y other) then Some OVERLAP else Some ENCLOSED)
      else
      if qltb (max_y other) (max_y self) then
        if qeqb (min_y self) (max_y other) then
          Some TOUCH
        else
        if qltb (max_y other) (min_y self) then
          Some DISJOINT
        else
        if qltb (min_y self) (max_y other) then
        Some OVERLAP
        else None
      else
      if qltb (max_y self) (max_y other) then
      if qeqb (max_y self) (min_y other) then
        Some TOUCH
      else
      if qltb (min_y other) (max_y self) then
        (if qltb (min_y self) (min_y other) then Some OVERLAP else Some ENCLOSED)
      else
      if qltb (max_y self) (min_y other) then
      Some DISJOINT
      else None
      else None
    else
    if qltb (min_x self) (min_x other) then
    if qeqb (max_y self) (max_y other) then
      (if qltb (min_y other) (min_y self) then Some OVERLAP else Some ENCLOSES)
    else
    if qltb (max_y other) (max_y self) then
      if qeqb (min_y self) (max_y other) then
        Some TOUCH
      else
      if qltb (max_y other) (min_y self) then
        Some DISJOINT
      else
      if qltb (min_y self) (max_y other) then
      (if qltb (min_y other) (min_y self) then Some OVERLAP else Some ENCLOSES)
      else None
    else
    if qltb (max_y self) (max_y other) then
    if qeqb (max_y self) (min_y other) then
      Some TOUCH
    else
    if qltb (min_y other) (max_y self) then
      Some OVERLAP
    else
    if qltb (max_y self) (min_y other) then
    Some DISJOINT
    else None
    else None
    else None
  else
  if qltb (max_x other) (max_x self) then
    if qeqb (min_x self) (max_x other) then
      if qeqb (max_y self) (max_y other) then
        Some TOUCH
      else
      if qltb (max_y other) (max_y self) then
        (if qltb (max_y other) (min_y self) then Some DISJOINT else Some TOUCH)
      else
      if qltb (max_y self) (max_y other) then
      (if qltb (max_y self) (min_y other) then Some DISJOINT else Some TOUCH)
      else None
    else
    if qltb (max_x other) (min_x self) then
      Some DISJOINT
    else
    if qltb (min_x self) (max_x other) then
    if qeqb (min_x self) (min_x other) then
      if qeqb (max_y self) (max_y other) then
        (if qltb (min_y other) (min_y self) then Some OVERLAP else Some ENCLOSES)
      else
      if qltb (max_y other) (max_y self) then
        if qeqb (min_y self) (max_y other) then
          Some TOUCH
        else
        if qltb (max_y other) (min_y self) then
          Some DISJOINT
        else
        if qltb (min_y self) (max_y other) then
        (if qltb (min_y other) (min_y self) then Some OVERLAP else Some ENCLOSES)
        else None
      else
      if qltb (max_y self) (max_y other) then
      if qeqb (max_y self) (min_y other) then
        Some TOUCH
      else
      if qltb (min_y other) (max_y self) then
        Some OVERLAP
      else
      Some DISJOINT
      else None
    else
    if qltb (min_x other) (min_x self) then
      if qeqb (max_y self) (max_y other) then
        Some OVERLAP
      else
      if qltb (max_y other) (max_y self) then
        if qeqb (min_y self) (max_y other) then
          Some TOUCH
        else
        if qltb (max_y other) (min_y self) then
          Some DISJOINT
        else
        if qltb (min_y self) (max_y other) then
        Some OVERLAP
        else None
      else
      if qltb (max_y self) (max_y other) then
      if qeqb (max_y self) (min_y other) then
        Some TOUCH
      else
      if qltb (min_y other) (max_y self) then
        Some OVERLAP
      else
      if qltb (max_y self) (min_y other) then
      Some DISJOINT
      else None
      else None
    else
    if qltb (min_x self) (min_x other) then
    if qeqb (max_y self) (max_y other) then
      (if qltb (min_y other) (min_y self) then Some OVERLAP else Some ENCLOSES)
    else
    if qltb (max_y other) (max_y self) then
      if qeqb (min_y self) (max_y other) then
        Some TOUCH
      else
      if qltb (max_y other) (min_y self) then
        Some DISJOINT
      else
      if qltb (min_y self) (max_y other) then
      if qeqb (min_y self) (min_y other) then
        Some ENCLOSES
      else
      if qltb (min_y other) (min_y self) then
        Some OVERLAP
      else
      if qltb (min_y self) (min_y other) then
      Some COVER
      else None
      else None
    else
    if qltb (max_y self) (max_y other) then
    if qeqb (max_y self) (min_y other) then
      Some TOUCH
    else
    if qltb (min_y other) (max_y self) then
      Some OVERLAP
    else
    Some DISJOINT
    else None
    else None
    else None
  else
  if qltb (max_x self) (max_x other) then
  if qeqb (max_x self) (min_x other) then
    if qeqb (max_y self) (max_y other) then
      Some TOUCH
    else
    if qltb (max_y other) (max_y self) then
      (if qltb (max_y other) (min_y self) then Some DISJOINT else Some TOUCH)
    else
    if qltb (max_y self) (max_y other) then
    (if qltb (max_y self) (min_y other) then Some DISJOINT else Some TOUCH)
    else None
  else
  if qltb (min_x other) (max_x self) then
    if qeqb (min_x self) (min_x other) then
      if qeqb (max_y self) (max_y other) then
        (if qltb (min_y self) (min_y other) then Some OVERLAP else Some ENCLOSED)
      else
      if qltb (max_y other) (max_y self) then
        if qeqb (min_y self) (max_y other) then
          Some TOUCH
        else
        if qltb (max_y other) (min_y self) then
          Some DISJOINT
        else
        Some OVERLAP
      else
      if qltb (max_y self) (max_y other) then
      if qeqb (max_y self) (min_y other) then
        Some TOUCH
      else
      if qltb (min_y other) (max_y self) then
        (if qltb (min_y self) (min_y other) then Some OVERLAP else Some ENCLOSED)
      else
      if qltb (max_y self) (min_y other) then
      Some DISJOINT
      else None
      else None
    else
    if qltb (min_x other) (min_x self) then
      if qeqb (max_y self) (max_y other) then
        (if qltb (min_y self) (min_y other) then Some OVERLAP else Some ENCLOSED)
      else
      if qltb (max_y other) (max_y self) then
        if qeqb (min_y self) (max_y other) then
          Some TOUCH
        else
        if qltb (max_y other) (min_y self) then
          Some DISJOINT
        else
        if qltb (min_y self) (max_y other) then
        Some OVERLAP
        else None
      else
      if qltb (max_y self) (max_y other) then
      if qeqb (max_y self) (min_y other) then
        Some TOUCH
      else
      if qltb (min_y other) (max_y self) then
        if qeqb (min_y self) (min_y other) then
          Some ENCLOSED
        else
        if qltb (min_y other) (min_y self) then
          Some WITHIN
        else
        if qltb (min_y self) (min_y other) then
        Some OVERLAP
        else None
      else
      if qltb (max_y self) (min_y other) then
      Some DISJOINT
      else None
      else None
    else
    if qltb (min_x self) (min_x other) then
    if qeqb (max_y self) (max_y other) then
      Some OVERLAP
    else
    if qltb (max_y other) (max_y self) then
      if qeqb (min_y self) (max_y other) then
        Some TOUCH
      else
      if qltb (max_y other) (min_y self) then
        Some DISJOINT
      else
      if qltb (min_y self) (max_y other) then
      Some OVERLAP
      else None
    else
    if qltb (max_y self) (max_y other) then
    if qeqb (max_y self) (min_y other) then
      Some TOUCH
    else
    if qltb (min_y other) (max_y self) then
      Some OVERLAP
    else
    Some DISJOINT
    else None
    else None
  else
  if qltb (max_x self) (min_x other) then
  Some DISJOINT
  else None
  else None.

(** rene/_geometries/base_box.py:393-400 [BaseBox.touches]. *)
Definition box_touches (self other : box) : bool :=
  ((((qeqb (min_x self) (max_x other)) || (qeqb (max_x self) (min_x other))) && ((qleb (min_y self) (max_y other)) && (qleb (min_y other) (max_y self)))) || (((qleb (min_x self) (max_x other)) && (qleb (min_x other) (max_x self))) && ((qeqb (min_y self) (max_y other)) || (qeqb (min_y other) (max_y self))))).

(** rene/_geometries/base_box.py:402-408 [BaseBox.within]. *)
Definition box_within (self other : box) : bool :=
  ((qltb (max_x self) (max_x other)) && (qltb (max_y self) (max_y other)) && (qltb (min_x other) (min_x self)) && (qltb (min_y other) (min_y self))).

(** rene/_geometries/base_box.py:45-71 [BaseBox.enclosed_by]. *)
Definition box_enclosed_by (self other : box) : bool :=
  let f a b := if qeqb a b then 1%Z else if qltb a b then 2%Z else 0%Z in
  let g a b := if qeqb a b then 1%Z else if qltb b a then 2%Z else 0%Z in
  let v := (f (max_x self) (max_x other) * f (max_y self) (max_y other)
            * g (min_x self) (min_x other) * g (min_y self) (min_y other))%Z in
  ((2 <=? v) && (v <=? 8))%Z.

(** rene/_geometries/base_box.py:73-99 [BaseBox.encloses]. *)
Definition box_encloses (self other : box) : bool :=
  let f a b := if qeqb a b then 1%Z else if qltb a b then 2%Z else 0%Z in
  let g a b := if qeqb a b then 1%Z else if qltb b a then 2%Z else 0%Z in
  let v := (g (max_x self) (max_x other) * g (max_y self) (max_y other)
            * f (min_x self) (min_x other) * f (min_y self) (min_y other))%Z in
  ((2 <=? v) && (v <=? 8))%Z.

(** rene/_geometries/base_box.py:416-426 [BaseBox.__eq__] on two boxes. *)
Definition box_eq (self other : box) : bool :=
  qeqb (min_x self) (min_x other) && qeqb (max_x self) (max_x other)
  && qeqb (min_y self) (min_y other) && qeqb (max_y self) (max_y other).

(** rene/_geometries/base_box.py:428-429 [BaseBox.__hash__]: the hashed tuple. *)
Definition box_hash_key (self : box) : Qc * Qc * Qc * Qc :=
  (min_x self, max_x self, min_y self, max_y self).

(** rene/_utils.py:61-64 [do_boxes_have_common_area]. *)
Definition do_boxes_have_common_area (first second : box) : bool :=
  negb (box_disjoint_with first second) && negb (box_touches first second).

(** rene/_utils.py:67-70 [do_boxes_have_no_common_area]. *)
Definition do_boxes_have_no_common_area (first second : box) : bool :=
  box_disjoint_with first second || box_touches first second.

(** rene/_utils.py:73-80 [do_boxes_have_common_continuum]. *)
Definition do_boxes_have_common_continuum (first second : box) : bool :=
  negb (box_disjoint_with first second)
  && (negb (box_touches first second)
      || (negb (qeqb (min_y first) (max_y second))
          && negb (qeqb (min_y second) (max_y first)))
      || (negb (qeqb (min_x first) (max_x second))
          && negb (qeqb (min_x second) (max_x first)))).

(** rene/_utils.py:83-90 [do_boxes_have_no_common_continuum]. *)
Definition do_boxes_have_no_common_continuum (first second : box) : bool :=
  box_disjoint_with first second
  || (box_touches first second
      && (qeqb (min_y first) (max_y second) || qeqb (min_y second) (max_y first))
      && (qeqb (min_x first) (max_x second)
          || qeqb (min_x second) (max_x first))).

(** rene/_utils.py:275-284, the loop body of [merge_boxes] (also
    rene/_geometries/base_multipolygon.py:57-66). *)
Definition merge_step (acc b : box) : box :=
  Box (if qltb (min_x b) (min_x acc) then min_x b else min_x acc)
      (if qltb (max_x acc) (max_x b) then max_x b else max_x acc)
      (if qltb (min_y b) (min_y acc) then min_y b else min_y acc)
      (if qltb (max_y acc) (max_y b) then max_y b else max_y acc).

(** rene/_utils.py:269-285 [merge_boxes]; [first] is the head of the non-empty
    iterable ([next] raises StopIteration on an empty one). *)
Definition merge_boxes (first : box) (rest : list box) : box :=
  fold_left merge_step rest first.

(** rene/_geometries/base_segment.py:46-52 [BaseSegment.bounding_box]. *)
Definition segment_bounding_box (s : segment) : box :=
  Box (q_min (px (seg_end s)) (px (seg_start s)))
      (q_max (px (seg_end s)) (px (seg_start s)))
      (q_min (py (seg_end s)) (py (seg_start s)))
      (q_max (py (seg_end s)) (py (seg_start s))).

(** rene/_geometries/base_contour.py:55-63, the loop body of
    [BaseContour.bounding_box] (note the [elif]s). *)
Definition contour_box_step (acc : box) (vertex : point) : box :=
  let '(mnx, mxx) :=
    if qltb (max_x acc) (px vertex) then (min_x acc, px vertex)
    else if qltb (px vertex) (min_x acc) then (px vertex, max_x acc)
    else (min_x acc, max_x acc) in
  let '(mny, mxy) :=
    if qltb (max_y acc) (py vertex) then (min_y acc, py vertex)
    else if qltb (py vertex) (min_y acc) then (py vertex, max_y acc)
    else (min_y acc, max_y acc) in
  Box mnx mxx mny mxy.

(** rene/_geometries/base_contour.py:49-64 [BaseContour.bounding_box] of the
    contour with vertices [v :: vs] (a contour has at least 3 vertices). *)
Definition contour_bounding_box (v : point) (vs : list point) : box :=
  fold_left contour_box_step vs (Box (px v) (px v) (py v) (py v)).

(** rene/_geometries/base_multisegment.py:55-67, the loop body of
    [BaseMultisegment.bounding_box]. *)
Definition multisegment_box_step (acc : box) (s : segment) : box :=
  let sxx := q_max (px (seg_start s)) (px (seg_end s)) in
  let snx := q_min (px (seg_start s)) (px (seg_end s)) in
  let sxy := q_max (py (seg_start s)) (py (seg_end s)) in
  let sny := q_min (py (seg_start s)) (py (seg_end s)) in
  Box (if qltb snx (min_x acc) then snx else min_x acc)
      (if qltb (max_x acc) sxx then sxx else max_x acc)
      (if qltb sny (min_y acc) then sny else min_y acc)
      (if qltb (max_y acc) sxy then sxy else max_y acc).

(** rene/_geometries/base_multisegment.py:47-68
    [BaseMultisegment.bounding_box] of the segments [s :: rest]. *)
Definition multisegment_bounding_box (s : segment) (rest : list segment) : box :=
  fold_left multisegment_box_step rest
    (Box (q_min (px (seg_start s)) (px (seg_end s)))
         (q_max (px (seg_start s)) (px (seg_end s)))
         (q_min (py (seg_start s)) (py (seg_end s)))
         (q_max (py (seg_start s)) (py (seg_end s)))).

(** rene/_geometries/base_multipolygon.py:47-67
    [BaseMultipolygon.bounding_box], given the boxes of the polygons, each of
    which is the box of its border (rene/_geometries/base_polygon.py:49-51). *)
Definition multipolygon_bounding_box (first : box) (rest : list box) : box :=
  fold_left merge_step rest first.
