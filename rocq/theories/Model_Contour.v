(** Model of contours, polygons and multipolygons: orientation, equality,
    hashing, point location, vertex clean-up. *)
From Coq Require Import QArith Qcanon Bool List ZArith.
From Verif Require Import QcTac Model_Base Model_Box Model_Geometry Model_Utils.
Import ListNotations.
Local Open Scope Qc_scope.

(** [vertices[index]] with Python's negative indices; the IndexError of an
    index out of range never occurs where this is used. *)
Definition item (vertices : list point) (index : Z) : point :=
  match sequence_getitem vertices index with Some v => v | None => Pt 0 0 end.

(** rene/_utils.py:367-368 [to_arg_min]: [min(range(len(values)), key=...)],
    the first position of a least value. *)
Fixpoint arg_min_from (best : point) (best_index : nat) (index : nat) (values : list point)
  : nat :=
  match values with
  | [] => best_index
  | v :: rest =>
      if point_lt v best then arg_min_from v index (S index) rest
      else arg_min_from best best_index (S index) rest
  end.
Definition to_arg_min (values : list point) : nat :=
  match values with [] => O | v :: rest => arg_min_from v O 1 rest end.

(** rene/_utils.py:423-433 [to_contour_orientation]. *)
Definition to_contour_orientation (vertices : list point) (min_vertex_index : nat)
  : orientation :=
  orient (item vertices (Z.of_nat min_vertex_index - 1))
         (item vertices (Z.of_nat min_vertex_index))
         (item vertices (Z.of_nat ((min_vertex_index + 1) mod length vertices))).

(** rene/_geometries/base_contour.py:67-73 [BaseContour.orientation]. *)
Definition contour_orientation (vertices : list point) : orientation :=
  to_contour_orientation vertices (to_arg_min vertices).

(** Equality of tuples of points. *)
Fixpoint points_eq (l r : list point) : bool :=
  match l, r with
  | [], [] => true
  | x :: l, y :: r => point_eq x y && points_eq l r
  | _, _ => false
  end.

(** rene/_geometries/base_contour.py:454-475
    [_are_non_empty_unique_sequences_rotationally_equivalent], i.e.
    [BaseContour.__eq__] (236-243).  Empty arguments (failed asserts) do not
    occur, contours have at least 3 vertices. *)
Definition contour_eq (left right : list point) : bool :=
  match left with
  | [] => false
  | first_left_element :: _ =>
      if negb (length left =? length right)%nat then false
      else
      match sequence_index point_eq right first_left_element with
      | None => false
      | Some index =>
          (points_eq (sequence_slice left 1 (length left - index))
                     (skipn (index + 1) right)
           && points_eq (skipn (length left - index) left) (firstn index right))
          || (points_eq (sequence_slice left 1 (index + 1)) (rev (firstn index right))
              && points_eq (skipn (index + 1) left) (rev (skipn (index + 1) right)))
      end
  end.

(** rene/_geometries/base_contour.py:245-263 [BaseContour.__hash__]: the tuple
    of vertices that is hashed. *)
Definition contour_hash_key (vertices : list point) : list point :=
  let min_vertex_index := to_arg_min vertices in
  if orientation_is (to_contour_orientation vertices min_vertex_index) CLOCKWISE
  then sequence_slice vertices min_vertex_index (min_vertex_index + 1)
       ++ rev (firstn min_vertex_index vertices)
       ++ rev (skipn (min_vertex_index + 1) vertices)
  else skipn min_vertex_index vertices ++ firstn min_vertex_index vertices.

(** Equality of frozensets of hashable values: an element is found in the other
    set when its hash and the value agree.  (Hash collisions of different keys
    only cause an additional, failing, comparison.) *)
Definition frozenset_includes {A : Type} (same : A -> A -> bool) (l r : list A) : bool :=
  forallb (fun x => existsb (fun y => same y x) r) l.
Definition frozenset_eq {A : Type} (same : A -> A -> bool) (l r : list A) : bool :=
  frozenset_includes same l r && frozenset_includes same r l.

(** Elements of a frozenset of segments: equal hash (the hash of the frozenset
    of endpoints, rene/_geometries/base_segment.py:178-179) and equal. *)
Definition segment_same (s t : segment) : bool :=
  frozenset_eq point_eq (segment_hash_key s) (segment_hash_key t) && segment_eq s t.
(** rene/_geometries/base_multisegment.py:219-224 [BaseMultisegment.__eq__]. *)
Definition multisegment_eq (left right : list segment) : bool :=
  frozenset_eq segment_same left right.
(** rene/_geometries/base_multisegment.py:226-227 [__hash__] hashes
    [frozenset(self.segments)], which depends on the hashes of its distinct
    elements only: equality of the hashed sets. *)
Definition multisegment_hash_same (left right : list segment) : bool :=
  frozenset_eq (fun s t => frozenset_eq point_eq (segment_hash_key s) (segment_hash_key t))
    left right.

Definition contour_same (c d : list point) : bool :=
  points_eq (contour_hash_key c) (contour_hash_key d) && contour_eq c d.
(** rene/_geometries/base_polygon.py:193-202 [BasePolygon.__eq__]. *)
Definition polygon_eq (left right : polygon) : bool :=
  contour_eq (border left) (border right)
  && (length (holes left) =? length (holes right))%nat
  && frozenset_eq contour_same (holes left) (holes right).
(** rene/_geometries/base_polygon.py:204-205 [__hash__]: hashes the border and
    the frozenset of the holes; equality of what is hashed. *)
Definition polygon_hash_same (left right : polygon) : bool :=
  points_eq (contour_hash_key (border left)) (contour_hash_key (border right))
  && frozenset_eq (fun c d => points_eq (contour_hash_key c) (contour_hash_key d))
       (holes left) (holes right).
Definition polygon_same (p q : polygon) : bool := polygon_hash_same p q && polygon_eq p q.
(** rene/_geometries/base_multipolygon.py:200-208 [__eq__], [__hash__]. *)
Definition multipolygon_eq (left right : list polygon) : bool :=
  frozenset_eq polygon_same left right.
Definition multipolygon_hash_same (left right : list polygon) : bool :=
  frozenset_eq polygon_hash_same left right.

(** ** Point location *)

(** rene/_geometries/base_contour.py:101-109 [BaseContour.locate]. *)
Definition contour_locate (vertices : list point) (p : point) : location :=
  if forallb (fun s => location_is (segment_locate s p) EXTERIOR)
             (to_contour_segments vertices)
  then EXTERIOR else BOUNDARY.
(** rene/_geometries/base_multisegment.py:80-85 [BaseMultisegment.locate]. *)
Fixpoint multisegment_locate (segments : list segment) (p : point) : location :=
  match segments with
  | [] => EXTERIOR
  | s :: rest =>
      let location_ := segment_locate s p in
      if negb (location_is location_ EXTERIOR) then location_
      else multisegment_locate rest p
  end.

(** rene/_utils.py:230-234, the toggle condition of [locate_point_in_region]. *)
Definition edge_toggles (edge : segment) (p : point) : bool :=
  let start := seg_start edge in
  let end_ := seg_end edge in
  negb (eqb (qltb (py p) (py start)) (qltb (py p) (py end_)))
  && eqb (qltb (py start) (py end_))
         (orientation_is (orient start end_ p) COUNTERCLOCKWISE).
(** rene/_utils.py:224-235, its loop. *)
Fixpoint locate_point_in_edges (edges : list segment) (p : point) (is_point_inside : bool)
  : location :=
  match edges with
  | [] => if is_point_inside then INTERIOR else EXTERIOR
  | edge :: rest =>
      if location_is (locate_point_in_segment (seg_start edge) (seg_end edge) p) BOUNDARY
      then BOUNDARY
      else locate_point_in_edges rest p
             (if edge_toggles edge p then negb is_point_inside else is_point_inside)
  end.
(** rene/_utils.py:216-236 [locate_point_in_region]. *)
Definition locate_point_in_region (border_ : list point) (p : point) : location :=
  locate_point_in_edges (to_contour_segments border_) p false.

(** rene/_geometries/base_polygon.py:57-66: the loop over holes. *)
Fixpoint locate_in_holes (holes_ : list (list point)) (p : point) (default : location)
  : location :=
  match holes_ with
  | [] => default
  | hole :: rest =>
      let location_in_hole := locate_point_in_region hole p in
      if location_is location_in_hole INTERIOR then EXTERIOR
      else if location_is location_in_hole BOUNDARY then BOUNDARY
      else locate_in_holes rest p default
  end.
(** rene/_geometries/base_polygon.py:53-66 [BasePolygon.locate]. *)
Definition polygon_locate (polygon_ : polygon) (p : point) : location :=
  let location_without_holes := locate_point_in_region (border polygon_) p in
  if location_is location_without_holes INTERIOR
  then locate_in_holes (holes polygon_) p location_without_holes
  else location_without_holes.
(** rene/_geometries/base_multipolygon.py:69-74 [BaseMultipolygon.locate]. *)
Fixpoint multipolygon_locate (polygons : list polygon) (p : point) : location :=
  match polygons with
  | [] => EXTERIOR
  | polygon_ :: rest =>
      let location_ := polygon_locate polygon_ p in
      if negb (location_is location_ EXTERIOR) then location_
      else multipolygon_locate rest p
  end.

(** The [locate] method of every compound; [__contains__] of every compound
    (base_segment.py:175, base_multisegment.py:210, base_contour.py:225,
    base_polygon.py:184, base_multipolygon.py:191; base_empty.py:20-21, 39-40). *)
Definition geometry_locate (g : geometry) (p : point) : location :=
  match g with
  | GEmpty => EXTERIOR
  | GSegment s => segment_locate s p
  | GMultisegment l => multisegment_locate l p
  | GContour vs => contour_locate vs p
  | GPolygon q => polygon_locate q p
  | GMultipolygon l => multipolygon_locate l p
  end.
Definition geometry_contains (g : geometry) (p : point) : bool :=
  match g with
  | GEmpty => false
  | _ => negb (location_is (geometry_locate g p) EXTERIOR)
  end.

(** ** Vertices *)

(** rene/_utils.py:37-58 [are_contour_vertices_non_degenerate]. *)
Fixpoint consecutive_not_collinear (vertices : list point) : bool :=
  match vertices with
  | a :: ((b :: c :: _) as rest) =>
      negb (orientation_is (orient a b c) COLLINEAR) && consecutive_not_collinear rest
  | _ => true
  end.
Definition are_contour_vertices_non_degenerate (vertices : list point) : bool :=
  consecutive_not_collinear vertices
  && ((length vertices <=? 3)%nat
      || (negb (orientation_is
                  (orient (item vertices (-2)) (item vertices (-1)) (item vertices 0))
                  COLLINEAR)
          && negb (orientation_is
                     (orient (item vertices (-1)) (item vertices 0) (item vertices 1))
                     COLLINEAR))).

(** rene/_utils.py:346-364 [shrink_collinear_vertices]; [last] is
    [result[-1]], the result is returned without its first element. *)
Fixpoint shrink_from (first last : point) (vertices : list point) : list point :=
  match vertices with
  | [] => []
  | [v] =>
      if negb (orientation_is (orient last v first) COLLINEAR) then [v] else []
  | v :: ((w :: _) as rest) =>
      if negb (orientation_is (orient last v w) COLLINEAR)
      then v :: shrink_from first v rest
      else shrink_from first last rest
  end.
Definition shrink_collinear_vertices (vertices : list point) : list point :=
  match vertices with
  | [] => []
  | first :: rest => first :: shrink_from first first rest
  end.

(** rene/_utils.py:342-343 [rotate_sequence]: [[value[0], *value[:0:-1]]]. *)
Definition rotate_sequence (value : list point) : list point :=
  match value with [] => [] | v :: rest => v :: rev rest end.
(** rene/_utils.py:449-468 [to_oriented_segments]. *)
Definition to_oriented_segments (vertices : list point) (target_orientation : orientation)
  : list segment :=
  to_contour_segments
    (if orientation_is (to_contour_orientation vertices (to_arg_min vertices))
                       target_orientation
     then vertices
     else rotate_sequence vertices).
(** rene/_utils.py:319-333 [polygon_to_correctly_oriented_segments]. *)
Definition polygon_to_correctly_oriented_segments (polygon_ : polygon) : list segment :=
  to_oriented_segments (border polygon_) COUNTERCLOCKWISE
  ++ flat_map (fun hole => to_oriented_segments hole CLOCKWISE) (holes polygon_).
(** rene/_utils.py:336-339 [polygon_to_segments_count]. *)
Definition polygon_to_segments_count (polygon_ : polygon) : nat :=
  (length (to_contour_segments (border polygon_))
   + fold_right Nat.add O
       (map (fun hole => length (to_contour_segments hole)) (holes polygon_)))%nat.
