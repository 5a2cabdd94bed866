(** Model of rene's quad-edge mesh and of the Delaunay triangulation of points:
    rene/_triangulation/quad_edge.py, mesh.py, delaunay.py.

    Edges are natural numbers, the three lists of a [Mesh] are lists; mutating
    methods return the new mesh.  Every access is checked: [Fails] is an IndexError
    or a failed assertion; [Spins] is a [while True] loop that did not end within
    the given number of iterations. *)
From Coq Require Import QArith Qcanon Bool List Arith NArith.
From Verif Require Import QcTac Model_Base Model_Utils.
Import ListNotations.
Local Open Scope nat_scope.

Inductive res (A : Type) := Ok (a : A) | Fails | Spins.
Arguments Ok {A} a. Arguments Fails {A}. Arguments Spins {A}.
Definition bind {A B : Type} (x : res A) (f : A -> res B) : res B :=
  match x with Ok a => f a | Fails => Fails | Spins => Spins end.
Notation "'let*' x := a 'in' b" := (bind a (fun x => b))
  (at level 200, x name, a at level 100, b at level 200).
Notation "'let*' ' p := a 'in' b" := (bind a (fun x => match x with p => b end))
  (at level 200, p strict pattern, a at level 100, b at level 200).

(** [values[index]]; indices are never negative here. *)
Definition get {A : Type} (values : list A) (index : nat) : res A :=
  match nth_error values index with Some v => Ok v | None => Fails end.
(** [values[index] = value]. *)
Definition put {A : Type} (values : list A) (index : nat) (value : A) : res (list A) :=
  if index <? length values then Ok (set_nth values index value) else Fails.

(** rene/_triangulation/quad_edge.py:4 [QuadEdge]. *)
Definition quad_edge := nat.
(** rene/_triangulation/quad_edge.py:9-13 [to_opposite_edge]. *)
Definition to_opposite_edge (edge : quad_edge) : quad_edge :=
  edge / 4 * 4 + (edge + 2) mod 4.
(** rene/_triangulation/quad_edge.py:16-20 [to_rotated_edge]. *)
Definition to_rotated_edge (edge : quad_edge) : quad_edge :=
  edge / 4 * 4 + (edge + 1) mod 4.

(** rene/_triangulation/mesh.py:28-31: the attributes of [Mesh]. *)
Record mesh := Mesh {
  m_endpoints : list point;
  m_left_from_start : list quad_edge;
  m_starts_indices : list nat }.

(** rene/_triangulation/mesh.py:33-37 [from_points]. *)
Definition mesh_from_points (endpoints : list point) : mesh := Mesh endpoints [] [].

(** rene/_triangulation/mesh.py:128-132 [to_left_from_start]. *)
Definition to_left_from_start (m : mesh) (edge : quad_edge) : res quad_edge :=
  get (m_left_from_start m) edge.
(** rene/_triangulation/mesh.py:120-126 [to_left_from_end]. *)
Definition to_left_from_end (m : mesh) (edge : quad_edge) : res quad_edge :=
  let* e := to_left_from_start m (to_opposite_edge (to_rotated_edge edge)) in
  Ok (to_rotated_edge e).
(** rene/_triangulation/mesh.py:134-138 [to_right_from_end]. *)
Definition to_right_from_end (m : mesh) (edge : quad_edge) : res quad_edge :=
  to_left_from_start m (to_opposite_edge edge).
(** rene/_triangulation/mesh.py:140-144 [to_right_from_start]. *)
Definition to_right_from_start (m : mesh) (edge : quad_edge) : res quad_edge :=
  let* e := to_left_from_start m (to_rotated_edge edge) in
  Ok (to_rotated_edge e).
(** rene/_triangulation/mesh.py:152-154 [to_start_index]. *)
Definition to_start_index (m : mesh) (edge : quad_edge) : res nat :=
  if Nat.even edge then get (m_starts_indices m) (edge / 2) else Fails.
(** rene/_triangulation/mesh.py:117-118 [to_end_index]. *)
Definition to_end_index (m : mesh) (edge : quad_edge) : res nat :=
  to_start_index m (to_opposite_edge edge).
(** rene/_triangulation/mesh.py:146-150 [to_start]. *)
Definition to_start (m : mesh) (edge : quad_edge) : res point :=
  let* index := to_start_index m edge in get (m_endpoints m) index.
(** rene/_triangulation/mesh.py:111-115 [to_end]. *)
Definition to_end (m : mesh) (edge : quad_edge) : res point :=
  let* index := to_end_index m edge in get (m_endpoints m) index.

(** rene/_triangulation/mesh.py:47-58 [create_edge]. *)
Definition create_edge (m : mesh) (start_index end_index : nat) : mesh * quad_edge :=
  let edge := length (m_left_from_start m) in
  (Mesh (m_endpoints m)
        (m_left_from_start m ++ [edge; edge + 3; edge + 2; edge + 1])
        (m_starts_indices m ++ [start_index; end_index]),
   edge).

(** rene/_triangulation/mesh.py:72-82 [splice_edges]: the right-hand sides of each
    double assignment are evaluated first. *)
Definition splice_edges (m : mesh) (first second : quad_edge) : res mesh :=
  let* first_left := to_left_from_start m first in
  let* second_left := to_left_from_start m second in
  let alpha := to_rotated_edge first_left in
  let beta := to_rotated_edge second_left in
  let* lefts := put (m_left_from_start m) first second_left in
  let* lefts := put lefts second first_left in
  let* beta_left := get lefts beta in
  let* alpha_left := get lefts alpha in
  let* lefts := put lefts alpha beta_left in
  let* lefts := put lefts beta alpha_left in
  Ok (Mesh (m_endpoints m) lefts (m_starts_indices m)).

(** rene/_triangulation/mesh.py:39-45 [connect_edges]. *)
Definition connect_edges (m : mesh) (first second : quad_edge) : res (mesh * quad_edge) :=
  let* start_index := to_end_index m first in
  let* end_index := to_start_index m second in
  let '(m, result) := create_edge m start_index end_index in
  let* first_left := to_left_from_end m first in
  let* m := splice_edges m result first_left in
  let* m := splice_edges m (to_opposite_edge result) second in
  Ok (m, result).

(** rene/_triangulation/mesh.py:60-63 [is_deleted_edge]. *)
Definition is_deleted_edge (m : mesh) (edge : quad_edge) : res bool :=
  let* on_left := to_left_from_start m edge in
  let* on_right := to_right_from_start m edge in
  if Bool.eqb (on_right =? edge) (on_left =? edge) then Ok (on_left =? edge) else Fails.

(** rene/_triangulation/mesh.py:65-70 [delete_edge]. *)
Definition delete_edge (m : mesh) (edge : quad_edge) : res mesh :=
  let* on_right := to_right_from_start m edge in
  let* m := splice_edges m edge on_right in
  let opposite_edge := to_opposite_edge edge in
  let* on_right := to_right_from_start m opposite_edge in
  splice_edges m opposite_edge on_right.

(** rene/_triangulation/mesh.py:84-99 [swap_diagonal]. *)
Definition swap_diagonal (m : mesh) (edge : quad_edge) : res mesh :=
  let* side := to_right_from_start m edge in
  let opposite := to_opposite_edge edge in
  let* opposite_side := to_right_from_start m opposite in
  let* m := splice_edges m edge side in
  let* m := splice_edges m opposite opposite_side in
  let* side_left := to_left_from_end m side in
  let* m := splice_edges m edge side_left in
  let* opposite_side_left := to_left_from_end m opposite_side in
  let* m := splice_edges m opposite opposite_side_left in
  let* side_end := to_end_index m side in
  let* starts := put (m_starts_indices m) (edge / 2) side_end in
  let m := Mesh (m_endpoints m) (m_left_from_start m) starts in
  let* opposite_side_end := to_end_index m opposite_side in
  let* starts := put (m_starts_indices m) (opposite / 2) opposite_side_end in
  let m := Mesh (m_endpoints m) (m_left_from_start m) starts in
  let* start := to_start m edge in
  let* side_end := to_end m side in
  let* end_ := to_end m edge in
  let* opposite_side_end := to_end m opposite_side in
  if point_eq start side_end && point_eq end_ opposite_side_end then Ok m else Fails.

(** The edges of a list that are not deleted, in order. *)
Fixpoint not_deleted (m : mesh) (candidates : list quad_edge) : res (list quad_edge) :=
  match candidates with
  | [] => Ok []
  | candidate :: rest =>
      let* deleted := is_deleted_edge m candidate in
      let* edges := not_deleted m rest in
      Ok (if deleted then edges else candidate :: edges)
  end.
(** rene/_triangulation/mesh.py:101-109 [to_edges]: [range(0, len, 2)]. *)
Definition to_edges (m : mesh) : res (list quad_edge) :=
  not_deleted m (map (fun i => 2 * i) (seq 0 ((length (m_left_from_start m) + 1) / 2))).
(** rene/_triangulation/mesh.py:156-164 [to_unique_edges]: [range(0, len, 4)]. *)
Definition to_unique_edges (m : mesh) : res (list quad_edge) :=
  not_deleted m (map (fun i => 4 * i) (seq 0 ((length (m_left_from_start m) + 3) / 4))).

(** rene/_triangulation/mesh.py:387-394 [orient_point_to_edge]. *)
Definition orient_point_to_edge (m : mesh) (base_edge : quad_edge) (p : point)
  : res orientation :=
  let* start := to_start m base_edge in
  let* end_ := to_end m base_edge in
  Ok (orient start end_ p).

(** rene/_triangulation/mesh.py:185-221 [build_base_edge]: the loop, and then the
    edge. *)
Fixpoint find_base_sides (fuel : nat) (m : mesh) (first_right_side second_left_side : quad_edge)
  : res (quad_edge * quad_edge) :=
  match fuel with
  | O => Spins
  | S fuel =>
      let* p := to_start m second_left_side in
      let* o := orient_point_to_edge m first_right_side p in
      if orientation_is o COUNTERCLOCKWISE
      then
        let* next := to_left_from_end m first_right_side in
        find_base_sides fuel m next second_left_side
      else
        let* p := to_start m first_right_side in
        let* o := orient_point_to_edge m second_left_side p in
        if orientation_is o CLOCKWISE
        then
          let* next := to_right_from_end m second_left_side in
          find_base_sides fuel m first_right_side next
        else Ok (first_right_side, second_left_side)
  end.
Definition build_base_edge (fuel : nat) (m : mesh) (first_right_side second_left_side : quad_edge)
  : res (mesh * (quad_edge * quad_edge * quad_edge)) :=
  let* '(first_right_side, second_left_side) :=
    find_base_sides fuel m first_right_side second_left_side in
  let* '(m, base_edge) :=
    connect_edges m (to_opposite_edge second_left_side) first_right_side in
  Ok (m, (first_right_side, base_edge, second_left_side)).

(** rene/_triangulation/mesh.py:267-288 [create_triangle]. *)
Definition create_triangle (m : mesh) (left_point_index mid_point_index right_point_index : nat)
  : res (mesh * (quad_edge * quad_edge)) :=
  let '(m, first_edge) := create_edge m left_point_index mid_point_index in
  let '(m, second_edge) := create_edge m mid_point_index right_point_index in
  let* m := splice_edges m (to_opposite_edge first_edge) second_edge in
  let* p := to_end m second_edge in
  let* o := orient_point_to_edge m first_edge p in
  if orientation_is o CLOCKWISE
  then
    let* '(m, third_edge) := connect_edges m second_edge first_edge in
    Ok (m, (to_opposite_edge third_edge, third_edge))
  else if orientation_is o COLLINEAR
  then Ok (m, (first_edge, to_opposite_edge second_edge))
  else
    let* '(m, _) := connect_edges m second_edge first_edge in
    Ok (m, (first_edge, to_opposite_edge second_edge)).

(** rene/_triangulation/mesh.py:291-322 [find_left_candidate] and 325-356
    [find_right_candidate] differ in the first candidate and in the step to the
    next one. *)
Fixpoint drop_candidates (step : mesh -> quad_edge -> res quad_edge)
  (fuel : nat) (m : mesh) (base_edge result : quad_edge) : res (mesh * quad_edge) :=
  match fuel with
  | O => Spins
  | S fuel =>
      let* next_candidate := step m result in
      let* next_end := to_end m next_candidate in
      let* o := orient_point_to_edge m base_edge next_end in
      if orientation_is o CLOCKWISE
      then
        let* base_end := to_end m base_edge in
        let* base_start := to_start m base_edge in
        let* result_end := to_end m result in
        if location_is (locate_point_in_point_point_point_circle
                          next_end base_end base_start result_end) INTERIOR
        then
          let* m := delete_edge m result in
          drop_candidates step fuel m base_edge next_candidate
        else Ok (m, result)
      else Ok (m, result)
  end.
Definition find_candidate (step : mesh -> quad_edge -> res quad_edge)
  (fuel : nat) (m : mesh) (base_edge first : quad_edge) : res (mesh * option quad_edge) :=
  let* p := to_end m first in
  let* o := orient_point_to_edge m base_edge p in
  if negb (orientation_is o CLOCKWISE) then Ok (m, None)
  else
    let* '(m, result) := drop_candidates step fuel m base_edge first in
    Ok (m, Some result).
Definition find_left_candidate (fuel : nat) (m : mesh) (base_edge : quad_edge)
  : res (mesh * option quad_edge) :=
  let* first := to_left_from_start m (to_opposite_edge base_edge) in
  find_candidate to_left_from_start fuel m base_edge first.
Definition find_right_candidate (fuel : nat) (m : mesh) (base_edge : quad_edge)
  : res (mesh * option quad_edge) :=
  let* first := to_right_from_start m base_edge in
  find_candidate to_right_from_start fuel m base_edge first.

(** rene/_triangulation/mesh.py:397-437 [rise_bubble]. *)
Fixpoint rise_bubble (fuel inner_fuel : nat) (m : mesh) (base_edge : quad_edge) : res mesh :=
  match fuel with
  | O => Spins
  | S fuel =>
      let* '(m, left_candidate) := find_left_candidate inner_fuel m base_edge in
      let* '(m, right_candidate) := find_right_candidate inner_fuel m base_edge in
      let connect_left (left_candidate : quad_edge) :=
        let* '(m, base_edge) :=
          connect_edges m (to_opposite_edge base_edge) (to_opposite_edge left_candidate) in
        rise_bubble fuel inner_fuel m base_edge in
      let connect_right (right_candidate : quad_edge) :=
        let* '(m, base_edge) :=
          connect_edges m right_candidate (to_opposite_edge base_edge) in
        rise_bubble fuel inner_fuel m base_edge in
      match left_candidate, right_candidate with
      | Some left_candidate, Some right_candidate =>
          let* right_end := to_end m right_candidate in
          let* left_end := to_end m left_candidate in
          let* base_end := to_end m base_edge in
          let* base_start := to_start m base_edge in
          if location_is (locate_point_in_point_point_point_circle
                            right_end left_end base_end base_start) INTERIOR
          then connect_right right_candidate
          else connect_left left_candidate
      | Some left_candidate, None => connect_left left_candidate
      | None, Some right_candidate => connect_right right_candidate
      | None, None => Ok m
      end
  end.

(** rene/_triangulation/mesh.py:359-384 [merge]. *)
Definition merge (fuel : nat) (m : mesh) (first_sides second_sides : quad_edge * quad_edge)
  : res (mesh * (quad_edge * quad_edge)) :=
  let '(first_left_side, first_right_side) := first_sides in
  let '(second_left_side, second_right_side) := second_sides in
  let* '(m, (first_right_side, base_edge, second_left_side)) :=
    build_base_edge fuel m first_right_side second_left_side in
  let* m := rise_bubble fuel fuel m base_edge in
  let* p := to_start m first_left_side in
  let* q := to_start m first_right_side in
  let left_side := if point_eq p q then to_opposite_edge base_edge else first_left_side in
  let* p := to_start m second_left_side in
  let* q := to_start m second_right_side in
  let right_side := if point_eq p q then base_edge else second_right_side in
  Ok (m, (left_side, right_side)).

(** rene/_triangulation/mesh.py:224-264 [build_delaunay_triangulation]: the base
    cases ... *)
Fixpoint create_segments (m : mesh) (count index : nat) : mesh * list (quad_edge * quad_edge) :=
  match count with
  | O => (m, [])
  | S count =>
      let '(m, edge) := create_edge m (2 * index) (2 * index + 1) in
      let '(m, sides) := create_segments m count (S index) in
      (m, (edge, to_opposite_edge edge) :: sides)
  end.
Fixpoint create_triangles (m : mesh) (offset count index : nat)
  : res (mesh * list (quad_edge * quad_edge)) :=
  match count with
  | O => Ok (m, [])
  | S count =>
      let* '(m, side) :=
        create_triangle m (offset + 3 * index) (offset + 3 * index + 1)
                          (offset + 3 * index + 2) in
      let* '(m, sides) := create_triangles m offset count (S index) in
      Ok (m, side :: sides)
  end.
(** ... one round of merging (248-261) ... *)
Fixpoint merge_sides (fuel : nat) (m : mesh) (sides : list (quad_edge * quad_edge))
  : res (mesh * list (quad_edge * quad_edge)) :=
  match sides with
  | first :: second :: rest =>
      let* '(m, side) := merge fuel m first second in
      let* '(m, sides) := merge_sides fuel m rest in
      Ok (m, side :: sides)
  | other => Ok (m, other)
  end.
(** ... and [ceil_log2] of them. *)
Fixpoint merge_all_sides (fuel rounds : nat) (m : mesh) (sides : list (quad_edge * quad_edge))
  : res (mesh * list (quad_edge * quad_edge)) :=
  match rounds with
  | O => Ok (m, sides)
  | S rounds =>
      let* '(m, sides) := merge_sides fuel m sides in
      merge_all_sides fuel rounds m sides
  end.
(** The sides are [None] where they are [UNDEFINED_EDGE]. *)
Definition build_delaunay_triangulation (fuel : nat) (m : mesh)
  : res (mesh * option (quad_edge * quad_edge)) :=
  if length (m_endpoints m) <? 2 then Ok (m, None)
  else
    match to_base_cases (length (m_endpoints m)) with
    | None => Fails
    | Some (segments_count, triangles_count) =>
        let '(m, segments) := create_segments m segments_count 0 in
        let* '(m, triangles) :=
          create_triangles m (2 * segments_count) triangles_count 0 in
        let sides := segments ++ triangles in
        let* '(m, sides) :=
          merge_all_sides fuel (N.to_nat (ceil_log2 (N.of_nat (length sides)))) m sides in
        match sides with
        | [side] => Ok (m, Some side)
        | _ => Fails
        end
    end.

(** [list.sort] on points (any sort gives this list, since points that are not
    less than one another are equal), and rene/_utils.py:161-162 [deduplicate]. *)
Fixpoint insert_point (p : point) (points : list point) : list point :=
  match points with
  | [] => [p]
  | q :: rest => if point_lt q p then q :: insert_point p rest else p :: points
  end.
Fixpoint sort_points (points : list point) : list point :=
  match points with
  | [] => []
  | p :: rest => insert_point p (sort_points rest)
  end.
Fixpoint deduplicate (points : list point) : list point :=
  match points with
  | p :: ((q :: _) as rest) =>
      if point_eq p q then deduplicate rest else p :: deduplicate rest
  | other => other
  end.
(** rene/_triangulation/delaunay.py:21-32 [from_points]. *)
Definition delaunay_from_points (fuel : nat) (points : list point)
  : res (mesh * option (quad_edge * quad_edge)) :=
  build_delaunay_triangulation fuel
    (mesh_from_points (deduplicate (sort_points points))).

(** rene/_triangulation/delaunay.py:60-96 [triangles_vertices]. *)
Definition edge_triangle (m : mesh) (edge : quad_edge) : res (option (point * point * point)) :=
  let* first_vertex := to_start m edge in
  let* second_vertex := to_end m edge in
  let* next := to_left_from_start m edge in
  let* third_vertex := to_end m next in
  if point_lt first_vertex second_vertex && point_lt first_vertex third_vertex
  then
    let* other := to_right_from_start m (to_opposite_edge edge) in
    let* other_end := to_end m other in
    if point_eq third_vertex other_end
    then
      let* o := orient_point_to_edge m edge third_vertex in
      Ok (if orientation_is o COUNTERCLOCKWISE
          then Some (first_vertex, second_vertex, third_vertex) else None)
    else Ok None
  else Ok None.
Fixpoint edges_triangles (m : mesh) (edges : list quad_edge)
  : res (list (point * point * point)) :=
  match edges with
  | [] => Ok []
  | edge :: rest =>
      let* triangle := edge_triangle m edge in
      let* triangles := edges_triangles m rest in
      Ok (match triangle with Some t => t :: triangles | None => triangles end)
  end.
Definition triangles_vertices (m : mesh) : res (list (point * point * point)) :=
  let* edges := to_edges m in edges_triangles m edges.
Definition delaunay_triangles (fuel : nat) (points : list point)
  : res (list (point * point * point)) :=
  let* '(m, _) := delaunay_from_points fuel points in triangles_vertices m.

(** rene/_triangulation/delaunay.py:46-58 [to_boundary_points].  The class defines
    neither [__bool__] nor [__len__], so [if self] always holds; starting from
    [UNDEFINED_EDGE] = [sys.maxsize], an odd number, [to_start_index] fails. *)
Fixpoint boundary_from (fuel : nat) (m : mesh) (start edge : quad_edge) : res (list point) :=
  match fuel with
  | O => Spins
  | S fuel =>
      let* p := to_start m edge in
      let* candidate := to_right_from_end m edge in
      if candidate =? start then Ok [p]
      else
        let* rest := boundary_from fuel m start candidate in
        Ok (p :: rest)
  end.
Definition to_boundary_points (fuel : nat) (m : mesh) (sides : option (quad_edge * quad_edge))
  : res (list point) :=
  match sides with
  | None => Fails
  | Some (left_side, _) => boundary_from fuel m left_side left_side
  end.
