(** Model of the constrained Delaunay triangulation of a polygon:
    rene/_triangulation/constrained_delaunay.py and vertices.py, over the mesh of
    Model_Mesh.

    As there, [Fails] is an IndexError or a failed assertion and [Spins] is a loop that
    did not end within the given number of iterations; [fuel] bounds each loop on its
    own. *)
From Coq Require Import QArith Qcanon Bool List Arith.
From Verif Require Import QcTac Model_Base Model_Utils Model_Geometry Model_Contour Model_Segment Model_Mesh.
Import ListNotations.
Local Open Scope nat_scope.

(** rene/_triangulation/vertices.py:65-77 [PolygonVertexPosition]. *)
Record vertex_position := At { at_contour : nat; at_index : nat }.
(** rene/_triangulation/vertices.py:10-26 [ContourVertex]. *)
Record contour_vertex := ContourVertex { cv_position : vertex_position; cv_point : point }.

(** An assertion. *)
Definition check (b : bool) : res unit := if b then Ok tt else Fails.
(** [any] and [all] over a list, with conditions that may fail. *)
Fixpoint any_of {A} (f : A -> res bool) (l : list A) : res bool :=
  match l with
  | [] => Ok false
  | x :: rest => let* b := f x in if b then Ok true else any_of f rest
  end.
Fixpoint all_of {A} (f : A -> res bool) (l : list A) : res bool :=
  match l with
  | [] => Ok true
  | x :: rest => let* b := f x in if b then all_of f rest else Ok false
  end.
(** A list comprehension with a condition. *)
Fixpoint keep {A} (f : A -> res bool) (l : list A) : res (list A) :=
  match l with
  | [] => Ok []
  | x :: rest =>
      let* b := f x in
      let* kept := keep f rest in
      Ok (if b then x :: kept else kept)
  end.

(** rene/_triangulation/constrained_delaunay.py:35-58: the vertices; all but the last one
    of every contour, then the last ones. *)
Fixpoint first_vertices (index : nat) (contours : list (list point)) : list contour_vertex :=
  match contours with
  | [] => []
  | c :: rest =>
      map (fun '(i, p) => ContourVertex (At index i) p)
          (combine (seq 0 (length c - 1)) (firstn (length c - 1) c))
      ++ first_vertices (S index) rest
  end.
Fixpoint last_vertices (index : nat) (contours : list (list point)) : res (list contour_vertex) :=
  match contours with
  | [] => Ok []
  | c :: rest =>
      let* p := get c (length c - 1) in
      let* others := last_vertices (S index) rest in
      Ok (ContourVertex (At index (length c - 1)) p :: others)
  end.
(** rene/_triangulation/constrained_delaunay.py:59: [list.sort], which is stable, by the
    points (vertices.py:57-62). *)
Fixpoint insert_vertex (v : contour_vertex) (l : list contour_vertex) : list contour_vertex :=
  match l with
  | [] => [v]
  | w :: rest => if point_lt (cv_point w) (cv_point v) then w :: insert_vertex v rest else v :: l
  end.
Fixpoint sort_vertices (l : list contour_vertex) : list contour_vertex :=
  match l with
  | [] => []
  | v :: rest => insert_vertex v (sort_vertices rest)
  end.
(** rene/_triangulation/constrained_delaunay.py:60-71: [groupby]. *)
Fixpoint group_vertices (l : list contour_vertex) : list (point * list vertex_position) :=
  match l with
  | [] => []
  | v :: rest =>
      match group_vertices rest with
      | (p, positions) :: groups =>
          if point_eq (cv_point v) p
          then (cv_point v, cv_position v :: positions) :: groups
          else (cv_point v, [cv_position v]) :: (p, positions) :: groups
      | [] => [(cv_point v, [cv_position v])]
      end
  end.

(** rene/_triangulation/constrained_delaunay.py:290-314: the attributes.  The sides are
    [None] where they are [UNDEFINED_EDGE]. *)
Record constrained := Constrained {
  ct_sides : option (quad_edge * quad_edge);
  ct_mesh : mesh;
  ct_positions : list (list vertex_position);
  ct_triangular_holes : list nat }.
Definition with_mesh (t : constrained) (m : mesh) : constrained :=
  Constrained (ct_sides t) m (ct_positions t) (ct_triangular_holes t).

(** rene/_triangulation/constrained_delaunay.py:344-351 [are_polygon_edge_indices]. *)
Definition are_polygon_edge_indices (first second contour_size : nat) : bool :=
  (first =? S second) || (second =? S first)
  || ((first =? 0) && (second =? contour_size - 1))
  || ((first =? contour_size - 1) && (second =? 0)).
(** rene/_triangulation/constrained_delaunay.py:765-772 [to_constraint_index]. *)
Definition to_constraint_index (first_vertex_index second_vertex_index : nat) : nat :=
  if (first_vertex_index =? S second_vertex_index) || (second_vertex_index =? S first_vertex_index)
  then Nat.max first_vertex_index second_vertex_index
  else 0.

(** rene/_triangulation/constrained_delaunay.py:448-474
    [_intersect_polygon_vertices_positions]. *)
Definition intersect_positions_from (first second : list vertex_position)
  (reverse with_border : bool) : list (vertex_position * vertex_position) :=
  flat_map
    (fun first_position =>
       if with_border || negb (at_contour first_position =? 0)
       then
         match find (fun candidate => at_contour candidate =? at_contour first_position) second with
         | None => []
         | Some second_position =>
             [if reverse then (second_position, first_position)
              else (first_position, second_position)]
         end
       else []) first.
(** rene/_triangulation/constrained_delaunay.py:431-445
    [intersect_polygon_vertices_positions]. *)
Definition intersect_positions (first second : list vertex_position) (with_border : bool)
  : list (vertex_position * vertex_position) :=
  if length first <? length second
  then intersect_positions_from first second false with_border
  else intersect_positions_from second first true with_border.
(** Its calls for the endpoints of an edge: lines 485-489, 574-578, 653-657. *)
Definition edge_positions (m : mesh) (positions : list (list vertex_position)) (with_border : bool)
  (edge : quad_edge) : res (list (vertex_position * vertex_position)) :=
  let* start_index := to_start_index m edge in
  let* start_positions := get positions start_index in
  let* end_index := to_end_index m edge in
  let* end_positions := get positions end_index in
  Ok (intersect_positions start_positions end_positions with_border).

(** rene/_triangulation/constrained_delaunay.py:646-665 [is_polygon_edge]. *)
Definition is_polygon_edge (m : mesh) (edge : quad_edge) (contours_sizes : list nat)
  (positions : list (list vertex_position)) : res bool :=
  let* common_positions := edge_positions m positions true edge in
  any_of
    (fun '(start_position, end_position) =>
       let* contour_size := get contours_sizes (at_contour start_position) in
       Ok (are_polygon_edge_indices (at_index start_position) (at_index end_position) contour_size))
    common_positions.

(** [values[first][second] = True]. *)
Definition raise_flag (flags : list (list bool)) (first second : nat) : res (list (list bool)) :=
  let* row := get flags first in
  let* row := put row second true in
  put flags first row.
(** rene/_triangulation/constrained_delaunay.py:565-588 [to_contours_constraints_flags]: the
    inner and the outer loop. *)
Fixpoint raise_flags (contours_sizes : list nat)
  (common_positions : list (vertex_position * vertex_position)) (flags : list (list bool))
  : res (list (list bool)) :=
  match common_positions with
  | [] => Ok flags
  | (start_position, end_position) :: rest =>
      let* _ := check (at_contour start_position =? at_contour end_position) in
      let* contour_size := get contours_sizes (at_contour start_position) in
      let* flags :=
        if are_polygon_edge_indices (at_index start_position) (at_index end_position) contour_size
        then raise_flag flags (at_contour start_position)
               (to_constraint_index (at_index start_position) (at_index end_position))
        else Ok flags in
      raise_flags contours_sizes rest flags
  end.
Fixpoint flags_of_edges (m : mesh) (contours_sizes : list nat)
  (positions : list (list vertex_position)) (edges : list quad_edge) (flags : list (list bool))
  : res (list (list bool)) :=
  match edges with
  | [] => Ok flags
  | edge :: rest =>
      let* common_positions := edge_positions m positions true edge in
      let* flags := raise_flags contours_sizes common_positions flags in
      flags_of_edges m contours_sizes positions rest flags
  end.
Definition to_contours_constraints_flags (m : mesh) (contours_sizes : list nat)
  (positions : list (list vertex_position)) : res (list (list bool)) :=
  let* edges := to_unique_edges m in
  flags_of_edges m contours_sizes positions edges (map (repeat false) contours_sizes).

(** rene/_triangulation/constrained_delaunay.py:734-762
    [to_angle_containing_constraint_base]: its two loops, and the function. *)
Fixpoint turn_left_to (fuel : nat) (m : mesh) (edge : quad_edge) (constraint_end : point)
  : res quad_edge :=
  match fuel with
  | O => Spins
  | S fuel =>
      let* candidate := to_left_from_start m edge in
      let* o := orient_point_to_edge m candidate constraint_end in
      if orientation_is o CLOCKWISE then Ok edge else turn_left_to fuel m candidate constraint_end
  end.
Fixpoint turn_right_to (fuel : nat) (m : mesh) (edge : quad_edge) (constraint_end : point)
  : res quad_edge :=
  match fuel with
  | O => Spins
  | S fuel =>
      let* edge := to_right_from_start m edge in
      let* o := orient_point_to_edge m edge constraint_end in
      if negb (orientation_is o CLOCKWISE) then Ok edge else turn_right_to fuel m edge constraint_end
  end.
Definition to_angle_containing_constraint_base (fuel : nat) (m : mesh) (edge : quad_edge)
  (constraint_end : point) : res quad_edge :=
  let* end_ := to_end m edge in
  if point_eq end_ constraint_end then Ok edge
  else
    let* o := orient_point_to_edge m edge constraint_end in
    if orientation_is o COUNTERCLOCKWISE then turn_left_to fuel m edge constraint_end
    else turn_right_to fuel m edge constraint_end.

(** [segment_endpoints.relate_to_segment_endpoints] of an edge and a constraint, with its
    assertion that the endpoints of the first segment differ. *)
Definition edge_relation (m : mesh) (edge : quad_edge) (constraint_start constraint_end : point)
  : res relation :=
  let* start := to_start m edge in
  let* end_ := to_end m edge in
  if point_eq start end_ then Fails
  else
    match relate_to_segment_endpoints start end_ constraint_start constraint_end with
    | Some r => Ok r
    | None => Fails
    end.
Definition edge_crosses (m : mesh) (constraint_start constraint_end : point) (edge : quad_edge)
  : res bool :=
  let* r := edge_relation m edge constraint_start constraint_end in Ok (relation_is r CROSS).
Definition mem (e : quad_edge) (l : list quad_edge) : bool := existsb (Nat.eqb e) l.
(** rene/_triangulation/constrained_delaunay.py:381-428 [detect_crossings]: the loop, and the
    two assertions after it. *)
Fixpoint collect_crossings (fuel : nat) (m : mesh) (candidate : quad_edge)
  (constraint_start constraint_end : point) (result : list quad_edge) : res (list quad_edge) :=
  match fuel with
  | O => Spins
  | S fuel =>
      let* start := to_start m candidate in
      if point_eq start constraint_end then Ok result
      else
        let last_crossing := candidate in
        let* crosses := edge_crosses m constraint_start constraint_end last_crossing in
        let* _ := check crosses in
        let* candidate := to_right_from_start m last_crossing in
        let* o := orient_point_to_edge m candidate constraint_end in
        let* turns :=
          if negb (orientation_is o CLOCKWISE) then Ok true
          else
            let* end_ := to_end m candidate in
            Ok (orientation_is (orient constraint_start constraint_end end_) CLOCKWISE) in
        let* candidate :=
          if turns
          then let* next := to_right_from_end m last_crossing in Ok (to_opposite_edge next)
          else Ok candidate in
        collect_crossings fuel m candidate constraint_start constraint_end
          (result ++ [last_crossing])
  end.
Definition detect_crossings (fuel : nat) (m : mesh) (base_edge : quad_edge)
  (constraint_start constraint_end : point) : res (list quad_edge) :=
  let* candidate := to_left_from_end m base_edge in
  let* result := collect_crossings fuel m candidate constraint_start constraint_end [] in
  let* _ := check (forallb (fun edge => negb (mem (to_opposite_edge edge) result)) result) in
  let* edges := to_unique_edges m in
  let* crossing := keep (edge_crosses m constraint_start constraint_end) edges in
  let* _ := check (forallb (fun edge => mem edge result || mem (to_opposite_edge edge) result)
                           crossing) in
  Ok result.

(** rene/_triangulation/constrained_delaunay.py:617-643 [is_convex_quadrilateral_diagonal]. *)
Definition is_counterclockwise_to (m : mesh) (edge : quad_edge) (p : point) : res bool :=
  let* o := orient_point_to_edge m edge p in Ok (orientation_is o COUNTERCLOCKWISE).
Definition is_convex_quadrilateral_diagonal (m : mesh) (edge : quad_edge) : res bool :=
  let* left_from_end := to_left_from_end m edge in
  let* start := to_start m edge in
  let* first := is_counterclockwise_to m left_from_end start in
  let* right_from_start := to_right_from_start m edge in
  let* end_ := to_end m edge in
  let* second := is_counterclockwise_to m right_from_start end_ in
  if first && second
  then
    let* right_from_end := to_right_from_end m edge in
    let* left_from_start := to_left_from_start m edge in
    let* p := to_end m left_from_start in
    let* third := is_counterclockwise_to m (to_opposite_edge right_from_end) p in
    if third
    then
      let* p := to_end m right_from_start in
      is_counterclockwise_to m (to_opposite_edge left_from_start) p
    else Ok false
  else Ok false.
(** rene/_triangulation/constrained_delaunay.py:591-614 [edge_should_be_swapped]. *)
Definition edge_should_be_swapped (m : mesh) (edge : quad_edge) : res bool :=
  let* convex := is_convex_quadrilateral_diagonal m edge in
  if convex
  then
    let* right_from_start := to_right_from_start m edge in
    let* right := to_end m right_from_start in
    let* start := to_start m edge in
    let* end_ := to_end m edge in
    let* left_from_start := to_left_from_start m edge in
    let* left := to_end m left_from_start in
    Ok (location_is (locate_point_in_point_point_point_circle right start end_ left) INTERIOR
        || location_is (locate_point_in_point_point_point_circle left end_ start right) INTERIOR)
  else Ok false.

(** rene/_triangulation/constrained_delaunay.py:668-695 [resolve_crossings]; the queue never
    has more than the crossings it starts with. *)
Fixpoint resolve_crossings (fuel : nat) (m : mesh) (constraint_start constraint_end : point)
  (crossings_queue result : list quad_edge) : res (mesh * list quad_edge) :=
  match crossings_queue with
  | [] => Ok (m, result)
  | crossing :: crossings_queue =>
      match fuel with
      | O => Spins
      | S fuel =>
          let* convex := is_convex_quadrilateral_diagonal m crossing in
          if convex
          then
            let* m := swap_diagonal m crossing in
            let* relation := edge_relation m crossing constraint_start constraint_end in
            if relation_is relation CROSS
            then resolve_crossings fuel m constraint_start constraint_end
                   (crossings_queue ++ [crossing]) result
            else if negb (relation_is relation EQUAL)
            then resolve_crossings fuel m constraint_start constraint_end crossings_queue
                   (result ++ [crossing])
            else resolve_crossings fuel m constraint_start constraint_end crossings_queue result
          else resolve_crossings fuel m constraint_start constraint_end
                 (crossings_queue ++ [crossing]) result
      end
  end.

(** rene/_triangulation/constrained_delaunay.py:698-717 [restore_delaunay_criterion]. *)
Fixpoint swap_diagonals (m : mesh) (edges : list quad_edge) : res mesh :=
  match edges with
  | [] => Ok m
  | edge :: rest => let* m := swap_diagonal m edge in swap_diagonals m rest
  end.
Fixpoint restore_delaunay_criterion (fuel : nat) (m : mesh) (candidates : list quad_edge)
  : res mesh :=
  match fuel with
  | O => Spins
  | S fuel =>
      let* edges_to_swap := keep (edge_should_be_swapped m) candidates in
      let* next_target_edges :=
        keep (fun edge => let* b := edge_should_be_swapped m edge in Ok (negb b)) candidates in
      match edges_to_swap with
      | [] => Ok m
      | _ =>
          let* m := swap_diagonals m edges_to_swap in
          restore_delaunay_criterion fuel m next_target_edges
      end
  end.
(** rene/_triangulation/constrained_delaunay.py:720-731 [set_constraint]. *)
Definition set_constraint (fuel : nat) (m : mesh) (constraint_start constraint_end : point)
  (crossings : list quad_edge) : res mesh :=
  let* '(m, new_edges) := resolve_crossings fuel m constraint_start constraint_end crossings [] in
  restore_delaunay_criterion fuel m new_edges.

(** rene/_triangulation/constrained_delaunay.py:136-188 [constrain]: the body of the inner
    loop, the inner loop, the outer loop and the method. *)
Definition constrain_position (fuel : nat) (contours_vertices : list (list point))
  (edge : quad_edge) (vertex_point : point) (position : vertex_position)
  (m : mesh) (flags : list (list bool)) : res (mesh * list (list bool)) :=
  let* contour := get contours_vertices (at_contour position) in
  let next_vertex_index := (at_index position + 1) mod length contour in
  let constraint_index := to_constraint_index (at_index position) next_vertex_index in
  let* row := get flags (at_contour position) in
  let* flag := get row constraint_index in
  if flag then Ok (m, flags)
  else
    let* next_vertex_point := get contour next_vertex_index in
    let* angle_base_edge := to_angle_containing_constraint_base fuel m edge next_vertex_point in
    let* crossings := detect_crossings fuel m angle_base_edge vertex_point next_vertex_point in
    let* m :=
      match crossings with
      | [] => Ok m
      | _ => set_constraint fuel m vertex_point next_vertex_point crossings
      end in
    let* flags := raise_flag flags (at_contour position) constraint_index in
    Ok (m, flags).
Fixpoint constrain_positions (fuel : nat) (contours_vertices : list (list point))
  (edge : quad_edge) (vertex_point : point) (positions : list vertex_position)
  (m : mesh) (flags : list (list bool)) : res (mesh * list (list bool)) :=
  match positions with
  | [] => Ok (m, flags)
  | position :: rest =>
      let* '(m, flags) :=
        constrain_position fuel contours_vertices edge vertex_point position m flags in
      constrain_positions fuel contours_vertices edge vertex_point rest m flags
  end.
Fixpoint constrain_edges (fuel : nat) (contours_vertices : list (list point))
  (positions : list (list vertex_position)) (edges : list quad_edge)
  (m : mesh) (flags : list (list bool)) : res (mesh * list (list bool)) :=
  match edges with
  | [] => Ok (m, flags)
  | edge :: rest =>
      let* vertex_start_index := to_start_index m edge in
      let* vertex_point := get (m_endpoints m) vertex_start_index in
      let* vertex_positions := get positions vertex_start_index in
      let* '(m, flags) :=
        constrain_positions fuel contours_vertices edge vertex_point vertex_positions m flags in
      constrain_edges fuel contours_vertices positions rest m flags
  end.
Definition constrain (fuel : nat) (contours_vertices : list (list point)) (t : constrained)
  : res constrained :=
  let m := ct_mesh t in
  let* flags :=
    to_contours_constraints_flags m (map (@length point) contours_vertices) (ct_positions t) in
  let* edges := to_edges m in
  let* '(m, _) := constrain_edges fuel contours_vertices (ct_positions t) edges m flags in
  Ok (with_mesh t m).

(** rene/_triangulation/constrained_delaunay.py:222-234 [to_unique_boundary_edges], with
    316-320 [__bool__]. *)
Fixpoint boundary_edges_from (fuel : nat) (m : mesh) (start edge : quad_edge)
  : res (list quad_edge) :=
  match fuel with
  | O => Spins
  | S fuel =>
      let* candidate := to_right_from_end m edge in
      if candidate =? start then Ok [edge]
      else let* rest := boundary_edges_from fuel m start candidate in Ok (edge :: rest)
  end.
Definition to_unique_boundary_edges (fuel : nat) (t : constrained) : res (list quad_edge) :=
  match m_left_from_start (ct_mesh t), ct_sides t with
  | [], None => to_unique_edges (ct_mesh t)
  | _ :: _, Some (left_side, _) => boundary_edges_from fuel (ct_mesh t) left_side left_side
  | _, _ => Fails
  end.
(** rene/_triangulation/constrained_delaunay.py:216-220 [to_boundary_points]. *)
Fixpoint starts_of (m : mesh) (edges : list quad_edge) : res (list point) :=
  match edges with
  | [] => Ok []
  | edge :: rest =>
      let* p := to_start m edge in
      let* points := starts_of m rest in
      Ok (p :: points)
  end.
Definition constrained_boundary_points (fuel : nat) (t : constrained) : res (list point) :=
  let* edges := to_unique_boundary_edges fuel t in starts_of (ct_mesh t) edges.

(** rene/_triangulation/constrained_delaunay.py:204-214 [delete_edge]; it is called when the
    mesh has edges. *)
Definition ct_delete_edge (t : constrained) (edge : quad_edge) : res constrained :=
  let m := ct_mesh t in
  match ct_sides t with
  | None => Fails
  | Some (left_side, right_side) =>
      let* right_side :=
        if (edge =? right_side) || (to_opposite_edge edge =? right_side)
        then let* e := to_right_from_end m right_side in Ok (to_opposite_edge e)
        else Ok right_side in
      let* left_side :=
        if (edge =? left_side) || (to_opposite_edge edge =? left_side)
        then to_left_from_start m left_side
        else Ok left_side in
      let* m := delete_edge m edge in
      Ok (Constrained (Some (left_side, right_side)) m (ct_positions t) (ct_triangular_holes t))
  end.

(** rene/_triangulation/constrained_delaunay.py:549-562 [mouth_edge_to_incidents]. *)
Definition mouth_edge_to_incidents (m : mesh) (edge : quad_edge) : res (quad_edge * quad_edge) :=
  let* left_from_start := to_left_from_start m edge in
  let* p := to_end m left_from_start in
  let* o := orient_point_to_edge m edge p in
  let* _ := check (orientation_is o COUNTERCLOCKWISE) in
  let* second := to_right_from_end m left_from_start in
  Ok (left_from_start, second).
(** rene/_triangulation/constrained_delaunay.py:105-134 [bound]: the loop (the list of
    mouths is reversed: its head is the one to be popped), and the method. *)
Fixpoint delete_mouths (fuel : nat) (contours_sizes : list nat) (t : constrained)
  (extraneous_mouths : list quad_edge) : res constrained :=
  match extraneous_mouths with
  | [] => Ok t
  | mouth :: rest =>
      match fuel with
      | O => Spins
      | S fuel =>
          let* '(first_candidate, second_candidate) := mouth_edge_to_incidents (ct_mesh t) mouth in
          let* t := ct_delete_edge t mouth in
          let* first := is_polygon_edge (ct_mesh t) first_candidate contours_sizes (ct_positions t) in
          let rest := if first then rest else first_candidate :: rest in
          let* second := is_polygon_edge (ct_mesh t) second_candidate contours_sizes (ct_positions t) in
          let rest := if second then rest else second_candidate :: rest in
          delete_mouths fuel contours_sizes t rest
      end
  end.
Definition bound (fuel : nat) (contours_sizes : list nat) (t : constrained) : res constrained :=
  let* boundary_edges := to_unique_boundary_edges fuel t in
  let* extraneous_mouths :=
    keep (fun edge =>
            let* b := is_polygon_edge (ct_mesh t) edge contours_sizes (ct_positions t) in
            Ok (negb b)) boundary_edges in
  delete_mouths fuel contours_sizes t (rev extraneous_mouths).

(** rene/_triangulation/constrained_delaunay.py:323-341 [angle_contains_point]. *)
Definition angle_contains_point (vertex first_ray_point second_ray_point : point)
  (angle_orientation : orientation) (p : point) : res bool :=
  let* _ := check (negb (orientation_is angle_orientation COLLINEAR)) in
  let first_half_orientation := orient vertex first_ray_point p in
  let second_half_orientation := orient second_ray_point vertex p in
  Ok ((orientation_is first_half_orientation COLLINEAR
       || orientation_is first_half_orientation angle_orientation)
      && (orientation_is second_half_orientation COLLINEAR
          || orientation_is second_half_orientation angle_orientation)).
(** [vertices[index - 1]]: the last one if the index is zero. *)
Definition get_prior (vertices : list point) (index : nat) : res point :=
  match index with
  | O => get vertices (length vertices - 1)
  | S index => get vertices index
  end.
(** rene/_triangulation/constrained_delaunay.py:498-546 [is_segment_inside_hole]. *)
Definition is_segment_inside_hole (start end_ : point) (start_position end_position : vertex_position)
  (contours_vertices : list (list point)) : res bool :=
  let* _ := check (at_contour start_position =? at_contour end_position) in
  let* hole_vertices := get contours_vertices (at_contour start_position) in
  let hole_size := length hole_vertices in
  let start_vertex_index := at_index start_position in
  let end_vertex_index := at_index end_position in
  if are_polygon_edge_indices start_vertex_index end_vertex_index hole_size then Ok false
  else
    let* prior_to_start_point := get_prior hole_vertices start_vertex_index in
    let* prior_to_end_point := get_prior hole_vertices end_vertex_index in
    let* next_to_start_point := get hole_vertices ((start_vertex_index + 1) mod hole_size) in
    let* next_to_end_point := get hole_vertices ((end_vertex_index + 1) mod hole_size) in
    let start_angle_orientation := orient start prior_to_start_point next_to_start_point in
    let end_angle_orientation := orient end_ prior_to_end_point next_to_end_point in
    let* contains :=
      angle_contains_point end_ prior_to_end_point next_to_end_point end_angle_orientation start in
    if Bool.eqb (orientation_is end_angle_orientation COUNTERCLOCKWISE) contains
    then
      let* contains :=
        angle_contains_point start prior_to_start_point next_to_start_point
          start_angle_orientation end_ in
      Ok (Bool.eqb (orientation_is start_angle_orientation COUNTERCLOCKWISE) contains)
    else Ok false.
(** rene/_triangulation/constrained_delaunay.py:477-495 [is_edge_inside_hole]. *)
Definition is_edge_inside_hole (m : mesh) (edge : quad_edge) (contours_vertices : list (list point))
  (positions : list (list vertex_position)) : res bool :=
  let* start := to_start m edge in
  let* end_ := to_end m edge in
  let* common_holes_positions := edge_positions m positions false edge in
  match common_holes_positions with
  | [] => Ok false
  | [(start_position, end_position)] =>
      is_segment_inside_hole start end_ start_position end_position contours_vertices
  | _ => Fails
  end.
(** rene/_triangulation/constrained_delaunay.py:190-202 [cut]. *)
Fixpoint cut_edges (contours_vertices : list (list point)) (edges : list quad_edge)
  (t : constrained) : res constrained :=
  match edges with
  | [] => Ok t
  | edge :: rest =>
      let* inside := is_edge_inside_hole (ct_mesh t) edge contours_vertices (ct_positions t) in
      let* t := if inside then ct_delete_edge t edge else Ok t in
      cut_edges contours_vertices rest t
  end.
Definition cut (contours_vertices : list (list point)) (t : constrained) : res constrained :=
  let* edges := to_unique_edges (ct_mesh t) in cut_edges contours_vertices edges t.

(** rene/_triangulation/constrained_delaunay.py:77-81: the indices of the triangular holes. *)
Fixpoint triangular_indices (index : nat) (sizes : list nat) : list nat :=
  match sizes with
  | [] => []
  | size :: rest =>
      if size =? 3 then index :: triangular_indices (S index) rest
      else triangular_indices (S index) rest
  end.
(** rene/_triangulation/constrained_delaunay.py:29-91 [from_polygon]. *)
Definition constrained_from_polygon (fuel : nat) (p : polygon) : res constrained :=
  let contours_vertices := border p :: holes p in
  let* lasts := last_vertices 0 contours_vertices in
  let groups := group_vertices (sort_vertices (first_vertices 0 contours_vertices ++ lasts)) in
  let* '(m, sides) :=
    build_delaunay_triangulation fuel (mesh_from_points (map fst groups)) in
  let contours_sizes := map (@length point) contours_vertices in
  let t := Constrained sides m (map snd groups) (triangular_indices 1 (tl contours_sizes)) in
  let* t := constrain fuel contours_vertices t in
  let* t := bound fuel contours_sizes t in
  cut contours_vertices t.

(** rene/_triangulation/constrained_delaunay.py:354-378 [are_triangular_hole_vertices]. *)
Definition are_triangular_hole_vertices
  (first_positions second_positions third_positions : list vertex_position)
  (triangular_holes_indices : list nat) : bool :=
  existsb
    (fun contour_index =>
       negb (contour_index =? 0)
       && mem contour_index (map at_contour second_positions)
       && mem contour_index (map at_contour third_positions)
       && mem contour_index triangular_holes_indices) (map at_contour first_positions).
(** rene/_triangulation/constrained_delaunay.py:236-278 [triangles_vertices]; the first four
    conditions are those of the triangulation of points. *)
Definition constrained_edge_triangle (t : constrained) (edge : quad_edge)
  : res (option (point * point * point)) :=
  let m := ct_mesh t in
  let* triangle := edge_triangle m edge in
  match triangle, ct_triangular_holes t with
  | None, _ => Ok None
  | Some _, [] => Ok triangle
  | Some _, _ =>
      let* first_index := to_start_index m edge in
      let* first_positions := get (ct_positions t) first_index in
      let* second_index := to_end_index m edge in
      let* second_positions := get (ct_positions t) second_index in
      let* next := to_left_from_start m edge in
      let* third_index := to_end_index m next in
      let* third_positions := get (ct_positions t) third_index in
      Ok (if are_triangular_hole_vertices first_positions second_positions third_positions
               (ct_triangular_holes t)
          then None else triangle)
  end.
Fixpoint constrained_edges_triangles (t : constrained) (edges : list quad_edge)
  : res (list (point * point * point)) :=
  match edges with
  | [] => Ok []
  | edge :: rest =>
      let* triangle := constrained_edge_triangle t edge in
      let* triangles := constrained_edges_triangles t rest in
      Ok (match triangle with Some t => t :: triangles | None => triangles end)
  end.
Definition constrained_triangles_vertices (t : constrained) : res (list (point * point * point)) :=
  let* edges := to_edges (ct_mesh t) in constrained_edges_triangles t edges.
(** rene/_exact/triangulation.py:40-46 [triangles]. *)
Definition constrained_triangles (fuel : nat) (p : polygon) : res (list (point * point * point)) :=
  let* t := constrained_from_polygon fuel p in constrained_triangles_vertices t.
(** rene/_exact/triangulation.py:29-38 [border]. *)
Definition constrained_border (fuel : nat) (p : polygon) : res (list point) :=
  let* t := constrained_from_polygon fuel p in
  let* boundary_points := constrained_boundary_points fuel t in
  Ok (if length boundary_points <? 3 then boundary_points
      else shrink_collinear_vertices boundary_points).
