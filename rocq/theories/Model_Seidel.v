(** Model of the trapezoidation of a multisegment or polygon: rene/_seidel.

    [Node] objects live in the list [nodes]; a [Trapezoid] object is referred to by the
    index of its leaf ([leaf_index], fixed when the leaf is created): a leaf is at that
    index from its creation until it is replaced, and is not used afterwards.  [None]
    stands for an AssertionError. *)
From Coq Require Import QArith Qcanon Bool List Arith NArith.
From Verif Require Import QcTac Model_Base Model_Box Model_Geometry Model_Utils Model_Contour.
Import ListNotations.
Local Open Scope Qc_scope.

(** rene/_seidel/edge.py:16-74 [Edge]. *)
Record edge := Edge { interior_to_left : bool; left_point_index : nat; right_point_index : nat }.
(** [edges[index]], [endpoints[index]]: the IndexError of a wrong index does not occur. *)
Definition edge_at (edges : list edge) (index : nat) : edge := nth index edges (Edge false 0 0).
Definition endpoint_at (endpoints : list point) (index : nat) : point :=
  nth index endpoints (Pt 0 0).

(** rene/_seidel/edge.py:38-47 [Edge.orientation_of]. *)
Definition orientation_of (e : edge) (p : point) (endpoints : list point) : orientation :=
  orient (endpoint_at endpoints (left_point_index e))
         (endpoint_at endpoints (right_point_index e)) p.

(** rene/_seidel/edge.py:76-104 [Edge.is_under]. *)
Definition is_under (self other : edge) (endpoints : list point) : bool :=
  let other_left_orientation :=
    orientation_of self (endpoint_at endpoints (left_point_index other)) endpoints in
  let other_right_orientation :=
    orientation_of self (endpoint_at endpoints (right_point_index other)) endpoints in
  if orientation_is other_left_orientation other_right_orientation
  then orientation_is other_left_orientation COUNTERCLOCKWISE
  else if orientation_is other_left_orientation COLLINEAR
  then orientation_is other_right_orientation COUNTERCLOCKWISE
  else
    let left_orientation :=
      orientation_of other (endpoint_at endpoints (left_point_index self)) endpoints in
    let right_orientation :=
      orientation_of other (endpoint_at endpoints (right_point_index self)) endpoints in
    if orientation_is left_orientation right_orientation
    then orientation_is left_orientation CLOCKWISE
    else if orientation_is left_orientation COLLINEAR
    then orientation_is right_orientation CLOCKWISE
    else if orientation_is other_right_orientation COLLINEAR
    then orientation_is other_left_orientation COUNTERCLOCKWISE
    else if orientation_is right_orientation COLLINEAR
    then orientation_is left_orientation CLOCKWISE
    else false.

(** rene/_seidel/trapezoid.py:4-94 [Trapezoid]. *)
Record trapezoid := Trapezoid {
  is_component : bool;
  left_point : nat;
  right_point : nat;
  below_edge : nat;
  above_edge : nat;
  lower_left : option nat;
  lower_right : option nat;
  upper_left : option nat;
  upper_right : option nat }.
Definition with_lower_left (t : trapezoid) (v : option nat) : trapezoid :=
  Trapezoid (is_component t) (left_point t) (right_point t) (below_edge t) (above_edge t)
    v (lower_right t) (upper_left t) (upper_right t).
Definition with_lower_right (t : trapezoid) (v : option nat) : trapezoid :=
  Trapezoid (is_component t) (left_point t) (right_point t) (below_edge t) (above_edge t)
    (lower_left t) v (upper_left t) (upper_right t).
Definition with_upper_left (t : trapezoid) (v : option nat) : trapezoid :=
  Trapezoid (is_component t) (left_point t) (right_point t) (below_edge t) (above_edge t)
    (lower_left t) (lower_right t) v (upper_right t).
Definition with_upper_right (t : trapezoid) (v : option nat) : trapezoid :=
  Trapezoid (is_component t) (left_point t) (right_point t) (below_edge t) (above_edge t)
    (lower_left t) (lower_right t) (upper_left t) v.
Definition with_right_point (t : trapezoid) (v : nat) : trapezoid :=
  Trapezoid (is_component t) (left_point t) v (below_edge t) (above_edge t)
    (lower_left t) (lower_right t) (upper_left t) (upper_right t).

(** rene/_seidel/x_node.py:13-79 [XNode], rene/_seidel/y_node.py:13-79 [YNode],
    rene/_seidel/leaf.py:13-68 [Leaf]. *)
Inductive node :=
| XNode (point_index left_node_index right_node_index : nat)
| YNode (edge_index below_node_index above_node_index : nat)
| Leaf (t : trapezoid).

(** rene/_seidel/trapezoidation.py:608-613 [_get_trapezoid]. *)
Definition get_trapezoid (index : nat) (nodes : list node) : option trapezoid :=
  match nth_error nodes index with Some (Leaf t) => Some t | _ => None end.
(** An assignment to an attribute of the trapezoid with the given leaf index. *)
Definition update_trapezoid (index : nat) (f : trapezoid -> trapezoid) (nodes : list node)
  : list node :=
  match get_trapezoid index nodes with
  | Some t => set_nth nodes index (Leaf (f t))
  | None => nodes
  end.

(** rene/_seidel/trapezoid.py:33-47 [set_as_lower_left], [set_as_lower_right],
    [set_as_upper_left], [set_as_upper_right]. *)
Definition set_as_lower_left (self value : nat) (nodes : list node) : list node :=
  update_trapezoid value (fun t => with_lower_right t (Some self))
    (update_trapezoid self (fun t => with_lower_left t (Some value)) nodes).
Definition set_as_lower_right (self value : nat) (nodes : list node) : list node :=
  update_trapezoid value (fun t => with_lower_left t (Some self))
    (update_trapezoid self (fun t => with_lower_right t (Some value)) nodes).
Definition set_as_upper_left (self value : nat) (nodes : list node) : list node :=
  update_trapezoid value (fun t => with_upper_right t (Some self))
    (update_trapezoid self (fun t => with_upper_left t (Some value)) nodes).
Definition set_as_upper_right (self value : nat) (nodes : list node) : list node :=
  update_trapezoid value (fun t => with_upper_left t (Some self))
    (update_trapezoid self (fun t => with_upper_right t (Some value)) nodes).

(** rene/_seidel/trapezoidation.py:616-661 [_maybe_set_as_lower_left],
    [_maybe_set_as_lower_right], [_maybe_set_as_upper_left], [_maybe_set_as_upper_right]. *)
Definition maybe_set_as_lower_left (self : nat) (maybe : option nat) (nodes : list node)
  : option (list node) :=
  match maybe with
  | None => Some (update_trapezoid self (fun t => with_lower_left t None) nodes)
  | Some value =>
      match get_trapezoid value nodes with
      | Some _ => Some (set_as_lower_left self value nodes)
      | None => None
      end
  end.
Definition maybe_set_as_lower_right (self : nat) (maybe : option nat) (nodes : list node)
  : option (list node) :=
  match maybe with
  | None => Some (update_trapezoid self (fun t => with_lower_right t None) nodes)
  | Some value =>
      match get_trapezoid value nodes with
      | Some _ => Some (set_as_lower_right self value nodes)
      | None => None
      end
  end.
Definition maybe_set_as_upper_left (self : nat) (maybe : option nat) (nodes : list node)
  : option (list node) :=
  match maybe with
  | None => Some (update_trapezoid self (fun t => with_upper_left t None) nodes)
  | Some value =>
      match get_trapezoid value nodes with
      | Some _ => Some (set_as_upper_left self value nodes)
      | None => None
      end
  end.
Definition maybe_set_as_upper_right (self : nat) (maybe : option nat) (nodes : list node)
  : option (list node) :=
  match maybe with
  | None => Some (update_trapezoid self (fun t => with_upper_right t None) nodes)
  | Some value =>
      match get_trapezoid value nodes with
      | Some _ => Some (set_as_upper_right self value nodes)
      | None => None
      end
  end.

(** rene/_seidel/trapezoidation.py:516-538 [_create_trapezoid]: the new list of nodes and
    the index of the new leaf. *)
Definition create_trapezoid (left right below above : nat) (edges : list edge)
  (nodes : list node) : list node * nat :=
  (nodes ++ [Leaf (Trapezoid
     (interior_to_left (edge_at edges below) && negb (interior_to_left (edge_at edges above)))
     left right below above None None None None)],
   length nodes).
(** rene/_seidel/trapezoidation.py:541-550 [_create_x_node]. *)
Definition create_x_node (point_index left_node_index right_node_index : nat)
  (nodes : list node) : list node * nat :=
  (nodes ++ [XNode point_index left_node_index right_node_index], length nodes).
(** rene/_seidel/trapezoidation.py:553-562 [_create_y_node]. *)
Definition create_y_node (edge_index below_index above_index : nat) (nodes : list node)
  : list node * nat :=
  (nodes ++ [YNode edge_index below_index above_index], length nodes).
(** rene/_seidel/trapezoidation.py:720-730 [_replace_node]. *)
Definition replace_node (original replacement : nat) (nodes : list node)
  : option (list node) :=
  match nth_error nodes (length nodes - 1) with
  | Some popped =>
      if (replacement =? length nodes - 1)%nat
      then Some (set_nth (removelast nodes) original popped)
      else None
  | None => None
  end.

Local Notation "'do' x <- a ; b" :=
  (match a with Some x => b | None => None end)
  (at level 200, x name, a at level 100, b at level 200).

(** The three ways a new edge may be attached to what is to the left of the trapezoid
    it is put into, to the right of it, and to the previous trapezoid.  [trapezoid] is
    the value of the object at the beginning of the functions below; they assign no
    attribute of it (its neighbours are other trapezoids). *)
(** rene/_seidel/trapezoidation.py:418-431, 287-298 (the edge ends at the right point of
    the trapezoid, [then] branch) and 432-459, 299-322 (the edge ends before it). *)
Definition attach_right (e : edge) (trapezoid : trapezoid) (above below replacement : nat)
  (edges : list edge) (endpoints : list point) (nodes : list node)
  : option (list node * nat) :=
  if point_eq (endpoint_at endpoints (right_point_index e))
       (endpoint_at endpoints (right_point trapezoid))
  then
    do nodes <- maybe_set_as_upper_right above (upper_right trapezoid) nodes;
    do nodes <- maybe_set_as_lower_right below (lower_right trapezoid) nodes;
    Some (nodes, replacement)
  else
    let (nodes, right) :=
      create_trapezoid (right_point_index e) (right_point trapezoid)
        (below_edge trapezoid) (above_edge trapezoid) edges nodes in
    do nodes <- maybe_set_as_lower_right right (lower_right trapezoid) nodes;
    do nodes <- maybe_set_as_upper_right right (upper_right trapezoid) nodes;
    let nodes := set_as_lower_left right below nodes in
    let nodes := set_as_upper_left right above nodes in
    Some (create_x_node (right_point_index e) replacement right nodes).
(** rene/_seidel/trapezoidation.py:219-242, 436-459 (edge starting at the left point of
    the trapezoid or after it). *)
Definition attach_left (e : edge) (trapezoid : trapezoid) (above below replacement : nat)
  (edges : list edge) (endpoints : list point) (nodes : list node)
  : option (list node * nat) :=
  if point_eq (endpoint_at endpoints (left_point_index e))
       (endpoint_at endpoints (left_point trapezoid))
  then
    do nodes <- maybe_set_as_upper_left above (upper_left trapezoid) nodes;
    do nodes <- maybe_set_as_lower_left below (lower_left trapezoid) nodes;
    Some (nodes, replacement)
  else
    let (nodes, left) :=
      create_trapezoid (left_point trapezoid) (left_point_index e)
        (below_edge trapezoid) (above_edge trapezoid) edges nodes in
    do nodes <- maybe_set_as_lower_left left (lower_left trapezoid) nodes;
    do nodes <- maybe_set_as_upper_left left (upper_left trapezoid) nodes;
    let nodes := set_as_lower_right left below nodes in
    let nodes := set_as_upper_right left above nodes in
    Some (create_x_node (left_point_index e) left replacement nodes).
(** rene/_seidel/trapezoidation.py:257-283, 335-361 [above] and [below] of a trapezoid that
    is not the first one, with the right point they get.  ([is] between the indices of
    edges in [_add_edge_to_last_trapezoid] is equality: the indices of one edge are one
    object, handed on since the iteration that added the edge.) *)
Definition continue_above (edge_index prev_above : nat) (right : nat) (trapezoid : trapezoid)
  (edges : list edge) (nodes : list node) : option (list node * nat) :=
  do previous <- get_trapezoid prev_above nodes;
  if (above_edge previous =? above_edge trapezoid)%nat
  then Some (update_trapezoid prev_above (fun t => with_right_point t right) nodes, prev_above)
  else
    let (nodes, above) :=
      create_trapezoid (left_point trapezoid) right edge_index (above_edge trapezoid) edges
        nodes in
    let nodes := set_as_lower_left above prev_above nodes in
    do nodes <- maybe_set_as_upper_left above (upper_left trapezoid) nodes;
    Some (nodes, above).
Definition continue_below (edge_index prev_below : nat) (right : nat) (trapezoid : trapezoid)
  (edges : list edge) (nodes : list node) : option (list node * nat) :=
  do previous <- get_trapezoid prev_below nodes;
  if (below_edge previous =? below_edge trapezoid)%nat
  then Some (update_trapezoid prev_below (fun t => with_right_point t right) nodes, prev_below)
  else
    let (nodes, below) :=
      create_trapezoid (left_point trapezoid) right (below_edge trapezoid) edge_index edges
        nodes in
    let nodes := set_as_upper_left below prev_below nodes in
    do nodes <- maybe_set_as_lower_left below (lower_left trapezoid) nodes;
    Some (nodes, below).

(** rene/_seidel/trapezoidation.py:372-460 [_add_edge_to_single_trapezoid]. *)
Definition add_edge_to_single_trapezoid (edge_index index : nat) (edges : list edge)
  (endpoints : list point) (nodes : list node) : option (list node) :=
  do trapezoid <- get_trapezoid index nodes;
  let e := edge_at edges edge_index in
  let (nodes, above) :=
    create_trapezoid (left_point_index e) (right_point_index e) edge_index
      (above_edge trapezoid) edges nodes in
  let (nodes, below) :=
    create_trapezoid (left_point_index e) (right_point_index e) (below_edge trapezoid)
      edge_index edges nodes in
  let (nodes, replacement) := create_y_node edge_index below above nodes in
  do attached <- attach_right e trapezoid above below replacement edges endpoints nodes;
  do attached <- attach_left e trapezoid above below (snd attached) edges endpoints
                   (fst attached);
  replace_node index (snd attached) (fst attached).

(** rene/_seidel/trapezoidation.py:185-244 [_add_edge_to_first_trapezoid]: the nodes and
    the leaves above and below the edge. *)
Definition add_edge_to_first_trapezoid (edge_index index : nat) (edges : list edge)
  (endpoints : list point) (nodes : list node) : option (list node * nat * nat) :=
  do trapezoid <- get_trapezoid index nodes;
  let e := edge_at edges edge_index in
  let (nodes, above) :=
    create_trapezoid (left_point_index e) (right_point trapezoid) edge_index
      (above_edge trapezoid) edges nodes in
  let (nodes, below) :=
    create_trapezoid (left_point_index e) (right_point trapezoid) (below_edge trapezoid)
      edge_index edges nodes in
  let (nodes, replacement) := create_y_node edge_index below above nodes in
  do attached <- attach_left e trapezoid above below replacement edges endpoints nodes;
  do nodes <- maybe_set_as_upper_right above (upper_right trapezoid) (fst attached);
  do nodes <- maybe_set_as_lower_right below (lower_right trapezoid) nodes;
  do nodes <- replace_node index (snd attached) nodes;
  Some (nodes, above, below).

(** rene/_seidel/trapezoidation.py:326-369 [_add_edge_to_middle_trapezoid]. *)
Definition add_edge_to_middle_trapezoid (edge_index index prev_above prev_below : nat)
  (edges : list edge) (nodes : list node) : option (list node * nat * nat) :=
  do trapezoid <- get_trapezoid index nodes;
  do continued <- continue_above edge_index prev_above (right_point trapezoid) trapezoid
                    edges nodes;
  let (nodes, above) := continued in
  do continued <- continue_below edge_index prev_below (right_point trapezoid) trapezoid
                    edges nodes;
  let (nodes, below) := continued in
  do nodes <- maybe_set_as_upper_right above (upper_right trapezoid) nodes;
  do nodes <- maybe_set_as_lower_right below (lower_right trapezoid) nodes;
  let (nodes, replacement) := create_y_node edge_index below above nodes in
  do nodes <- replace_node index replacement nodes;
  Some (nodes, above, below).

(** rene/_seidel/trapezoidation.py:247-323 [_add_edge_to_last_trapezoid]. *)
Definition add_edge_to_last_trapezoid (edge_index index prev_above prev_below : nat)
  (edges : list edge) (endpoints : list point) (nodes : list node) : option (list node) :=
  do trapezoid <- get_trapezoid index nodes;
  let e := edge_at edges edge_index in
  do continued <- continue_above edge_index prev_above (right_point_index e) trapezoid
                    edges nodes;
  let (nodes, above) := continued in
  do continued <- continue_below edge_index prev_below (right_point_index e) trapezoid
                    edges nodes;
  let (nodes, below) := continued in
  let (nodes, replacement) := create_y_node edge_index below above nodes in
  do attached <- attach_right e trapezoid above below replacement edges endpoints nodes;
  replace_node index (snd attached) (fst attached).

(** rene/_seidel/x_node.py:39-57, y_node.py:42-57, leaf.py:30-38 [search_edge_node]:
    the index of the node. *)
Definition search_edge_node (index : nat) (e : edge) (edges : list edge)
  (endpoints : list point) (nodes : list node) : nat :=
  match nth_error nodes index with
  | Some (XNode point_index left_node_index right_node_index) =>
      if point_lt (endpoint_at endpoints (left_point_index e))
           (endpoint_at endpoints point_index)
      then left_node_index
      else right_node_index
  | Some (YNode edge_index below_node_index above_node_index) =>
      if is_under (edge_at edges edge_index) e endpoints then above_node_index
      else below_node_index
  | _ => index
  end.
(** rene/_seidel/trapezoidation.py:573-579: the loop of at most [steps] iterations. *)
Fixpoint search_leaf (steps cursor : nat) (e : edge) (edges : list edge)
  (endpoints : list point) (nodes : list node) : nat :=
  match steps with
  | O => cursor
  | S steps =>
      let candidate := search_edge_node cursor e edges endpoints nodes in
      if (candidate =? cursor)%nat then cursor
      else search_leaf steps candidate e edges endpoints nodes
  end.
(** Python's [or] on optional indices. *)
Definition index_or (first second : option nat) : option nat :=
  match first with Some (S i) => Some (S i) | _ => second end.
(** rene/_seidel/trapezoidation.py:583-604: the [while] loop over the trapezoids to the
    right; the fuel bounds the number of iterations. *)
Fixpoint walk_right (fuel : nat) (e : edge) (index : nat) (endpoints : list point)
  (nodes : list node) : option (list nat) :=
  match fuel with
  | O => None
  | S fuel =>
      do trapezoid <- get_trapezoid index nodes;
      if point_lt (endpoint_at endpoints (right_point trapezoid))
           (endpoint_at endpoints (right_point_index e))
      then
        do candidate <-
          (if orientation_is
                (orientation_of e (endpoint_at endpoints (right_point trapezoid)) endpoints)
                CLOCKWISE
           then index_or (upper_right trapezoid) (lower_right trapezoid)
           else index_or (lower_right trapezoid) (upper_right trapezoid));
        do rest <- walk_right fuel e candidate endpoints nodes;
        Some (index :: rest)
      else Some [index]
  end.
(** rene/_seidel/trapezoidation.py:565-605 [_find_intersecting_trapezoids]. *)
Definition find_intersecting_trapezoids (edge_index : nat) (edges : list edge)
  (endpoints : list point) (nodes : list node) : option (list nat) :=
  let e := edge_at edges edge_index in
  let cursor := search_leaf (length nodes - 1) 0 e edges endpoints nodes in
  walk_right (S (length nodes)) e cursor endpoints nodes.

(** rene/_seidel/trapezoidation.py:165-182: all trapezoids but the first one, the last of
    them by [_add_edge_to_last_trapezoid]. *)
Fixpoint add_edge_to_rest (edge_index : nat) (trapezoids : list nat)
  (prev_above prev_below : nat) (edges : list edge) (endpoints : list point)
  (nodes : list node) : option (list node) :=
  match trapezoids with
  | [] => Some nodes
  | [last] =>
      add_edge_to_last_trapezoid edge_index last prev_above prev_below edges endpoints nodes
  | middle :: rest =>
      do added <- add_edge_to_middle_trapezoid edge_index middle prev_above prev_below edges
                    nodes;
      let '(nodes, above, below) := added in
      add_edge_to_rest edge_index rest above below edges endpoints nodes
  end.
(** rene/_seidel/trapezoidation.py:147-182 [_add_edge]. *)
Definition add_edge (edge_index : nat) (edges : list edge) (endpoints : list point)
  (nodes : list node) : option (list node) :=
  do trapezoids <- find_intersecting_trapezoids edge_index edges endpoints nodes;
  match trapezoids with
  | [] => None
  | [single] => add_edge_to_single_trapezoid edge_index single edges endpoints nodes
  | first :: rest =>
      do added <- add_edge_to_first_trapezoid edge_index first edges endpoints nodes;
      let '(nodes, above, below) := added in
      add_edge_to_rest edge_index rest above below edges endpoints nodes
  end.

(** rene/_seidel/trapezoidation.py:126-138 [Trapezoidation]. *)
Record trapezoidation := Trapezoidation {
  tr_edges : list edge; tr_endpoints : list point; tr_nodes : list node }.

Definition or_one (v : Qc) : Qc := if qeqb v 0 then 1 else v.
(** rene/_seidel/trapezoidation.py:463-513 [_box_to_trapezoid]: the edges, the endpoints
    and the only node. *)
Definition box_to_trapezoid (b : box) (edges : list edge) (endpoints : list point)
  : list edge * list point * list node :=
  let delta_x := or_one (max_x b - min_x b) in
  let delta_y := or_one (max_y b - min_y b) in
  let min_x := min_x b - delta_x in
  let min_y := min_y b - delta_y in
  let max_x := max_x b + delta_x in
  let max_y := max_y b + delta_y in
  let n := length endpoints in
  let endpoints := endpoints ++ [Pt min_x max_y; Pt max_x max_y; Pt min_x min_y; Pt max_x min_y] in
  let above := length edges in
  let edges := edges ++ [Edge true n (n + 1); Edge false (n + 2) (n + 3)] in
  (edges, endpoints,
   fst (create_trapezoid (n + 2) (n + 3) (above + 1) above edges [])).
(** rene/_seidel/trapezoidation.py:114-116. *)
Fixpoint add_edges (indices : list nat) (edges : list edge) (endpoints : list point)
  (nodes : list node) : option (list node) :=
  match indices with
  | [] => Some nodes
  | edge_index :: indices =>
      do nodes <- add_edge edge_index edges endpoints nodes;
      add_edges indices edges endpoints nodes
  end.
(** rene/_seidel/trapezoidation.py:97-117 [Trapezoidation._from_box]. *)
Definition from_box (b : box) (edges : list edge) (endpoints : list point)
  : option trapezoidation :=
  let edges_count := length edges in
  let '(edges, endpoints, nodes) := box_to_trapezoid b edges endpoints in
  do nodes <- add_edge_to_single_trapezoid 0 0 edges endpoints nodes;
  do nodes <- add_edges (seq 1 (edges_count - 1)) edges endpoints nodes;
  Some (Trapezoidation edges endpoints nodes).

(** rene/_seidel/trapezoidation.py:36-58: the loop of [from_multisegment] over the
    segments, [index] is the number of endpoints so far. *)
Fixpoint multisegment_edges (index : nat) (segments : list segment) : list edge :=
  match segments with
  | [] => []
  | s :: rest =>
      (if point_lt (seg_start s) (seg_end s) then Edge false index (index + 1)
       else Edge false (index + 1) index)
      :: multisegment_edges (index + 2) rest
  end.
Fixpoint multisegment_endpoints (segments : list segment) : list point :=
  match segments with
  | [] => []
  | s :: rest => seg_start s :: seg_end s :: multisegment_endpoints rest
  end.
(** rene/_seidel/trapezoidation.py:27-62 [Trapezoidation.from_multisegment]. *)
Definition from_multisegment (segments : list segment) (seed : N) : option trapezoidation :=
  from_box (bounding_box (GMultisegment segments))
    (permute (multisegment_edges 0 segments) seed) (multisegment_endpoints segments).

(** rene/_seidel/trapezoidation.py:664-717 [_populate_from_contour]: the edges of the
    contour, [index] is the index of its first vertex among the endpoints. *)
Definition contour_edge (correct : bool) (start : point) (start_index : nat) (end_ : point)
  (end_index : nat) : edge :=
  if point_lt start end_ then Edge correct start_index end_index
  else Edge (negb correct) end_index start_index.
Fixpoint contour_edges_from (correct : bool) (start : point) (start_index : nat)
  (vertices : list point) : list edge :=
  match vertices with
  | [] => []
  | v :: rest =>
      contour_edge correct start start_index v (start_index + 1)
      :: contour_edges_from correct v (start_index + 1) rest
  end.
Definition populate_from_contour (vertices : list point) (correct_orientation : orientation)
  (index : nat) : list edge :=
  match vertices with
  | [] => []
  | v :: rest =>
      let correct := orientation_is (contour_orientation vertices) correct_orientation in
      contour_edges_from correct v index rest
      ++ [contour_edge correct v index (last vertices v) (index + length rest)]
  end.
(** rene/_seidel/trapezoidation.py:72-84. *)
Fixpoint populate_from_holes (holes : list (list point)) (index : nat) : list edge :=
  match holes with
  | [] => []
  | hole :: rest =>
      populate_from_contour hole CLOCKWISE index
      ++ populate_from_holes rest (index + length hole)
  end.
(** rene/_seidel/trapezoidation.py:64-86 [Trapezoidation.from_polygon]. *)
Definition from_polygon (p : polygon) (seed : N) : option trapezoidation :=
  from_box (bounding_box (GPolygon p))
    (permute (populate_from_contour (border p) COUNTERCLOCKWISE 0
              ++ populate_from_holes (holes p) (length (border p))) seed)
    (border p ++ concat (holes p)).

(** rene/_seidel/x_node.py:18-37, y_node.py:18-40, leaf.py:15-28 [locate]; the fuel bounds
    the depth of the recursion. *)
Fixpoint locate_from (fuel index : nat) (p : point) (edges : list edge)
  (endpoints : list point) (nodes : list node) : option location :=
  match fuel with
  | O => None
  | S fuel =>
      match nth_error nodes index with
      | Some (XNode point_index left_node_index right_node_index) =>
          if point_lt p (endpoint_at endpoints point_index)
          then locate_from fuel left_node_index p edges endpoints nodes
          else if point_lt (endpoint_at endpoints point_index) p
          then locate_from fuel right_node_index p edges endpoints nodes
          else Some BOUNDARY
      | Some (YNode edge_index below_node_index above_node_index) =>
          match orientation_of (edge_at edges edge_index) p endpoints with
          | COUNTERCLOCKWISE => locate_from fuel above_node_index p edges endpoints nodes
          | CLOCKWISE => locate_from fuel below_node_index p edges endpoints nodes
          | COLLINEAR => Some BOUNDARY
          end
      | Some (Leaf t) => Some (if is_component t then INTERIOR else EXTERIOR)
      | None => None
      end
  end.
(** rene/_seidel/trapezoidation.py:92-95 [Trapezoidation.locate]. *)
Definition trapezoidation_locate (t : trapezoidation) (p : point) : option location :=
  locate_from (length (tr_nodes t)) 0 p (tr_edges t) (tr_endpoints t) (tr_nodes t).
