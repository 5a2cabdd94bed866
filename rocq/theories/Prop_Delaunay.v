(** C44: the triangulation of any list of points ends, never fails, and its
    triangles are well formed; C52: its boundary walk ends. *)
From Coq Require Import QArith Qcanon Bool List Arith Lia.
From Verif Require Import Model_Base Model_Utils Model_Mesh Spec_Base Spec_Literals Spec_Mesh
  Proof_Mesh Proof_Mesh2 Proof_Mesh3 Proof_Delaunay Proof_Delaunay2 Proof_Delaunay5 Proof_Delaunay6 Proof_Delaunay7.
Import ListNotations.
Local Open Scope nat_scope.

(** For every list of points (repeated, collinear, any number of them) the
    construction ends without a failed assertion or a bad index, and so does the
    listing of triangles: their vertices are given points, the first one is the least
    one, the area is positive; and no triangle is listed twice. *)
Theorem c44_triangles (points : list point) : exists N ts,
  (forall fuel, N <= fuel -> delaunay_triangles fuel points = Ok ts) /\
  (forall a b c, In (a, b, c) ts -> In a points /\ In b points /\ In c points /\
     lex_lt a b /\ lex_lt a c /\ (0 < area2 a b c)%Qc) /\
  NoDup ts.
Proof. exact (triangles_well_formed points). Qed.
Print Assumptions c44_triangles.

(** Nor is it listed with its vertices in another order. *)
Theorem c44_no_reordered_triangle (points : list point) fuel ts a b c a' b' c' :
  delaunay_triangles fuel points = Ok ts -> In (a, b, c) ts -> In (a', b', c') ts ->
  (forall p, In p [a; b; c] <-> In p [a'; b'; c']) -> (a, b, c) = (a', b', c').
Proof. exact (triangles_canonical points fuel ts a b c a' b' c'). Qed.
Print Assumptions c44_no_reordered_triangle.

(** The mesh that the triangles are read from is a quad-edge structure over the
    distinct points in increasing order, in which no two edges have the same ends. *)
Theorem c44_mesh (points : list point) : exists N m sides,
  (forall fuel, N <= fuel -> delaunay_from_points fuel points = Ok (m, sides)) /\
  quad_structure m /\ (forall p, In p (m_endpoints m) <-> In p points) /\
  (forall i j, i < j -> j < length (m_endpoints m) ->
     lex_lt (nth i (m_endpoints m) (Pt 0 0)) (nth j (m_endpoints m) (Pt 0 0))) /\
  (forall e f, edge m e -> edge m f -> start m e = start m f -> end_of m e = end_of m f -> e = f) /\
  (sides = None <-> length (m_endpoints m) < 2).
Proof. exact (mesh_well_formed points). Qed.
Print Assumptions c44_mesh.

(** C52: with at least two distinct points the boundary is a closed walk along the
    edges of the mesh that passes no edge twice; the listed points are the starts of
    its edges, given points. *)
Theorem c52_boundary (points : list point) p q : In p points -> In q points -> p <> q ->
  exists N m l r boundary edges,
  (forall fuel, N <= fuel -> delaunay_from_points fuel points = Ok (m, Some (l, r)) /\
     to_boundary_points fuel m (Some (l, r)) = Ok boundary) /\
  boundary <> [] /\ incl boundary points /\
  NoDup edges /\ hd_error edges = Some l /\ (forall e, In e edges -> edge m e) /\
  (forall i, i < length edges -> to_right_from_end m (nth i edges 0) = Ok (nth (S i) edges l)) /\
  (forall i, i < length edges -> end_of m (nth i edges 0) = start m (nth (S i) edges l)) /\
  boundary = map (fun e => nth (start m e) (m_endpoints m) (Pt 0 0)) edges.
Proof. exact (boundary_well_formed points p q). Qed.
Print Assumptions c52_boundary.

(** With fewer it is an AssertionError, although the method has a branch for this
    case (the class lacks [__bool__]). *)
Theorem c52_boundary_of_few_points_refuted (points : list point) :
  (forall p q, In p points -> In q points -> p = q) ->
  forall fuel, exists m, delaunay_from_points fuel points = Ok (m, None) /\ to_boundary_points fuel m None = Fails.
Proof. exact (few_points_fail points). Qed.
Print Assumptions c52_boundary_of_few_points_refuted.

Example c44_example :
  delaunay_triangles 60 [pt 2 1; pt 0 0; pt 4 0; pt 0 4; pt 4 4; pt 0 0]
  = Ok [(pt 2 1, pt 4 0, pt 4 4); (pt 0 0, pt 4 0, pt 2 1); (pt 0 0, pt 2 1, pt 0 4); (pt 0 4, pt 2 1, pt 4 4)].
Proof. vm_compute. reflexivity. Qed.
Example c52_example :
  (match delaunay_from_points 60 [pt 2 1; pt 0 0; pt 4 0; pt 0 4; pt 4 4; pt 0 0] with
   | Ok (m, sides) => to_boundary_points 60 m sides
   | Fails => Fails
   | Spins => Spins
   end) = Ok [pt 0 0; pt 4 0; pt 4 4; pt 0 4] /\
  In (pt 0 0) [pt 2 1; pt 0 0] /\ In (pt 2 1) [pt 2 1; pt 0 0] /\ pt 0 0 <> pt 2 1.
Proof. split; [vm_compute; reflexivity|]. split; [cbn; auto|]. split; [cbn; auto|]. vm_compute. discriminate. Qed.
Example c52_example_of_one_point : forall p q, In p [pt 1 2; pt 1 2] -> In q [pt 1 2; pt 1 2] -> p = q.
Proof. intros p q [<-|[<-|[]]] [<-|[<-|[]]]; reflexivity. Qed.
