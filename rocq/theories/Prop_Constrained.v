(** C80-C82: the constrained Delaunay triangulation of a polygon. *)
From Coq Require Import QArith Qcanon Bool List ZArith Arith Lia.
From Verif Require Import QcTac Model_Base Model_Geometry Model_Contour Model_Box Model_Mesh Model_Constrained
  Spec_Base Spec_Segment Spec_Clip Spec_Contour Spec_Relate Spec_Bounds Spec_Literals Spec_Circle Spec_Mesh Spec_Shaped
  Proof_Base Proof_Locate4 Proof_RelateP Proof_Sweep20 Proof_Ready Proof_Constrained5.
Import ListNotations.
Local Open Scope nat_scope.

(** C80: whatever the polygon (valid or not), if its triangulation ends without an exception,
    then its mesh is a quad-edge structure over the distinct vertices of the polygon, in
    increasing order; *)
Theorem c80_constrained_mesh : forall fuel p t, constrained_from_polygon fuel p = Ok t ->
  quad_structure (ct_mesh t) /\
  (forall v, In v (m_endpoints (ct_mesh t)) <-> In v (concat (border p :: holes p))) /\
  (forall i j, i < j -> j < length (m_endpoints (ct_mesh t)) ->
     lex_lt (nth i (m_endpoints (ct_mesh t)) (Pt 0 0)) (nth j (m_endpoints (ct_mesh t)) (Pt 0 0))).
Proof. exact triangulation_well_formed. Qed.
Print Assumptions c80_constrained_mesh.

(** listing the triangles raises nothing and ends; their vertices are vertices of the polygon,
    the first one is the least one, the area is positive, and no triangle is a triangular hole
    of the polygon (has its vertices); *)
Theorem c80_constrained_triangles : forall fuel p t, constrained_from_polygon fuel p = Ok t ->
  exists ts, (forall fuel', fuel <= fuel' -> constrained_triangles fuel' p = Ok ts) /\
  forall a b c, In (a, b, c) ts ->
    In a (concat (border p :: holes p)) /\ In b (concat (border p :: holes p)) /\ In c (concat (border p :: holes p)) /\
    lex_lt a b /\ lex_lt a c /\ (0 < area2 a b c)%Qc /\
    (forall h, In h (holes p) -> length h = 3 -> ~ (In a h /\ In b h /\ In c h)).
Proof. exact constrained_triangles_well_formed. Qed.
Print Assumptions c80_constrained_triangles.

(** and the boundary is a closed walk along the edges of the mesh that passes no edge twice;
    its points are vertices of the polygon, and [border] is made of them. *)
Theorem c80_constrained_border : forall fuel p t u v, constrained_from_polygon fuel p = Ok t ->
  In u (concat (border p :: holes p)) -> In v (concat (border p :: holes p)) -> u <> v ->
  exists N boundary edges first, let m := ct_mesh t in
    (forall fuel', N <= fuel' -> constrained_boundary_points fuel' t = Ok boundary /\
       constrained_border fuel' p = Ok (if length boundary <? 3 then boundary else shrink_collinear_vertices boundary)) /\
    boundary <> [] /\ incl boundary (concat (border p :: holes p)) /\
    NoDup edges /\ hd_error edges = Some first /\ (forall e, In e edges -> edge m e) /\
    (forall i, i < length edges -> to_right_from_end m (nth i edges 0) = Ok (nth (S i) edges first)) /\
    (forall i, i < length edges -> end_of m (nth i edges 0) = start m (nth (S i) edges first)) /\
    boundary = map (fun e => nth (start m e) (m_endpoints m) (Pt 0 0)) edges.
Proof. exact constrained_border_well_formed. Qed.
Print Assumptions c80_constrained_border.

(** The bound on the iterations does not matter. *)
Theorem c80_constrained_function : forall fuel fuel' p t t',
  constrained_from_polygon fuel p = Ok t -> constrained_from_polygon fuel' p = Ok t' -> t = t'.
Proof. exact constrained_same. Qed.
Print Assumptions c80_constrained_function.

(** The hypotheses hold: a polygon that is not convex with two holes, one of them a triangle. *)
Definition pool : polygon :=
  Poly [pt 0 0; pt 20 0; pt 20 20; pt 10 4; pt 0 20] [[pt 1 1; pt 1 3; pt 3 1]; [pt 15 1; pt 15 3; pt 17 3; pt 17 1]].
Example constrained_hypotheses : exists t ts b, constrained_from_polygon 200 pool = Ok t
  /\ constrained_triangles 200 pool = Ok ts /\ length ts = 14 /\ constrained_border 200 pool = Ok b /\ length b = 5.
Proof.
  assert (E : match constrained_from_polygon 200 pool, constrained_triangles 200 pool, constrained_border 200 pool with
              | Ok t, Ok ts, Ok b => length ts = 14 /\ length b = 5 | _, _, _ => False end) by (vm_compute; auto).
  destruct (constrained_from_polygon 200 pool) as [t| |], (constrained_triangles 200 pool) as [ts| |],
    (constrained_border 200 pool) as [b| |]; try contradiction.
  exists t, ts, b. destruct E. auto.
Qed.

(** C81, refuted: equal polygons would have the same triangles, and triangles would consist of
    points of the polygon.  They need not: the edges within a hole are told by the side of its
    angles on which they are, for a hole that is drawn clockwise; within a counterclockwise one
    (nothing checks that, and contours compare equal in either direction) no edge is deleted,
    and the triangles that fill the hole are listed. *)
Definition clockwise_hole : polygon := Poly [pt 0 0; pt 20 0; pt 0 20] [[pt 3 3; pt 3 6; pt 6 6; pt 6 3]].
Definition counterclockwise_hole : polygon := Poly [pt 0 0; pt 20 0; pt 0 20] [[pt 3 3; pt 6 3; pt 6 6; pt 3 6]].
Lemma holes_valid : valid_polygon clockwise_hole /\ valid_polygon counterclockwise_hole.
Proof.
  split.
  - constructor.
    + apply Forall_cons; [apply simple_literal; vm_compute; reflexivity|]. apply Forall_cons; [apply simple_literal; vm_compute; reflexivity|constructor].
    + apply non_crossing_literal; vm_compute; reflexivity.
    + intros q h O [<-|[]] I. apply inside_strict in I. unfold inside_ring.
      apply api_triangle; [intros E; vm_compute in E; discriminate|].
      left. destruct q as [x y]. clear O. 
      match type of I with inside_box ?b _ => assert (E : b = Box (Spec_Literals.q 3) (Spec_Literals.q 6) (Spec_Literals.q 3) (Spec_Literals.q 6)) by (vm_compute; reflexivity) end.
      rewrite E in I. destruct I as ((A & B) & (C & D)). cbn [min_x max_x min_y max_y] in *.
      unfold pt, area2, Spec_Literals.q, Z2Qc, inject_Z in *; cbn [px py] in *.
      repeat split; qlra.
    + intros q O. repeat constructor.
  - constructor.
    + apply Forall_cons; [apply simple_literal; vm_compute; reflexivity|]. apply Forall_cons; [apply simple_literal; vm_compute; reflexivity|constructor].
    + apply non_crossing_literal; vm_compute; reflexivity.
    + intros q h O [<-|[]] I. apply inside_strict in I. unfold inside_ring.
      apply api_triangle; [intros E; vm_compute in E; discriminate|].
      left. destruct q as [x y]. clear O. 
      match type of I with inside_box ?b _ => assert (E : b = Box (Spec_Literals.q 3) (Spec_Literals.q 6) (Spec_Literals.q 3) (Spec_Literals.q 6)) by (vm_compute; reflexivity) end.
      rewrite E in I. destruct I as ((A & B) & (C & D)). cbn [min_x max_x min_y max_y] in *.
      unfold pt, area2, Spec_Literals.q, Z2Qc, inject_Z in *; cbn [px py] in *.
      repeat split; qlra.
    + intros q O. repeat constructor.
Qed.
Definition triangle_here (t : point * point * point) : bool :=
  let '(a, b, c) := t in point_eq a (pt 3 3) && point_eq b (pt 6 3) && point_eq c (pt 3 6).
Theorem c81_hole_orientation_refuted : exists p p' fuel ts ts' a b c x,
  valid_polygon p /\ valid_polygon p' /\ polygon_eq p p' = true /\
  constrained_triangles fuel p = Ok ts /\ constrained_triangles fuel p' = Ok ts' /\
  ~ In (a, b, c) ts /\ In (a, b, c) ts' /\
  (0 < area2 a b x)%Qc /\ (0 < area2 b c x)%Qc /\ (0 < area2 c a x)%Qc /\ geometry_locate (GPolygon p') x = EXTERIOR.
Proof.
  exists clockwise_hole, counterclockwise_hole, 200.
  assert (E : match constrained_triangles 200 clockwise_hole, constrained_triangles 200 counterclockwise_hole with
    | Ok ts, Ok ts' => existsb triangle_here ts = false /\ existsb triangle_here ts' = true | _, _ => False end)
    by (vm_compute; auto).
  destruct (constrained_triangles 200 clockwise_hole) as [ts| |] eqn:T, (constrained_triangles 200 counterclockwise_hole) as [ts'| |] eqn:T';
    try contradiction.
  exists ts, ts', (pt 3 3), (pt 6 3), (pt 3 6), (pt 4 4). destruct E as (E & E').
  split; [apply holes_valid|]. split; [apply holes_valid|]. split; [vm_compute; reflexivity|].
  split; [reflexivity|]. split; [reflexivity|]. split; [|split].
  - intros I. assert (X : existsb triangle_here ts = true); [|congruence].
    apply existsb_exists. exists (pt 3 3, pt 6 3, pt 3 6). split; [exact I|vm_compute; reflexivity].
  - apply existsb_exists in E'. destruct E' as ([[a b] c] & I & X). unfold triangle_here in X.
    apply andb_prop in X. destruct X as (X & Xc). apply andb_prop in X. destruct X as (Xa & Xb).
    apply point_eq_true in Xa, Xb, Xc. subst. exact I.
  - repeat split; vm_compute; reflexivity.
Qed.
Print Assumptions c81_hole_orientation_refuted.

(** C82, refuted: two triangles of the result with a common side that is no side of the polygon
    would have none of their vertices inside the circle of the other one (the triangulation is
    called Delaunay).  They may: of the edges that were swapped to let a constraint in, those
    found to be swapped again are not looked at once more, nor are the sides around them. *)
Definition skewed : polygon :=
  Poly [pt (-5) 0; pt 0 (-1); pt 7 (-3); pt 12 (-2); pt 19 0; pt 0 1; pt 2 3] [].
Theorem c82_delaunay_refuted : exists p fuel ts a b c d o,
  valid_polygon p /\ constrained_triangles fuel p = Ok ts /\ In (a, b, c) ts /\ In (a, d, b) ts /\
  (forall vs s, In vs (border p :: holes p) -> In s (edges vs) -> s <> Seg a b /\ s <> Seg b a) /\
  circumcentre o a b c /\ (dist2 o d < dist2 o a)%Qc.
Proof.
  exists skewed, 200.
  assert (E : match constrained_triangles 200 skewed with
    | Ok [_; _; t; _; t'] => t = (pt 0 (-1), pt 7 (-3), pt 12 (-2)) /\ t' = (pt 0 (-1), pt 12 (-2), pt 0 1) | _ => False end)
    by (vm_compute; auto).
  destruct (constrained_triangles 200 skewed) as [ts| |] eqn:T; try contradiction.
  destruct ts as [|t1 [|t2 [|t3 [|t4 [|t5 [|t6 ts]]]]]]; try contradiction. destruct E as (-> & ->).
  eexists. exists (pt 0 (-1)), (pt 12 (-2)), (pt 0 1), (pt 7 (-3)), (Pt (Q2Qc (49 # 8)) 0).
  split; [|split; [reflexivity|split; [right; right; right; right; left; reflexivity|split; [right; right; left; reflexivity|split; [|split]]]]].
  - constructor.
    + apply Forall_cons; [apply simple_literal; vm_compute; reflexivity|constructor].
    + apply non_crossing_literal; vm_compute; reflexivity.
    + intros q h O [].
    + intros q O; repeat constructor.
  - intros vs s [<-|[]] I. cbn in I.
    repeat (destruct I as [<-|I]; [split; intros X; vm_compute in X; discriminate X|]). destruct I.
  - split; apply Qc_is_canon; vm_compute; reflexivity.
  - vm_compute. reflexivity.
Qed.
Print Assumptions c82_delaunay_refuted.
