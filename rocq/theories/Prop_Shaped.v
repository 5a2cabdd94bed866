(** C57-C61: the set operations on two polygons. *)
From Coq Require Import QArith Qcanon Bool List ZArith Lia.
From Verif Require Import QcTac Model_Base Model_Geometry Model_Contour Model_Linear Model_Mixed Model_Shaped
  Spec_Base Spec_Segment Spec_Clip Spec_Contour Spec_Relate Spec_Bounds Spec_Literals Spec_Sweep Spec_Shaped
  Proof_Locate4 Proof_RelateP Proof_Sweep20 Proof_Polygons.
Import ListNotations.
Local Open Scope Qc_scope.

(** C57: the intersection of two polygons never raises, and a point that is on no outline is
    inside its contours (by the even-odd rule) exactly if it is inside both of the operands. *)
Theorem c57_polygons_intersection : forall p p' shape fuel,
  valid_polygon p -> valid_polygon p' -> (enough (vertices_count p + vertices_count p') <= fuel)%nat ->
  exists g, intersect_polygon_with_polygon fuel shape p p' = Clips g
  /\ forall q, off_outlines (rings p) q -> off_outlines (rings p') q ->
     (inside_odd (geometry_rings g) q <-> inside_polygon p q /\ inside_polygon p' q).
Proof. intros p p' shape fuel V V' F. destruct (intersection_clips p p' V V' shape fuel F) as (g & E & _ & _ & _ & O). exists g. split; [exact E|exact O]. Qed.
Print Assumptions c57_polygons_intersection.

(** C58: the union. *)
Theorem c58_polygons_union : forall p p' shape fuel,
  valid_polygon p -> valid_polygon p' -> (enough (vertices_count p + vertices_count p') <= fuel)%nat ->
  exists g, unite_polygon_with_polygon fuel shape p p' = Clips g
  /\ forall q, off_outlines (rings p) q -> off_outlines (rings p') q ->
     (inside_odd (geometry_rings g) q <-> inside_polygon p q \/ inside_polygon p' q).
Proof. intros p p' shape fuel V V' F. destruct (union_clips p p' V V' shape fuel F) as (g & E & _ & _ & _ & O). exists g. split; [exact E|exact O]. Qed.
Print Assumptions c58_polygons_union.

(** C59: the difference. *)
Theorem c59_polygons_difference : forall p p' shape fuel,
  valid_polygon p -> valid_polygon p' -> (enough (vertices_count p + vertices_count p') <= fuel)%nat ->
  exists g, subtract_polygon_from_polygon fuel shape p p' = Clips g
  /\ forall q, off_outlines (rings p) q -> off_outlines (rings p') q ->
     (inside_odd (geometry_rings g) q <-> inside_polygon p q /\ ~ inside_polygon p' q).
Proof. intros p p' shape fuel V V' F. destruct (difference_clips p p' V V' shape fuel F) as (g & E & _ & _ & _ & O). exists g. split; [exact E|exact O]. Qed.
Print Assumptions c59_polygons_difference.

(** C60: the symmetric difference. *)
Theorem c60_polygons_symmetric_difference : forall p p' shape fuel,
  valid_polygon p -> valid_polygon p' -> (enough (vertices_count p + vertices_count p') <= fuel)%nat ->
  exists g, symmetric_subtract_polygon_from_polygon fuel shape p p' = Clips g
  /\ forall q, off_outlines (rings p) q -> off_outlines (rings p') q ->
     (inside_odd (geometry_rings g) q <-> (inside_polygon p q /\ ~ inside_polygon p' q) \/ (inside_polygon p' q /\ ~ inside_polygon p q)).
Proof. intros p p' shape fuel V V' F. destruct (symmetric_difference_clips p p' V V' shape fuel F) as (g & E & _ & _ & _ & O). exists g. split; [exact E|exact O]. Qed.
Print Assumptions c60_polygons_symmetric_difference.

(** C61: what the operations return is empty, a polygon, or a multipolygon of at least two
    polygons; their contours have no straight angles and are drawn along the outlines of the
    operands. *)
Theorem c61_polygons_shape : forall p p' shape fuel,
  valid_polygon p -> valid_polygon p' -> (enough (vertices_count p + vertices_count p') <= fuel)%nat ->
  Forall (fun outcome => exists g, outcome = Clips g
    /\ shaped g /\ Forall nondegenerate (geometry_rings g)
    /\ forall x, on_segs (outlines (geometry_rings g)) x -> on_segs (outlines (rings p)) x \/ on_segs (outlines (rings p')) x)
    [intersect_polygon_with_polygon fuel shape p p'; unite_polygon_with_polygon fuel shape p p';
     subtract_polygon_from_polygon fuel shape p p'; symmetric_subtract_polygon_from_polygon fuel shape p p'].
Proof.
  intros p p' shape fuel V V' F.
  destruct (intersection_clips p p' V V' shape fuel F) as (g1 & E1 & A1 & B1 & C1 & _).
  destruct (union_clips p p' V V' shape fuel F) as (g2 & E2 & A2 & B2 & C2 & _).
  destruct (difference_clips p p' V V' shape fuel F) as (g3 & E3 & A3 & B3 & C3 & _).
  destruct (symmetric_difference_clips p p' V V' shape fuel F) as (g4 & E4 & A4 & B4 & C4 & _).
  repeat constructor; eauto.
Qed.
Print Assumptions c61_polygons_shape.

(** The hypotheses hold of a triangle with a hole and a triangle over the hole, and the
    operations have results with a hole, of several polygons and with shared outlines. *)
Definition holed : polygon := Poly [pt 0 0; pt 6 0; pt 0 6] [[pt 1 1; pt 1 2; pt 2 1]].
Definition over : polygon := Poly [pt 0 0; pt 3 0; pt 3 4] [].
Example shaped_hypotheses : valid_polygon holed /\ valid_polygon over.
Proof.
  split.
  - constructor.
    + apply Forall_cons; [apply simple_literal; vm_compute; reflexivity|]. apply Forall_cons; [apply simple_literal; vm_compute; reflexivity|constructor].
    + apply non_crossing_literal; vm_compute; reflexivity.
    + intros q h O [<-|[]] I. unfold inside_ring in *.
      apply api_triangle in I; [|intros E; vm_compute in E; discriminate]. apply api_triangle; [intros E; vm_compute in E; discriminate|].
      clear O. left. destruct q as [x y]. unfold pt, area2, Spec_Literals.q, Z2Qc, inject_Z in *. cbn [px py] in *.
      destruct I as [(A & B & C)|(A & B & C)]; repeat split; qlra.
    + intros q O. repeat constructor.
  - constructor.
    + apply Forall_cons; [apply simple_literal; vm_compute; reflexivity|constructor].
    + apply non_crossing_literal; vm_compute; reflexivity.
    + intros q h O [].
    + intros q O. repeat constructor.
Qed.
Example shaped_results :
  (exists p1 p2, subtract_polygon_from_polygon 500 (fun _ _ l => (length l / 2)%nat) over holed = Clips (GMultipolygon [p1; p2]))
  /\ (exists b h, unite_polygon_with_polygon 500 (fun _ _ l => (length l / 2)%nat) over holed = Clips (GPolygon (Poly b [h]))).
Proof. split; [exists (Poly [pt 1 1; pt 2 1; Pt (Q2Qc (9 # 7)) (Q2Qc (12 # 7)); Pt (q 1) (Q2Qc (4 # 3))] []); vm_compute; eauto|vm_compute; eauto]. Qed.

(** C62, refuted: the results would be valid polygons again and [locate] of the results would
    agree with the operation (C57-C60 with [locate] for the even-odd rule) if every hole were
    given to the polygon that it lies in.  It is not: when two holes of an operand touch in a
    point within an edge of the other one, the hole between the parts of the result is given to
    the part on its left, and the points in that hole are located in the interior. *)
Definition plate : polygon := Poly [pt (-10) 0; pt 10 0; pt 10 20; pt (-10) 20] [].
Definition pierced : polygon :=
  Poly [pt (-100) (-10); pt 100 (-10); pt 0 100] [[pt 0 0; pt 6 2; pt 4 4]; [pt 0 0; pt 5 25; pt 4 25]].
Lemma plate_valid : valid_polygon plate /\ valid_polygon pierced.
Proof.
  split.
  - constructor.
    + apply Forall_cons; [apply simple_literal; vm_compute; reflexivity|constructor].
    + apply non_crossing_literal; vm_compute; reflexivity.
    + intros q h O [].
    + intros q O. repeat constructor.
  - constructor.
    + repeat (apply Forall_cons; [apply simple_literal; vm_compute; reflexivity|]). constructor.
    + apply non_crossing_literal; vm_compute; reflexivity.
    + intros q h O Hh I. unfold inside_ring in *. apply api_triangle; [intros E; vm_compute in E; discriminate|].
      left. destruct q as [x y]. clear O.
      destruct Hh as [<-|[<-|[]]]; (apply api_triangle in I; [|intros E; vm_compute in E; discriminate]);
        unfold pt, area2, Spec_Literals.q, Z2Qc, inject_Z in *; cbn [px py] in *;
        destruct I as [(A & B & C)|(A & B & C)]; repeat split; qlra.
    + intros q O. clear O. apply FOP_cons; [|repeat constructor]. apply Forall_cons; [|constructor].
      intros [I I']. unfold inside_ring in *. destruct q as [x y].
      apply api_triangle in I; [|intros E; vm_compute in E; discriminate].
      apply api_triangle in I'; [|intros E; vm_compute in E; discriminate].
      unfold pt, area2, Spec_Literals.q, Z2Qc, inject_Z in *; cbn [px py] in *.
      destruct I as [(A & B & C)|(A & B & C)]; destruct I' as [(A' & B' & C')|(A' & B' & C')]; qlra.
Qed.
Theorem c62_nesting_refuted : exists p p' shape fuel g q,
  valid_polygon p /\ valid_polygon p' /\ (enough (vertices_count p + vertices_count p') <= fuel)%nat
  /\ intersect_polygon_with_polygon fuel shape p p' = Clips g
  /\ geometry_locate g q = INTERIOR /\ geometry_locate (GPolygon p') q = EXTERIOR.
Proof.
  exists plate, pierced, (fun _ _ l => (length l / 2)%nat), (enough (vertices_count plate + vertices_count pierced)).
  assert (E : match intersect_polygon_with_polygon (enough (vertices_count plate + vertices_count pierced)) (fun _ _ l => (length l / 2)%nat) plate pierced with
              | Clips g => geometry_locate g (pt 4 3) = INTERIOR | _ => False end) by (vm_compute; reflexivity).
  destruct (intersect_polygon_with_polygon _ _ _ _) as [g| |] eqn:R; [|contradiction E|contradiction E].
  exists g, (pt 4 3). destruct plate_valid as [V V'].
  split; [exact V|]. split; [exact V'|]. split; [constructor|]. split; [reflexivity|]. split; [exact E|]. vm_compute; reflexivity.
Qed.
Print Assumptions c62_nesting_refuted.
