(** C63-C67: the set operations on polygons and multipolygons. *)
From Coq Require Import QArith Qcanon Bool List ZArith Lia.
From Verif Require Import QcTac Model_Base Model_Geometry Model_Contour Model_Linear Model_Mixed Model_Shaped Model_Multipolygon
  Spec_Base Spec_Segment Spec_Clip Spec_Contour Spec_Relate Spec_Bounds Spec_Literals Spec_Sweep Spec_Shaped Spec_Multipolygon
  Proof_Locate4 Proof_RelateP Proof_Sweep20 Proof_Polygons Proof_Multi4.
Import ListNotations.
Local Open Scope Qc_scope.

(** C63: [&] of polygons and multipolygons never raises, and a point that is on no outline is
    inside the contours of the result (by the even-odd rule) exactly if [locate] of both of the
    operands says that it is in the interior. *)
Theorem c63_multipolygons_intersection : forall g g' shape fuel,
  valid_shaped g -> valid_shaped g' -> (enough (shaped_size g + shaped_size g') <= fuel)%nat ->
  exists h, shaped_and fuel shape g g' = Some (Clips h)
  /\ forall q, off_outlines (geometry_rings g) q -> off_outlines (geometry_rings g') q ->
     (inside_odd (geometry_rings h) q <-> inside g q /\ inside g' q).
Proof. intros g g' shape fuel V V' F. destruct (and_geometries g g' shape fuel V V' F) as (h & E & _ & _ & _ & O). exists h. split; [exact E|exact O]. Qed.
Print Assumptions c63_multipolygons_intersection.

(** C64: [|]. *)
Theorem c64_multipolygons_union : forall g g' shape fuel,
  valid_shaped g -> valid_shaped g' -> (enough (shaped_size g + shaped_size g') <= fuel)%nat ->
  exists h, shaped_or fuel shape g g' = Some (Clips h)
  /\ forall q, off_outlines (geometry_rings g) q -> off_outlines (geometry_rings g') q ->
     (inside_odd (geometry_rings h) q <-> inside g q \/ inside g' q).
Proof. intros g g' shape fuel V V' F. destruct (or_geometries g g' shape fuel V V' F) as (h & E & _ & _ & _ & O). exists h. split; [exact E|exact O]. Qed.
Print Assumptions c64_multipolygons_union.

(** C65: [-]. *)
Theorem c65_multipolygons_difference : forall g g' shape fuel,
  valid_shaped g -> valid_shaped g' -> (enough (shaped_size g + shaped_size g') <= fuel)%nat ->
  exists h, shaped_sub fuel shape g g' = Some (Clips h)
  /\ forall q, off_outlines (geometry_rings g) q -> off_outlines (geometry_rings g') q ->
     (inside_odd (geometry_rings h) q <-> inside g q /\ ~ inside g' q).
Proof. intros g g' shape fuel V V' F. destruct (sub_geometries g g' shape fuel V V' F) as (h & E & _ & _ & _ & O). exists h. split; [exact E|exact O]. Qed.
Print Assumptions c65_multipolygons_difference.

(** C66: [^]. *)
Theorem c66_multipolygons_symmetric_difference : forall g g' shape fuel,
  valid_shaped g -> valid_shaped g' -> (enough (shaped_size g + shaped_size g') <= fuel)%nat ->
  exists h, shaped_xor fuel shape g g' = Some (Clips h)
  /\ forall q, off_outlines (geometry_rings g) q -> off_outlines (geometry_rings g') q ->
     (inside_odd (geometry_rings h) q <-> (inside g q /\ ~ inside g' q) \/ (inside g' q /\ ~ inside g q)).
Proof. intros g g' shape fuel V V' F. destruct (xor_geometries g g' shape fuel V V' F) as (h & E & _ & _ & _ & O). exists h. split; [exact E|exact O]. Qed.
Print Assumptions c66_multipolygons_symmetric_difference.

(** C67: what they return is empty, a polygon or a multipolygon of at least two polygons; its
    contours have no straight angles and are drawn along the outlines of the operands. *)
Theorem c67_multipolygons_shape : forall g g' shape fuel,
  valid_shaped g -> valid_shaped g' -> (enough (shaped_size g + shaped_size g') <= fuel)%nat ->
  Forall (fun outcome => exists h, outcome = Some (Clips h)
    /\ shaped h /\ Forall nondegenerate (geometry_rings h)
    /\ forall x, on_segs (outlines (geometry_rings h)) x -> on_segs (outlines (geometry_rings g)) x \/ on_segs (outlines (geometry_rings g')) x)
    [shaped_and fuel shape g g'; shaped_or fuel shape g g'; shaped_sub fuel shape g g'; shaped_xor fuel shape g g'].
Proof.
  intros g g' shape fuel V V' F.
  destruct (and_geometries g g' shape fuel V V' F) as (h1 & E1 & A1 & B1 & C1 & _).
  destruct (or_geometries g g' shape fuel V V' F) as (h2 & E2 & A2 & B2 & C2 & _).
  destruct (sub_geometries g g' shape fuel V V' F) as (h3 & E3 & A3 & B3 & C3 & _).
  destruct (xor_geometries g g' shape fuel V V' F) as (h4 & E4 & A4 & B4 & C4 & _).
  apply Forall_cons; [exists h1; auto|]. apply Forall_cons; [exists h2; auto|]. apply Forall_cons; [exists h3; auto|].
  apply Forall_cons; [exists h4; auto|]. constructor.
Qed.
Print Assumptions c67_multipolygons_shape.

(** The hypotheses hold of a multipolygon of two triangles that touch in a vertex, one of them
    with a hole, and of one with a triangle over the two and a triangle away from them. *)
Definition left_tile : polygon := Poly [pt 0 0; pt 6 0; pt 0 6] [[pt 1 1; pt 1 2; pt 2 1]].
Definition right_tile : polygon := Poly [pt 6 0; pt 10 0; pt 10 6] [].
Definition bridge : polygon := Poly [pt 4 (-1); pt 9 (-1); pt 9 4] [].
Definition remote : polygon := Poly [pt 20 0; pt 21 0; pt 20 1] [].
Lemma triangle_valid a b c : simple_contour [a; b; c] -> non_crossing (outlines [[a; b; c]]) -> valid_polygon (Poly [a; b; c] []).
Proof.
  intros Hs Hn. constructor.
  - apply Forall_cons; [exact Hs|constructor].
  - exact Hn.
  - intros q h O [].
  - intros q O. repeat constructor.
Qed.
Example multipolygon_hypotheses : valid_shaped (GMultipolygon [left_tile; right_tile]) /\ valid_shaped (GMultipolygon [bridge; remote]) /\ valid_shaped (GPolygon bridge).
Proof.
  assert (Vl : valid_polygon left_tile).
  { constructor.
    + apply Forall_cons; [apply simple_literal; vm_compute; reflexivity|]. apply Forall_cons; [apply simple_literal; vm_compute; reflexivity|constructor].
    + apply non_crossing_literal; vm_compute; reflexivity.
    + intros q h O [<-|[]] I. unfold inside_ring in *.
      apply api_triangle in I; [|intros E; vm_compute in E; discriminate]. apply api_triangle; [intros E; vm_compute in E; discriminate|].
      clear O. left. destruct q as [x y]. unfold pt, area2, Spec_Literals.q, Z2Qc, inject_Z in *. cbn [px py] in *.
      destruct I as [(A & B & C)|(A & B & C)]; repeat split; qlra.
    + intros q O. repeat constructor. }
  assert (Vr : valid_polygon right_tile) by (apply triangle_valid; [apply simple_literal|apply non_crossing_literal]; vm_compute; reflexivity).
  assert (Vb : valid_polygon bridge) by (apply triangle_valid; [apply simple_literal|apply non_crossing_literal]; vm_compute; reflexivity).
  assert (Vm : valid_polygon remote) by (apply triangle_valid; [apply simple_literal|apply non_crossing_literal]; vm_compute; reflexivity).
  assert (Border : forall b hs q, inside_polygon (Poly b hs) q -> region_location b q = INTERIOR).
  { intros b hs q I. unfold inside_polygon in I. destruct (region_location b q) eqn:L; auto;
      destruct (api_polygon b hs q) as (_ & A2 & _); rewrite A2 in I; congruence. }
  split; [|split; [|exact Vb]]; (split; [cbn; lia|]); constructor.
  - apply Forall_cons; [exact Vl|]. apply Forall_cons; [exact Vr|constructor].
  - apply non_crossing_literal; vm_compute; reflexivity.
  - apply FOP_cons; [|repeat constructor]. apply Forall_cons; [|constructor].
    intros q [I I']. apply Border in I. apply Border in I'. destruct q as [x y].
    apply api_triangle in I; [|intros E; vm_compute in E; discriminate].
    apply api_triangle in I'; [|intros E; vm_compute in E; discriminate].
    unfold pt, area2, Spec_Literals.q, Z2Qc, inject_Z in *; cbn [px py] in *.
    destruct I as [(A & B & C)|(A & B & C)]; destruct I' as [(A' & B' & C')|(A' & B' & C')]; qlra.
  - apply Forall_cons; [exact Vb|]. apply Forall_cons; [exact Vm|constructor].
  - apply non_crossing_literal; vm_compute; reflexivity.
  - apply FOP_cons; [|repeat constructor]. apply Forall_cons; [|constructor].
    intros q [I I']. apply Border in I. apply Border in I'. destruct q as [x y].
    apply api_triangle in I; [|intros E; vm_compute in E; discriminate].
    apply api_triangle in I'; [|intros E; vm_compute in E; discriminate].
    unfold pt, area2, Spec_Literals.q, Z2Qc, inject_Z in *; cbn [px py] in *.
    destruct I as [(A & B & C)|(A & B & C)]; destruct I' as [(A' & B' & C')|(A' & B' & C')]; qlra.
Qed.
Definition parts_count (outcome : option clip_outcome) : nat :=
  match outcome with Some (Clips (GMultipolygon l)) => length l | Some (Clips (GPolygon _)) => 1%nat | _ => 0%nat end.
Example multipolygon_results :
  let half := (fun (_ _ : nat) (l : list event) => (length l / 2)%nat) in
  let g := GMultipolygon [left_tile; right_tile] in
  let g' := GMultipolygon [bridge; remote] in
  parts_count (shaped_and 2000 half g g') = 2%nat /\ parts_count (shaped_or 2000 half g g') = 2%nat
  /\ parts_count (shaped_sub 2000 half g g') = 2%nat /\ parts_count (shaped_xor 2000 half g (GPolygon bridge)) = 4%nat.
Proof. vm_compute. auto. Qed.
