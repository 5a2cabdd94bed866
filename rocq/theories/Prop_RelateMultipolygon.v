(** C73, C74: [relate_to] between polygons and multipolygons. *)
From Coq Require Import QArith Qcanon Bool List ZArith Lia.
From Verif Require Import QcTac Model_Base Model_Geometry Model_Contour Model_Linear Model_Mixed Model_Shaped Model_Multipolygon Model_Relate Model_RelateLinear Model_RelateShaped Model_RelateMultipolygon
  Spec_Base Spec_Segment Spec_Clip Spec_Contour Spec_Relate Spec_Bounds Spec_Literals Spec_Sweep Spec_Shaped Spec_Multipolygon Spec_RelateShaped
  Proof_Locate4 Proof_RelateP Proof_Sweep20 Proof_RelateShaped Proof_RelateMulti3.
Import ListNotations.
Local Open Scope Qc_scope.

(** C73: for polygons and multipolygons whose borders go counterclockwise and whose holes go
    clockwise, [relate_to] never raises and returns the relation between the points of theirs.
    That each polygon of a multipolygon lies in a hole of another altogether or not at all, as
    the polygons with connected interiors do, is taken for granted. *)
Theorem c73_multipolygons_relation : forall g g' shape fuel,
  valid_shaped g -> valid_shaped g' ->
  Forall oriented (polygons_of g) -> Forall oriented (polygons_of g') ->
  settled (polygons_of g) -> settled (polygons_of g') ->
  (enough (shaped_size g + shaped_size g') <= fuel)%nat ->
  exists r, shaped_relate_to fuel shape g g' = Some (Relates r)
    /\ lists_relation (polygons_of g) (polygons_of g') r.
Proof. exact shaped_related. Qed.
Print Assumptions c73_multipolygons_relation.
(** The relations exclude one another, so that the answer is the only right one. *)
Theorem c73_exclusive : forall g g' r r', valid_shaped g -> valid_shaped g' ->
  lists_relation (polygons_of g) (polygons_of g') r -> lists_relation (polygons_of g) (polygons_of g') r' -> r = r'.
Proof. exact related_exclusive. Qed.
Print Assumptions c73_exclusive.

(** C74: exchanging the operands complements the relation. *)
Theorem c74_multipolygons_exchange : forall g g' shape shape' fuel,
  valid_shaped g -> valid_shaped g' ->
  Forall oriented (polygons_of g) -> Forall oriented (polygons_of g') ->
  settled (polygons_of g) -> settled (polygons_of g') ->
  (enough (shaped_size g + shaped_size g') <= fuel)%nat ->
  exists r, shaped_relate_to fuel shape g g' = Some (Relates r)
    /\ shaped_relate_to fuel shape' g' g = Some (Relates (complement r)).
Proof. exact related_exchanged. Qed.
Print Assumptions c74_multipolygons_exchange.

(** The hypotheses hold of a multipolygon made of a triangle with a hole and a triangle in the
    hole, and of a triangle. *)
Definition outer : polygon := Poly [pt 0 0; pt 12 0; pt 0 12] [[pt 1 1; pt 1 7; pt 7 1]].
Definition island : polygon := Poly [pt 2 2; pt 4 2; pt 2 4] [].
Definition both := GMultipolygon [outer; island].
Example multipolygons_hypotheses : valid_shaped both /\ valid_shaped (GPolygon island) /\ Forall oriented (polygons_of both)
  /\ settled (polygons_of both) /\ settled (polygons_of (GPolygon island)).
Proof.
  assert (Hole : forall q, inside_polygon island q -> inside_ring [pt 1 1; pt 1 7; pt 7 1] q).
  { intros [x y] I. unfold inside_polygon, island in I. apply api_polygon in I. destruct I as [I _]. unfold inside_ring.
    apply api_triangle in I; [|intros E; vm_compute in E; discriminate]. apply api_triangle; [intros E; vm_compute in E; discriminate|].
    right. unfold pt, area2, Spec_Literals.q, Z2Qc, inject_Z in *. cbn [px py] in *. destruct I as [(A & B & C)|(A & B & C)]; repeat split; qlra. }
  assert (Vi : valid_polygon island).
  { constructor.
    - apply Forall_cons; [apply simple_literal; vm_compute; reflexivity|constructor].
    - apply non_crossing_literal; vm_compute; reflexivity.
    - intros q h Of [].
    - intros q Of. repeat constructor. }
  assert (Vo : valid_polygon outer).
  { constructor.
    - apply Forall_cons; [apply simple_literal; vm_compute; reflexivity|]. apply Forall_cons; [apply simple_literal; vm_compute; reflexivity|constructor].
    - apply non_crossing_literal; vm_compute; reflexivity.
    - intros q h Of [<-|[]] I. unfold inside_ring in *.
      apply api_triangle in I; [|intros E; vm_compute in E; discriminate]. apply api_triangle; [intros E; vm_compute in E; discriminate|].
      clear Of. left. destruct q as [x y]. unfold pt, area2, Spec_Literals.q, Z2Qc, inject_Z in *. cbn [px py] in *.
      destruct I as [(A & B & C)|(A & B & C)]; repeat split; qlra.
    - intros q Of. repeat constructor. }
  assert (No : forall q, inside_polygon outer q -> ~ inside_ring [pt 1 1; pt 1 7; pt 7 1] q).
  { intros q I J. unfold inside_polygon, outer in I. apply api_polygon in I. destruct I as [_ I]. specialize (I _ (or_introl eq_refl)). unfold inside_ring in J. congruence. }
  split; [|split; [exact Vi|split; [|split; [|apply settled_one]]]].
  - split; [cbn; lia|]. constructor.
    + apply Forall_cons; [exact Vo|]. apply Forall_cons; [exact Vi|constructor].
    + apply non_crossing_literal; vm_compute; reflexivity.
    + apply FOP_cons; [|repeat constructor]. apply Forall_cons; [|constructor]. intros q [I J]. apply (No q I), Hole, J.
  - apply Forall_cons; [|apply Forall_cons; [|constructor]]; (split; [vm_compute; reflexivity|]); [|constructor]. apply Forall_cons; [vm_compute; reflexivity|constructor].
  - intros p p' h [<-|[<-|[]]] Ip' Ih; [|destruct Ih]. destruct Ih as [<-|[]]. destruct Ip' as [<-|[<-|[]]]; [right; intros x [I J]; apply (No x); auto|left; exact Hole].
Qed.
Example multipolygons_answers :
  let square a b c d := Poly [pt a b; pt c b; pt c d; pt a d] [] in
  let f g g' := shaped_relate_to (enough (shaped_size g + shaped_size g')) (fun _ _ l => (length l / 2)%nat) g g' in
  f both (GPolygon island) = Some (Relates COMPOSITE) /\ f (GPolygon island) both = Some (Relates COMPONENT)
  /\ f both both = Some (Relates EQUAL) /\ f both (GPolygon (square 1 1 2 2)%Z) = Some (Relates TOUCH)
  /\ f (GMultipolygon [square 0 0 1 1; square 5 5 6 6]%Z) (GMultipolygon [square 2 2 3 3; square 6 5 7 6]%Z) = Some (Relates TOUCH)
  /\ f (GMultipolygon [square 0 0 1 1; square 5 5 6 6]%Z) (GMultipolygon [square 2 2 3 3; square 7 5 8 6]%Z) = Some (Relates DISJOINT)
  /\ f (GMultipolygon [square 2 2 4 4; square 5 5 6 6]%Z) (GPolygon (square 0 0 9 9)%Z) = Some (Relates WITHIN)
  /\ f (GMultipolygon [square 2 2 4 4; square 15 5 16 6]%Z) (GPolygon (square 0 0 9 9)%Z) = Some (Relates OVERLAP)
  /\ f (GPolygon (square 0 0 9 9)%Z) (GMultipolygon [square 0 0 4 4; square 5 5 6 6]%Z) = Some (Relates ENCLOSES).
Proof. vm_compute. repeat split; reflexivity. Qed.
