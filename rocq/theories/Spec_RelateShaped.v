(** What the relations of two polygons or multipolygons mean, in terms of their points. *)
From Coq Require Import QArith Qcanon Bool List.
From Verif Require Import Model_Base Model_Geometry Model_Contour Spec_Base Spec_Segment Spec_Clip Spec_Contour Spec_Relate Spec_Bounds Spec_Shaped Spec_Multipolygon.
Import ListNotations.

(** The relation of two sets given by the points inside them and those on their outlines.
    [WITHIN] leaves the outlines apart, [ENCLOSED] lets them meet, and [COMPONENT] does not let
    the outline of the part leave the one of the whole. *)
Definition sets_relation (inside boundary inside' boundary' : point -> Prop) (r : relation) : Prop :=
  let region x := inside x \/ boundary x in
  let region' x := inside' x \/ boundary' x in
  let part := forall x, region x -> region' x in
  let part' := forall x, region' x -> region x in
  let interiors_meet := exists x, inside x /\ inside' x in
  let outlines_meet := exists x, boundary x /\ boundary' x in
  match r with
  | DISJOINT => ~ exists x, region x /\ region' x
  | TOUCH => (exists x, region x /\ region' x) /\ ~ interiors_meet
  | OVERLAP => interiors_meet /\ ~ part /\ ~ part'
  | EQUAL => part /\ part'
  | WITHIN => part /\ ~ part' /\ ~ outlines_meet
  | COVER => part' /\ ~ part /\ ~ outlines_meet
  | ENCLOSED => part /\ ~ part' /\ outlines_meet /\ exists x, boundary x /\ inside' x
  | ENCLOSES => part' /\ ~ part /\ outlines_meet /\ exists x, boundary' x /\ inside x
  | COMPONENT => part /\ ~ part' /\ forall x, boundary x -> boundary' x
  | COMPOSITE => part' /\ ~ part /\ forall x, boundary' x -> boundary x
  | CROSS => False
  end.

(** The points on an outline of the polygon, and the points that belong to it. *)
Definition boundary (p : polygon) (x : point) : Prop := on_segs (outlines (rings p)) x.
Definition region (p : polygon) (x : point) : Prop := inside_polygon p x \/ boundary p x.
Definition shaped_relation (p p' : polygon) (r : relation) : Prop :=
  sets_relation (inside_polygon p) (boundary p) (inside_polygon p') (boundary p') r.

(** The border goes counterclockwise and the holes go clockwise. *)
Definition oriented (p : polygon) : Prop :=
  contour_orientation (border p) = COUNTERCLOCKWISE /\ Forall (fun h => contour_orientation h = CLOCKWISE) (holes p).

(** The same for lists of polygons. *)
Definition inside_some (l : list polygon) (x : point) : Prop := exists p, In p l /\ inside_polygon p x.
Definition boundary_some (l : list polygon) (x : point) : Prop := exists p, In p l /\ boundary p x.
Definition lists_relation (l l' : list polygon) (r : relation) : Prop :=
  sets_relation (inside_some l) (boundary_some l) (inside_some l') (boundary_some l') r.
(** Each of the polygons lies in a hole of another one altogether or not at all. *)
Definition settled (l : list polygon) : Prop := forall p p' h, In p l -> In p' l -> In h (holes p) ->
  (forall x, inside_polygon p' x -> inside_ring h x) \/ (forall x, ~ (inside_polygon p' x /\ inside_ring h x)).
Definition polygons_of (g : geometry) : list polygon :=
  match g with GPolygon p => [p] | GMultipolygon l => l | _ => [] end.
