(** Points near a point; the sides of a set of points. *)
From Coq Require Import QArith Qcanon.
From Verif Require Import Model_Base Model_Geometry Spec_Base Spec_Segment Spec_Shaped Spec_Multipolygon.
Local Open Scope Qc_scope.

(** [q] is in the open square round [p] with sides [2 d]. *)
Definition close_to (d : Qc) (p q : point) : Prop :=
  px p - d < px q /\ px q < px p + d /\ py p - d < py q /\ py q < py p + d.
(** However near to [x], there are points with the property and points without it, among those
    that satisfy [off]. *)
Definition between_sides (off holds : point -> Prop) (x : point) : Prop :=
  forall d, 0 < d -> (exists q, close_to d x q /\ off q /\ holds q) /\ (exists q, close_to d x q /\ off q /\ ~ holds q).

(** The points on the outlines of a polygon or a multipolygon. *)
Definition outlined (g : geometry) (x : point) : Prop := on_segs (outlines (geometry_rings g)) x.
Definition clear_of (g g' : geometry) (z : point) : Prop := ~ outlined g z /\ ~ outlined g' z.
(** The same points on the outlines, and the same points inside off them. *)
Definition same_region (h1 h2 : geometry) : Prop :=
  (forall x, outlined h1 x <-> outlined h2 x)
  /\ forall q, ~ outlined h1 q -> (inside_odd (geometry_rings h1) q <-> inside_odd (geometry_rings h2) q).
(** A common point of the interiors; every point of the one belongs to the other. *)
Definition interiors_meet (g g' : geometry) : Prop := exists x, inside g x /\ inside g' x.
Definition part (g g' : geometry) : Prop := forall x, inside g x \/ outlined g x -> inside g' x \/ outlined g' x.
