(** What is inside a polygon or a multipolygon and what is outside: the operators [&] and [-] with
    a linear and a shaped operand together. *)
From Coq Require Import QArith Qcanon List Arith.
From Verif Require Import QcTac Model_Base Model_Geometry Model_Contour Model_Linear Model_LinearOperators Model_MixedDiff
  Spec_Base Spec_Segment Spec_Clip Spec_Bounds Spec_Sweep Spec_Multipolygon Spec_MixedClip Spec_MixedDiff Spec_LinearLaws.
Import ListNotations.

(** The boxes of the operands do not only touch. *)
Definition boxes_meet (a b : geometry) : Prop :=
  exists x, in_box (bounding_box a) x /\ inside_box (bounding_box b) x.
(** The expression [e] may be evaluated to a valid multisegment or contour, the box of which meets
    that of [b], and [e - b] to [g]. *)
Definition leaves (shape : tree_shape) (e : lexpr) (b g : geometry) : Prop :=
  exists h fuel, comes_to e h /\ several_input h /\ boxes_meet h b
    /\ (enough (length (parts h) + shaped_size b) <= fuel)%nat
    /\ mixed_sub fuel shape h b = Some (Clips g).
(** The points of [e] that are not points of [b]. *)
Definition denotes_outside (e : lexpr) (b : geometry) (p : point) : Prop :=
  denotes e p /\ geometry_contains b p = false.
(** The same points. *)
Definition same_points_as (g h : geometry) : Prop := forall p, on_geometry g p <-> on_geometry h p.
(** The union of what of [e] is inside each of the polygons; every operator has its own tree shape. *)
Fixpoint inside_each (shapes : nat -> tree_shape) (e : lexpr) (l : list polygon) : lexpr :=
  match l with
  | [] => Lin GEmpty
  | p :: l => LOr (shapes (2 * length l)%nat) (LInside (shapes (S (2 * length l))) e (GPolygon p)) (inside_each shapes e l)
  end.
