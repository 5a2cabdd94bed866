(** The meaning of the relation between two contours or multisegments, in terms of points. *)
From Coq Require Import QArith Qcanon List.
From Verif Require Import QcTac Model_Base Model_Geometry Spec_Base Spec_Segment Spec_Clip Spec_Relate.
Import ListNotations.

(** A contour that does not cross itself, or a multisegment of two segments at least that
    do not cross or overlap one another. *)
Definition linear_operand (g : geometry) : Prop :=
  match g with
  | GContour vs => simple_contour vs
  | GMultisegment l => (2 <= length l)%nat /\ non_crossing l
  | _ => False
  end.

(** Segments with two endpoints each, any two of which have in common at most endpoints of
    both: no endpoint of one lies inside another. *)
Definition joined (l : list segment) : Prop :=
  Forall proper_seg l /\
  ForallOrdPairs
    (fun s t => forall p, on_seg s p -> on_seg t p -> endpoint_of s p /\ endpoint_of t p) l.

(** The relation between the points of [l] and those of [l'].  [CROSS] and [TOUCH] are one
    case here: the common points are finitely many. *)
Definition linear_relation_spec (r : relation) (l l' : list segment) : Prop :=
  let subset := forall p, on_segs l p -> on_segs l' p in
  let superset := forall p, on_segs l' p -> on_segs l p in
  let common := exists p, on_segs l p /\ on_segs l' p in
  let overlaps := exists s t, In s l /\ In t l' /\ share_continuum s t in
  match r with
  | EQUAL => subset /\ superset
  | COMPONENT => subset /\ ~ superset
  | COMPOSITE => superset /\ ~ subset
  | OVERLAP => overlaps /\ ~ subset /\ ~ superset
  | CROSS | TOUCH => common /\ ~ overlaps
  | DISJOINT => ~ common
  | _ => False
  end.

(** A segment that has the points of the list, no more and no fewer. *)
Definition same_points (s : segment) (l : list segment) : Prop :=
  forall p, on_seg s p <-> on_segs l p.
(** A simple contour, or a multisegment of two segments at least that meet at endpoints only. *)
Definition joined_operand (g : geometry) : Prop :=
  match g with
  | GContour vs => simple_contour vs
  | GMultisegment l => (2 <= length l)%nat /\ joined l
  | _ => False
  end.
