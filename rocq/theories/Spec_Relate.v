(** The meaning of [relate_to] between a segment and a list of segments (a
    multisegment or the edges of a contour), in terms of points only. *)
From Coq Require Import QArith Qcanon List.
From Verif Require Import QcTac Model_Base Model_Geometry Spec_Base Spec_Segment Spec_Contour.
Import ListNotations.
Local Open Scope Qc_scope.

(** At the point [p], strictly inside [s], the segments of [l] are on both sides of [s]. *)
Definition passes_through (s : segment) (l : list segment) (p : point) : Prop :=
  inside_seg s p /\ exists t u q r, In t l /\ In u l /\ on_seg t p /\ on_seg u p
    /\ on_seg t q /\ 0 < area2 (seg_start s) (seg_end s) q
    /\ on_seg u r /\ area2 (seg_start s) (seg_end s) r < 0.

(** Docstrings of rene/_enums.py:34-81 for a segment and a linear geometry. *)
Definition segment_list_relation_spec (r : relation) (s : segment) (l : list segment) : Prop :=
  let subset := forall p, on_seg s p -> on_segs l p in
  let superset := forall p, on_segs l p -> on_seg s p in
  let common := exists p, on_seg s p /\ on_segs l p in
  let overlaps := exists t, In t l /\ share_continuum s t in
  let crosses := exists p, passes_through s l p in
  match r with
  | EQUAL => subset /\ superset
  | COMPONENT => subset /\ ~ superset
  | COMPOSITE => superset /\ ~ subset
  | OVERLAP => overlaps /\ ~ subset /\ ~ superset
  | DISJOINT => ~ common
  | CROSS => ~ overlaps /\ crosses
  | TOUCH => common /\ ~ overlaps /\ ~ crosses
  | _ => False
  end.

(** The outline of a contour is simple: it has no repeated vertices and no three
    consecutive collinear ones, and two different edges have in common at most an
    endpoint of both. *)
Definition simple_contour (vs : list point) : Prop :=
  nondegenerate vs /\
  forall s t p, In s (edges vs) -> In t (edges vs) -> s <> t -> on_seg s p -> on_seg t p ->
    endpoint_of s p /\ endpoint_of t p.
