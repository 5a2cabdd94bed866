(** The meaning of [Segment.relate_to] and of the set operations on two
    segments, in terms of their points only. *)
From Coq Require Import QArith Qcanon List.
From Verif Require Import QcTac Model_Base Model_Geometry Spec_Base.
Import ListNotations.

(** [p] is the only common point of [s] and [t]. *)
Definition only_common_point (s t : segment) (p : point) : Prop :=
  on_seg s p /\ on_seg t p /\ forall q, on_seg s q -> on_seg t q -> q = p.

(** Docstrings of rene/_enums.py:34-81 specialised to two segments. *)
Definition seg_relation_spec (r : relation) (s t : segment) : Prop :=
  match r with
  | EQUAL => seg_same s t
  | DISJOINT => ~ exists p, on_seg s p /\ on_seg t p
  | COMPONENT => seg_subset s t /\ ~ seg_subset t s
  | COMPOSITE => seg_subset t s /\ ~ seg_subset s t
  | OVERLAP => share_continuum s t /\ ~ seg_subset s t /\ ~ seg_subset t s
  | CROSS => exists p, only_common_point s t p /\ inside_seg s p /\ inside_seg t p
  | TOUCH => exists p, only_common_point s t p
                       /\ (endpoint_of s p \/ endpoint_of t p)
  | _ => False
  end.

(** The segments a linear geometry consists of; contours are given by their
    consecutive vertices, closing edge last. *)
Fixpoint edges_from (first : point) (vs : list point) : list segment :=
  match vs with
  | [] => []
  | [v] => [Seg v first]
  | v :: (w :: _) as rest => Seg v w :: edges_from first rest
  end.
Definition edges (vs : list point) : list segment :=
  match vs with [] => [] | v :: _ => edges_from v vs end.
Definition parts (g : geometry) : list segment :=
  match g with
  | GSegment s => [s]
  | GMultisegment l => l
  | GContour vs => edges vs
  | _ => []
  end.
(** The points covered by a linear geometry. *)
Definition on_geometry (g : geometry) (p : point) : Prop := on_segs (parts g) p.

(** [p] belongs to a piece of positive length shared by [s] and [t]. *)
Definition on_common_continuum (s t : segment) (p : point) : Prop :=
  share_continuum s t /\ on_seg s p /\ on_seg t p.
(** ... strictly inside of it: [p] is strictly between two common points. *)
Definition inside_common_continuum (s t : segment) (p : point) : Prop :=
  exists u v, u <> v /\ on_seg s u /\ on_seg t u /\ on_seg s v /\ on_seg t v
              /\ strictly_between u v p.
