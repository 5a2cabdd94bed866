(** The meaning of set operations on linear geometries, in terms of points only. *)
From Coq Require Import QArith Qcanon List.
From Verif Require Import QcTac Model_Base Model_Geometry Spec_Base Spec_Segment.
Import ListNotations.

(** [p] belongs to the closure of [s] without [t]: [p] is on [s], and walking from
    [p] to some other point [q] of [s] one meets no point of [t]. *)
Definition in_difference (s t : segment) (p : point) : Prop :=
  on_seg s p /\ exists q, q <> p /\ on_seg s q
    /\ forall r, strictly_between p q r -> ~ on_seg t r.

(** Two segments that share at most one point, an endpoint of one of them. *)
Definition touch_or_disjoint (s t : segment) : Prop :=
  seg_relation_spec TOUCH s t \/ seg_relation_spec DISJOINT s t.
(** A list of segments with different endpoints no two of which cross or
    overlap; this is what rene documents a valid multisegment to be. *)
Definition non_crossing (l : list segment) : Prop :=
  Forall proper_seg l /\ ForallOrdPairs touch_or_disjoint l.
(** A result of a linear operation: its size fits its class and its segments do
    not cross. *)
Definition good_result (g : geometry) : Prop :=
  non_crossing (parts g) /\
  match g with
  | GEmpty | GSegment _ => True
  | GMultisegment l => (2 <= length l)%nat
  | GContour vs => (3 <= length vs)%nat
  | _ => False
  end.
(** A list of segments no two of which share a piece of positive length. *)
Definition no_overlaps (l : list segment) : Prop :=
  Forall proper_seg l /\ ForallOrdPairs (fun s t => ~ share_continuum s t) l.

(** [p] belongs to the closure of [s] without the segments of [l]; and of the
    segments of [k] without those of [l]. *)
Definition in_difference_list (s : segment) (l : list segment) (p : point) : Prop :=
  on_seg s p /\ exists q, q <> p /\ on_seg s q
    /\ forall r, strictly_between p q r -> ~ on_segs l r.
Definition in_difference_lists (k l : list segment) (p : point) : Prop :=
  exists s, In s k /\ in_difference_list s l p.
(** [p] belongs to a piece of positive length of [k] and [l]. *)
Definition on_common_continuum_lists (k l : list segment) (p : point) : Prop :=
  exists s t, In s k /\ In t l /\ on_common_continuum s t p.
