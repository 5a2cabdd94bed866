(** The meaning of the difference of a linear and a shaped geometry, in terms of points. *)
From Coq Require Import QArith Qcanon List.
From Verif Require Import QcTac Model_Base Model_Geometry Model_Contour Spec_Base Spec_Segment Spec_Clip Spec_Bounds
  Spec_Shaped Spec_Multipolygon Spec_RelateShaped Spec_MixedClip.
Import ListNotations.

(** A multisegment or a contour the constructors accept the segments of which do not cross or
    overlap one another. *)
Definition several_input (g : geometry) : Prop := multisegmental g /\ non_crossing (parts g).
(** [q] is in the closure of the segments without the polygons: walking along one of the
    segments from [q] to some other point one meets no point of the polygons. *)
Definition on_piece_without (segments : list segment) (l : list polygon) (q : point) : Prop :=
  exists s w, In s segments /\ on_seg s q /\ on_seg s w /\ w <> q
    /\ forall r, strictly_between q w r -> ~ in_some l r.
(** The same with the answers of [in]. *)
Definition on_uncontained_piece (a b : geometry) (q : point) : Prop :=
  exists s w, In s (parts a) /\ on_seg s q /\ on_seg s w /\ w <> q
    /\ forall r, strictly_between q w r -> geometry_contains b r = false.
(** The same segment in the other direction. *)
Definition turned (s : segment) : segment := Seg (seg_end s) (seg_start s).
