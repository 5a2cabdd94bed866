(** When a list of segments has no other intersections than common endpoints. *)
From Coq Require Import QArith Qcanon List.
From Verif Require Import QcTac Model_Base Model_Geometry Spec_Base Spec_Segment.
Import ListNotations.

(** Two segments of the list (at different positions) have in common at most an
    endpoint of both. *)
Definition meet_at_ends (segments : list segment) : Prop :=
  forall i j s t p, i <> j -> nth_error segments i = Some s -> nth_error segments j = Some t ->
    on_seg s p -> on_seg t p -> endpoint_of s p /\ endpoint_of t p.
