(** C13-C16: set operations on two segments; C28-C30: a segment with a
    multisegment or a contour. *)
From Coq Require Import QArith Qcanon Bool List ZArith.
From Verif Require Import QcTac Model_Base Model_Box Model_Geometry
  Model_Segment Spec_Base Spec_Segment Spec_Clip Spec_Bounds Spec_Literals Proof_SegOps2
  Proof_SegOps3 Proof_SegLoops Proof_SegUnion.
Import ListNotations.
Local Open Scope Qc_scope.

(** ** C13: [a & b] *)
Theorem c13_intersection_exact : forall s t, proper_seg s -> proper_seg t ->
  (share_continuum s t /\ exists r, intersect_segment_with_segment s t = GSegment r
      /\ proper_seg r /\ forall p, on_seg r p <-> on_seg s p /\ on_seg t p)
  \/ (~ share_continuum s t /\ intersect_segment_with_segment s t = GEmpty).
Proof. exact intersect_segments. Qed.
Print Assumptions c13_intersection_exact.

(** ** C14: [a | b] *)
Theorem c14_union_exact : forall s t, proper_seg s -> proper_seg t ->
  exists g, unite_segment_with_segment s t = Some g /\ good_result g
            /\ forall p, on_geometry g p <-> on_seg s p \/ on_seg t p.
Proof. exact unite_segments. Qed.
Print Assumptions c14_union_exact.

Theorem c14_union_merges_collinear : forall s t, proper_seg s -> proper_seg t ->
  (exists a b, a <> b /\ forall p, on_seg s p \/ on_seg t p -> area2 a b p = 0) ->
  (exists p, on_seg s p /\ on_seg t p) ->
  exists r, unite_segment_with_segment s t = Some (GSegment r).
Proof. exact union_merges. Qed.
Print Assumptions c14_union_merges_collinear.

(** ** C15: [a - b] *)
Theorem c15_difference_exact : forall s t, proper_seg s -> proper_seg t ->
  exists g, subtract_segment_from_segment s t = Some g /\ good_result g
            /\ (forall p, on_geometry g p <-> in_difference s t p)
            /\ (forall p, on_seg s p -> ~ on_seg t p -> on_geometry g p)
            /\ (forall x, In x (parts g) -> ~ share_continuum x t)
            /\ (g = GEmpty <-> seg_subset s t).
Proof.
  intros s t Hs Ht. destruct (subtract_segments s t Hs Ht) as (g & E & C).
  exact (ex_intro _ g (conj E (conj (proj1 C) (conj (proj2 C) (conj
    (fun p O N => proj2 (proj2 C p) (outside_in_difference s t p Hs Ht O N))
    (conj (fun x => difference_pieces_apart s t g x Hs Ht C)
    (iff_trans (empty_iff g _ C) (iff_sym (subset_no_difference s t Hs Ht))))))))).
Qed.
Print Assumptions c15_difference_exact.

(** ** C16: [a ^ b] *)
Theorem c16_symmetric_difference_exact : forall s t, proper_seg s -> proper_seg t ->
  exists g, symmetric_subtract_segment_from_segment s t = Some g /\ good_result g
            /\ (forall p, on_geometry g p <-> in_difference s t p \/ in_difference t s p)
            /\ (g = GEmpty <-> seg_same s t).
Proof.
  intros s t Hs Ht. destruct (symmetric_subtract_segments s t Hs Ht) as (g & E & C).
  exact (ex_intro _ g (conj E (conj (proj1 C) (conj (proj2 C)
    (iff_trans (empty_iff g _ C) (no_symmetric_difference s t Hs Ht)))))).
Qed.
Print Assumptions c16_symmetric_difference_exact.

(** ** C28: segment & multisegment/contour, both orders *)
Theorem c28_intersection_exact : forall g t,
  Forall proper_seg (parts g) -> proper_seg t ->
  (exists r, intersect_multisegmental_with_segment g t = Some r
   /\ (forall p, on_geometry r p <-> exists s, In s (parts g) /\ on_common_continuum s t p)
   /\ (non_crossing (parts g) -> good_result r))
  /\ (exists r, intersect_segment_with_multisegmental t g = Some r
   /\ (forall p, on_geometry r p <-> exists s, In s (parts g) /\ on_common_continuum t s p)
   /\ (non_crossing (parts g) -> good_result r)).
Proof.
  intros g t P N.
  exact (conj (intersect_multisegmental_segment g t P N)
              (intersect_segment_multisegmental t g P N)).
Qed.
Print Assumptions c28_intersection_exact.

(** ** C29: multisegment/contour - segment *)
Theorem c29_difference_exact : forall g s, multisegmental g -> proper_seg s ->
  Forall proper_seg (parts g) ->
  exists r, subtract_segment_from_multisegmental g s = Some r
  /\ (no_overlaps (parts g) -> forall p, on_geometry r p <->
       exists m, In m (parts g) /\ in_difference m s p)
  /\ (non_crossing (parts g) -> good_result r).
Proof. exact subtract_multisegmental. Qed.
Print Assumptions c29_difference_exact.

(** ** C30: segment | multisegment/contour, both orders *)
Theorem c30_union_exact : forall g s, multisegmental g -> proper_seg s ->
  Forall proper_seg (parts g) ->
  (exists r, unite_multisegmental_with_segment g s = Some r
  /\ (forall p, on_geometry r p <-> on_geometry g p \/ on_seg s p)
  /\ (non_crossing (parts g) -> good_result r))
  /\ (exists r, unite_segment_with_multisegmental s g = Some r
  /\ (forall p, on_geometry r p <-> on_geometry g p \/ on_seg s p)
  /\ (non_crossing (parts g) -> good_result r)).
Proof. exact unite_multisegmental. Qed.
Print Assumptions c30_union_exact.

(** ** Concrete cases *)

Example c13_example :
  intersect_segment_with_segment (sg 0 0 4 4) (sg 6 6 1 1) = GSegment (sg 1 1 4 4)
  /\ intersect_segment_with_segment (sg 0 0 4 4) (sg 0 4 4 0) = GEmpty.
Proof. vm_compute; auto. Qed.
Example c14_example :
  unite_segment_with_segment (sg 0 0 4 4) (sg 6 6 1 1) = Some (GSegment (sg 0 0 6 6))
  /\ unite_segment_with_segment (sg 0 0 4 4) (sg 0 4 4 0)
     = Some (GMultisegment [sg 0 0 2 2; sg 2 2 4 4; sg 0 4 2 2; sg 2 2 4 0]).
Proof. vm_compute; auto. Qed.
Example c15_example :
  subtract_segment_from_segment (sg 0 0 4 4) (sg 2 2 1 1)
     = Some (GMultisegment [sg 0 0 1 1; sg 2 2 4 4])
  /\ subtract_segment_from_segment (sg 2 2 1 1) (sg 0 0 4 4) = Some GEmpty.
Proof. vm_compute; auto. Qed.
Example c16_example :
  symmetric_subtract_segment_from_segment (sg 0 0 4 4) (sg 2 2 6 6)
     = Some (GMultisegment [sg 0 0 2 2; sg 6 6 4 4]).
Proof. vm_compute; auto. Qed.
Example c28_example :
  intersect_multisegmental_with_segment
    (GContour [pt 0 0; pt 4 0; pt 0 4]) (sg 1 0 9 0) = Some (GSegment (sg 1 0 4 0)).
Proof. vm_compute; auto. Qed.
Example c29_example :
  subtract_segment_from_multisegmental
    (GContour [pt 0 0; pt 4 0; pt 0 4]) (sg 1 0 9 0)
  = Some (GMultisegment [sg 0 0 1 0; sg 4 0 0 4; sg 0 4 0 0]).
Proof. vm_compute; auto. Qed.
Example c30_example :
  unite_multisegmental_with_segment
    (GContour [pt 0 0; pt 4 0; pt 0 4]) (sg 1 (-1) 1 1)
  = Some (GMultisegment [sg 0 0 1 0; sg 1 0 4 0; sg 4 0 0 4; sg 0 4 0 0;
                         sg 1 (-1) 1 0; sg 1 0 1 1]).
Proof. vm_compute; auto. Qed.
(** The hypotheses are met by a triangle. *)
Example c29_hypotheses : let g := GContour [pt 0 0; pt 4 0; pt 0 4] in
  multisegmental g /\ Forall proper_seg (parts g) /\ non_crossing (parts g)
  /\ no_overlaps (parts g).
Proof. exact triangle_hypotheses. Qed.
