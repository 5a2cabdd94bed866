(** C40: the difference of a linear and a shaped geometry. *)
From Coq Require Import QArith Qcanon Bool List ZArith Lia.
From Verif Require Import QcTac Model_Base Model_Geometry Model_Contour Model_Linear Model_Mixed
  Spec_Base Spec_Segment Spec_Clip Spec_Contour Spec_Relate Spec_Literals Proof_SegRel Proof_RelateP Proof_Sweep20.
Import ListNotations.
Local Open Scope Qc_scope.

(** A segment minus a polygon may be a "multisegment" of a segment and its reversal: the
    left and the right event of every piece are both recorded.  (The function exists but
    [Segment.__sub__] does not call it; that of multisegments and contours is called.) *)
Theorem c40_segment_refuted : exists fuel shape s p t,
  proper_seg s /\ simple_contour (border p) /\ holes p = []
  /\ subtract_polygon_from_segment fuel shape s p
     = Clips (GMultisegment [t; Seg (seg_end t) (seg_start t)]).
Proof.
  exists 100%nat, (fun _ _ l => (length l / 2)%nat), (sg (-2) 1 1 1), (Poly [pt 0 0; pt 6 0; pt 0 6] []),
    (sg (-2) 1 0 1).
  split; [intros E; vm_compute in E; discriminate|].
  split; [apply simple_literal; vm_compute; auto|]. vm_compute. repeat split.
Qed.
Print Assumptions c40_segment_refuted.
Theorem c40_multisegment_refuted : exists fuel shape l p t r,
  non_crossing l /\ simple_contour (border p) /\ holes p = []
  /\ subtract_polygon_from_multisegmental fuel shape (GMultisegment l) p
     = Clips (GMultisegment (t :: Seg (seg_end t) (seg_start t) :: r)).
Proof.
  exists 100%nat, (fun _ _ l => (length l / 2)%nat), [sg (-2) 1 1 1; sg (-2) 1 (-2) 3],
    (Poly [pt 0 0; pt 6 0; pt 0 6] []), (sg (-2) 1 0 1), [sg (-2) 1 (-2) 3].
  split; [apply non_crossing_literal; vm_compute; auto|].
  split; [apply simple_literal; vm_compute; auto|]. vm_compute. repeat split.
Qed.
Print Assumptions c40_multisegment_refuted.
(** Segments on a side of a polygon are covered by it, and not subtracted. *)
Theorem c40_side_refuted : exists fuel shape l p,
  non_crossing l /\ simple_contour (border p) /\ holes p = []
  /\ (forall t, In t l -> exists side, In side (edges (border p)) /\ seg_subset t side)
  /\ subtract_polygon_from_multisegmental fuel shape (GMultisegment l) p = Clips (GMultisegment l).
Proof.
  exists 100%nat, (fun _ _ l => (length l / 2)%nat), [sg 0 0 3 0; sg 3 0 6 0], (Poly [pt 0 0; pt 6 0; pt 0 6] []).
  split; [apply non_crossing_literal; vm_compute; auto|].
  split; [apply simple_literal; vm_compute; auto|]. split; [auto|]. split; [|vm_compute; reflexivity].
  intros t [<-|[<-|[]]]; exists (sg 0 0 6 0); (split; [left; reflexivity|]);
    refine (proj1 (proj1 (segment_relate_spec _ _ COMPONENT _ _) _));
    try (intros E; vm_compute in E; discriminate); vm_compute; reflexivity.
Qed.
Print Assumptions c40_side_refuted.
