(** C33-C36: the operations on multisegments and contours that run the plane sweep.

    [shape] is how the search tree of the sweep line happens to be balanced, [fuel]
    a bound on the iterations; by the theorems no bound beyond [enough] changes
    anything, so the loops end.  The operands are valid: no two segments of one
    operand cross or overlap. *)
From Coq Require Import QArith Qcanon Bool List Arith ZArith Lia.
From Verif Require Import QcTac Model_Base Model_Geometry Model_Linear Spec_Base Spec_Segment
  Spec_Clip Spec_Sweep Spec_Bounds Spec_Literals Proof_SegLoops Proof_Sweep19 Proof_Sweep20.
Import ListNotations.
Local Open Scope Z_scope.

(** C33: [a | b] *)
Theorem c33_union_exact : forall fuel shape a b, multisegmental a -> multisegmental b ->
  non_crossing (parts a) -> non_crossing (parts b) ->
  (enough (length (parts a) + length (parts b)) <= fuel)%nat ->
  exists g, unite_multisegmental_with_multisegmental fuel shape a b = Clips g
  /\ good_result g
  /\ forall p, on_geometry g p <-> on_geometry a p \/ on_geometry b p.
Proof. exact unite_both. Qed.
Print Assumptions c33_union_exact.

(** C34: [a & b] *)
Theorem c34_intersection_exact : forall fuel shape a b, multisegmental a -> multisegmental b ->
  non_crossing (parts a) -> non_crossing (parts b) ->
  (enough (length (parts a) + length (parts b)) <= fuel)%nat ->
  exists g, intersect_multisegmental_with_multisegmental fuel shape a b = Clips g
  /\ good_result g
  /\ (forall p, on_geometry g p <-> on_common_continuum_lists (parts a) (parts b) p)
  /\ (forall p, on_geometry g p -> on_geometry a p /\ on_geometry b p).
Proof. exact intersect_both_points. Qed.
Print Assumptions c34_intersection_exact.

(** C35: [a - b] *)
Theorem c35_difference_exact : forall fuel shape a b, multisegmental a -> multisegmental b ->
  non_crossing (parts a) -> non_crossing (parts b) ->
  (enough (length (parts a) + length (parts b)) <= fuel)%nat ->
  exists g, subtract_multisegmental_from_multisegmental fuel shape a b = Clips g
  /\ good_result g
  /\ (forall p, on_geometry g p <-> in_difference_lists (parts a) (parts b) p)
  /\ (forall p, on_geometry g p -> on_geometry a p)
  /\ (forall p, on_geometry a p -> ~ on_geometry b p -> on_geometry g p).
Proof. exact subtract_both_points. Qed.
Print Assumptions c35_difference_exact.

Theorem c35_segment_difference_exact : forall fuel shape b s, multisegmental b ->
  non_crossing (parts b) -> proper_seg s ->
  (enough (S (length (parts b))) <= fuel)%nat ->
  exists g, subtract_multisegmental_from_segment fuel shape s b = Clips g
  /\ good_result g
  /\ (forall p, on_geometry g p <-> in_difference_lists [s] (parts b) p)
  /\ (forall p, on_geometry g p -> on_seg s p)
  /\ (forall p, on_seg s p -> ~ on_geometry b p -> on_geometry g p).
Proof. exact subtract_one_points. Qed.
Print Assumptions c35_segment_difference_exact.

(** C36: [a ^ b], for two multisegments or contours and for a segment with one *)
Theorem c36_symmetric_difference_exact : forall fuel shape a b, multisegmental a -> multisegmental b ->
  non_crossing (parts a) -> non_crossing (parts b) ->
  (enough (length (parts a) + length (parts b)) <= fuel)%nat ->
  exists g, symmetric_subtract_multisegmental_from_multisegmental fuel shape a b = Clips g
  /\ good_result g
  /\ (forall p, on_geometry g p <->
        in_difference_lists (parts a) (parts b) p \/ in_difference_lists (parts b) (parts a) p)
  /\ (forall p, on_geometry g p -> on_geometry a p \/ on_geometry b p)
  /\ (forall p, on_geometry a p \/ on_geometry b p -> ~ (on_geometry a p /\ on_geometry b p) ->
        on_geometry g p).
Proof. exact symmetric_subtract_both_points. Qed.
Print Assumptions c36_symmetric_difference_exact.

Theorem c36_segment_first_exact : forall fuel shape b s, multisegmental b ->
  non_crossing (parts b) -> proper_seg s ->
  (enough (S (length (parts b))) <= fuel)%nat ->
  exists g, symmetric_subtract_multisegmental_from_segment fuel shape s b = Clips g
  /\ good_result g
  /\ forall p, on_geometry g p <->
        in_difference_lists [s] (parts b) p \/ in_difference_lists (parts b) [s] p.
Proof. exact symmetric_subtract_one. Qed.
Print Assumptions c36_segment_first_exact.

Theorem c36_segment_second_exact : forall fuel shape b s, multisegmental b ->
  non_crossing (parts b) -> proper_seg s ->
  (enough (S (length (parts b))) <= fuel)%nat ->
  exists g, symmetric_subtract_segment_from_multisegmental fuel shape b s = Clips g
  /\ good_result g
  /\ forall p, on_geometry g p <->
        in_difference_lists (parts b) [s] p \/ in_difference_lists [s] (parts b) p.
Proof. exact symmetric_subtract_one'. Qed.
Print Assumptions c36_segment_second_exact.

(** Concrete operands that overlap along an edge, cross and touch. *)
Definition square : geometry := GContour [pt 0 0; pt 4 0; pt 4 4; pt 0 4].
Definition strokes : geometry := GMultisegment [sg 5 0 3 0; sg 2 (-1) 2 5; sg (-1) 3 2 3; sg 2 5 9 9].
Example linear_hypotheses : multisegmental square /\ multisegmental strokes
  /\ non_crossing (parts square) /\ non_crossing (parts strokes)
  /\ proper_seg (sg 0 0 4 4).
Proof.
  split; [cbn; lia|]. split; [cbn; lia|].
  split; [apply non_crossing_literal; vm_compute; reflexivity|].
  split; [apply non_crossing_literal; vm_compute; reflexivity|].
  intros E. apply (f_equal (fun p => this (px p))) in E. vm_compute in E. discriminate.
Qed.
Definition middle : tree_shape := fun _ _ l => (length l / 2)%nat.
Example linear_results :
  exists g, intersect_multisegmental_with_multisegmental 500 middle square strokes = Clips g
  /\ g = GSegment (sg 3 0 4 0).
Proof. eexists. split; vm_compute; reflexivity. Qed.
Example linear_difference_results :
  exists l, subtract_multisegmental_from_multisegmental 500 middle square strokes = Clips (GMultisegment l)
  /\ length l = 7%nat.
Proof. eexists. split; vm_compute; reflexivity. Qed.
