(** C75, C76: [relate_to] between linear geometries and multipolygons. *)
From Coq Require Import QArith Qcanon Bool List ZArith Lia.
From Verif Require Import QcTac Model_Base Model_Geometry Model_Contour Model_Linear Model_Relate Model_RelateLinear Model_Mixed Model_Multipolygon
  Model_RelateMultipolygon Model_RelateMixed
  Spec_Base Spec_Segment Spec_Clip Spec_Contour Spec_Relate Spec_Literals Spec_Shaped Spec_Multipolygon Spec_RelateShaped
  Proof_Locate4 Proof_RelateP Proof_Sweep20 Proof_RelateMixed.
Import ListNotations.
Local Open Scope Qc_scope.

(** Multipolygons of two triangles. *)
Definition lower : polygon := Poly [pt 0 0; pt 10 0; pt 0 10] [].
Definition upper : polygon := Poly [pt 20 100; pt 30 100; pt 20 110] [].
Definition slanted : polygon := Poly [pt 0 0; pt 10 0; pt 40 40] [].
Local Ltac triangle :=
  constructor; [apply Forall_cons; [apply simple_literal; vm_compute; reflexivity|constructor]
               |apply non_crossing_literal; vm_compute; reflexivity|intros ? ? _ []|intros ? _; repeat constructor].
Local Ltac triangles :=
  split; [cbn; lia|]; constructor;
  [apply Forall_cons; [triangle|apply Forall_cons; [triangle|constructor]]
  |apply non_crossing_literal; vm_compute; reflexivity
  |apply FOP_cons; [|repeat constructor]; apply Forall_cons; [|constructor]; intros [x y] [I J]; unfold inside_polygon in I, J;
   apply api_polygon in I; destruct I as [I _]; apply api_polygon in J; destruct J as [J _];
   apply api_triangle in I; [|intros E; vm_compute in E; discriminate]; apply api_triangle in J; [|intros E; vm_compute in E; discriminate];
   unfold pt, area2, Spec_Literals.q, Z2Qc, inject_Z in *; cbn [px py] in *;
   destruct I as [(A & B & C)|(A & B & C)]; destruct J as [(A' & B' & C')|(A' & B' & C')]; qlra].
Lemma triangles_valid : valid_shaped (GMultipolygon [lower; upper]) /\ valid_shaped (GMultipolygon [slanted; upper]).
Proof. split; triangles. Qed.
Lemma triangles_oriented : Forall oriented [lower; upper] /\ Forall oriented [slanted; upper].
Proof. split; (apply Forall_cons; [|apply Forall_cons; [|constructor]]); (split; [vm_compute; reflexivity|constructor]). Qed.

(** C75: [Multipolygon.relate_to] raises for a multisegment or a contour whose box meets the
    box of the multipolygon, as do the boxes of two segments, but no box of a polygon: [max]
    is taken of no abscissas.  The same geometries related in the other order are DISJOINT. *)
Theorem c75_multisegment_refuted : exists fuel shape l segments,
  valid_shaped (GMultipolygon l) /\ Forall oriented l /\ non_crossing segments /\ (2 <= length segments)%nat
  /\ multipolygon_relate_to_multisegmental fuel shape l (GMultisegment segments) = RelateRaises
  /\ multisegmental_relate_to_multipolygon fuel shape (GMultisegment segments) l = Relates DISJOINT.
Proof.
  exists 100%nat, (fun _ _ l => (length l / 2)%nat), [lower; upper], [sg 12 20 13 20; sg 13 20 14 30].
  split; [apply triangles_valid|]. split; [apply triangles_oriented|]. split; [apply non_crossing_literal; vm_compute; reflexivity|].
  split; [cbn; lia|]. split; vm_compute; reflexivity.
Qed.
Print Assumptions c75_multisegment_refuted.
Theorem c75_contour_refuted : exists fuel shape l vs,
  valid_shaped (GMultipolygon l) /\ Forall oriented l /\ simple_contour vs
  /\ multipolygon_relate_to_multisegmental fuel shape l (GContour vs) = RelateRaises
  /\ multisegmental_relate_to_multipolygon fuel shape (GContour vs) l = Relates DISJOINT.
Proof.
  exists 100%nat, (fun _ _ l => (length l / 2)%nat), [lower; upper], [pt 12 20; pt 13 20; pt 14 30].
  split; [apply triangles_valid|]. split; [apply triangles_oriented|]. split; [apply simple_literal; vm_compute; reflexivity|].
  split; vm_compute; reflexivity.
Qed.
Print Assumptions c75_contour_refuted.

(** A single segment does not make either of them raise that way. *)
Theorem c75_segment : forall fuel shape l s,
  multipolygon_relate_to_segment fuel shape l s <> RelateRaises
  /\ segment_relate_to_multipolygon fuel shape l s <> RelateRaises.
Proof. split; exact (segment_settles _ _ _ _ _). Qed.
Print Assumptions c75_segment.
(** So does the [relate_to] of the multisegment: the only polygon whose box meets the box of the
    multisegment ends left of every segment whose box meets the box of the multipolygon. *)
Definition near : polygon := Poly [pt 0 0; pt 1 0; pt 0 1] [].
Definition far : polygon := Poly [pt 10 0; pt 11 0; pt 10 10] [].
Lemma apart_valid : valid_shaped (GMultipolygon [near; far]) /\ Forall oriented [near; far].
Proof. split; [triangles|]. apply Forall_cons; [|apply Forall_cons; [|constructor]]; (split; [vm_compute; reflexivity|constructor]). Qed.
Theorem c75_either_refuted : exists fuel shape l segments,
  valid_shaped (GMultipolygon l) /\ Forall oriented l /\ non_crossing segments /\ (2 <= length segments)%nat
  /\ multisegmental_relate_to_multipolygon fuel shape (GMultisegment segments) l = RelateRaises
  /\ multipolygon_relate_to_multisegmental fuel shape l (GMultisegment segments) = RelateRaises.
Proof.
  exists 100%nat, (fun _ _ l => (length l / 2)%nat), [near; far], [sg 0 (-5) 1 (-4); sg 5 1 6 1; sg 5 2 6 2].
  split; [apply apart_valid|]. split; [apply apart_valid|]. split; [apply non_crossing_literal; vm_compute; reflexivity|].
  split; [cbn; lia|]. split; vm_compute; reflexivity.
Qed.
Print Assumptions c75_either_refuted.

(** C76: a multisegment may be WITHIN a multipolygon, by either of them, with one of its segments
    outside: the segment is right of what the sweep reaches, and the multisegment is still taken
    for swept altogether. *)
Theorem c76_beyond_refuted : exists fuel shape l s t,
  valid_shaped (GMultipolygon l) /\ Forall oriented l /\ non_crossing [s; t]
  /\ geometry_locate (GMultipolygon l) (seg_start t) = EXTERIOR /\ geometry_locate (GMultipolygon l) (seg_end t) = EXTERIOR
  /\ multisegmental_relate_to_multipolygon fuel shape (GMultisegment [s; t]) l = Relates WITHIN
  /\ multipolygon_relate_to_multisegmental fuel shape l (GMultisegment [s; t]) = Relates WITHIN.
Proof.
  exists 100%nat, (fun _ _ l => (length l / 2)%nat), [lower; upper], (sg 1 1 2 1), (sg 20 5 21 5).
  split; [apply triangles_valid|]. split; [apply triangles_oriented|]. split; [apply non_crossing_literal; vm_compute; reflexivity|].
  repeat split; vm_compute; reflexivity.
Qed.
Print Assumptions c76_beyond_refuted.
(** A segment may be WITHIN a multipolygon with both ends outside: what the sweep has passed is
    not taken out of the sweep line (as for polygons). *)
Theorem c76_stale_refuted : exists fuel shape l s,
  valid_shaped (GMultipolygon l) /\ Forall oriented l /\ proper_seg s
  /\ geometry_locate (GMultipolygon l) (seg_start s) = EXTERIOR /\ geometry_locate (GMultipolygon l) (seg_end s) = EXTERIOR
  /\ segment_relate_to_multipolygon fuel shape l s = Relates WITHIN
  /\ multipolygon_relate_to_segment fuel shape l s = Relates WITHIN.
Proof.
  exists 100%nat, (fun _ _ l => (length l / 2)%nat), [slanted; upper], (sg 20 1 30 2).
  split; [apply triangles_valid|]. split; [apply triangles_oriented|]. split; [intros E; vm_compute in E; discriminate|].
  repeat split; vm_compute; reflexivity.
Qed.
Print Assumptions c76_stale_refuted.
(** So may a multisegment be of a polygon. *)
Theorem c76_polygon_refuted : exists fuel shape p s t,
  valid_polygon p /\ oriented p /\ non_crossing [s; t]
  /\ geometry_locate (GPolygon p) (seg_start t) = EXTERIOR /\ geometry_locate (GPolygon p) (seg_end t) = EXTERIOR
  /\ polygon_relate_to_multisegmental fuel shape p (GMultisegment [s; t]) = Relates WITHIN.
Proof.
  exists 100%nat, (fun _ _ l => (length l / 2)%nat), slanted, (sg 9 1 10 1), (sg 20 1 30 2).
  split; [triangle|]. split; [split; [vm_compute; reflexivity|constructor]|]. split; [apply non_crossing_literal; vm_compute; reflexivity|].
  repeat split; vm_compute; reflexivity.
Qed.
Print Assumptions c76_polygon_refuted.
