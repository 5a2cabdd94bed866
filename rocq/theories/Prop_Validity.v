(** C37, C56: [Multisegment.is_valid] and [Contour.is_valid].

    [shape] stands for the shape of the balanced tree of the sweep line and [pick] for
    the choice between equal events of the queue: the answers hold for all of them. *)
From Coq Require Import QArith Qcanon Bool List ZArith Lia.
From Verif Require Import QcTac Model_Base Model_Geometry Model_Segment Model_Linear Model_BentleyOttmann Model_Contour
  Spec_Base Spec_Segment Spec_Contour Spec_Relate Spec_Sweep Spec_Validity Spec_Literals
  Proof_Ottmann13 Proof_Ottmann15.
Import ListNotations.
Local Open Scope Qc_scope.

(** ** C37 *)
Theorem c37_multisegment_is_valid : forall fuel shape pick segments,
  Forall proper_seg segments -> segments <> [] -> (2 * length segments < fuel)%nat ->
  (multisegment_is_valid fuel shape pick segments = Validity true <-> meet_at_ends segments).
Proof. exact multisegment_valid_spec. Qed.
Print Assumptions c37_multisegment_is_valid.
(** The sweep ends on every input, whatever the segments do. *)
Theorem c37_ends : forall fuel shape pick segments,
  Forall proper_seg segments -> (enough (length segments) <= fuel)%nat ->
  multisegment_is_valid fuel shape pick segments <> ValidityRunsOut.
Proof. exact multisegment_validity_ends. Qed.
Print Assumptions c37_ends.

Definition middle_shape : tree_shape := fun _ _ l => (length l / 2)%nat.
Definition first_pick : queue_choice := fun _ _ => O.

(** A star and a triangle around it: many segments meet in one point. *)
Example c37_example :
  let l := [sg 0 0 4 0; sg 0 0 3 4; sg 4 0 3 4; sg 0 0 2 1; sg 4 0 2 1; sg 2 1 3 4] in
  Forall proper_seg l
  /\ multisegment_is_valid 100 middle_shape first_pick l = Validity true
  /\ multisegment_is_valid 100 middle_shape first_pick (sg 1 0 1 1 :: l) = Validity false
  /\ multisegment_is_valid 100 middle_shape first_pick (sg 0 0 5 1 :: l) = Validity false.
Proof.
  cbv zeta. split; [repeat constructor; discriminate|]. split; [|split]; vm_compute; reflexivity.
Qed.
(** The first list of the example is one that meets at ends. *)
Example c37_example_meets :
  meet_at_ends [sg 0 0 4 0; sg 0 0 3 4; sg 4 0 3 4; sg 0 0 2 1; sg 4 0 2 1; sg 2 1 3 4].
Proof.
  refine (proj1 (c37_multisegment_is_valid 100 middle_shape first_pick _ _ _ _) _).
  - exact (proj1 c37_example).
  - discriminate.
  - cbn. lia.
  - exact (proj1 (proj2 c37_example)).
Qed.

(** Segments that only touch are not always accepted: the T-junction. *)
Theorem c37_touching_refuted : exists fuel shape pick s t,
  (enough 2 <= fuel)%nat /\ proper_seg s /\ proper_seg t /\ segment_relate_to_segment s t = Some TOUCH
  /\ multisegment_is_valid fuel shape pick [s; t] = Validity false.
Proof.
  exists 100%nat, middle_shape, first_pick, (sg 0 0 4 0), (sg 2 0 2 4).
  split; [cbv; lia|]. split; [discriminate|]. split; [discriminate|]. split; vm_compute; reflexivity.
Qed.
Print Assumptions c37_touching_refuted.
(** Over an invalid multisegment the call may raise an exception instead of answering. *)
Theorem c37_raises_refuted : exists fuel shape pick segments,
  Forall proper_seg segments /\ ~ meet_at_ends segments
  /\ multisegment_is_valid fuel shape pick segments = ValidityRaises.
Proof.
  exists 100%nat, middle_shape, first_pick, [sg 0 0 5 0; sg 0 0 4 0; sg 0 0 3 0; sg 0 0 2 0; sg 0 0 1 0].
  assert (P : Forall proper_seg [sg 0 0 5 0; sg 0 0 4 0; sg 0 0 3 0; sg 0 0 2 0; sg 0 0 1 0]).
  { repeat constructor; discriminate. }
  assert (E : multisegment_is_valid 100 middle_shape first_pick [sg 0 0 5 0; sg 0 0 4 0; sg 0 0 3 0; sg 0 0 2 0; sg 0 0 1 0] = ValidityRaises)
    by (vm_compute; reflexivity).
  split; [exact P|]. split; [|exact E]. intros M.
  assert (N : [sg 0 0 5 0; sg 0 0 4 0; sg 0 0 3 0; sg 0 0 2 0; sg 0 0 1 0] <> []) by discriminate.
  assert (L : (2 * length [sg 0 0 5 0; sg 0 0 4 0; sg 0 0 3 0; sg 0 0 2 0; sg 0 0 1 0] < 100)%nat) by (cbn; lia).
  pose proof (proj2 (c37_multisegment_is_valid 100 middle_shape first_pick _ P N L) M) as Q.
  rewrite E in Q. discriminate.
Qed.
Print Assumptions c37_raises_refuted.

(** ** C56 *)
Theorem c56_contour_is_valid : forall fuel shape pick vertices,
  (3 <= length vertices)%nat -> (2 * length vertices < fuel)%nat ->
  (contour_is_valid fuel shape pick vertices = Validity true <-> simple_contour vertices).
Proof. exact contour_valid_spec. Qed.
Print Assumptions c56_contour_is_valid.
Theorem c56_ends : forall fuel shape pick vertices,
  (3 <= length vertices)%nat -> (enough (length vertices) <= fuel)%nat ->
  contour_is_valid fuel shape pick vertices <> ValidityRunsOut.
Proof. exact contour_validity_ends. Qed.
Print Assumptions c56_ends.

(** A contour with a notch, one that crosses itself, one that touches itself in a
    vertex, one that touches itself inside an edge, one with a repeated vertex. *)
Example c56_example :
  let valid := contour_is_valid 200 middle_shape first_pick in
  valid [pt 0 0; pt 4 0; pt 4 4; pt 2 1; pt 0 4] = Validity true
  /\ valid [pt 0 0; pt 4 4; pt 4 0; pt 0 4] = Validity false
  /\ valid [pt 0 0; pt 4 0; pt 2 2; pt 4 4; pt 0 4; pt 2 2] = Validity false
  /\ valid [pt 0 0; pt 4 0; pt 4 4; pt 2 0; pt 0 4] = Validity false
  /\ valid [pt 0 0; pt 4 0; pt 4 0; pt 4 4] = Validity false.
Proof. vm_compute. auto. Qed.
Example c56_example_simple : simple_contour [pt 0 0; pt 4 0; pt 4 4; pt 2 1; pt 0 4].
Proof.
  refine (proj1 (c56_contour_is_valid 200 middle_shape first_pick _ _ _) _); [cbn; lia|cbn; lia|].
  exact (proj1 c56_example).
Qed.
