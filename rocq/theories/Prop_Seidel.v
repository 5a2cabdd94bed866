(** C41: point location in a trapezoidation. *)
From Coq Require Import QArith Qcanon Bool List ZArith NArith Lia.
From Verif Require Import QcTac Model_Base Model_Geometry Model_Contour Model_Seidel
  Proof_RelateP Prop_Validity Prop_Shaped Proof_Seidel12 Proof_Seidel15
  Spec_Base Spec_Contour Spec_Relate Spec_Shaped Spec_RelateShaped Spec_Validity Spec_Seidel Spec_Literals.
Import ListNotations.
Local Open Scope Qc_scope.

(** [Trapezoidation.from_multisegment] ends without an error for every seed, and its
    [locate] tells for every point whether it is on the multisegment, as
    [Multisegment.locate] does. *)
Theorem c41_multisegment : forall segments seed,
  (2 <= length segments)%nat -> Forall proper_seg segments -> meet_at_ends segments ->
  exists t, from_multisegment segments seed = Some t /\
  forall point,
    (on_segs segments point -> trapezoidation_locate t point = Some BOUNDARY)
    /\ (~ on_segs segments point -> trapezoidation_locate t point = Some EXTERIOR)
    /\ trapezoidation_locate t point = Some (multisegment_locate segments point).
Proof. exact multisegment_trapezoidation. Qed.
Print Assumptions c41_multisegment.

(** Six segments of a subdivided triangle, inserted in an order picked by the seed. *)
Example c41_multisegment_nonvacuous :
  let segments := [sg 0 0 4 0; sg 0 0 3 4; sg 4 0 3 4; sg 0 0 2 1; sg 4 0 2 1; sg 2 1 3 4] in
  (2 <= length segments)%nat /\ Forall proper_seg segments /\ meet_at_ends segments /\
  match from_multisegment segments 123%N with
  | Some t => map (trapezoidation_locate t) [pt 1 0; pt 2 1; pt 2 2; pt 3 2; pt 9 9]
              = [Some BOUNDARY; Some BOUNDARY; Some EXTERIOR; Some EXTERIOR; Some EXTERIOR]
  | None => False
  end.
Proof.
  cbv zeta. split; [repeat constructor|]. split; [repeat constructor; discriminate|]. split; [exact c37_example_meets|].
  vm_compute. reflexivity.
Qed.

(** [Trapezoidation.from_polygon] does not agree with the polygon: the flag of the edge
    that closes a contour is inverted. *)
Theorem c41_polygon_refuted : exists p seed t point,
  simple_contour (border p) /\ holes p = []
  /\ polygon_locate p point = INTERIOR
  /\ from_polygon p seed = Some t /\ trapezoidation_locate t point = Some EXTERIOR.
Proof.
  assert (H : match from_polygon (Poly [pt 0 0; pt 4 2; pt 2 6] []) 0%N with
              | Some t => trapezoidation_locate t (pt 1 1) | None => None end = Some EXTERIOR)
    by (vm_compute; reflexivity).
  destruct (from_polygon (Poly [pt 0 0; pt 4 2; pt 2 6] []) 0%N) as [t|] eqn:E; [|discriminate].
  exists (Poly [pt 0 0; pt 4 2; pt 2 6] []), 0%N, t, (pt 1 1).
  split; [apply simple_literal; vm_compute; auto|]. split; [auto|]. split; [vm_compute; reflexivity|].
  split; [exact E|exact H].
Qed.
Print Assumptions c41_polygon_refuted.

(** What [Trapezoidation.from_polygon] gives for a valid polygon the sides of which only meet
    at their ends, for every seed: no error, and a [locate] that recognises the boundary; away
    from it the answer is the right one unless the side next below or above the point is a
    closing one ([taken_for_interior]; a point that is vertically in line with a vertex is
    looked at along lines that are inclined by any small enough [d]). *)
Theorem c41_polygon : forall p seed,
  valid_polygon p -> meet_at_ends (outlines (rings p)) ->
  exists t, from_polygon p seed = Some t /\ forall point,
  (boundary p point -> trapezoidation_locate t point = Some BOUNDARY)
  /\ (~ boundary p point -> exists d0, 0 < d0 /\ forall d, 0 < d -> d <= d0 ->
       (taken_for_interior p point d /\ trapezoidation_locate t point = Some INTERIOR)
       \/ (~ taken_for_interior p point d /\ trapezoidation_locate t point = Some EXTERIOR)).
Proof. exact polygon_trapezoidation. Qed.
Print Assumptions c41_polygon.

(** A triangle with a triangular hole: the last point is taken for an exterior
    one, because the side next above it closes the hole. *)
Lemma holed_meets : meet_at_ends (outlines (rings holed)).
Proof.
  refine (proj1 (c37_multisegment_is_valid 100 middle_shape first_pick (outlines (rings holed)) _ _ _) _).
  - repeat constructor; discriminate.
  - discriminate.
  - cbn. lia.
  - vm_compute. reflexivity.
Qed.
Example c41_polygon_nonvacuous : valid_polygon holed /\ meet_at_ends (outlines (rings holed)) /\
  match from_polygon holed 5%N with
  | Some t => map (fun x => (trapezoidation_locate t x, polygon_locate holed x))
                [pt 1 0; pt 3 1; pt 1 3; pt 9 9; Pt (q 5 / q 4) (q 5 / q 4); Pt (q 3 / q 2) (q 1 / q 2)]
              = [(Some BOUNDARY, BOUNDARY); (Some INTERIOR, INTERIOR); (Some INTERIOR, INTERIOR); (Some EXTERIOR, EXTERIOR);
                 (Some EXTERIOR, EXTERIOR); (Some EXTERIOR, INTERIOR)]
  | None => False
  end.
Proof. split; [exact (proj1 shaped_hypotheses)|]. split; [exact holed_meets|]. vm_compute. reflexivity. Qed.
