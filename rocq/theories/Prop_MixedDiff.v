(** C79: the difference of a multisegment or a contour and a polygon or a multipolygon.

    [shape] is how the search tree of the sweep line happens to be balanced, [fuel] a bound on
    the iterations: no bound beyond [enough] changes anything. *)
From Coq Require Import QArith Qcanon Bool List Arith ZArith Lia Permutation.
From Verif Require Import QcTac Model_Base Model_Box Model_Geometry Model_Contour Model_Linear Model_Mixed Model_Multipolygon Model_MixedDiff
  Spec_Base Spec_Segment Spec_Clip Spec_Contour Spec_Relate Spec_Bounds Spec_Sweep Spec_Literals Spec_Shaped Spec_Multipolygon Spec_RelateShaped Spec_MixedClip Spec_MixedDiff
  Proof_Locate4 Proof_RelateP Proof_Sweep20 Proof_Mix10 Prop_RelateMixed.
Import ListNotations.
Local Open Scope Qc_scope.

(** [a - b] never raises, has no point inside [b], and loses no point of [a] outside [b]. *)
Theorem c79_difference_points : forall fuel shape a b, several_input a -> valid_shaped b ->
  (enough (length (parts a) + shaped_size b) <= fuel)%nat ->
  exists g, mixed_sub fuel shape a b = Some (Clips g)
  /\ (forall q, on_geometry g q -> on_geometry a q /\ geometry_locate b q <> INTERIOR)
  /\ (forall q, on_geometry a q -> geometry_locate b q = EXTERIOR -> on_geometry g q).
Proof. exact mixed_sub_bounds. Qed.
Print Assumptions c79_difference_points.
(** Unless the boxes of the operands only touch (C40), it is exactly the closure of [a]
    without [b]. *)
Theorem c79_difference_exact : forall fuel shape a b, several_input a -> valid_shaped b ->
  (enough (length (parts a) + shaped_size b) <= fuel)%nat ->
  (exists x, in_box (bounding_box a) x /\ inside_box (bounding_box b) x) ->
  exists g, mixed_sub fuel shape a b = Some (Clips g) /\ forall q, on_geometry g q <-> on_uncontained_piece a b q.
Proof. exact mixed_sub_exact. Qed.
Print Assumptions c79_difference_exact.
(** The segments are those of [a] that are not swept and, twice each, once in either direction
    (C40), pieces that do not cross or overlap. *)
Theorem c79_difference_segments : forall fuel shape a b, several_input a -> valid_shaped b ->
  (enough (length (parts a) + shaped_size b) <= fuel)%nat ->
  exists g L rest, mixed_sub fuel shape a b = Some (Clips g) /\ incl rest (parts a) /\ non_crossing L
    /\ Permutation (parts g) (L ++ map turned L ++ rest).
Proof. exact mixed_sub_doubled. Qed.
Print Assumptions c79_difference_segments.

Example c79_example :
  let a := GMultisegment [sg (-5) 1 5 1; sg 5 1 15 1; sg 21 90 21 120; sg 200 0 300 0] in
  let b := GMultipolygon [lower; upper] in
  several_input a /\ valid_shaped b
  /\ (exists x, in_box (bounding_box a) x /\ inside_box (bounding_box b) x)
  /\ mixed_sub 3000 (fun _ _ l => (length l / 2)%nat) a b
     = Some (Clips (GMultisegment [sg (-5) 1 0 1; sg 0 1 (-5) 1; sg 9 1 15 1; sg 15 1 9 1; sg 21 90 21 100; sg 21 100 21 90; sg 21 109 21 120; sg 21 120 21 109; sg 200 0 300 0])).
Proof.
  cbv zeta. split; [split; [cbn; lia|apply non_crossing_literal; vm_compute; reflexivity]|]. split; [apply triangles_valid|].
  split; [exists (pt 5 5); vm_compute; repeat split; discriminate|]. vm_compute. reflexivity.
Qed.
