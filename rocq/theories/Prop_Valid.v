(** C53: the check of contour vertices. *)
From Coq Require Import QArith Qcanon Bool List ZArith.
From Verif Require Import QcTac Model_Base Model_Geometry Model_Utils Model_Contour
  Spec_Base Spec_Segment Spec_Contour Spec_Literals Proof_Valid.
Import ListNotations.
Local Open Scope Qc_scope.

Theorem c53_contour_vertices_non_degenerate : forall vs, (3 <= length vs)%nat ->
  (are_contour_vertices_non_degenerate vs = true <->
   forall a b c, consecutive vs a b c -> area2 a b c <> 0).
Proof. exact non_degenerate_vertices. Qed.
Print Assumptions c53_contour_vertices_non_degenerate.

(** The collinear triple may be anywhere, also over the seam of the list. *)
Example c53_example :
  are_contour_vertices_non_degenerate [pt 0 0; pt 4 0; pt 4 4; pt 0 4] = true
  /\ are_contour_vertices_non_degenerate [pt 0 0; pt 4 0; pt 4 4; pt 0 4; pt 0 2] = false
  /\ are_contour_vertices_non_degenerate [pt 2 0; pt 4 0; pt 4 4; pt 0 4; pt 0 0] = false
  /\ are_contour_vertices_non_degenerate [pt 0 0; pt 2 0; pt 4 0; pt 4 4; pt 0 4] = false.
Proof. vm_compute. auto. Qed.
