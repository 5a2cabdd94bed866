(** C49, C50: removing collinear vertices; oriented edges of a polygon. *)
From Coq Require Import QArith Qcanon Bool List ZArith Lia Permutation.
From Verif Require Import QcTac Model_Base Model_Box Model_Geometry Model_Utils Model_Contour
  Spec_Base Spec_Segment Spec_Contour Spec_Literals Proof_Contour3 Proof_Shrink.
Import ListNotations.
Local Open Scope Qc_scope.

(** ** C49 *)
Theorem c49_subsequence : forall v vs, exists t,
  shrink_collinear_vertices (v :: vs) = v :: t /\ subsequence t vs.
Proof. exact shrink_subsequence. Qed.
Print Assumptions c49_subsequence.
(** Every three consecutive vertices of the closed result that are not centred
    at the first one. *)
Theorem c49_no_collinear_triple : forall v vs, NoDup (v :: vs) -> forall a b c,
  triple_in (shrink_collinear_vertices (v :: vs) ++ [v]) a b c -> area2 a b c <> 0.
Proof. exact shrink_triples. Qed.
Print Assumptions c49_no_collinear_triple.
(** All of them, when the first vertex is a corner. *)
Theorem c49_nondegenerate : forall v w vs, NoDup (v :: w :: vs) -> area2 (last vs w) v w <> 0 ->
  nondegenerate (shrink_collinear_vertices (v :: w :: vs)).
Proof. exact shrink_nondegenerate. Qed.
Print Assumptions c49_nondegenerate.
Theorem c49_outline : forall v vs p, never_turns_back (v :: vs ++ [v]) ->
  (on_contour (shrink_collinear_vertices (v :: vs)) p <-> on_contour (v :: vs) p).
Proof. exact shrink_outline. Qed.
Print Assumptions c49_outline.
Example c49_example :
  NoDup [pt 0 0; pt 1 0; pt 2 0; pt 4 0; pt 4 4; pt 0 4; pt 0 2]
  /\ shrink_collinear_vertices [pt 0 0; pt 1 0; pt 2 0; pt 4 0; pt 4 4; pt 0 4; pt 0 2]
     = [pt 0 0; pt 4 0; pt 4 4; pt 0 4]
  /\ never_turns_back [pt 0 0; pt 1 0; pt 2 0; pt 4 0; pt 4 4; pt 0 4; pt 0 2; pt 0 0]
  /\ area2 (pt 0 2) (pt 0 0) (pt 1 0) <> 0.
Proof.
  split; [apply nodupb_spec; vm_compute; reflexivity|]. split; [vm_compute; reflexivity|].
  split; [apply never_turns_back_literal; vm_compute; reflexivity|discriminate].
Qed.

(** ** C50 *)
Theorem c50_edges_once : forall b hs,
  same_multiset same_segment (edges b ++ flat_map edges hs)
    (polygon_to_correctly_oriented_segments (Poly b hs))
  /\ length (polygon_to_correctly_oriented_segments (Poly b hs)) = polygon_to_segments_count (Poly b hs).
Proof. exact polygon_segments_multiset. Qed.
Print Assumptions c50_edges_once.
Theorem c50_directions : forall b hs, exists b' hs',
  polygon_to_correctly_oriented_segments (Poly b hs) = edges b' ++ flat_map edges hs'
  /\ same_cycle b b' /\ Forall2 same_cycle hs hs'
  /\ (nondegenerate b -> contour_orientation b' = COUNTERCLOCKWISE)
  /\ Forall2 (fun h h' => nondegenerate h -> contour_orientation h' = CLOCKWISE) hs hs'.
Proof. exact polygon_segments. Qed.
Print Assumptions c50_directions.
Example c50_example :
  polygon_to_correctly_oriented_segments
    (Poly [pt 0 0; pt 0 9; pt 9 0] [[pt 1 1; pt 2 1; pt 1 2]])
  = [sg 0 0 9 0; sg 9 0 0 9; sg 0 9 0 0; sg 1 1 1 2; sg 1 2 2 1; sg 2 1 1 1]
  /\ nondegenerate_polygon (Poly [pt 0 0; pt 9 0; pt 0 9] [[pt 1 1; pt 2 1; pt 1 2]]).
Proof. split; [vm_compute; reflexivity|exact nondegenerate_holed]. Qed.
