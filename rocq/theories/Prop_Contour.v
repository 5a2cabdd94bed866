(** C17-C19, C21: equality, hashing and orientation of contours and compounds. *)
From Coq Require Import QArith Qcanon Bool List ZArith Lia Permutation.
From Verif Require Import QcTac Model_Base Model_Box Model_Geometry Model_Utils Model_Contour
  Spec_Base Spec_Segment Spec_Contour Spec_Literals Proof_Base Proof_Contour Proof_Contour2 Proof_Edges Proof_Contour3.
Import ListNotations.
Local Open Scope Qc_scope.

(** ** C17 *)
Theorem c17_equal_iff_same_cycle : forall c d, c <> [] -> NoDup c ->
  (contour_eq c d = true <-> same_cycle c d).
Proof. exact contour_eq_spec. Qed.
Print Assumptions c17_equal_iff_same_cycle.

Theorem c17_equivalence : forall c d e, c <> [] -> NoDup c ->
  contour_eq c c = true
  /\ (contour_eq c d = true -> contour_eq d c = true)
  /\ (contour_eq c d = true -> contour_eq d e = true -> contour_eq c e = true).
Proof. exact contour_eq_equivalence. Qed.
Print Assumptions c17_equivalence.

Example c17_example :
  contour_eq [pt 0 0; pt 4 0; pt 0 4] [pt 0 4; pt 4 0; pt 0 0] = true
  /\ contour_eq [pt 0 0; pt 4 0; pt 4 4; pt 0 4] [pt 0 0; pt 4 4; pt 4 0; pt 0 4] = false
  /\ NoDup [pt 0 0; pt 4 0; pt 0 4].
Proof. split; [vm_compute; auto|split; [vm_compute; auto|exact nodup_triangle]]. Qed.

(** ** C18: contours without repeated vertices whose least vertex is not in the
    middle of a straight angle *)
Theorem c18_equal_hash : forall c d, nondegenerate c -> contour_eq c d = true ->
  contour_hash_key c = contour_hash_key d.
Proof. exact nondegenerate_hash. Qed.
Print Assumptions c18_equal_hash.

(** Where the hypothesis fails so does the claim: two equal contours with
    different hashed tuples. *)
Theorem c18_equal_hash_degenerate_refuted : exists c d,
  NoDup c /\ (3 <= length c)%nat /\ contour_eq c d = true
  /\ contour_hash_key c <> contour_hash_key d.
Proof. exact hash_inconsistent. Qed.
Print Assumptions c18_equal_hash_degenerate_refuted.

Example c18_example : nondegenerate [pt 0 0; pt 4 0; pt 4 4; pt 0 4]
  /\ contour_hash_key [pt 4 4; pt 4 0; pt 0 0; pt 0 4] = [pt 0 0; pt 4 0; pt 4 4; pt 0 4]
  /\ contour_hash_key [pt 4 0; pt 4 4; pt 0 4; pt 0 0] = [pt 0 0; pt 4 0; pt 4 4; pt 0 4].
Proof. split; [exact nondegenerate_square|vm_compute; auto]. Qed.

(** ** C19 *)
Theorem c19_multisegment_equal : forall l r,
  multisegment_eq l r = true <-> same_set same_segment l r.
Proof. exact multisegment_eq_spec. Qed.
Print Assumptions c19_multisegment_equal.

Theorem c19_multisegment_hash : forall l r, multisegment_eq l r = true ->
  multisegment_hash_same l r = true.
Proof. exact multisegment_hash_consistent. Qed.
Print Assumptions c19_multisegment_hash.

Theorem c19_polygon_equal : forall p q, nondegenerate_polygon p -> nondegenerate_polygon q ->
  (polygon_eq p q = true <-> same_polygon p q).
Proof. exact polygon_eq_spec. Qed.
Print Assumptions c19_polygon_equal.

Theorem c19_polygon_hash : forall p q, nondegenerate_polygon p -> nondegenerate_polygon q ->
  polygon_eq p q = true -> polygon_hash_same p q = true.
Proof. exact polygon_hash_consistent. Qed.
Print Assumptions c19_polygon_hash.

Theorem c19_multipolygon_equal : forall l r,
  Forall nondegenerate_polygon l -> Forall nondegenerate_polygon r ->
  (multipolygon_eq l r = true <-> same_set same_polygon l r).
Proof. exact multipolygon_eq_spec. Qed.
Print Assumptions c19_multipolygon_equal.

Theorem c19_multipolygon_hash : forall l r, multipolygon_eq l r = true ->
  multipolygon_hash_same l r = true.
Proof. exact multipolygon_hash_consistent. Qed.
Print Assumptions c19_multipolygon_hash.

(** All of these are equivalences. *)
Theorem c19_equivalences :
  (forall s t u : segment, same_segment s s /\ (same_segment s t -> same_segment t s)
     /\ (same_segment s t -> same_segment t u -> same_segment s u))
  /\ (forall s t u : polygon, same_polygon s s /\ (same_polygon s t -> same_polygon t s)
     /\ (same_polygon s t -> same_polygon t u -> same_polygon s u))
  /\ (forall l m r : list segment, multisegment_eq l l = true
     /\ (multisegment_eq l m = true -> multisegment_eq m l = true)
     /\ (multisegment_eq l m = true -> multisegment_eq m r = true -> multisegment_eq l r = true))
  /\ (forall l m r : list polygon, Forall nondegenerate_polygon l ->
     Forall nondegenerate_polygon m -> Forall nondegenerate_polygon r ->
     multipolygon_eq l l = true
     /\ (multipolygon_eq l m = true -> multipolygon_eq m l = true)
     /\ (multipolygon_eq l m = true -> multipolygon_eq m r = true -> multipolygon_eq l r = true)).
Proof. exact compound_equivalences. Qed.
Print Assumptions c19_equivalences.

Example c19_example :
  multisegment_eq [sg 0 0 1 1; sg 2 2 3 4] [sg 3 4 2 2; sg 0 0 1 1] = true
  /\ multisegment_eq [sg 0 0 1 1; sg 2 2 3 4] [sg 3 4 2 2; sg 0 0 1 2] = false
  /\ polygon_eq (Poly [pt 0 0; pt 9 0; pt 0 9] [[pt 1 1; pt 2 1; pt 1 2]])
                (Poly [pt 0 9; pt 9 0; pt 0 0] [[pt 2 1; pt 1 2; pt 1 1]]) = true.
Proof. vm_compute; auto. Qed.
Example c19_hypotheses :
  nondegenerate_polygon (Poly [pt 0 0; pt 9 0; pt 0 9] [[pt 1 1; pt 2 1; pt 1 2]]).
Proof. exact nondegenerate_holed. Qed.

(** ** C21 *)
Theorem c21_rotation_invariant : forall c d, (2 <= length c)%nat -> NoDup c ->
  rotation_of c d -> contour_orientation d = contour_orientation c.
Proof. exact orientation_rotation. Qed.
Print Assumptions c21_rotation_invariant.

Theorem c21_reversal_flips : forall c d, (2 <= length c)%nat -> NoDup c ->
  rotation_of (rev c) d -> contour_orientation d = flipped (contour_orientation c).
Proof. exact orientation_reversal. Qed.
Print Assumptions c21_reversal_flips.

Theorem c21_triangle : forall a b c, a <> b -> b <> c -> a <> c ->
  (contour_orientation [a; b; c] = COUNTERCLOCKWISE <-> 0 < signed_area2 [a; b; c])
  /\ (contour_orientation [a; b; c] = CLOCKWISE <-> signed_area2 [a; b; c] < 0)
  /\ (contour_orientation [a; b; c] = COLLINEAR <-> signed_area2 [a; b; c] = 0).
Proof. exact triangle_orientation_sign. Qed.
Print Assumptions c21_triangle.

Theorem c21_convex : forall c, (3 <= length c)%nat -> strictly_convex_ccw c ->
  contour_orientation c = COUNTERCLOCKWISE /\ 0 < signed_area2 c
  /\ contour_orientation (rev c) = CLOCKWISE /\ signed_area2 (rev c) < 0.
Proof. exact convex_orientation_sign. Qed.
Print Assumptions c21_convex.

Example c21_example : strictly_convex_ccw [pt 0 0; pt 4 0; pt 4 4; pt 0 4]
  /\ contour_orientation [pt 4 4; pt 4 0; pt 0 0; pt 0 4] = CLOCKWISE.
Proof. split; [exact convex_square|vm_compute; auto]. Qed.
