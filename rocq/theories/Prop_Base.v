(** C01, C02, C07, C08, C09, C12: enumerations, points, orientation, membership
    in a segment, equality of segments, crossing points. *)
From Coq Require Import QArith Qcanon Bool List ZArith.
From Verif Require Import QcTac Model_Base Model_Box Model_Geometry
  Model_Segment Spec_Base Proof_Base Proof_Line Proof_SegRel.
Import ListNotations.
Local Open Scope Qc_scope.

(** ** C01 *)
Theorem c01_complement_involutive : forall r, complement (complement r) = r.
Proof. exact complement_involutive. Qed.
Print Assumptions c01_complement_involutive.

Theorem c01_complement_table :
  complement COMPONENT = COMPOSITE /\ complement COMPOSITE = COMPONENT
  /\ complement ENCLOSED = ENCLOSES /\ complement ENCLOSES = ENCLOSED
  /\ complement COVER = WITHIN /\ complement WITHIN = COVER
  /\ (forall r, In r [CROSS; DISJOINT; EQUAL; OVERLAP; TOUCH] <-> complement r = r).
Proof. exact complement_table. Qed.
Print Assumptions c01_complement_table.

(** ** C02 *)
Theorem c02_order_is_lexicographic : forall p q,
  (point_lt p q = true <-> lex_lt p q) /\ (point_le p q = true <-> lex_le p q)
  /\ (point_gt p q = true <-> lex_lt q p) /\ (point_ge p q = true <-> lex_le q p)
  /\ (point_eq p q = true <-> p = q).
Proof. exact point_comparisons. Qed.
Print Assumptions c02_order_is_lexicographic.

Theorem c02_total_order :
  (forall p q, (point_lt p q = true /\ p <> q /\ point_lt q p = false)
            \/ (point_lt p q = false /\ p = q /\ point_lt q p = false)
            \/ (point_lt p q = false /\ p <> q /\ point_lt q p = true))
  /\ (forall p q r, point_lt p q = true -> point_lt q r = true -> point_lt p r = true)
  /\ (forall p q, point_le p q = point_lt p q || point_eq p q)
  /\ (forall p q, point_eq p q = true -> point_hash_key p = point_hash_key q).
Proof. exact point_total_order. Qed.
Print Assumptions c02_total_order.

(** ** C07 *)
(** COLLINEAR means: the three points lie on one line, i.e. all have the form
    [lerp a b t] for some pair of different points [a], [b]. *)
Theorem c07_collinear_iff_on_line : forall v p q,
  orient v p q = COLLINEAR <->
  exists a b, a <> b /\ (exists t, v = lerp a b t) /\ (exists t, p = lerp a b t)
              /\ (exists t, q = lerp a b t).
Proof. exact orient_collinear_line. Qed.
Print Assumptions c07_collinear_iff_on_line.

Theorem c07_sign_of_area : forall v p q,
  (orient v p q = COUNTERCLOCKWISE <-> 0 < area2 v p q)
  /\ (orient v p q = CLOCKWISE <-> area2 v p q < 0).
Proof. intros; split; [exact (orient_ccw v p q)|exact (orient_cw v p q)]. Qed.
Print Assumptions c07_sign_of_area.

Theorem c07_alternating : forall v p q,
  orient p q v = orient v p q /\ orient q v p = orient v p q
  /\ orient v q p = match orient v p q with
                    | CLOCKWISE => COUNTERCLOCKWISE
                    | COLLINEAR => COLLINEAR
                    | COUNTERCLOCKWISE => CLOCKWISE
                    end
  /\ orient p v q = orient v q p
  /\ forall dx dy, let move a := Pt (px a + dx) (py a + dy) in
       orient (move v) (move p) (move q) = orient v p q.
Proof. exact orient_alternating. Qed.
Print Assumptions c07_alternating.

Example c07_example :
  orient (Pt 0 0) (Pt 1 0) (Pt 0 1) = COUNTERCLOCKWISE
  /\ orient (Pt 0 0) (Pt 0 1) (Pt 1 0) = CLOCKWISE.
Proof. vm_compute; auto. Qed.

(** ** C08 *)
Theorem c08_segment_location : forall s p,
  (segment_locate s p = BOUNDARY <-> on_seg s p)
  /\ (segment_locate s p = EXTERIOR <-> ~ on_seg s p)
  /\ (segment_contains s p = true <-> on_seg s p)
  /\ segment_locate (reverse_seg s) p = segment_locate s p.
Proof. exact segment_location. Qed.
Print Assumptions c08_segment_location.

Example c08_example :
  segment_locate (Seg (Pt 0 0) (Pt (1 + 1) (1 + 1))) (Pt 1 1) = BOUNDARY
  /\ segment_locate (Seg (Pt 0 0) (Pt (1 + 1) (1 + 1))) (Pt 1 0) = EXTERIOR.
Proof. vm_compute; auto. Qed.

(** ** C09 *)
Theorem c09_equal_iff_same_points : forall s t,
  (segment_eq s t = true <-> seg_same s t)
  /\ (segment_eq s t = true <-> t = s \/ t = reverse_seg s).
Proof. intros; split; [exact (segment_eq_same s t)|exact (segment_eq_spec s t)]. Qed.
Print Assumptions c09_equal_iff_same_points.

(** Equal segments hash equal: the hash is a function of the set of endpoints. *)
Theorem c09_equal_hash : forall s t, segment_eq s t = true ->
  forall p, In p (segment_hash_key s) <-> In p (segment_hash_key t).
Proof. exact segment_hash_consistent. Qed.
Print Assumptions c09_equal_hash.

(** ** C12 *)
Theorem c12_crossing_point : forall a b c d,
  orient a b c <> COLLINEAR -> orient a b d <> COLLINEAR ->
  orient c d a <> COLLINEAR -> orient c d b <> COLLINEAR ->
  orient a b c <> orient a b d -> orient c d a <> orient c d b ->
  let p := to_segments_intersection a b c d in
  strictly_between a b p /\ strictly_between c d p
  /\ (forall q, between a b q -> between c d q -> q = p)
  /\ to_segments_intersection c d a b = p.
Proof. exact crossing_point_orient. Qed.
Print Assumptions c12_crossing_point.

Example c12_example :
  let a := Pt 0 0 in let b := Pt (1 + 1) (1 + 1) in
  let c := Pt 0 1 in let d := Pt 1 0 in
  (orient a b c <> COLLINEAR /\ orient a b d <> COLLINEAR
  /\ orient c d a <> COLLINEAR /\ orient c d b <> COLLINEAR
  /\ orient a b c <> orient a b d /\ orient c d a <> orient c d b)
  /\ point_eq (to_segments_intersection a b c d) (Pt (1 / (1 + 1)) (1 / (1 + 1))) = true.
Proof. vm_compute; repeat split; discriminate. Qed.
