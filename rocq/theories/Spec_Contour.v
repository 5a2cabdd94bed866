(** Independent vocabulary for contours and regions. *)
From Coq Require Import QArith Qcanon List Bool Permutation.
From Verif Require Import QcTac Model_Base Model_Geometry Model_Contour Spec_Base Spec_Segment.
Import ListNotations.
Local Open Scope Qc_scope.

(** [l'] is a rotation of [l]. *)
Definition rotation_of {A : Type} (l l' : list A) : Prop :=
  exists a b, l = a ++ b /\ l' = b ++ a.
(** The two closed sequences are the same up to rotation and reversal. *)
Definition same_cycle {A : Type} (l l' : list A) : Prop :=
  rotation_of l l' \/ rotation_of (rev l) l'.

(** The opposite turn. *)
Definition flipped (o : orientation) : orientation :=
  match o with
  | CLOCKWISE => COUNTERCLOCKWISE
  | COUNTERCLOCKWISE => CLOCKWISE
  | COLLINEAR => COLLINEAR
  end.

(** Twice the signed area of a closed polyline (the shoelace sum). *)
Fixpoint shoelace_sum (l : list segment) : Qc :=
  match l with
  | [] => 0
  | s :: r => (px (seg_start s) * py (seg_end s) - py (seg_start s) * px (seg_end s))
              + shoelace_sum r
  end.
Definition signed_area2 (vs : list point) : Qc := shoelace_sum (edges vs).
(** Every other vertex is strictly to the left of every edge. *)
Definition strictly_convex_ccw (vs : list point) : Prop :=
  NoDup vs /\ forall s v, In s (edges vs) -> In v vs -> v <> seg_start s -> v <> seg_end s ->
    0 < area2 (seg_start s) (seg_end s) v.

(** [s] and [t] have a common point. *)
Definition meet (s t : segment) : Prop := exists p, on_seg s p /\ on_seg t p.
(** The points of the outline of a contour. *)
Definition on_contour (vs : list point) (p : point) : Prop := on_segs (edges vs) p.

(** The number of elements satisfying a predicate, as a relation. *)
Inductive counts {A : Type} (P : A -> Prop) : list A -> nat -> Prop :=
| counts_nil : counts P [] 0
| counts_yes x l n : P x -> counts P l n -> counts P (x :: l) (S n)
| counts_no x l n : ~ P x -> counts P l n -> counts P (x :: l) n.

(** [m] is the first least vertex: nothing precedes it in the order of points. *)
Definition least_vertex (vs : list point) (m : point) : Prop :=
  In m vs /\ forall v, In v vs -> lex_le m v.
(** [a], [b], [c] are consecutive in the closed sequence. *)
Definition consecutive (vs : list point) (a b c : point) : Prop :=
  exists r, rotation_of vs (b :: c :: r) /\ last (c :: r) c = a.

(** A contour without repeated vertices and without three consecutive collinear
    vertices. *)
Definition nondegenerate (vs : list point) : Prop :=
  (3 <= length vs)%nat /\ NoDup vs
  /\ forall a b c, consecutive vs a b c -> area2 a b c <> 0.

(** The two lists hold the same elements up to [R], in any order and multiplicity. *)
Definition same_set {A : Type} (R : A -> A -> Prop) (l r : list A) : Prop :=
  (forall x, In x l -> exists y, In y r /\ R x y)
  /\ (forall y, In y r -> exists x, In x l /\ R x y).
(** The two lists hold the same elements up to [R] with the same multiplicity. *)
Definition same_multiset {A : Type} (R : A -> A -> Prop) (l r : list A) : Prop :=
  exists r', Permutation r' r /\ Forall2 R l r'.
(** No two elements (at different positions) are related. *)
Definition pairwise_distinct {A : Type} (R : A -> A -> Prop) (l : list A) : Prop :=
  ForallOrdPairs (fun x y => ~ R x y) l.

Definition same_segment (s t : segment) : Prop := t = s \/ t = reverse_seg s.
Definition same_polygon (p q : polygon) : Prop :=
  same_cycle (border p) (border q) /\ same_multiset same_cycle (holes p) (holes q).
(** A polygon with non-degenerate border and pairwise different non-degenerate holes. *)
Definition nondegenerate_polygon (p : polygon) : Prop :=
  nondegenerate (border p) /\ Forall nondegenerate (holes p)
  /\ pairwise_distinct same_cycle (holes p).

(** The answer of [Polygon(Contour(vs), []).locate(p)]. *)
Definition region_location (vs : list point) (p : point) : location :=
  geometry_locate (GPolygon (Poly vs [])) p.
(** Segments, multisegments and contours. *)
Definition linear_geometry (g : geometry) : Prop :=
  match g with GSegment _ | GMultisegment _ | GContour _ => True | _ => False end.

(** [l] is what remains of [r] after leaving some elements out. *)
Inductive subsequence {A : Type} : list A -> list A -> Prop :=
| subsequence_nil : subsequence [] []
| subsequence_keep x l r : subsequence l r -> subsequence (x :: l) (x :: r)
| subsequence_drop x l r : subsequence l r -> subsequence l (x :: r).
(** [a], [b], [c] follow each other in the open sequence [l]. *)
Definition triple_in (l : list point) (a b c : point) : Prop :=
  exists l1 l2, l = l1 ++ a :: b :: c :: l2.
(** Along the sequence no vertex is repeated at once and the outline does not
    turn back on itself: collinear neighbours are on both sides of a vertex. *)
Definition never_turns_back (l : list point) : Prop :=
  forall a b c, triple_in l a b c ->
    a <> b /\ b <> c /\ (area2 a b c = 0 -> strictly_between a c b).
