(** What the trapezoidation of a polygon answers, its closing sides being taken for sides with
    the interior on the wrong side. *)
From Coq Require Import QArith Qcanon List.
From Verif Require Import QcTac Model_Base Model_Geometry Spec_Base Spec_Segment Spec_Shaped Spec_RelateShaped.
Import ListNotations.
Local Open Scope Qc_scope.

(** The side from the last vertex of an outline of the polygon to its first vertex. *)
Definition closing (p : polygon) (s : segment) : Prop :=
  exists v vs, In (v :: vs) (rings p) /\ s = Seg (last vs v) v.
(** The point [q] after it moved along the vector [(dx, dy)] for the time [u]. *)
Definition moved (q : point) (dx dy u : Qc) : point := Pt (px q + u * dx) (py q + u * dy).
(** The first of the segments that the point [q] meets while it moves that way is [s]. *)
Definition first_met (l : list segment) (q : point) (dx dy : Qc) (s : segment) : Prop :=
  In s l /\ exists u, 0 < u /\ on_seg s (moved q dx dy u)
  /\ forall v, 0 < v -> v < u -> ~ on_segs l (moved q dx dy v).
(** A point is taken for an interior one if it is inside and the sides that it meets moving
    down and up (the lines that it moves along being inclined by [d]) are not closing, or if
    it is not inside and both of them are closing. *)
Definition taken_for_interior (p : polygon) (q : point) (d : Qc) : Prop :=
  (inside_polygon p q /\
   forall s, closing p s -> ~ first_met (outlines (rings p)) q d (- (1)) s
                            /\ ~ first_met (outlines (rings p)) q (- d) 1 s)
  \/ (~ inside_polygon p q /\
      exists s s', closing p s /\ closing p s' /\ first_met (outlines (rings p)) q d (- (1)) s
                   /\ first_met (outlines (rings p)) q (- d) 1 s').
