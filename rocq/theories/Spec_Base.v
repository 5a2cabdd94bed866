(** Independent vocabulary for the statements of the properties: the meaning of
    points, segments and boxes in the rational plane.  Nothing here mentions a
    function of the model, only its data types. *)
From Coq Require Import QArith Qcanon List.
From Verif Require Import QcTac Model_Base Model_Box.
Import ListNotations.
Local Open Scope Qc_scope.

(** Lexicographic order of points. *)
Definition lex_lt (p q : point) : Prop :=
  px p < px q \/ (px p = px q /\ py p < py q).
Definition lex_le (p q : point) : Prop := lex_lt p q \/ p = q.

(** The point at parameter [t] of the line through [a] and [b]. *)
Definition lerp (a b : point) (t : Qc) : point :=
  Pt (px a + t * (px b - px a)) (py a + t * (py b - py a)).

(** [p] is one of the points of the closed segment from [a] to [b]. *)
Definition between (a b p : point) : Prop :=
  exists t, 0 <= t /\ t <= 1 /\ p = lerp a b t.
(** [p] is strictly between [a] and [b]. *)
Definition strictly_between (a b p : point) : Prop :=
  exists t, 0 < t /\ t < 1 /\ p = lerp a b t.

(** The set of points of a segment, of its relative interior, and of a list of
    segments. *)
Definition on_seg (s : segment) (p : point) : Prop :=
  between (seg_start s) (seg_end s) p.
Definition inside_seg (s : segment) (p : point) : Prop :=
  strictly_between (seg_start s) (seg_end s) p.
Definition endpoint_of (s : segment) (p : point) : Prop :=
  p = seg_start s \/ p = seg_end s.
Definition on_segs (l : list segment) (p : point) : Prop :=
  exists s, In s l /\ on_seg s p.

(** A segment with two different endpoints. *)
Definition proper_seg (s : segment) : Prop := seg_start s <> seg_end s.
Definition reverse_seg (s : segment) : segment := Seg (seg_end s) (seg_start s).

(** Set inclusion and equality of the points of two segments. *)
Definition seg_subset (s t : segment) : Prop :=
  forall p, on_seg s p -> on_seg t p.
Definition seg_same (s t : segment) : Prop :=
  forall p, on_seg s p <-> on_seg t p.

(** The two segments share at least two different points (hence, being convex,
    a continuum of points). *)
Definition share_continuum (s t : segment) : Prop :=
  exists p q, p <> q /\ on_seg s p /\ on_seg t p /\ on_seg s q /\ on_seg t q.
(** Twice the signed area of the triangle [a b c]. *)
Definition area2 (a b c : point) : Qc :=
  (px b - px a) * (py c - py a) - (py b - py a) * (px c - px a).

(** Points of a (closed) box and of its open interior. *)
Definition in_box (b : box) (p : point) : Prop :=
  (min_x b <= px p /\ px p <= max_x b) /\ (min_y b <= py p /\ py p <= max_y b).
Definition inside_box (b : box) (p : point) : Prop :=
  (min_x b < px p /\ px p < max_x b) /\ (min_y b < py p /\ py p < max_y b).
(** A valid box has ordered bounds; a solid box has a non-empty interior. *)
Definition valid_box (b : box) : Prop :=
  min_x b <= max_x b /\ min_y b <= max_y b.
Definition solid_box (b : box) : Prop :=
  min_x b < max_x b /\ min_y b < max_y b.

(** Containment and contact of boxes, in terms of their points. *)
Definition box_subset (a b : box) : Prop := forall p, in_box a p -> in_box b p.
Definition box_inner_subset (a b : box) : Prop :=
  forall p, in_box a p -> inside_box b p.

(** The meaning of each relation between two solid boxes; relations not listed
    are never meant. *)
Definition box_relation_spec (r : relation) (a b : box) : Prop :=
  match r with
  | EQUAL => forall p, in_box a p <-> in_box b p
  | DISJOINT => ~ exists p, in_box a p /\ in_box b p
  | TOUCH => (exists p, in_box a p /\ in_box b p)
             /\ ~ exists p, inside_box a p /\ inside_box b p
  | COVER => box_inner_subset b a
  | WITHIN => box_inner_subset a b
  | ENCLOSES => box_subset b a /\ ~ box_subset a b /\ ~ box_inner_subset b a
  | ENCLOSED => box_subset a b /\ ~ box_subset b a /\ ~ box_inner_subset a b
  | OVERLAP => (exists p, inside_box a p /\ inside_box b p)
               /\ ~ box_subset a b /\ ~ box_subset b a
  | _ => False
  end.
