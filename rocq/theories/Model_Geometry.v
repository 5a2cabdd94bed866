(** Model of rene's compound geometries and of the helpers that collect
    results. *)
From Coq Require Import QArith Qcanon Bool List ZArith.
From Verif Require Import QcTac Model_Base Model_Box.
Import ListNotations.
Local Open Scope Qc_scope.

(** The compounds: rene/_exact/empty.py [Empty], segment.py [Segment],
    multisegment.py [Multisegment], contour.py [Contour] (its vertices),
    polygon.py [Polygon] (vertices of the border and of the holes),
    multipolygon.py [Multipolygon]. *)
Record polygon := Poly { border : list point; holes : list (list point) }.
Inductive geometry :=
| GEmpty
| GSegment (s : segment)
| GMultisegment (segments : list segment)
| GContour (vertices : list point)
| GPolygon (p : polygon)
| GMultipolygon (polygons : list polygon).

(** rene/_utils.py:436-446 [to_contour_segments]: [vertices[i], vertices[i+1]]
    for all [i], then [vertices[-1], vertices[0]].  (For the empty list Python
    raises IndexError; a contour has at least 3 vertices.) *)
Fixpoint to_chain_segments (first : point) (vertices : list point)
  : list segment :=
  match vertices with
  | [] => []
  | [last] => [Seg last first]
  | v :: ((w :: _) as rest) => Seg v w :: to_chain_segments first rest
  end.
Definition to_contour_segments (vertices : list point) : list segment :=
  match vertices with
  | [] => []
  | first :: _ => to_chain_segments first vertices
  end.

(** rene/_exact/contour.py, rene/_exact/multisegment.py: the constructors.
    [None] models the ValueError raised for too few elements.
    rene/constants.py: MIN_CONTOUR_VERTICES_COUNT = 3,
    MIN_MULTISEGMENT_SEGMENTS_COUNT = 2, MIN_MULTIPOLYGON_POLYGONS_COUNT = 2. *)
Definition new_contour (vertices : list point) : option geometry :=
  if (length vertices <? 3)%nat then None else Some (GContour vertices).
Definition new_multisegment (segments : list segment) : option geometry :=
  if (length segments <? 2)%nat then None else Some (GMultisegment segments).
Definition new_multipolygon (polygons : list polygon) : option geometry :=
  if (length polygons <? 2)%nat then None else Some (GMultipolygon polygons).

(** rene/_utils.py:137-146 [collect_non_empty_segments]; [None]: AssertionError
    on an empty list, or the ValueError of the constructor. *)
Definition collect_non_empty_segments (segments : list segment)
  : option geometry :=
  match segments with
  | [] => None
  | [s] => Some (GSegment s)
  | _ => new_multisegment segments
  end.
(** rene/_utils.py:112-125 [collect_maybe_empty_segments]. *)
Definition collect_maybe_empty_segments (segments : list segment)
  : option geometry :=
  match segments with
  | [] => Some GEmpty
  | _ => collect_non_empty_segments segments
  end.
(** rene/_utils.py:128-134 [collect_non_empty_polygons]. *)
Definition collect_non_empty_polygons (polygons : list polygon)
  : option geometry :=
  match polygons with
  | [] => None
  | [p] => Some (GPolygon p)
  | _ => new_multipolygon polygons
  end.
(** rene/_utils.py:97-109 [collect_maybe_empty_polygons]. *)
Definition collect_maybe_empty_polygons (polygons : list polygon)
  : option geometry :=
  match polygons with
  | [] => Some GEmpty
  | _ => collect_non_empty_polygons polygons
  end.

(** Placeholder for boxes of impossible (empty) sequences. *)
Definition zero_box : box := Box 0 0 0 0.

(** The [segments] attribute of the linear geometries:
    rene/_exact/multisegment.py, rene/_exact/contour.py. *)
Definition segments_of (g : geometry) : list segment :=
  match g with
  | GSegment s => [s]
  | GMultisegment l => l
  | GContour vs => to_contour_segments vs
  | _ => []
  end.

(** The [bounding_box] property of every geometry:
    rene/_geometries/base_*.py, see Model_Box. *)
Definition contour_box (vs : list point) : box :=
  match vs with [] => zero_box | v :: vs => contour_bounding_box v vs end.
Definition bounding_box (g : geometry) : box :=
  match g with
  | GEmpty => zero_box
  | GSegment s => segment_bounding_box s
  | GMultisegment l =>
      match l with [] => zero_box | s :: r => multisegment_bounding_box s r end
  | GContour vs => contour_box vs
  | GPolygon p => contour_box (border p)
  | GMultipolygon ps =>
      match map (fun p => contour_box (border p)) ps with
      | [] => zero_box
      | b :: bs => multipolygon_bounding_box b bs
      end
  end.
