(** Model of the operators of compounds: dispatch on the class of the operands.
    The functions computing a result for two non-empty operands are parameters
    here ([pair]); those of them that are modelled are in Model_Segment and
    Model_Linear. *)
From Coq Require Import QArith Qcanon Bool List ZArith.
From Verif Require Import QcTac Model_Base Model_Box Model_Geometry Model_Utils Model_Contour.
Import ListNotations.

(** [Returned None]: an exception inside of the called function;
    [NotImplemented_]: the method returned NotImplemented, so that the operator
    raises TypeError (no class of rene defines a reflected method). *)
Inductive outcome := Returned (g : option geometry) | NotImplemented_.

(** rene/_geometries/utils.py [is_segment], [is_multisegmental], ...: *)
Inductive kind := KEmpty | KSegment | KMultisegment | KContour | KPolygon | KMultipolygon.
Definition kind_of (g : geometry) : kind :=
  match g with
  | GEmpty => KEmpty
  | GSegment _ => KSegment
  | GMultisegment _ => KMultisegment
  | GContour _ => KContour
  | GPolygon _ => KPolygon
  | GMultipolygon _ => KMultipolygon
  end.
Definition is_empty (g : geometry) : bool :=
  match kind_of g with KEmpty => true | _ => false end.
Definition is_segment (g : geometry) : bool :=
  match kind_of g with KSegment => true | _ => false end.
Definition is_multisegmental (g : geometry) : bool :=
  match kind_of g with KMultisegment | KContour => true | _ => false end.
Definition is_polygon (g : geometry) : bool :=
  match kind_of g with KPolygon => true | _ => false end.
Definition is_multipolygon (g : geometry) : bool :=
  match kind_of g with KMultipolygon => true | _ => false end.

(** [__and__]: base_empty.py:32-34, base_segment.py:122-173,
    base_multisegment.py:155-208, base_contour.py:170-223,
    base_polygon.py:124-182, base_multipolygon.py:131-189. *)
Definition and_ (pair : geometry -> geometry -> option geometry) (self other : geometry)
  : outcome :=
  match kind_of self with
  | KEmpty => Returned (Some self)
  | KSegment | KMultisegment | KContour =>
      if is_multisegmental other then Returned (pair self other)
      else if is_segment other then Returned (pair self other)
      else if is_polygon other then Returned (pair self other)
      else if is_multipolygon other then Returned (pair self other)
      else if is_empty other then Returned (Some other)
      else NotImplemented_
  | KPolygon | KMultipolygon =>
      if is_multipolygon other then Returned (pair self other)
      else if is_polygon other then Returned (pair self other)
      else if is_multisegmental other then Returned (pair self other)
      else if is_segment other then Returned (pair self other)
      else if is_empty other then Returned (Some other)
      else NotImplemented_
  end.
(** [__or__]: base_empty.py:58-60, base_segment.py:214-242,
    base_multisegment.py:246-274, base_contour.py:281-309,
    base_polygon.py:222-254, base_multipolygon.py:225-257. *)
Definition or_ (pair : geometry -> geometry -> option geometry) (self other : geometry)
  : outcome :=
  match kind_of self with
  | KEmpty => Returned (Some other)
  | KSegment | KMultisegment | KContour =>
      if is_multisegmental other then Returned (pair self other)
      else if is_segment other then Returned (pair self other)
      else if is_empty other then Returned (Some self)
      else NotImplemented_
  | KPolygon | KMultipolygon =>
      if is_multipolygon other then Returned (pair self other)
      else if is_polygon other then Returned (pair self other)
      else if is_empty other then Returned (Some self)
      else NotImplemented_
  end.
(** [__sub__]: base_empty.py:71-73, base_segment.py:271-301,
    base_multisegment.py:308-362, base_contour.py:344-398,
    base_polygon.py:285-319, base_multipolygon.py:288-322. *)
Definition sub_ (pair : geometry -> geometry -> option geometry) (self other : geometry)
  : outcome :=
  match kind_of self with
  | KEmpty => Returned (Some self)
  | KSegment =>
      if is_multisegmental other then Returned (pair self other)
      else if is_segment other then Returned (pair self other)
      else if is_empty other then Returned (Some self)
      else NotImplemented_
  | KMultisegment | KContour =>
      if is_multisegmental other then Returned (pair self other)
      else if is_segment other then Returned (pair self other)
      else if is_multipolygon other then Returned (pair self other)
      else if is_polygon other then Returned (pair self other)
      else if is_empty other then Returned (Some self)
      else NotImplemented_
  | KPolygon | KMultipolygon =>
      if is_multipolygon other then Returned (pair self other)
      else if is_polygon other then Returned (pair self other)
      else if is_empty other then Returned (Some self)
      else NotImplemented_
  end.
(** [__xor__]: base_empty.py:84-86, base_segment.py:324-354,
    base_multisegment.py:385-415, base_contour.py:421-451,
    base_polygon.py:340-374, base_multipolygon.py:343-377. *)
Definition xor_ (pair : geometry -> geometry -> option geometry) (self other : geometry)
  : outcome :=
  match kind_of self with
  | KEmpty => Returned (Some other)
  | KSegment | KMultisegment | KContour =>
      if is_multisegmental other then Returned (pair self other)
      else if is_segment other then Returned (pair self other)
      else if is_empty other then Returned (Some self)
      else NotImplemented_
  | KPolygon | KMultipolygon =>
      if is_multipolygon other then Returned (pair self other)
      else if is_polygon other then Returned (pair self other)
      else if is_empty other then Returned (Some self)
      else NotImplemented_
  end.
(** [relate_to]: base_empty.py:23-28; for the other classes
    (base_segment.py:55-83, base_multisegment.py:87-121,
    base_contour.py:111-137, base_polygon.py:68-92, base_multipolygon.py) an
    Empty operand gives DISJOINT and all others are handled by a function of the
    pair. *)
Definition relate_to_ (pair : geometry -> geometry -> relation) (self other : geometry)
  : relation :=
  match kind_of self with
  | KEmpty => if is_empty other then EQUAL else DISJOINT
  | _ => if is_empty other then DISJOINT else pair self other
  end.
(** base_empty.py:42-52 [__eq__], [__hash__]: any two Empty are equal and hash to 0;
    comparing with other classes gives NotImplemented, hence False. *)
Definition empty_eq (other : geometry) : bool := is_empty other.
Definition empty_hash : Z := 0%Z.
