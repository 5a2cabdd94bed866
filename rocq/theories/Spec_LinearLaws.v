(** Expressions of linear geometries and their operators, and which points they stand for. *)
From Coq Require Import QArith Qcanon List Arith.
From Verif Require Import QcTac Model_Base Model_Geometry Model_Contour Model_Linear Model_LinearOperators
  Spec_Base Spec_Segment Spec_Clip Spec_Bounds Spec_Sweep Spec_Multipolygon Spec_MixedClip.
Import ListNotations.

(** Empty or a valid segment, multisegment or contour. *)
Definition linear_valid (g : geometry) : Prop :=
  match g with GEmpty => True | _ => linear_input g end.

(** Every operator comes with the shape the tree of its sweep line happens to take.
    [LInside shape e b] is [e & b] and [LClip shape b e] is [b & e] for a polygon or a
    multipolygon [b]. *)
Inductive lexpr :=
| Lin (g : geometry)
| LAnd (shape : tree_shape) (e f : lexpr)
| LOr (shape : tree_shape) (e f : lexpr)
| LSub (shape : tree_shape) (e f : lexpr)
| LXor (shape : tree_shape) (e f : lexpr)
| LInside (shape : tree_shape) (e : lexpr) (b : geometry)
| LClip (shape : tree_shape) (b : geometry) (e : lexpr).
(** All the operands are valid. *)
Fixpoint lvalid (e : lexpr) : Prop :=
  match e with
  | Lin g => linear_valid g
  | LAnd _ e f | LOr _ e f | LSub _ e f | LXor _ e f => lvalid e /\ lvalid f
  | LInside _ e b | LClip _ b e => lvalid e /\ valid_shaped b
  end.
(** [e] may be evaluated to [g], with any bounds that suffice for the loops. *)
Fixpoint comes_to (e : lexpr) (g : geometry) : Prop :=
  let both run e f := exists h k fuel, comes_to e h /\ comes_to f k
    /\ (enough (length (parts h) + length (parts k)) <= fuel)%nat
    /\ run fuel h k = Some (Clips g) in
  let one run e b := exists h fuel, comes_to e h
    /\ (enough (length (parts h) + shaped_size b) <= fuel)%nat
    /\ run fuel h = Some (Clips g) in
  match e with
  | Lin h => g = h
  | LAnd shape e f => both (fun fuel => linear_and fuel shape) e f
  | LOr shape e f => both (fun fuel => linear_or fuel shape) e f
  | LSub shape e f => both (fun fuel => linear_sub fuel shape) e f
  | LXor shape e f => both (fun fuel => linear_xor fuel shape) e f
  | LInside shape e b => one (fun fuel h => linear_and_shaped fuel shape h b) e b
  | LClip shape b e => one (fun fuel h => linear_and_shaped fuel shape b h) e b
  end.
(** The set operation the expression denotes, at a point. *)
Fixpoint denotes (e : lexpr) (p : point) : Prop :=
  match e with
  | Lin g => on_geometry g p
  | LAnd _ e f => denotes e p /\ denotes f p
  | LOr _ e f => denotes e p \/ denotes f p
  | LSub _ e f => denotes e p /\ ~ denotes f p
  | LXor _ e f => (denotes e p /\ ~ denotes f p) \/ (denotes f p /\ ~ denotes e p)
  | LInside _ e b | LClip _ b e => denotes e p /\ geometry_contains b p = true
  end.
(** The same points, but for finitely many. *)
Definition almost_same (P Q : point -> Prop) : Prop :=
  exists exceptions : list point, forall p, ~ In p exceptions -> (P p <-> Q p).
(** Whatever the expressions come to has the same points. *)
Definition law (e f : lexpr) : Prop :=
  (exists g, comes_to e g) /\ (exists h, comes_to f h)
  /\ forall g h, comes_to e g -> comes_to f h -> forall p, on_geometry g p <-> on_geometry h p.
(** [r] says of the operands what their set operations show. *)
Definition operations_agree (r : relation) (a b : geometry) : Prop :=
  forall fuel shape, (enough (length (parts a) + length (parts b)) <= fuel)%nat ->
  (linear_and fuel shape a b = Some (Clips GEmpty) <-> In r [DISJOINT; TOUCH; CROSS])
  /\ (linear_sub fuel shape a b = Some (Clips GEmpty) <-> In r [EQUAL; COMPONENT])
  /\ (linear_sub fuel shape b a = Some (Clips GEmpty) <-> In r [EQUAL; COMPOSITE])
  /\ (linear_xor fuel shape a b = Some (Clips GEmpty) <-> r = EQUAL).
