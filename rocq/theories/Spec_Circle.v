(** Circles, in terms of squared distances. *)
From Coq Require Import QArith Qcanon.
From Verif Require Import QcTac Model_Base Spec_Base.
Local Open Scope Qc_scope.

Definition dist2 (p q : point) : Qc :=
  (px p - px q) * (px p - px q) + (py p - py q) * (py p - py q).
(** [o] is the centre of a circle through [a], [b] and [c]. *)
Definition circumcentre (o a b c : point) : Prop :=
  dist2 o a = dist2 o b /\ dist2 o a = dist2 o c.
