(** C47: Empty is neutral/absorbing; which pairs of operands are supported. *)
From Coq Require Import QArith Qcanon Bool List ZArith.
From Verif Require Import QcTac Model_Base Model_Box Model_Geometry Model_Utils Model_Contour
  Model_Operators Spec_Literals.
Import ListNotations.

Theorem c47_empty : forall pair g,
  and_ pair GEmpty g = Returned (Some GEmpty) /\ and_ pair g GEmpty = Returned (Some GEmpty)
  /\ or_ pair GEmpty g = Returned (Some g) /\ or_ pair g GEmpty = Returned (Some g)
  /\ sub_ pair GEmpty g = Returned (Some GEmpty) /\ sub_ pair g GEmpty = Returned (Some g)
  /\ xor_ pair GEmpty g = Returned (Some g) /\ xor_ pair g GEmpty = Returned (Some g).
Proof. intros pair g. destruct g; repeat split; reflexivity. Qed.
Print Assumptions c47_empty.

Theorem c47_empty_relate : forall pair g,
  relate_to_ pair GEmpty GEmpty = EQUAL
  /\ (g <> GEmpty -> relate_to_ pair GEmpty g = DISJOINT /\ relate_to_ pair g GEmpty = DISJOINT).
Proof. intros pair g. split; [reflexivity|]. destruct g; intros N; [congruence|..]; split; reflexivity. Qed.
Print Assumptions c47_empty_relate.

Theorem c47_empty_points : forall p g,
  geometry_locate GEmpty p = EXTERIOR /\ geometry_contains GEmpty p = false
  /\ (empty_eq g = true <-> g = GEmpty).
Proof. intros p g. split; [reflexivity|split; [reflexivity|]]. destruct g; split; (reflexivity || discriminate). Qed.
Print Assumptions c47_empty_points.

(** An operator is refused (TypeError) exactly for non-empty operands one of
    which is linear and the other shaped ([|], [^]), or when the subtrahend of
    a Segment is shaped, or when the minuend is shaped and the subtrahend linear. *)
Definition linear (g : geometry) : Prop :=
  match g with GSegment _ | GMultisegment _ | GContour _ => True | _ => False end.
Definition shaped (g : geometry) : Prop :=
  match g with GPolygon _ | GMultipolygon _ => True | _ => False end.
Theorem c47_supported : forall pair a b,
  and_ pair a b <> NotImplemented_
  /\ (or_ pair a b = NotImplemented_ <-> (linear a /\ shaped b) \/ (shaped a /\ linear b))
  /\ (xor_ pair a b = NotImplemented_ <-> (linear a /\ shaped b) \/ (shaped a /\ linear b))
  /\ (sub_ pair a b = NotImplemented_ <->
      ((exists s, a = GSegment s) /\ shaped b) \/ (shaped a /\ linear b)).
Proof.
  intros pair a b. destruct a, b; cbn; (split; [discriminate|]);
    repeat split; intros; try discriminate; try reflexivity; try tauto; eauto;
    repeat match goal with H : _ \/ _ |- _ => destruct H | H : _ /\ _ |- _ => destruct H
           | H : exists _, _ |- _ => destruct H end; try discriminate; tauto.
Qed.
Print Assumptions c47_supported.

Example c47_example :
  or_ (fun _ _ => None) (GSegment (sg 0 0 1 1)) GEmpty = Returned (Some (GSegment (sg 0 0 1 1))).
Proof. reflexivity. Qed.
