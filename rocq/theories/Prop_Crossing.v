(** C93: the edges of the results of set operations do not cross. *)
From Coq Require Import QArith Qcanon Bool List Arith ZArith Lia.
From Verif Require Import QcTac Model_Base Model_Geometry Model_Contour Model_Linear Model_Shaped Model_Multipolygon
  Spec_Base Spec_Segment Spec_Clip Spec_Contour Spec_Relate Spec_Sweep Spec_Shaped Spec_Multipolygon Spec_RelateShaped Spec_Literals Spec_Tight
  Proof_Simple6.
From Verif Require Prop_RelateMultipolygon.
Import ListNotations.

(** An operator returns, and the edges of all of the contours of its result neither cross nor
    overlap: any two of them, of one contour or of two, have at most one point in common, which
    is an endpoint of one of them. *)
Definition drawn_clear (outcome : option clip_outcome) : Prop :=
  exists h, outcome = Some (Clips h) /\ non_crossing (outlines (geometry_rings h)).

Theorem c93_and : forall g g' shape fuel,
  valid_shaped g -> valid_shaped g' -> (enough (shaped_size g + shaped_size g') <= fuel)%nat ->
  drawn_clear (shaped_and fuel shape g g').
Proof. exact clear_and. Qed.
Print Assumptions c93_and.
Theorem c93_sub : forall p g' shape fuel,
  valid_shaped (GPolygon p) -> valid_shaped g' -> (enough (shaped_size (GPolygon p) + shaped_size g') <= fuel)%nat ->
  drawn_clear (shaped_sub fuel shape (GPolygon p) g').
Proof. intros p g' shape fuel V V' F. apply (clear_sub (GPolygon p) g' shape fuel V V' F). exists p. reflexivity. Qed.
Print Assumptions c93_sub.
Theorem c93_polygons : forall p p' shape fuel,
  valid_shaped (GPolygon p) -> valid_shaped (GPolygon p') -> (enough (shaped_size (GPolygon p) + shaped_size (GPolygon p')) <= fuel)%nat ->
  drawn_clear (shaped_or fuel shape (GPolygon p) (GPolygon p')) /\ drawn_clear (shaped_xor fuel shape (GPolygon p) (GPolygon p')).
Proof.
  intros p p' shape fuel V V' F. split.
  - apply (clear_or (GPolygon p) (GPolygon p') shape fuel V V' F); eexists; reflexivity.
  - apply (clear_xor (GPolygon p) (GPolygon p') shape fuel V V' F); eexists; reflexivity.
Qed.
Print Assumptions c93_polygons.

(** The hypotheses hold of a multipolygon made of a triangle with a hole and a triangle in the
    hole, and of that second triangle. *)
Example crossing_hypotheses : valid_shaped Prop_RelateMultipolygon.both /\ valid_shaped (GPolygon Prop_RelateMultipolygon.island).
Proof. destruct Prop_RelateMultipolygon.multipolygons_hypotheses as (A & B & _). split; [exact A|exact B]. Qed.
(** Two crossing bars: their difference is drawn by two contours, their symmetric difference by
    four that meet at the corners of the middle square. *)
Example crossing_answers :
  let half := (fun (_ _ : nat) (l : list event) => (length l / 2)%nat) in
  let box a b c d := GPolygon (Poly [pt a b; pt c b; pt c d; pt a d] []) in
  let a := (box 0 1 3 2)%Z in let b := (box 1 0 2 3)%Z in
  match shaped_sub 2000 half a b, shaped_xor 2000 half a b with
  | Some (Clips g), Some (Clips h) => length (geometry_rings g) = 2%nat /\ (2 <= length (geometry_rings h))%nat
  | _, _ => False
  end.
Proof. vm_compute. auto. Qed.
