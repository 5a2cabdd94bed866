(** C92: the contours of the results of set operations on polygons and multipolygons. *)
From Coq Require Import QArith Qcanon Bool List Arith ZArith Lia.
From Verif Require Import QcTac Model_Base Model_Geometry Model_Contour Model_Linear Model_BentleyOttmann Model_Shaped Model_Multipolygon
  Spec_Base Spec_Segment Spec_Clip Spec_Contour Spec_Relate Spec_Sweep Spec_Validity Spec_Shaped Spec_Multipolygon Spec_RelateShaped Spec_Literals Spec_Tight
  Proof_Tight8 Proof_Simple3.
From Verif Require Prop_RelateMultipolygon Prop_Validity.
Import ListNotations.

(** What [&], [|], [-] and [^] return for two polygons or multipolygons. *)
Definition results (shape : tree_shape) (fuel : nat) (g g' : geometry) : list (option clip_outcome) :=
  [shaped_and fuel shape g g'; shaped_or fuel shape g g'; shaped_sub fuel shape g g'; shaped_xor fuel shape g g'].

(** Every contour of the result is simple. *)
Theorem c92_simple : forall g g' shape fuel,
  valid_shaped g -> valid_shaped g' -> (enough (shaped_size g + shaped_size g') <= fuel)%nat ->
  Forall (fun outcome => exists h, outcome = Some (Clips h) /\ Forall simple_contour (geometry_rings h)) (results shape fuel g g').
Proof. exact results_simple. Qed.
Print Assumptions c92_simple.
(** So [Contour.is_valid] accepts it. *)
Theorem c92_accepted : forall g g' shape fuel shape' pick fuel',
  valid_shaped g -> valid_shaped g' -> (enough (shaped_size g + shaped_size g') <= fuel)%nat ->
  Forall (fun outcome => exists h, outcome = Some (Clips h)
    /\ Forall (fun vertices => (2 * length vertices < fuel')%nat -> contour_is_valid fuel' shape' pick vertices = Validity true) (geometry_rings h))
    (results shape fuel g g').
Proof.
  intros g g' shape fuel shape' pick fuel' V V' F. eapply Forall_impl; [|exact (c92_simple g g' shape fuel V V' F)].
  intros outcome (h & E & Si). exists h. split; [exact E|]. eapply Forall_impl; [|exact Si]. intros vertices S F'.
  apply Prop_Validity.c56_contour_is_valid; auto. apply S.
Qed.
Print Assumptions c92_accepted.
(** And the polygon with this border and no holes is a valid operand of the operations again. *)
Theorem c92_operands : forall g g' shape fuel,
  valid_shaped g -> valid_shaped g' -> (enough (shaped_size g + shaped_size g') <= fuel)%nat ->
  Forall (fun outcome => exists h, outcome = Some (Clips h) /\ Forall (fun vertices => valid_shaped (GPolygon (Poly vertices []))) (geometry_rings h))
    (results shape fuel g g').
Proof.
  intros g g' shape fuel V V' F. eapply Forall_impl; [|exact (c92_simple g g' shape fuel V V' F)].
  intros outcome (h & E & Si). exists h. split; [exact E|]. eapply Forall_impl; [|exact Si]. intros vertices S. exact (valid_alone vertices S).
Qed.
Print Assumptions c92_operands.

(** The hypotheses hold of a multipolygon made of a triangle with a hole and a triangle in the
    hole, and of that second triangle. *)
Example results_hypotheses : valid_shaped Prop_RelateMultipolygon.both /\ valid_shaped (GPolygon Prop_RelateMultipolygon.island).
Proof. destruct Prop_RelateMultipolygon.multipolygons_hypotheses as (A & B & _). split; [exact A|exact B]. Qed.
(** Two squares that overlap: their symmetric difference is drawn by contours that meet twice, the
    union by one with eight vertices. *)
Example results_answers :
  let half := (fun (_ _ : nat) (l : list event) => (length l / 2)%nat) in
  let square a b c d := GPolygon (Poly [pt a b; pt c b; pt c d; pt a d] []) in
  let a := (square 0 0 2 2)%Z in let b := (square 1 1 3 3)%Z in
  match shaped_or 2000 half a b, shaped_xor 2000 half a b with
  | Some (Clips (GPolygon p)), Some (Clips h) => length (border p) = 8%nat /\ (2 <= length (geometry_rings h))%nat
  | _, _ => False
  end.
Proof. vm_compute. auto. Qed.
