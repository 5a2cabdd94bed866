(** The contours of the results of set operations are simple. *)
From Coq Require Import QArith Qcanon Bool List Arith Lia Permutation.
From Verif Require Import QcTac Model_Base Model_Geometry Model_Contour Model_Linear Model_Shaped Model_Multipolygon
  Spec_Base Spec_Segment Spec_Clip Spec_Contour Spec_Relate Spec_Sweep Spec_Shaped Spec_Multipolygon Spec_RelateShaped Spec_Tight
  Proof_Base Proof_Edges Proof_Shrink Proof_Sweep17 Proof_Parity Proof_Ottmann15 Proof_Simple5 Proof_Tight2 Proof_Tight8.
Import ListNotations.

Lemma valid_alone vs : simple_contour vs -> valid_polygon (Poly vs []).
Proof.
  intros S. constructor.
  - constructor; [exact S|constructor].
  - unfold outlines, rings. cbn [border holes flat_map]. rewrite app_nil_r. apply simple_non_crossing; auto.
  - intros q h O [].
  - intros q O. constructor.
Qed.
Lemma results_simple g g' shape fuel : valid_shaped g -> valid_shaped g' -> (enough (shaped_size g + shaped_size g') <= fuel)%nat ->
  Forall (fun outcome => exists h, outcome = Some (Clips h) /\ Forall simple_contour (geometry_rings h))
    [shaped_and fuel shape g g'; shaped_or fuel shape g g'; shaped_sub fuel shape g g'; shaped_xor fuel shape g g'].
Proof.
  intros V V' F.
  destruct (drawn_and g g' shape fuel V V' F) as (h1 & E1 & _ & S1 & _). destruct (drawn_or g g' shape fuel V V' F) as (h2 & E2 & _ & S2 & _).
  destruct (drawn_sub g g' shape fuel V V' F) as (h3 & E3 & _ & S3 & _). destruct (drawn_xor g g' shape fuel V V' F) as (h4 & E4 & _ & S4 & _).
  repeat constructor; eauto.
Qed.
