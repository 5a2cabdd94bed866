(** The outlines of the results of the operators, and what follows about them. *)
From Coq Require Import QArith Qcanon Bool List Arith Lia Permutation.
From Verif Require Import QcTac Model_Base Model_Utils Model_Box Model_Geometry Model_Contour Model_Linear Model_Mixed Model_Shaped Model_Multipolygon Spec_Base Spec_Segment Spec_Clip Spec_Contour
  Spec_Relate Spec_Bounds Spec_Sweep Spec_Shaped Spec_Multipolygon Spec_RelateShaped Spec_Tight
  Proof_Base Proof_Line Proof_SegRel Proof_SegOps Proof_Relate6 Proof_SegLoops Proof_Contour Proof_Contour2 Proof_Edges Proof_Bounds Proof_Shrink Proof_Locate Proof_Locate3 Proof_Locate4 Proof_Sweep4 Proof_Sweep6 Proof_Sweep18 Proof_Parity
  Proof_Corner Proof_Region Proof_Ray Proof_Orient Proof_Nested Proof_Nested2 Proof_Bridge Proof_Odd Proof_Clip Proof_Ready Proof_RelShaped6 Proof_Polygons Proof_Multi Proof_Multi2 Proof_Multi3 Proof_Multi4
  Proof_Tight1 Proof_Tight3 Proof_Tight4 Proof_Tight5 Proof_Tight6 Proof_Tight7.
Import ListNotations.
Local Open Scope Qc_scope.

Definition drawn (g g' : geometry) (holds : point -> Prop) (outcome : option clip_outcome) : Prop :=
  exists h, outcome = Some (Clips h) /\ shaped h /\ Forall simple_contour (geometry_rings h)
    /\ two_sided (outlines (geometry_rings g) ++ outlines (geometry_rings g')) (geometry_rings h)
    /\ (forall x, outlined h x -> outlined g x \/ outlined g' x)
    /\ (forall q, clear_of g g' q -> (inside_odd (geometry_rings h) q <-> holds q)).
Lemma drawn_of g g' op outcome : (forall o, outcome = Some o -> tight_out (parts_of g) (parts_of g') o) -> clips_geometries g g' op outcome ->
  drawn g g' (fun z => op (inside g z) (inside g' z)) outcome.
Proof.
  intros T (h & E & Sh & Nd & Sub & Odd). exists h. pose proof (T (Clips h) E h eq_refl) as [T1 T2]. split; auto. split; auto. split; auto. split; [|split; auto].
  - rewrite <- !rings_parts in T1. exact T1.
  - intros q [A B]. apply Odd; auto.
Qed.
Section Four.
Variables (g g' : geometry) (shape : tree_shape) (fuel : nat).
Hypothesis V : valid_shaped g.
Hypothesis V' : valid_shaped g'.
Hypothesis Fuel : (enough (shaped_size g + shaped_size g') <= fuel)%nat.
Let F : (enough (lists_count (parts_of g) (parts_of g')) <= fuel)%nat := geometries_fuel g g' fuel Fuel.
Theorem drawn_and : drawn g g' (fun z => inside g z /\ inside g' z) (shaped_and fuel shape g g').
Proof.
  apply (drawn_of g g' and); [|apply and_geometries; auto]. pose proof F as F'. clear F. intros o E.
  destruct g; try contradiction; destruct g'; try contradiction; cbn [shaped_and parts_of] in *; injection E as <-.
  - apply tight_and_pp; auto.
  - apply tight_and_pm; auto. apply V'.
  - apply tight_and_mp; auto. apply V.
  - apply tight_and_mm; auto; [apply V|apply V'].
Qed.
Theorem drawn_or : drawn g g' (fun z => inside g z \/ inside g' z) (shaped_or fuel shape g g').
Proof.
  apply (drawn_of g g' or); [|apply or_geometries; auto]. pose proof F as F'. clear F. intros o E.
  destruct g; try contradiction; destruct g'; try contradiction; cbn [shaped_or parts_of] in *; injection E as <-.
  - apply tight_or_pp; auto.
  - apply tight_or_pm; auto. apply V'.
  - apply tight_or_mp; auto. apply V.
  - apply tight_or_mm; auto; [apply V|apply V'].
Qed.
Theorem drawn_sub : drawn g g' (fun z => inside g z /\ ~ inside g' z) (shaped_sub fuel shape g g').
Proof.
  apply (drawn_of g g' (fun a b => a /\ ~ b)); [|apply sub_geometries; auto]. pose proof F as F'. clear F. intros o E.
  destruct g; try contradiction; destruct g'; try contradiction; cbn [shaped_sub parts_of] in *; injection E as <-.
  - apply tight_sub_pp; auto.
  - apply tight_sub_pm; auto. apply V'.
  - apply tight_sub_mp; auto. apply V.
  - apply tight_sub_mm; auto; [apply V|apply V'].
Qed.
Theorem drawn_xor : drawn g g' (fun z => (inside g z /\ ~ inside g' z) \/ (inside g' z /\ ~ inside g z)) (shaped_xor fuel shape g g').
Proof.
  apply (drawn_of g g' (fun a b => (a /\ ~ b) \/ (b /\ ~ a))); [|apply xor_geometries; auto]. pose proof F as F'. clear F. intros o E.
  destruct g; try contradiction; destruct g'; try contradiction; cbn [shaped_xor parts_of] in *; injection E as <-.
  - apply tight_xor_pp; auto.
  - apply tight_xor_pm; auto. apply V'.
  - apply tight_xor_mp; auto. apply V.
  - apply tight_xor_mm; auto; [apply V|apply V'].
Qed.
End Four.
(** An operand. *)
Theorem drawn_operand g : valid_shaped g -> forall g', valid_shaped g' -> two_sided (outlines (geometry_rings g) ++ outlines (geometry_rings g')) (geometry_rings g).
Proof.
  intros V g' V'. pose proof (tight_minuend (parts_of g) (parts_of g') (valid_parts g V) (valid_parts g' V') g (rings_parts g) g eq_refl) as [T _].
  rewrite <- !rings_parts in T. exact T.
Qed.
