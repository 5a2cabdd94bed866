(** The contours of a drawing are simple. *)
From Coq Require Import QArith Qcanon Bool List Arith Lia Permutation.
From Verif Require Import QcTac Model_Base Model_Utils Model_Geometry Model_Contour Model_Linear Model_Mixed Model_Shaped Spec_Base Spec_Segment Spec_Contour Spec_Relate
  Proof_Base Proof_Line Proof_Contour Proof_Edges Proof_Shrink Proof_Parity Proof_Corner Proof_Locate Proof_Draw Proof_Reduce Proof_Reduce2 Proof_Ray Proof_Result Proof_Result2
  Proof_RelateP Proof_Simple1.
Import ListNotations.
Local Open Scope nat_scope.

Section Contours.
Variables (eps : Qc) (hg : event -> Qc -> Qc) (sl : event -> Qc).
Variable s : shaped_operation.
Variables (L events : list event).
Hypothesis D : drawing eps hg sl s L events.
Notation o := (so s). Notation op := (to_opposite_event o). Notation at_ := (to_event_start o).
Notation cycle := (cycle eps s events). Notation stretch := (stretch s).
Hypothesis Meet : forall i j x, In i L -> In j L -> i <> j -> on_seg (stretch i) x -> on_seg (stretch j) x ->
  endpoint_of (stretch i) x /\ endpoint_of (stretch j) x.

Lemma stretch_back m x : In m L -> on_seg (stretch (op m)) x <-> on_seg (stretch m) x.
Proof.
  intros Im. unfold Proof_Result2.stretch. rewrite (proj2 (proj2 (dr_op _ _ _ _ _ _ D m Im))). unfold on_seg. cbn [seg_start seg_end]. split; apply between_sym.
Qed.
Lemma endpoint_back m x : In m L -> endpoint_of (stretch (op m)) x <-> endpoint_of (stretch m) x.
Proof.
  intros Im. unfold Proof_Result2.stretch. rewrite (proj2 (proj2 (dr_op _ _ _ _ _ _ D m Im))). unfold endpoint_of. cbn [seg_start seg_end]. tauto.
Qed.
(** The pieces that two events run along meet at endpoints, unless they run along the same one. *)
Lemma meet_events x y p : In x events -> In y events -> x <> y -> x <> op y -> on_seg (stretch x) p -> on_seg (stretch y) p ->
  endpoint_of (stretch x) p /\ endpoint_of (stretch y) p.
Proof.
  intros Ex Ey Ne No Ox Oy. apply (dr_events _ _ _ _ _ _ D) in Ex, Ey. destruct Ex as (i & Ii & Qi), Ey as (j & Ij & Qj).
  assert (Dij : i <> j).
  { intros <-. pose proof (proj2 (proj2 (dr_op _ _ _ _ _ _ D i Ii))) as B. destruct Qi as [-> | ->], Qj as [-> | ->]; congruence. }
  assert (O1 : on_seg (stretch i) p) by (destruct Qi as [-> | ->]; auto; apply stretch_back; auto).
  assert (O2 : on_seg (stretch j) p) by (destruct Qj as [-> | ->]; auto; apply stretch_back; auto).
  destruct (Meet i j p Ii Ij Dij O1 O2) as [E1 E2]. split.
  - destruct Qi as [-> | ->]; auto. apply endpoint_back; auto.
  - destruct Qj as [-> | ->]; auto. apply endpoint_back; auto.
Qed.
Lemma final_simple b l : cycle l -> simple_contour (final s b l).
Proof.
  intros C.
  assert (Q : simple_contour (shrink_collinear_vertices (outline_of s l))).
  { pose proof (cycle_nondegenerate _ _ _ _ _ _ D l C) as Nd. pose proof (cycle_straight _ _ _ _ _ _ D l C) as St.
    pose proof (cycle_edges _ _ _ l C) as Ed. pose proof (cy_nd _ _ _ _ C) as N.
    assert (M : forall u t p, In u (edges (outline_of s l)) -> In t (edges (outline_of s l)) -> u <> t -> on_seg u p -> on_seg t p -> endpoint_of u p /\ endpoint_of t p).
    { intros u t p Iu It Ne Ou Ot. rewrite Ed in Iu, It. apply in_map_iff in Iu, It. destruct Iu as (x & <- & Ix), It as (y & <- & Iy).
      apply meet_events; auto; try (apply (cy_in _ _ _ _ C); auto; fail); try (apply (cy_one_way _ _ _ _ C); auto; fail). }
    unfold outline_of in *. destruct l as [|x l]; [destruct (cy_ne _ _ _ _ C); auto|]. cbn [map nth] in *. apply simple_shrink; auto. }
  unfold final. cbv zeta. destruct b; auto. apply (same_cycle_simple _ _ (rotate_same_cycle _)). exact Q.
Qed.
End Contours.
