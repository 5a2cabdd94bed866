(** The outlines of the results of set operations do not cross. *)
From Coq Require Import QArith Qcanon Bool List Arith Lia Permutation.
From Verif Require Import QcTac Model_Base Model_Utils Model_Box Model_Geometry Model_Contour Model_Linear Model_Mixed Model_Shaped Model_Multipolygon Spec_Base Spec_Segment Spec_Clip Spec_Contour
  Spec_Relate Spec_Bounds Spec_Sweep Spec_Shaped Spec_Multipolygon Spec_RelateShaped Spec_Tight
  Proof_Base Proof_Line Proof_SegRel Proof_SegOps Proof_Relate6 Proof_SegLoops Proof_Contour Proof_Contour2 Proof_Edges Proof_Bounds Proof_Shrink Proof_Locate Proof_Locate3 Proof_Locate4 Proof_Sweep4 Proof_Sweep6 Proof_Sweep17 Proof_Sweep18 Proof_Sweep19 Proof_Parity
  Proof_Corner Proof_Region Proof_Ray Proof_Orient Proof_Nested Proof_Nested2 Proof_Bridge Proof_Odd Proof_Clip Proof_Ready Proof_Polygons Proof_Multi Proof_Multi2 Proof_Multi3 Proof_Multi4
  Proof_RelateShaped Proof_RelateMulti3 Proof_Mix6 Proof_Tight1 Proof_Tight2 Proof_Tight3 Proof_Tight4 Proof_Tight5 Proof_Tight8.
Import ListNotations.
Local Open Scope Qc_scope.
Notation O t := (outlines (flat_map rings t)).

Definition clear_out (outcome : clip_outcome) : Prop := forall g, outcome = Clips g -> non_crossing (outlines (geometry_rings g)).
Lemma clear_of_list (c : option geometry) ps : (forall g, c = Some g -> geometry_rings g = flat_map rings ps) -> non_crossing (O ps) -> clear_out (clip_of c).
Proof. intros E N g Q. unfold clip_of in Q. destruct c as [h|]; [|discriminate]. injection Q as ->. rewrite (E g eq_refl). auto. Qed.
Lemma clear_empty : clear_out (Clips GEmpty).
Proof. intros g Q. injection Q as <-. split; constructor. Qed.
Lemma clear_same g l : valid_polygons l -> geometry_rings g = flat_map rings l -> clear_out (Clips g).
Proof. intros V R g' Q. injection Q as <-. rewrite R. apply vm_edges; auto. Qed.
Lemma clear_both l l' b b' : valid_polygons l -> valid_polygons l' -> holds l b -> holds l' b' -> do_boxes_have_no_common_continuum b b' = true ->
  clear_out (clip_of (new_multipolygon (l ++ l'))).
Proof.
  intros V V' H H' D. apply (clear_of_list _ (l ++ l')).
  - intros g E. unfold new_multipolygon in E. destruct (_ <? 2)%nat; [discriminate|]. injection E as <-. auto.
  - rewrite flat_map_app, outlines_app. destruct (vm_edges _ V) as [P1 F1], (vm_edges _ V') as [P2 F2]. split; [apply Forall_app; auto|].
    apply FOP_app; auto. rewrite Forall_forall in P1, P2. intros u t I J. apply meet_ends_tod; auto.
    assert (E : ends_only (O l) (O l')).
    { apply (apart_boxes _ _ b b' D); intros v q Iv Q; [apply H; exists v|apply H'; exists v]; auto. }
    intros q. apply E; auto.
Qed.
Section Lists.
Variables k k' : list polygon.
Hypothesis Vk : valid_polygons k.
Hypothesis Vk' : valid_polygons k'.
Variables (shape : tree_shape) (fuel : nat).
Hypothesis Kf : (enough (lists_count k k') <= fuel)%nat.

Theorem clear_intersection low high low' high' : spread k low high -> spread k' low' high' ->
  clear_out (clip_polygons shaped_intersection collect_maybe_empty_polygons fuel shape (Some (q_min high high'))
    (reaching (q_max low low') (q_min high high') (polygons_segments k)) (reaching (q_max low low') (q_min high high') (polygons_segments k'))).
Proof.
  intros Sp Sp'. destruct (prepare_list k Vk) as (r & P), (prepare_list k' Vk') as (r' & P'). rewrite (pl_segments _ _ P), (pl_segments _ _ P').
  change (reaching ?a ?b ?s) with (filter (reach a b) s). set (lw := q_max low low'). set (hg := q_min high high').
  destruct (lists_made k k' r r' P P' (reach lw hg) (reach lw hg)) with (op2 := andb) (sel := sel_intersection) (from_result := shaped_intersection)
    (limit := Some hg) (shape := shape) (fuel := fuel) as (ps & pieces & Er & _ & _ & Nc).
  - intros b e g I J L1 L2. assert (Q : reach lw hg e = true); [|destruct b; exact Q]. apply reach_true. unfold lw, hg, q_max, q_min. pose proof (lo_le_hi e).
    destruct b; cbn [full negb] in I, J; [destruct (list_range k r low high e Vk P Sp I) as (? & ? & ? & ?), (list_range k' r' low' high' g Vk' P' Sp' J) as (? & ? & ? & ?)
      |destruct (list_range k' r' low' high' e Vk' P' Sp' I) as (? & ? & ? & ?), (list_range k r low high g Vk P Sp J) as (? & ? & ? & ?)]; repeat qcase; split; qlra.
  - apply selects_intersection.
  - intros [] ; right; intros []; reflexivity.
  - auto.
  - unfold hg, q_min. destruct (qltb_spec high' high) as [L|L]; [exists false|exists true]; (split; [intros []; reflexivity|]); intros e I; cbn [opf] in I; apply filter_In in I; destruct I as [I _].
    + destruct (list_range k' r' low' high' e Vk' P' Sp' I) as (? & ? & ? & ?); auto.
    + destruct (list_range k r low high e Vk P Sp I) as (? & ? & ? & ?); auto.
  - exact Kf.
  - rewrite (run_clips _ collect_maybe_empty_polygons _ _ _ _ _ ps Er). apply (clear_of_list _ ps); [intros g; apply collect_maybe_rings|exact Nc].
Qed.
Theorem clear_difference low high : spread k low high ->
  clear_out (clip_polygons shaped_difference collect_maybe_empty_polygons fuel shape (Some high)
    (polygons_segments k) (reaching low high (polygons_segments k'))).
Proof.
  intros Sp. destruct (prepare_list k Vk) as (r & P), (prepare_list k' Vk') as (r' & P'). rewrite (pl_segments _ _ P), (pl_segments _ _ P').
  change (reaching ?a ?b ?s) with (filter (reach a b) s). rewrite <- (filter_all (outlines r)) at 1.
  destruct (lists_made k k' r r' P P' (fun _ => true) (reach low high)) with (op2 := fun a b => a && negb b) (sel := sel_difference) (from_result := shaped_difference)
    (limit := Some high) (shape := shape) (fuel := fuel) as (ps & pieces & Er & _ & _ & Nc).
  - intros [] e g I J L1 L2; auto. cbn [keep]. apply reach_true. cbn [full negb] in I, J. destruct (list_range k r low high g Vk P Sp J) as (? & ? & ? & ?). split; qlra.
  - apply selects_difference.
  - intros []; [left; auto|right; intros []; reflexivity].
  - auto.
  - exists true. split; [auto|]. intros e I. cbn [opf] in I. rewrite filter_all in I. destruct (list_range k r low high e Vk P Sp I) as (? & ? & ? & ?); auto.
  - exact Kf.
  - rewrite (run_clips _ collect_maybe_empty_polygons _ _ _ _ _ ps Er). apply (clear_of_list _ ps); [intros g; apply collect_maybe_rings|exact Nc].
Qed.
Theorem clear_union : clear_out (clip_polygons shaped_union collect_non_empty_polygons fuel shape None (polygons_segments k) (polygons_segments k')).
Proof.
  destruct (prepare_list k Vk) as (r & P), (prepare_list k' Vk') as (r' & P'). rewrite (pl_segments _ _ P), (pl_segments _ _ P').
  rewrite <- (filter_all (outlines r)) at 1. rewrite <- (filter_all (outlines r')) at 1.
  destruct (lists_made k k' r r' P P' (fun _ => true) (fun _ => true)) with (op2 := orb) (sel := sel_union) (from_result := shaped_union)
    (limit := @None Qc) (shape := shape) (fuel := fuel) as (ps & pieces & Er & _ & _ & Nc).
  - intros [] e g; auto.
  - apply selects_union.
  - intros []; left; auto.
  - auto.
  - auto.
  - exact Kf.
  - rewrite (run_clips _ collect_non_empty_polygons _ _ _ _ _ ps Er). apply (clear_of_list _ ps); [intros g; apply collect_non_empty_rings|exact Nc].
Qed.
Theorem clear_symmetric : clear_out (clip_polygons shaped_symmetric_difference collect_maybe_empty_polygons fuel shape None (polygons_segments k) (polygons_segments k')).
Proof.
  destruct (prepare_list k Vk) as (r & P), (prepare_list k' Vk') as (r' & P'). rewrite (pl_segments _ _ P), (pl_segments _ _ P').
  rewrite <- (filter_all (outlines r)) at 1. rewrite <- (filter_all (outlines r')) at 1.
  destruct (lists_made k k' r r' P P' (fun _ => true) (fun _ => true)) with (op2 := xorb) (sel := sel_symmetric) (from_result := shaped_symmetric_difference)
    (limit := @None Qc) (shape := shape) (fuel := fuel) as (ps & pieces & Er & _ & _ & Nc).
  - intros [] e g; auto.
  - apply selects_symmetric.
  - intros []; left; auto.
  - auto.
  - auto.
  - exact Kf.
  - rewrite (run_clips _ collect_maybe_empty_polygons _ _ _ _ _ ps Er). apply (clear_of_list _ ps); [intros g; apply collect_maybe_rings|exact Nc].
Qed.
End Lists.

Section And.
Variables (shape : tree_shape) (fuel : nat).
Theorem clear_and_mm l l' : valid_polygons l -> valid_polygons l' -> (enough (lists_count l l') <= fuel)%nat ->
  clear_out (intersect_multipolygon_with_multipolygon fuel shape l l').
Proof.
  intros V V' F. unfold intersect_multipolygon_with_multipolygon. destruct (do_boxes_have_no_common_area _ _); [apply clear_empty|].
  destruct (sharing_area (multipolygon_box l') l) as [|p k] eqn:K; [apply clear_empty|].
  destruct (sharing_area (multipolygon_box l) l') as [|p' k'] eqn:K'; [apply clear_empty|].
  rewrite <- K, <- K'. unfold sharing_area. apply clear_intersection; try apply valid_filter; auto; [apply kept_fuel; auto|apply spread_of|apply spread_of].
Qed.
Theorem clear_and_mp l p : valid_polygons l -> valid_polygon p -> (enough (lists_count l [p]) <= fuel)%nat ->
  clear_out (intersect_multipolygon_with_polygon fuel shape l p).
Proof.
  intros V V' F. unfold intersect_multipolygon_with_polygon. destruct (do_boxes_have_no_common_area _ _); [apply clear_empty|].
  destruct (sharing_area (polygon_box p) l) as [|x k] eqn:K; [apply clear_empty|].
  rewrite <- K. unfold sharing_area. rewrite <- segments_one, <- (keep_one p).
  apply clear_intersection; try apply valid_filter; auto; [apply valid_one; auto|apply kept_fuel; auto|apply spread_of|apply spread_one].
Qed.
Theorem clear_and_pm p l : valid_polygon p -> valid_polygons l -> (enough (lists_count [p] l) <= fuel)%nat ->
  clear_out (intersect_polygon_with_multipolygon fuel shape p l).
Proof.
  intros V V' F. unfold intersect_polygon_with_multipolygon. destruct (do_boxes_have_no_common_area _ _); [apply clear_empty|].
  destruct (sharing_area (polygon_box p) l) as [|x k] eqn:K; [apply clear_empty|].
  rewrite <- K. unfold sharing_area. rewrite <- segments_one, <- (keep_one p).
  apply clear_intersection; try apply valid_filter; auto; [apply valid_one; auto|apply kept_fuel; auto|apply spread_one|apply spread_of].
Qed.
Theorem clear_sub_pm p l : valid_polygon p -> valid_polygons l -> (enough (lists_count [p] l) <= fuel)%nat ->
  clear_out (subtract_multipolygon_from_polygon fuel shape p l).
Proof.
  intros V V' F. assert (R1 : geometry_rings (GPolygon p) = flat_map rings [p]) by (cbn [geometry_rings flat_map]; rewrite app_nil_r; auto).
  pose proof (valid_one p V) as Vp.
  unfold subtract_multipolygon_from_polygon. destruct (do_boxes_have_no_common_area _ _); [apply (clear_same _ [p]); auto|].
  destruct (sharing_area (polygon_box p) l) as [|x k] eqn:K; [apply (clear_same _ [p]); auto|].
  rewrite <- K. unfold sharing_area. rewrite <- segments_one.
  apply (clear_difference [p] (filter _ l)); auto; [apply valid_filter; auto| |apply (spread_one p)].
  change [p] with (filter (fun _ : polygon => true) [p]). apply kept_fuel; auto.
Qed.
Section Two.
Variables p p' : polygon.
Hypothesis V : valid_polygon p.
Hypothesis V' : valid_polygon p'.
Hypothesis F : (enough (lists_count [p] [p']) <= fuel)%nat.
Let Vp : valid_polygons [p] := valid_one p V.
Let Vp' : valid_polygons [p'] := valid_one p' V'.
Theorem clear_and_pp : clear_out (intersect_polygon_with_polygon fuel shape p p').
Proof.
  unfold intersect_polygon_with_polygon. destruct (do_boxes_have_no_common_area _ _); [apply clear_empty|].
  rewrite <- !segments_one. apply (clear_intersection [p] [p'] Vp Vp' shape fuel F); [apply (spread_one p)|apply (spread_one p')].
Qed.
Theorem clear_or_pp : clear_out (unite_polygon_with_polygon fuel shape p p').
Proof.
  unfold unite_polygon_with_polygon. destruct (do_boxes_have_no_common_continuum (bounding_box (GPolygon p)) (bounding_box (GPolygon p'))) eqn:D.
  - apply (clear_both [p] [p'] (polygon_box p) (polygon_box p')); auto; apply holds_one; auto.
  - rewrite <- !segments_one. apply (clear_union [p] [p'] Vp Vp' shape fuel F).
Qed.
Theorem clear_sub_pp : clear_out (subtract_polygon_from_polygon fuel shape p p').
Proof.
  assert (R1 : geometry_rings (GPolygon p) = flat_map rings [p]) by (cbn [geometry_rings flat_map]; rewrite app_nil_r; auto).
  unfold subtract_polygon_from_polygon. destruct (do_boxes_have_no_common_area _ _); [apply (clear_same _ [p]); auto|].
  rewrite <- !segments_one. apply (clear_difference [p] [p'] Vp Vp' shape fuel F); apply (spread_one p).
Qed.
Theorem clear_xor_pp : clear_out (symmetric_subtract_polygon_from_polygon fuel shape p p').
Proof.
  unfold symmetric_subtract_polygon_from_polygon. destruct (do_boxes_have_no_common_continuum (bounding_box (GPolygon p)) (bounding_box (GPolygon p'))) eqn:D.
  - apply (clear_both [p] [p'] (polygon_box p) (polygon_box p')); auto; apply holds_one; auto.
  - rewrite <- !segments_one. apply (clear_symmetric [p] [p'] Vp Vp' shape fuel F).
Qed.
End Two.
End And.

(** The operators. *)
Section Four.
Variables (g g' : geometry) (shape : tree_shape) (fuel : nat).
Hypothesis V : valid_shaped g.
Hypothesis V' : valid_shaped g'.
Hypothesis Fuel : (enough (shaped_size g + shaped_size g') <= fuel)%nat.
Let F : (enough (lists_count (parts_of g) (parts_of g')) <= fuel)%nat := geometries_fuel g g' fuel Fuel.
Definition clear (outcome : option clip_outcome) : Prop := exists h, outcome = Some (Clips h) /\ non_crossing (outlines (geometry_rings h)).
Lemma clear_intro holds outcome : drawn g g' holds outcome -> (forall o, outcome = Some o -> clear_out o) -> clear outcome.
Proof. intros (h & E & _) C. exists h. split; auto. apply (C _ E h eq_refl). Qed.
Theorem clear_and : clear (shaped_and fuel shape g g').
Proof.
  apply (clear_intro _ _ (drawn_and g g' shape fuel V V' Fuel)). pose proof F as F'. clear F. intros o E.
  destruct g; try contradiction; destruct g'; try contradiction; cbn [shaped_and parts_of] in *; injection E as <-.
  - apply clear_and_pp; auto.
  - apply clear_and_pm; auto. apply V'.
  - apply clear_and_mp; auto. apply V.
  - apply clear_and_mm; auto; [apply V|apply V'].
Qed.
Theorem clear_sub : (exists p, g = GPolygon p) -> clear (shaped_sub fuel shape g g').
Proof.
  intros (p & Ep). apply (clear_intro _ _ (drawn_sub g g' shape fuel V V' Fuel)). pose proof F as F'. clear F. intros o E. subst g.
  destruct g'; try contradiction; cbn [shaped_sub parts_of] in *; injection E as <-.
  - apply clear_sub_pp; auto.
  - apply clear_sub_pm; auto. apply V'.
Qed.
Theorem clear_or : (exists p, g = GPolygon p) -> (exists p, g' = GPolygon p) -> clear (shaped_or fuel shape g g').
Proof.
  intros (p & Ep) (p' & Ep'). apply (clear_intro _ _ (drawn_or g g' shape fuel V V' Fuel)). pose proof F as F'. clear F. intros o E. subst g g'.
  cbn [shaped_or parts_of] in *; injection E as <-. apply clear_or_pp; auto.
Qed.
Theorem clear_xor : (exists p, g = GPolygon p) -> (exists p, g' = GPolygon p) -> clear (shaped_xor fuel shape g g').
Proof.
  intros (p & Ep) (p' & Ep'). apply (clear_intro _ _ (drawn_xor g g' shape fuel V V' Fuel)). pose proof F as F'. clear F. intros o E. subst g g'.
  cbn [shaped_xor parts_of] in *; injection E as <-. apply clear_xor_pp; auto.
Qed.
End Four.
