(** Both sides of the outline of the result of each operator. *)
From Coq Require Import QArith Qcanon Bool List Arith Lia Permutation.
From Verif Require Import QcTac Model_Base Model_Utils Model_Box Model_Geometry Model_Contour Model_Linear Model_Mixed Model_Shaped Model_Multipolygon Spec_Base Spec_Segment Spec_Clip Spec_Contour
  Spec_Relate Spec_Bounds Spec_Sweep Spec_Shaped Spec_Multipolygon Spec_RelateShaped Spec_Tight
  Proof_Base Proof_Line Proof_SegRel Proof_SegOps Proof_Relate6 Proof_SegLoops Proof_Contour Proof_Contour2 Proof_Edges Proof_Bounds Proof_Shrink Proof_Locate Proof_Locate3 Proof_Locate4 Proof_Sweep4 Proof_Sweep6 Proof_Sweep18 Proof_Parity
  Proof_Corner Proof_Region Proof_Ray Proof_Orient Proof_Nested Proof_Nested2 Proof_Bridge Proof_Odd Proof_Clip Proof_Ready Proof_Polygons Proof_Multi Proof_Multi2 Proof_Multi3 Proof_Multi4
  Proof_RelateShaped Proof_RelateMulti3 Proof_Mix6 Proof_Tight1 Proof_Tight2 Proof_Tight3 Proof_Tight4.
Import ListNotations.
Local Open Scope Qc_scope.

(** A box that holds the outlines. *)
Definition holds (l : list polygon) (b : box) : Prop := forall x, on_segs (O l) x -> in_box b x.
Lemma rings_box l p e : In p l -> In e (outlines (rings p)) -> In e (O l).
Proof. intros I J. rewrite outlines_rings. apply in_flat_map. exists p. auto. Qed.
Lemma list_edge l e : In e (O l) -> exists p, In p l /\ In e (outlines (rings p)).
Proof. rewrite outlines_rings. intros I. apply in_flat_map in I. exact I. Qed.
Lemma each_valid l p : valid_polygons l -> In p l -> valid_polygon p.
Proof. intros V I. pose proof (vm_each _ V) as E. rewrite Forall_forall in E. auto. Qed.
Lemma holds_list l : valid_polygons l -> holds l (multipolygon_box l).
Proof.
  intros V x (e & I & Q). destruct (list_edge l e I) as (p & Ip & J). apply (boxes_list l p x Ip). apply boundary_box; [apply (each_valid l p V Ip)|]. exists e. auto.
Qed.
Lemma holds_one p : valid_polygon p -> holds [p] (polygon_box p).
Proof. intros V x (e & I & Q). destruct (list_edge _ e I) as (p' & [<-|[]] & J). apply boundary_box; auto. exists e. auto. Qed.
Lemma corner_apart b b' e g : do_boxes_have_no_common_continuum b b' = true -> (forall x, on_seg e x -> in_box b x) -> (forall x, on_seg g x -> in_box b' x) -> ~ share_continuum e g.
Proof.
  intros D H H' (p & q & N & A & B & C & E). destruct (corner b b' D) as (z & Z). apply N. rewrite (Z p), (Z q); auto.
Qed.
Lemma boxes_lines l l' b b' : holds l b -> holds l' b' -> do_boxes_have_no_common_continuum b b' = true -> forall e g, In e (O l) -> In g (O l') -> ~ share_continuum e g.
Proof. intros H H' D e g I J. apply (corner_apart b b'); auto; intros x Q; [apply H; exists e|apply H'; exists g]; auto. Qed.
Lemma dropped_lines l l' b' : valid_polygons l -> holds l' b' ->
  forall e g, In e (O (filter (fun p => negb (do_boxes_have_common_continuum (polygon_box p) b')) l)) -> In g (O l') -> ~ share_continuum e g.
Proof.
  intros V H' e g I J. destruct (list_edge _ e I) as (p & Ip & K). apply filter_In in Ip. destruct Ip as [Ip D]. rewrite common_continuum_negb, negb_involutive in D.
  apply (corner_apart (polygon_box p) b' e g D); [intros x Q; apply boundary_box; [apply (each_valid l p V Ip)|exists e; auto]|intros x Q; apply H'; exists g; auto].
Qed.
Lemma none_lines l l' b' : valid_polygons l -> holds l' b' -> sharing_continuum b' l = [] -> forall e g, In e (O l) -> In g (O l') -> ~ share_continuum e g.
Proof. intros V H' E e g I J. apply (dropped_lines l l' b' V H' e g); auto. unfold sharing_continuum in E. rewrite (filter_none _ _ E). auto. Qed.
Lemma none_lines' l l' b : valid_polygons l' -> holds l b -> sharing_continuum b l' = [] -> forall e g, In e (O l) -> In g (O l') -> ~ share_continuum e g.
Proof. intros V' H E e g I J Sh. apply (none_lines l' l b V' H E g e); auto. apply share_continuum_sym; auto. Qed.
Lemma area_dropped_boxes l b' p : In p (filter (fun p => negb (do_boxes_have_common_area (polygon_box p) b')) l) -> do_boxes_have_no_common_area (polygon_box p) b' = true.
Proof. intros I. apply filter_In in I. destruct I as [_ D]. rewrite common_area_negb, negb_involutive in D. auto. Qed.

Section Plain.
Variables l l' : list polygon.
Hypothesis V : valid_polygons l.
Hypothesis V' : valid_polygons l'.
Lemma tight_empty : tight_out l l' (Clips GEmpty).
Proof. intros g Q. injection Q as <-. split; [intros x d v (e & [] & _)|constructor]. Qed.
Lemma tight_both : (forall e g, In e (O l) -> In g (O l') -> ~ share_continuum e g) -> tight_out l l' (clip_of (new_multipolygon (l ++ l'))).
Proof.
  intros X. apply (tight_of _ l l' (l ++ l')).
  - intros g E. unfold new_multipolygon in E. destruct (_ <? 2)%nat; [discriminate|]. injection E as <-. auto.
  - change (flat_map rings (l ++ l')) with ([] ++ flat_map rings (l ++ l')). apply (join_sides [] (O l ++ O l') []).
    + cbn [app]. rewrite flat_map_app, outlines_app. apply overlaps_app; auto; apply no_overlaps_nc, vm_edges; auto.
    + intros v; reflexivity.
    + apply Forall_app. split; [apply (proj1 (vm_edges _ V))|apply (proj1 (vm_edges _ V'))].
    + intros x (e & [] & _).
    + auto.
  - apply simple_app; apply simple_list; auto.
Qed.
Lemma tight_minuend g : geometry_rings g = flat_map rings l -> tight_out l l' (Clips g).
Proof.
  intros R g' Q. injection Q as <-. rewrite R. split; [|apply simple_list; auto]. change (flat_map rings l) with ([] ++ flat_map rings l) at 2. apply (join_sides [] (O l ++ O l') []).
  - cbn [app]. apply no_overlaps_nc, vm_edges; auto.
  - intros v; reflexivity.
  - apply Forall_app. split; [apply (proj1 (vm_edges _ V))|apply (proj1 (vm_edges _ V'))].
  - intros x (e & [] & _).
  - auto.
Qed.
End Plain.
Lemma nothing_lines (p : polygon) l : forall e g, In e (O (filter (fun _ => negb true) [p])) -> In g (O l) -> ~ share_continuum e g.
Proof. intros e g []. Qed.
Lemma tight_ext l l' a b : a = b -> tight_out l l' a -> tight_out l l' b.
Proof. intros ->. auto. Qed.

Section Multi.
Variables (shape : tree_shape) (fuel : nat).
Variables l l' : list polygon.
Hypothesis V : valid_polygons l.
Hypothesis V' : valid_polygons l'.
Hypothesis Fuel : (enough (lists_count l l') <= fuel)%nat.
Notation box := (multipolygon_box l). Notation box' := (multipolygon_box l').
Let Hd : holds l box := holds_list l V.
Let Hd' : holds l' box' := holds_list l' V'.
Let Bd' : bounds l' box' := list_box l'.

Theorem tight_and_mm : tight_out l l' (intersect_multipolygon_with_multipolygon fuel shape l l').
Proof.
  unfold intersect_multipolygon_with_multipolygon. destruct (do_boxes_have_no_common_area box box') eqn:D; [apply tight_empty|].
  destruct (sharing_area box' l) as [|p k] eqn:K; [apply tight_empty|].
  destruct (sharing_area box l') as [|p' k'] eqn:K'; [apply tight_empty|].
  rewrite <- K, <- K'. unfold sharing_area. apply tight_intersection; auto; apply spread_of.
Qed.
Theorem tight_or_mm : tight_out l l' (unite_multipolygon_with_multipolygon fuel shape l l').
Proof.
  unfold unite_multipolygon_with_multipolygon. destruct (do_boxes_have_no_common_continuum box box') eqn:D; [apply tight_both; auto; apply (boxes_lines l l' box box'); auto|].
  destruct (sharing_continuum box' l) as [|p k] eqn:K; [apply tight_both; auto; apply (none_lines l l' box'); auto|].
  destruct (sharing_continuum box l') as [|p' k'] eqn:K'; [apply tight_both; auto; apply (none_lines' l l' box); auto|].
  rewrite <- K, <- K'. unfold sharing_continuum, not_sharing_continuum.
  apply tight_union; auto; apply dropped_lines; auto.
Qed.
Theorem tight_sub_mm : tight_out l l' (subtract_multipolygon_from_multipolygon fuel shape l l').
Proof.
  unfold subtract_multipolygon_from_multipolygon. destruct (do_boxes_have_no_common_area box box') eqn:D; [apply tight_minuend; auto|].
  destruct (sharing_area box' l) as [|p k] eqn:K; [apply tight_minuend; auto|].
  destruct (sharing_area box l') as [|p' k'] eqn:K'; [apply tight_minuend; auto|].
  rewrite <- K, <- K'. unfold sharing_area, not_sharing_area.
  apply (tight_difference l l' V V' _ _ shape fuel Fuel _ _ box'); auto; [apply spread_of|intros x; apply area_dropped_boxes].
Qed.
Theorem tight_xor_mm : tight_out l l' (symmetric_subtract_multipolygon_from_multipolygon fuel shape l l').
Proof.
  unfold symmetric_subtract_multipolygon_from_multipolygon. destruct (do_boxes_have_no_common_continuum box box') eqn:D; [apply tight_both; auto; apply (boxes_lines l l' box box'); auto|].
  destruct (sharing_continuum box' l) as [|p k] eqn:K; [apply tight_both; auto; apply (none_lines l l' box'); auto|].
  destruct (sharing_continuum box l') as [|p' k'] eqn:K'; [apply tight_both; auto; apply (none_lines' l l' box); auto|].
  rewrite <- K, <- K'. unfold sharing_continuum, not_sharing_continuum.
  apply tight_symmetric; auto; apply dropped_lines; auto.
Qed.
End Multi.

Section Left.
Variables (shape : tree_shape) (fuel : nat).
Variables (l : list polygon) (p : polygon).
Hypothesis V : valid_polygons l.
Hypothesis V' : valid_polygon p.
Hypothesis Fuel : (enough (lists_count l [p]) <= fuel)%nat.
Notation box := (multipolygon_box l). Notation box' := (polygon_box p).
Let Hd : holds l box := holds_list l V.
Let Hd' : holds [p] box' := holds_one p V'.
Let Bd' : bounds [p] box' := bounds_one p.
Let Vp : valid_polygons [p] := valid_one p V'.
Let Keep : filter (fun _ : polygon => true) [p] = [p] := keep_one p.

Theorem tight_and_mp : tight_out l [p] (intersect_multipolygon_with_polygon fuel shape l p).
Proof.
  unfold intersect_multipolygon_with_polygon. destruct (do_boxes_have_no_common_area box box') eqn:D; [apply tight_empty|].
  destruct (sharing_area box' l) as [|x k] eqn:K; [apply tight_empty|].
  rewrite <- K. unfold sharing_area. rewrite <- segments_one, <- Keep.
  apply tight_intersection; auto; [apply spread_of|apply spread_one].
Qed.
Theorem tight_or_mp : tight_out l [p] (unite_multipolygon_with_polygon fuel shape l p).
Proof.
  unfold unite_multipolygon_with_polygon. destruct (do_boxes_have_no_common_continuum box box') eqn:D; [apply tight_both; auto; apply (boxes_lines l [p] box box'); auto|].
  destruct (sharing_continuum box' l) as [|x k] eqn:K; [apply tight_both; auto; apply (none_lines l [p] box'); auto|].
  rewrite <- K. unfold sharing_continuum, not_sharing_continuum. rewrite <- segments_one, <- Keep at 1.
  eapply tight_ext; [apply clip_collect; intros ps; rewrite <- (app_nil_r (filter _ l)), <- (filter_const_false [p]); reflexivity|].
  apply tight_union; auto; first [apply dropped_lines; solve [auto]|apply nothing_lines].
Qed.
Theorem tight_sub_mp : tight_out l [p] (subtract_polygon_from_multipolygon fuel shape l p).
Proof.
  unfold subtract_polygon_from_multipolygon. destruct (do_boxes_have_no_common_area box box') eqn:D; [apply tight_minuend; auto|].
  destruct (sharing_area box' l) as [|x k] eqn:K; [apply tight_minuend; auto|].
  rewrite <- K. unfold sharing_area, not_sharing_area. rewrite <- segments_one, <- Keep.
  apply (tight_difference l _ V Vp _ _ shape fuel Fuel _ _ box'); auto; [apply spread_of|intros y; apply area_dropped_boxes].
Qed.
Theorem tight_xor_mp : tight_out l [p] (symmetric_subtract_polygon_from_multipolygon fuel shape l p).
Proof.
  unfold symmetric_subtract_polygon_from_multipolygon. destruct (do_boxes_have_no_common_continuum box box') eqn:D; [apply tight_both; auto; apply (boxes_lines l [p] box box'); auto|].
  destruct (sharing_continuum box' l) as [|x k] eqn:K; [apply tight_both; auto; apply (none_lines l [p] box'); auto|].
  rewrite <- K. unfold sharing_continuum, not_sharing_continuum. rewrite <- segments_one, <- Keep at 1.
  eapply tight_ext; [apply clip_collect; intros ps; rewrite <- (app_nil_r (filter _ l)), <- (filter_const_false [p]); reflexivity|].
  apply tight_symmetric; auto; first [apply dropped_lines; solve [auto]|apply nothing_lines].
Qed.
End Left.

Section Right.
Variables (shape : tree_shape) (fuel : nat).
Variables (p : polygon) (l : list polygon).
Hypothesis V : valid_polygon p.
Hypothesis V' : valid_polygons l.
Hypothesis Fuel : (enough (lists_count [p] l) <= fuel)%nat.
Notation box := (polygon_box p). Notation box' := (multipolygon_box l).
Let Hd : holds [p] box := holds_one p V.
Let Hd' : holds l box' := holds_list l V'.
Let Bd' : bounds l box' := list_box l.
Let Vp : valid_polygons [p] := valid_one p V.
Let Keep : filter (fun _ : polygon => true) [p] = [p] := keep_one p.

Theorem tight_and_pm : tight_out [p] l (intersect_polygon_with_multipolygon fuel shape p l).
Proof.
  unfold intersect_polygon_with_multipolygon. destruct (do_boxes_have_no_common_area box box') eqn:D; [apply tight_empty|].
  destruct (sharing_area box l) as [|x k] eqn:K; [apply tight_empty|].
  rewrite <- K. unfold sharing_area. rewrite <- segments_one, <- Keep.
  apply tight_intersection; auto; [apply spread_one|apply spread_of].
Qed.
Theorem tight_or_pm : tight_out [p] l (unite_polygon_with_multipolygon fuel shape p l).
Proof.
  unfold unite_polygon_with_multipolygon. destruct (do_boxes_have_no_common_continuum box box') eqn:D; [apply (tight_both [p] l); auto; apply (boxes_lines [p] l box box'); auto|].
  destruct (sharing_continuum box l) as [|x k] eqn:K; [apply (tight_both [p] l); auto; apply (none_lines' [p] l box); auto|].
  rewrite <- K. unfold sharing_continuum, not_sharing_continuum. rewrite <- segments_one, <- Keep at 1.
  eapply tight_ext; [apply clip_collect; intros ps; rewrite <- (app_nil_l (filter _ l)), <- (filter_const_false [p]); reflexivity|].
  apply tight_union; auto; first [apply nothing_lines|apply dropped_lines; solve [auto]].
Qed.
Theorem tight_sub_pm : tight_out [p] l (subtract_multipolygon_from_polygon fuel shape p l).
Proof.
  unfold subtract_multipolygon_from_polygon. assert (R1 : geometry_rings (GPolygon p) = flat_map rings [p]) by (cbn [geometry_rings flat_map]; rewrite app_nil_r; auto).
  destruct (do_boxes_have_no_common_area box box') eqn:D; [apply tight_minuend; auto|].
  destruct (sharing_area box l) as [|x k] eqn:K; [apply tight_minuend; auto|].
  rewrite <- K. unfold sharing_area. rewrite <- segments_one.
  rewrite (clip_collect _ collect_maybe_empty_polygons (fun ps => collect_maybe_empty_polygons (ps ++ filter (fun _ : polygon => negb true) [p])))
    by (intros ps; rewrite filter_const_false, app_nil_r; auto).
  change (polygons_segments [p]) with (polygons_segments (filter (fun _ => true) [p])).
  apply (tight_difference _ l Vp V' _ _ shape fuel Fuel _ _ box'); [apply spread_one|exact Bd'|exact Hd'|intros y []].
Qed.
Theorem tight_xor_pm : tight_out [p] l (symmetric_subtract_multipolygon_from_polygon fuel shape p l).
Proof.
  unfold symmetric_subtract_multipolygon_from_polygon. destruct (do_boxes_have_no_common_continuum box box') eqn:D; [apply (tight_both [p] l); auto; apply (boxes_lines [p] l box box'); auto|].
  destruct (sharing_continuum box l) as [|x k] eqn:K; [apply (tight_both [p] l); auto; apply (none_lines' [p] l box); auto|].
  rewrite <- K. unfold sharing_continuum, not_sharing_continuum. rewrite <- segments_one, <- Keep at 1.
  eapply tight_ext; [apply clip_collect; intros ps; rewrite <- (app_nil_l (filter _ l)), <- (filter_const_false [p]); reflexivity|].
  apply tight_symmetric; auto; first [apply nothing_lines|apply dropped_lines; solve [auto]].
Qed.
End Right.

Section Two.
Variables (shape : tree_shape) (fuel : nat).
Variables p p' : polygon.
Hypothesis V : valid_polygon p.
Hypothesis V' : valid_polygon p'.
Hypothesis Fuel : (enough (lists_count [p] [p']) <= fuel)%nat.
Notation box := (polygon_box p). Notation box' := (polygon_box p').
Let Hd : holds [p] box := holds_one p V.
Let Hd' : holds [p'] box' := holds_one p' V'.
Let Bd' : bounds [p'] box' := bounds_one p'.
Let Vp : valid_polygons [p] := valid_one p V.
Let Vp' : valid_polygons [p'] := valid_one p' V'.
Let Keep : filter (fun _ : polygon => true) [p] = [p] := keep_one p.
Let Keep' : filter (fun _ : polygon => true) [p'] = [p'] := keep_one p'.

Theorem tight_and_pp : tight_out [p] [p'] (intersect_polygon_with_polygon fuel shape p p').
Proof.
  unfold intersect_polygon_with_polygon. destruct (do_boxes_have_no_common_area (bounding_box (GPolygon p)) (bounding_box (GPolygon p'))) eqn:D; [apply tight_empty|].
  rewrite <- !segments_one, <- Keep, <- Keep'. cbn [filter].
  apply (tight_intersection [p] [p'] Vp Vp' (fun _ => true) (fun _ => true) shape fuel Fuel); [apply spread_one|apply spread_one].
Qed.
Theorem tight_or_pp : tight_out [p] [p'] (unite_polygon_with_polygon fuel shape p p').
Proof.
  unfold unite_polygon_with_polygon. destruct (do_boxes_have_no_common_continuum (bounding_box (GPolygon p)) (bounding_box (GPolygon p'))) eqn:D; [apply (tight_both [p] [p']); auto; apply (boxes_lines [p] [p'] box box'); auto|].
  rewrite <- !segments_one.
  rewrite (clip_collect _ collect_non_empty_polygons (fun ps => collect_non_empty_polygons (ps ++ filter (fun _ : polygon => negb true) [p] ++ filter (fun _ : polygon => negb true) [p'])))
    by (intros ps; cbn [filter negb app]; rewrite app_nil_r; auto).
  apply (tight_union [p] [p'] Vp Vp' (fun _ => true) (fun _ => true) shape fuel Fuel); apply nothing_lines.
Qed.
Theorem tight_sub_pp : tight_out [p] [p'] (subtract_polygon_from_polygon fuel shape p p').
Proof.
  unfold subtract_polygon_from_polygon. assert (R1 : geometry_rings (GPolygon p) = flat_map rings [p]) by (cbn [geometry_rings flat_map]; rewrite app_nil_r; auto).
  destruct (do_boxes_have_no_common_area (bounding_box (GPolygon p)) (bounding_box (GPolygon p'))) eqn:D; [apply tight_minuend; auto|].
  rewrite <- !segments_one.
  rewrite (clip_collect _ collect_maybe_empty_polygons (fun ps => collect_maybe_empty_polygons (ps ++ filter (fun _ : polygon => negb true) [p])))
    by (intros ps; rewrite filter_const_false, app_nil_r; auto).
  apply (tight_difference [p] [p'] Vp Vp' (fun _ => true) (fun _ => true) shape fuel Fuel _ _ box'); [apply spread_one|exact Bd'|exact Hd'|intros y []].
Qed.
Theorem tight_xor_pp : tight_out [p] [p'] (symmetric_subtract_polygon_from_polygon fuel shape p p').
Proof.
  unfold symmetric_subtract_polygon_from_polygon. destruct (do_boxes_have_no_common_continuum (bounding_box (GPolygon p)) (bounding_box (GPolygon p'))) eqn:D; [apply (tight_both [p] [p']); auto; apply (boxes_lines [p] [p'] box box'); auto|].
  rewrite <- !segments_one.
  rewrite (clip_collect _ collect_maybe_empty_polygons (fun ps => collect_maybe_empty_polygons (ps ++ filter (fun _ : polygon => negb true) [p] ++ filter (fun _ : polygon => negb true) [p'])))
    by (intros ps; cbn [filter negb app]; rewrite app_nil_r; auto).
  apply (tight_symmetric [p] [p'] Vp Vp' (fun _ => true) (fun _ => true) shape fuel Fuel); apply nothing_lines.
Qed.
End Two.
