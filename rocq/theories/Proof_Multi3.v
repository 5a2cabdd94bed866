(** The operators on polygons and multipolygons. *)
From Coq Require Import QArith Qcanon Bool List Arith Lia Permutation.
From Verif Require Import QcTac Model_Base Model_Utils Model_Box Model_Geometry Model_Contour Model_Linear Model_Mixed Model_Shaped Model_Multipolygon Spec_Base Spec_Segment Spec_Clip Spec_Contour
  Spec_Relate Spec_Bounds Spec_Sweep Spec_Shaped Spec_Multipolygon
  Proof_SegOps Proof_Base Proof_Line Proof_Contour Proof_Edges Proof_Bounds Proof_Shrink Proof_Locate Proof_Locate3 Proof_Locate4 Proof_SegLoops Proof_Sweep4 Proof_Sweep6 Proof_Sweep18 Proof_Parity
  Proof_Corner Proof_Region Proof_Ray Proof_Orient Proof_Nested Proof_Nested2 Proof_Bridge Proof_Odd Proof_Clip Proof_Ready Proof_Polygons Proof_Multi Proof_Multi2.
Import ListNotations.
Local Open Scope Qc_scope.

Lemma area_apart b b' q : do_boxes_have_no_common_area b b' = true -> inside_box b q -> inside_box b' q -> False.
Proof.
  intros D I J. destruct I as ((I1 & I2) & (I3 & I4)), J as ((J1 & J2) & (J3 & J4)).
  unfold do_boxes_have_no_common_area, box_disjoint_with, box_touches in D.
  repeat rewrite ?orb_true_iff, ?andb_true_iff, ?qltb_true, ?qleb_true, ?qeqb_true in D.
  repeat match goal with H : _ \/ _ |- _ => destruct H | H : _ /\ _ |- _ => destruct H end; qlra.
Qed.
Lemma merge_le acc b : min_x (merge_step acc b) <= min_x acc /\ min_x (merge_step acc b) <= min_x b /\ max_x acc <= max_x (merge_step acc b) /\ max_x b <= max_x (merge_step acc b)
  /\ min_y (merge_step acc b) <= min_y acc /\ min_y (merge_step acc b) <= min_y b /\ max_y acc <= max_y (merge_step acc b) /\ max_y b <= max_y (merge_step acc b).
Proof. unfold merge_step. cbn [min_x max_x min_y max_y]. repeat qcase; repeat split; qlra. Qed.
Definition box_within (b c : box) : Prop := min_x c <= min_x b /\ max_x b <= max_x c /\ min_y c <= min_y b /\ max_y b <= max_y c.
Lemma within_trans a b c : box_within a b -> box_within b c -> box_within a c.
Proof. unfold box_within. intros (A1 & A2 & A3 & A4) (B1 & B2 & B3 & B4). repeat split; qlra. Qed.
Lemma within_refl a : box_within a a.
Proof. repeat split; apply Qcle_refl. Qed.
Lemma merge_within bs : forall acc, box_within acc (fold_left merge_step bs acc) /\ forall b, In b bs -> box_within b (fold_left merge_step bs acc).
Proof.
  induction bs as [|b bs IH]; intros acc; [split; [apply within_refl|intros b []]|]. cbn [fold_left]. destruct (IH (merge_step acc b)) as [I1 I2].
  pose proof (merge_le acc b) as (M1 & M2 & M3 & M4 & M5 & M6 & M7 & M8). split.
  - eapply within_trans; [|exact I1]. repeat split; auto.
  - intros c [<-|I]; auto. eapply within_trans; [|exact I1]. repeat split; auto.
Qed.
Lemma box_in_list l p : In p l -> box_within (polygon_box p) (multipolygon_box l).
Proof.
  intros I. unfold polygon_box, multipolygon_box, bounding_box. destruct l as [|p0 l]; [destruct I|]. cbn [map].
  unfold multipolygon_bounding_box, merge_boxes. destruct (merge_within (map (fun p => contour_box (border p)) l) (contour_box (border p0))) as [M1 M2].
  destruct I as [->|I]; [exact M1|]. apply M2. apply (in_map (fun p => contour_box (border p))); auto.
Qed.
Lemma within_inside b c q : box_within b c -> inside_box b q -> inside_box c q.
Proof. intros (A1 & A2 & A3 & A4) ((B1 & B2) & (B3 & B4)). repeat split; qlra. Qed.
Lemma list_box l q : some_inside l q -> inside_box (multipolygon_box l) q.
Proof. intros (p & I & J). eapply within_inside; [apply box_in_list; exact I|]. apply inside_polygon_box; auto. Qed.

(** A list with a box that bounds the interiors. *)
Definition bounds (l : list polygon) (b : box) : Prop := forall q, some_inside l q -> inside_box b q.
Lemma bounds_one p : bounds [p] (polygon_box p).
Proof. intros q (x & [<-|[]] & I). apply inside_polygon_box; auto. Qed.
Lemma common_area_negb b c : do_boxes_have_common_area b c = negb (do_boxes_have_no_common_area b c).
Proof. unfold do_boxes_have_common_area, do_boxes_have_no_common_area. rewrite negb_orb. auto. Qed.
Lemma common_continuum_negb b c : do_boxes_have_common_continuum b c = negb (do_boxes_have_no_common_continuum b c).
Proof.
  unfold do_boxes_have_common_continuum, do_boxes_have_no_common_continuum.
  destruct (box_disjoint_with b c), (box_touches b c), (qeqb (min_y b) (max_y c)), (qeqb (min_y c) (max_y b)), (qeqb (min_x b) (max_x c)), (qeqb (min_x c) (max_x b)); reflexivity.
Qed.
Lemma area_dropped l l' b q : bounds l' b -> some_inside (filter (fun p => negb (do_boxes_have_common_area (polygon_box p) b)) l) q -> some_inside l' q -> False.
Proof.
  intros Bd (p & I & J) K. apply filter_In in I. destruct I as [I D]. rewrite common_area_negb, negb_involutive in D.
  apply (area_apart _ _ q D); [apply inside_polygon_box; auto|apply Bd; auto].
Qed.
Lemma continuum_dropped l l' b q : bounds l' b -> some_inside (filter (fun p => negb (do_boxes_have_common_continuum (polygon_box p) b)) l) q -> some_inside l' q -> False.
Proof.
  intros Bd (p & I & J) K. apply filter_In in I. destruct I as [I D]. rewrite common_continuum_negb, negb_involutive in D.
  apply (area_apart _ _ q (no_common_continuum_area _ _ D)); [apply inside_polygon_box; auto|apply Bd; auto].
Qed.
Lemma filter_none {T} (f : T -> bool) l : filter f l = [] -> filter (fun x => negb (f x)) l = l.
Proof.
  induction l as [|x l IH]; auto. cbn [filter]. destruct (f x); [discriminate|]. cbn [negb]. intros E. rewrite IH; auto.
Qed.
Lemma filter_const_true {T} (l : list T) : filter (fun _ => true) l = l.
Proof. apply filter_all. Qed.
Lemma filter_const_false {T} (l : list T) : filter (fun _ => negb true) l = [].
Proof. induction l; auto. Qed.

(** The answers without a sweep. *)
Section Plain.
Variables l l' : list polygon.
Hypothesis V : valid_polygons l.
Hypothesis V' : valid_polygons l'.
Hypothesis Ap : forall q, some_inside l q -> some_inside l' q -> False.
Lemma plain_empty : clips_lists and l l' (Clips GEmpty).
Proof.
  exists GEmpty. split; auto. split; [exact I|]. split; [constructor|]. split; [intros x (e & [] & _)|]. intros q O1 O2. cbn [geometry_rings]. rewrite odd_xsum.
  split; [discriminate|]. intros [I1 I2]. exfalso. apply (Ap q); auto.
Qed.
Lemma plain_both (op : Prop -> Prop -> Prop) : (2 <= length (l ++ l'))%nat -> (forall a b : Prop, (a -> b -> False) -> (op a b <-> a \/ b)) -> clips_lists op l l' (clip_of (new_multipolygon (l ++ l'))).
Proof.
  intros L Op. assert (E : new_multipolygon (l ++ l') = Some (GMultipolygon (l ++ l'))) by (unfold new_multipolygon; destruct (length (l ++ l') <? 2)%nat eqn:Q; auto; apply Nat.ltb_lt in Q; lia).
  rewrite E. exists (GMultipolygon (l ++ l')). split; auto. split; [exact L|]. cbn [geometry_rings]. rewrite flat_map_app.
  split; [apply Forall_app; split; apply lists_nondegenerate; auto|].
  split; [intros x O; rewrite outlines_app, on_segs_app in O; exact O|]. intros q O1 O2. rewrite odd_xsum, xsum_app, (Op _ _ (Ap q)).
  specialize (Ap q). rewrite (list_odd l q V O1), (list_odd l' q V' O2) in *.
  clear - Ap. destruct (xsum _ (flat_map rings l)), (xsum _ (flat_map rings l')); cbn; intuition congruence.
Qed.
Lemma plain_minuend g : shaped g -> geometry_rings g = flat_map rings l -> clips_lists (fun a b => a /\ ~ b) l l' (Clips g).
Proof.
  intros Sg Rg. exists g. split; auto. split; auto. rewrite Rg. split; [apply lists_nondegenerate; auto|]. split; auto.
  intros q O1 O2. rewrite odd_xsum, <- (list_odd l q V O1). specialize (Ap q). tauto.
Qed.
End Plain.

Section Drivers.
Variables l l' : list polygon.
Hypothesis V : valid_polygons l.
Hypothesis V' : valid_polygons l'.
Variables b b' : box.
Hypothesis Bd : bounds l b.
Hypothesis Bd' : bounds l' b'.
Lemma boxes_apart : do_boxes_have_no_common_area b b' = true -> forall q, some_inside l q -> some_inside l' q -> False.
Proof. intros D q I J. apply (area_apart b b' q D); auto. Qed.
Lemma none_area : sharing_area b' l = [] -> forall q, some_inside l q -> some_inside l' q -> False.
Proof. intros E q I J. unfold sharing_area in E. apply (area_dropped l l' b' q Bd'); auto. rewrite (filter_none _ _ E). auto. Qed.
Lemma none_area' : sharing_area b l' = [] -> forall q, some_inside l q -> some_inside l' q -> False.
Proof. intros E q I J. unfold sharing_area in E. apply (area_dropped l' l b q Bd); auto. rewrite (filter_none _ _ E). auto. Qed.
Lemma none_continuum : sharing_continuum b' l = [] -> forall q, some_inside l q -> some_inside l' q -> False.
Proof. intros E q I J. unfold sharing_continuum in E. apply (continuum_dropped l l' b' q Bd'); auto. rewrite (filter_none _ _ E). auto. Qed.
Lemma none_continuum' : sharing_continuum b l' = [] -> forall q, some_inside l q -> some_inside l' q -> False.
Proof. intros E q I J. unfold sharing_continuum in E. apply (continuum_dropped l' l b q Bd); auto. rewrite (filter_none _ _ E). auto. Qed.
End Drivers.

Lemma xor_or (a b : Prop) : (a -> b -> False) -> ((a /\ ~ b) \/ (b /\ ~ a) <-> a \/ b).
Proof. tauto. Qed.
Lemma or_or (a b : Prop) : (a -> b -> False) -> (a \/ b <-> a \/ b).
Proof. tauto. Qed.

Lemma segments_one p : polygons_segments [p] = polygon_to_correctly_oriented_segments p.
Proof. unfold polygons_segments. cbn [flat_map]. apply app_nil_r. Qed.
Lemma keep_one (p : polygon) : filter (fun _ => true) [p] = [p]. Proof. reflexivity. Qed.
Lemma nothing_dropped (p : polygon) q : some_inside (filter (fun _ => negb true) [p]) q -> False.
Proof. intros (x & [] & _). Qed.
Lemma clips_ext op l l' a b : a = b -> clips_lists op l l' a -> clips_lists op l l' b.
Proof. intros ->. auto. Qed.

Lemma clip_collect from_result c c' fuel shape limit first second : (forall ps, c ps = c' ps) ->
  clip_polygons from_result c fuel shape limit first second = clip_polygons from_result c' fuel shape limit first second.
Proof.
  intros E. unfold clip_polygons. destruct (clip_shaped first second); auto. destruct (sweep_shaped _ _ _ _ _ _); auto. destruct (reduce_shaped _ _); auto. rewrite E. auto.
Qed.

Section Multi.
Variables (shape : tree_shape) (fuel : nat).
Variables l l' : list polygon.
Hypothesis V : valid_polygons l.
Hypothesis V' : valid_polygons l'.
Hypothesis Fuel : (enough (lists_count l l') <= fuel)%nat.
Notation box := (multipolygon_box l). Notation box' := (multipolygon_box l').
Let Bd : bounds l box := list_box l.
Let Bd' : bounds l' box' := list_box l'.

Theorem and_mm : clips_lists and l l' (intersect_multipolygon_with_multipolygon fuel shape l l').
Proof.
  unfold intersect_multipolygon_with_multipolygon. destruct (do_boxes_have_no_common_area box box') eqn:D; [apply plain_empty, (boxes_apart l l' box box'); auto|].
  destruct (sharing_area box' l) as [|p k] eqn:K; [apply plain_empty, (none_area l l' box'); auto|].
  destruct (sharing_area box l') as [|p' k'] eqn:K'; [apply plain_empty, (none_area' l l' box); auto|].
  rewrite <- K, <- K'. unfold sharing_area.
  apply kept_intersection; auto; [intros q; apply area_dropped; auto|intros q; apply area_dropped; auto|apply spread_of|apply spread_of].
Qed.
Theorem or_mm : (2 <= length (l ++ l'))%nat -> clips_lists or l l' (unite_multipolygon_with_multipolygon fuel shape l l').
Proof.
  intros Ln. unfold unite_multipolygon_with_multipolygon. destruct (do_boxes_have_no_common_continuum box box') eqn:D; [apply plain_both; auto using or_or; apply (boxes_apart l l' box box'); auto using no_common_continuum_area|].
  destruct (sharing_continuum box' l) as [|p k] eqn:K; [apply plain_both; auto using or_or; apply (none_continuum l l' box'); auto|].
  destruct (sharing_continuum box l') as [|p' k'] eqn:K'; [apply plain_both; auto using or_or; apply (none_continuum' l l' box); auto|].
  rewrite <- K, <- K'. unfold sharing_continuum, not_sharing_continuum.
  apply kept_union; auto; [intros q; apply continuum_dropped; auto|intros q; apply continuum_dropped; auto|].
  change (sharing_continuum box' l <> []). rewrite K. discriminate.
Qed.
Theorem sub_mm : (2 <= length l)%nat -> clips_lists (fun a b => a /\ ~ b) l l' (subtract_multipolygon_from_multipolygon fuel shape l l').
Proof.
  intros Ln. unfold subtract_multipolygon_from_multipolygon. destruct (do_boxes_have_no_common_area box box') eqn:D; [apply plain_minuend; auto; apply (boxes_apart l l' box box'); auto|].
  destruct (sharing_area box' l) as [|p k] eqn:K; [apply plain_minuend; auto; apply (none_area l l' box'); auto|].
  destruct (sharing_area box l') as [|p' k'] eqn:K'; [apply plain_minuend; auto; apply (none_area' l l' box); auto|].
  rewrite <- K, <- K'. unfold sharing_area, not_sharing_area.
  apply kept_difference; auto; [intros q; apply area_dropped; auto|intros q; apply area_dropped; auto|apply spread_of].
Qed.
Theorem xor_mm : (2 <= length (l ++ l'))%nat -> clips_lists (fun a b => (a /\ ~ b) \/ (b /\ ~ a)) l l' (symmetric_subtract_multipolygon_from_multipolygon fuel shape l l').
Proof.
  intros Ln. unfold symmetric_subtract_multipolygon_from_multipolygon. destruct (do_boxes_have_no_common_continuum box box') eqn:D; [apply plain_both; auto using xor_or; apply (boxes_apart l l' box box'); auto using no_common_continuum_area|].
  destruct (sharing_continuum box' l) as [|p k] eqn:K; [apply plain_both; auto using xor_or; apply (none_continuum l l' box'); auto|].
  destruct (sharing_continuum box l') as [|p' k'] eqn:K'; [apply plain_both; auto using xor_or; apply (none_continuum' l l' box); auto|].
  rewrite <- K, <- K'. unfold sharing_continuum, not_sharing_continuum.
  apply kept_symmetric; auto; intros q; apply continuum_dropped; auto.
Qed.
End Multi.

Section Left.
Variables (shape : tree_shape) (fuel : nat).
Variables (l : list polygon) (p : polygon).
Hypothesis V : valid_polygons l.
Hypothesis V' : valid_polygon p.
Hypothesis Fuel : (enough (lists_count l [p]) <= fuel)%nat.
Notation box := (multipolygon_box l). Notation box' := (polygon_box p).
Let Bd : bounds l box := list_box l.
Let Bd' : bounds [p] box' := bounds_one p.
Let Vp : valid_polygons [p] := valid_one p V'.
Let Keep : filter (fun _ : polygon => true) [p] = [p] := keep_one p.

Theorem and_mp : clips_lists and l [p] (intersect_multipolygon_with_polygon fuel shape l p).
Proof.
  unfold intersect_multipolygon_with_polygon. destruct (do_boxes_have_no_common_area box box') eqn:D; [apply plain_empty, (boxes_apart l [p] box box'); auto|].
  destruct (sharing_area box' l) as [|x k] eqn:K; [apply plain_empty, (none_area l [p] box'); auto|].
  rewrite <- K. unfold sharing_area. rewrite <- segments_one, <- Keep.
  apply kept_intersection; auto; [intros q; apply area_dropped; auto|intros q Q; destruct (nothing_dropped p q Q)|apply spread_of|apply spread_one].
Qed.
Theorem or_mp : (1 <= length l)%nat -> clips_lists or l [p] (unite_multipolygon_with_polygon fuel shape l p).
Proof.
  intros Ln. assert (Ln' : (2 <= length (l ++ [p]))%nat) by (rewrite app_length; cbn; lia).
  unfold unite_multipolygon_with_polygon. destruct (do_boxes_have_no_common_continuum box box') eqn:D; [apply plain_both; auto using or_or; apply (boxes_apart l [p] box box'); auto using no_common_continuum_area|].
  destruct (sharing_continuum box' l) as [|x k] eqn:K; [apply plain_both; auto using or_or; apply (none_continuum l [p] box'); auto|].
  rewrite <- K. unfold sharing_continuum, not_sharing_continuum. rewrite <- segments_one, <- Keep at 1.
  eapply clips_ext; [apply clip_collect; intros ps; rewrite <- (app_nil_r (filter _ l)), <- (filter_const_false [p]); reflexivity|].
  apply kept_union; auto; [intros q; apply continuum_dropped; auto|intros q Q; destruct (nothing_dropped p q Q)|].
  change (sharing_continuum box' l <> []). rewrite K. discriminate.
Qed.
Theorem sub_mp : (2 <= length l)%nat -> clips_lists (fun a b => a /\ ~ b) l [p] (subtract_polygon_from_multipolygon fuel shape l p).
Proof.
  intros Ln. unfold subtract_polygon_from_multipolygon. destruct (do_boxes_have_no_common_area box box') eqn:D; [apply plain_minuend; auto; apply (boxes_apart l [p] box box'); auto|].
  destruct (sharing_area box' l) as [|x k] eqn:K; [apply plain_minuend; auto; apply (none_area l [p] box'); auto|].
  rewrite <- K. unfold sharing_area, not_sharing_area. rewrite <- segments_one, <- Keep.
  apply kept_difference; auto; [intros q; apply area_dropped; auto|intros q Q; destruct (nothing_dropped p q Q)|apply spread_of].
Qed.
Theorem xor_mp : (1 <= length l)%nat -> clips_lists (fun a b => (a /\ ~ b) \/ (b /\ ~ a)) l [p] (symmetric_subtract_polygon_from_multipolygon fuel shape l p).
Proof.
  intros Ln. assert (Ln' : (2 <= length (l ++ [p]))%nat) by (rewrite app_length; cbn; lia).
  unfold symmetric_subtract_polygon_from_multipolygon. destruct (do_boxes_have_no_common_continuum box box') eqn:D; [apply plain_both; auto using xor_or; apply (boxes_apart l [p] box box'); auto using no_common_continuum_area|].
  destruct (sharing_continuum box' l) as [|x k] eqn:K; [apply plain_both; auto using xor_or; apply (none_continuum l [p] box'); auto|].
  rewrite <- K. unfold sharing_continuum, not_sharing_continuum. rewrite <- segments_one, <- Keep at 1.
  eapply clips_ext; [apply clip_collect; intros ps; rewrite <- (app_nil_r (filter _ l)), <- (filter_const_false [p]); reflexivity|].
  apply kept_symmetric; auto; [intros q; apply continuum_dropped; auto|intros q Q; destruct (nothing_dropped p q Q)].
Qed.
End Left.

Section Right.
Variables (shape : tree_shape) (fuel : nat).
Variables (p : polygon) (l : list polygon).
Hypothesis V : valid_polygon p.
Hypothesis V' : valid_polygons l.
Hypothesis Fuel : (enough (lists_count [p] l) <= fuel)%nat.
Notation box := (polygon_box p). Notation box' := (multipolygon_box l).
Let Bd : bounds [p] box := bounds_one p.
Let Bd' : bounds l box' := list_box l.
Let Vp : valid_polygons [p] := valid_one p V.
Let Keep : filter (fun _ : polygon => true) [p] = [p] := keep_one p.

Theorem and_pm : clips_lists and [p] l (intersect_polygon_with_multipolygon fuel shape p l).
Proof.
  unfold intersect_polygon_with_multipolygon. destruct (do_boxes_have_no_common_area box box') eqn:D; [apply plain_empty, (boxes_apart [p] l box box'); auto|].
  destruct (sharing_area box l) as [|x k] eqn:K; [apply plain_empty, (none_area' [p] l box); auto|].
  rewrite <- K. unfold sharing_area. rewrite <- segments_one, <- Keep.
  apply kept_intersection; auto; [intros q Q; destruct (nothing_dropped p q Q)|intros q; apply area_dropped; auto|apply spread_one|apply spread_of].
Qed.
Theorem or_pm : (1 <= length l)%nat -> clips_lists or [p] l (unite_polygon_with_multipolygon fuel shape p l).
Proof.
  intros Ln. assert (Ln' : (2 <= length ([p] ++ l))%nat) by (rewrite app_length; cbn; lia).
  unfold unite_polygon_with_multipolygon. destruct (do_boxes_have_no_common_continuum box box') eqn:D; [apply (plain_both [p] l); auto using or_or; apply (boxes_apart [p] l box box'); auto using no_common_continuum_area|].
  destruct (sharing_continuum box l) as [|x k] eqn:K; [apply (plain_both [p] l); auto using or_or; apply (none_continuum' [p] l box); auto|].
  rewrite <- K. unfold sharing_continuum, not_sharing_continuum. rewrite <- segments_one, <- Keep at 1.
  eapply clips_ext; [apply clip_collect; intros ps; rewrite <- (app_nil_l (filter _ l)), <- (filter_const_false [p]); reflexivity|].
  apply kept_union; auto; [intros q Q; destruct (nothing_dropped p q Q)|intros q; apply continuum_dropped; auto|discriminate].
Qed.
Theorem sub_pm : clips_lists (fun a b => a /\ ~ b) [p] l (subtract_multipolygon_from_polygon fuel shape p l).
Proof.
  unfold subtract_multipolygon_from_polygon. assert (R1 : geometry_rings (GPolygon p) = flat_map rings [p]) by (cbn [geometry_rings flat_map]; rewrite app_nil_r; auto).
  destruct (do_boxes_have_no_common_area box box') eqn:D; [apply plain_minuend; auto; [apply (boxes_apart [p] l box box'); auto|exact I]|].
  destruct (sharing_area box l) as [|x k] eqn:K; [apply plain_minuend; auto; [apply (none_area' [p] l box); auto|exact I]|].
  rewrite <- K. unfold sharing_area. rewrite <- segments_one.
  rewrite (clip_collect _ collect_maybe_empty_polygons (fun ps => collect_maybe_empty_polygons (ps ++ filter (fun _ : polygon => negb true) [p])))
    by (intros ps; rewrite filter_const_false, app_nil_r; auto).
  change (polygons_segments [p]) with (polygons_segments (filter (fun _ => true) [p])).
  apply kept_difference; auto; [intros q Q; destruct (nothing_dropped p q Q)|intros q; apply area_dropped; auto|apply spread_one].
Qed.
Theorem xor_pm : (1 <= length l)%nat -> clips_lists (fun a b => (a /\ ~ b) \/ (b /\ ~ a)) [p] l (symmetric_subtract_multipolygon_from_polygon fuel shape p l).
Proof.
  intros Ln. assert (Ln' : (2 <= length ([p] ++ l))%nat) by (rewrite app_length; cbn; lia).
  unfold symmetric_subtract_multipolygon_from_polygon. destruct (do_boxes_have_no_common_continuum box box') eqn:D; [apply (plain_both [p] l); auto using xor_or; apply (boxes_apart [p] l box box'); auto using no_common_continuum_area|].
  destruct (sharing_continuum box l) as [|x k] eqn:K; [apply (plain_both [p] l); auto using xor_or; apply (none_continuum' [p] l box); auto|].
  rewrite <- K. unfold sharing_continuum, not_sharing_continuum. rewrite <- segments_one, <- Keep at 1.
  eapply clips_ext; [apply clip_collect; intros ps; rewrite <- (app_nil_l (filter _ l)), <- (filter_const_false [p]); reflexivity|].
  apply kept_symmetric; auto; [intros q Q; destruct (nothing_dropped p q Q)|intros q; apply continuum_dropped; auto].
Qed.
End Right.
