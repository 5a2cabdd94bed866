From Coq Require Import QArith Qcanon Bool List ZArith Lia.
From Verif Require Import QcTac Model_Base Model_Box Model_Geometry
  Model_Segment Spec_Base Spec_Segment Spec_Bounds Proof_Base Proof_Box Proof_Box2.
Import ListNotations.
Local Open Scope Qc_scope.

Lemma edges_to_contour vs : to_contour_segments vs = edges vs.
Proof. destruct vs; reflexivity. Qed.
Lemma segments_parts g : segments_of g = parts g.
Proof. destruct g; reflexivity. Qed.

Lemma edges_from_In first vs s : In s (edges_from first vs) ->
  In (seg_start s) vs /\ (In (seg_end s) vs \/ seg_end s = first).
Proof.
  revert s. induction vs as [|v vs IH]; intros s; [intros []|].
  cbn. destruct vs as [|w vs].
  - intros [<-|[]]; cbn; auto.
  - intros [<-|I]; [cbn; auto|]. apply IH in I. cbn in *. tauto.
Qed.
Lemma edges_In vs s : In s (edges vs) -> In (seg_start s) vs /\ In (seg_end s) vs.
Proof.
  destruct vs as [|v vs]; [intros []|]. intros I. apply edges_from_In in I.
  destruct I as [A [B|B]]; split; auto. rewrite B; left; auto.
Qed.

(** Boxes are convex. *)
Lemma in_box_between b p q r : in_box b p -> in_box b q -> between p q r -> in_box b r.
Proof.
  intros Hp Hq (t & ? & ? & ->). unfold lerp. box_destr.
  destruct p as [x y], q as [x' y']; cbn in *. repeat split; qnra.
Qed.
Lemma in_box_on_seg b s p :
  in_box b (seg_start s) -> in_box b (seg_end s) -> on_seg s p -> in_box b p.
Proof. apply in_box_between. Qed.

(** A box [b] bounds a list of points exactly. *)
Definition hull_box (b : box) (l : list point) : Prop :=
  valid_box b /\ (forall p, In p l -> in_box b p)
  /\ (forall c, (forall p, In p l -> in_box c p) -> box_subset b c).

Lemma segment_box_hull s : hull_box (segment_bounding_box s) [seg_start s; seg_end s].
Proof.
  destruct s as [[x y] [x' y']]. unfold segment_bounding_box, q_min, q_max; cbn.
  split; [|split].
  - unfold valid_box; cbn. repeat qcase; split; qlra.
  - intros p [<-|[<-|[]]]; unfold in_box; cbn; repeat qcase; repeat split; qlra.
  - intros c K. pose proof (K (Pt x y)) as K1. pose proof (K (Pt x' y')) as K2.
    cbn in *. specialize (K1 (or_introl eq_refl)).
    specialize (K2 (or_intror (or_introl eq_refl))).
    intros [u v]; box_destr; intros. revert H. repeat qcase; intros; repeat split; qlra.
Qed.

Lemma contour_step_valid b v : valid_box b -> valid_box (contour_box_step b v).
Proof.
  unfold contour_box_step; destruct v; box_destr; intros;
  repeat qcase; cbn; split; qlra.
Qed.
Lemma contour_step_hull b v : valid_box b ->
  in_box (contour_box_step b v) v /\ box_subset b (contour_box_step b v)
  /\ forall c, in_box c v -> box_subset b c -> box_subset (contour_box_step b v) c.
Proof.
  intros V. split; [|split].
  - unfold contour_box_step; destruct v; box_destr; repeat qcase; cbn; repeat split; qlra.
  - intros [u w]. unfold contour_box_step; destruct v; box_destr; intros;
      repeat qcase; cbn; repeat split; qlra.
  - intros c Hc K. apply subset_iff in K; auto.
    intros [u w]. unfold contour_box_step; destruct v; box_destr.
    repeat qcase; cbn; intros; repeat split; qlra.
Qed.

Lemma contour_fold_hull vs b l : hull_box b l ->
  hull_box (fold_left contour_box_step vs b) (l ++ vs).
Proof.
  revert b l. induction vs as [|v vs IH]; intros b l H; cbn.
  - rewrite app_nil_r. auto.
  - replace (l ++ v :: vs) with ((l ++ [v]) ++ vs) by (rewrite <- app_assoc; auto).
    apply IH. destruct H as (V & A & B).
    destruct (contour_step_hull b v V) as (C & D & E).
    split; [apply contour_step_valid; auto|]. split.
    + intros p I. apply in_app_or in I. destruct I as [I|[<-|[]]]; auto.
    + intros c K. apply E; [apply K; rewrite in_app_iff; cbn; auto|].
      apply B. intros p I. apply K. rewrite in_app_iff; auto.
Qed.
Lemma point_box_hull v : hull_box (Box (px v) (px v) (py v) (py v)) [v].
Proof.
  destruct v as [x y]. split; [|split].
  - split; cbn; qlra.
  - intros p [<-|[]]. unfold in_box; cbn; repeat split; qlra.
  - intros c K. pose proof (K (Pt x y) (or_introl eq_refl)) as K1.
    intros [u w]. box_destr. intros; repeat split; qlra.
Qed.
Lemma contour_box_hull v vs : hull_box (contour_bounding_box v vs) (v :: vs).
Proof. apply (contour_fold_hull vs _ [v]), point_box_hull. Qed.

Lemma q_min_comm a b : q_min a b = q_min b a.
Proof. unfold q_min. repeat qcase; qlra. Qed.
Lemma q_max_comm a b : q_max a b = q_max b a.
Proof. unfold q_max. repeat qcase; qlra. Qed.
Lemma multisegment_step_merge b s :
  multisegment_box_step b s = merge_step b (segment_bounding_box s).
Proof.
  unfold multisegment_box_step, merge_step, segment_bounding_box; cbn.
  rewrite (q_min_comm (px (seg_end s))), (q_max_comm (px (seg_end s))),
    (q_min_comm (py (seg_end s))), (q_max_comm (py (seg_end s))). reflexivity.
Qed.
Lemma merge_fold_hull (f : list point -> Prop) bs b l :
  hull_box b l -> forall ls, Forall2 hull_box bs ls ->
  hull_box (fold_left merge_step bs b) (l ++ concat ls).
Proof.
  intros H ls F. revert b l H. induction F as [|b' l' bs ls Hb F IH]; intros b l H.
  - cbn. rewrite app_nil_r. auto.
  - cbn. rewrite app_assoc. apply IH.
    destruct H as (V & A & B), Hb as (V' & A' & B').
    destruct (merge_step_lub b b') as (C & D & E).
    split; [apply merge_step_valid; auto|]. split.
    + intros p I. apply in_app_or in I. destruct I; auto.
    + intros c K. apply E; auto; [apply B|apply B']; intros p I; apply K;
      rewrite in_app_iff; auto.
Qed.

Lemma multisegment_box_hull s rest :
  hull_box (multisegment_bounding_box s rest)
    (flat_map (fun s => [seg_start s; seg_end s]) (s :: rest)).
Proof.
  unfold multisegment_bounding_box.
  assert (E : Box (q_min (px (seg_start s)) (px (seg_end s)))
         (q_max (px (seg_start s)) (px (seg_end s)))
         (q_min (py (seg_start s)) (py (seg_end s)))
         (q_max (py (seg_start s)) (py (seg_end s))) = segment_bounding_box s).
  { destruct s as [[x y] [x' y']]. unfold segment_bounding_box, q_min, q_max; cbn.
    f_equal; repeat qcase; qlra. }
  rewrite E.
  assert (F : fold_left multisegment_box_step rest (segment_bounding_box s)
    = fold_left merge_step (map segment_bounding_box rest) (segment_bounding_box s)).
  { generalize (segment_bounding_box s). induction rest as [|t rest IH]; cbn; auto.
    intros b. rewrite multisegment_step_merge. apply IH. }
  rewrite F. cbn [flat_map].
  rewrite flat_map_concat_map.
  apply (merge_fold_hull (fun _ => True)); [apply segment_box_hull|].
  clear. induction rest; cbn; constructor; auto. apply segment_box_hull.
Qed.

Lemma multipolygon_box_hull p ps :
  Forall (fun p => border p <> []) (p :: ps) ->
  hull_box (multipolygon_bounding_box (contour_box (border p))
              (map (fun p => contour_box (border p)) ps))
    (flat_map border (p :: ps)).
Proof.
  intros H. inversion H; subst. cbn [flat_map]. rewrite flat_map_concat_map.
  assert (G : forall p, border p <> [] -> hull_box (contour_box (border p)) (border p)).
  { intros q Hq. destruct (border q) as [|v vs]; [congruence|]. apply contour_box_hull. }
  apply (merge_fold_hull (fun _ => True)); auto.
  clear - H3 G. induction H3; cbn; constructor; auto.
Qed.

Lemma bounding_box_hull g : constructed g -> hull_box (bounding_box g) (vertices_of g).
Proof.
  destruct g; cbn [constructed bounding_box vertices_of]; intros H; [tauto| | | | |].
  - apply segment_box_hull.
  - destruct segments; [cbn in H; lia|]. apply multisegment_box_hull.
  - destruct vertices; [cbn in H; lia|]. apply contour_box_hull.
  - destruct (border p); [cbn in H; lia|]. apply contour_box_hull.
  - destruct H as [H K]. destruct polygons as [|p ps]; [cbn in H; lia|].
    cbn [map]. apply multipolygon_box_hull.
    eapply Forall_impl; [|exact K]. cbn. intros q Hq E. rewrite E in Hq; cbn in Hq; lia.
Qed.

Lemma outline_in_hull g p : on_outline g p -> forall b,
  (forall v, In v (vertices_of g) -> in_box b v) -> in_box b p.
Proof.
  intros H b K.
  assert (S : forall l, (forall s, In s l -> In (seg_start s) (vertices_of g)
      /\ In (seg_end s) (vertices_of g)) -> on_segs l p -> in_box b p).
  { intros l A (s & I & O). apply A in I. destruct I.
    eapply in_box_on_seg; eauto. }
  destruct g; cbn in H; try contradiction.
  - apply (S [s]); auto. intros t [<-|[]]; cbn; auto.
  - apply (S segments); auto. intros t I. cbn. rewrite !in_flat_map.
    split; exists t; cbn; auto.
  - apply (S (edges vertices)); auto. intros t I. apply edges_In in I. auto.
  - apply (S (edges (border p0))); auto. intros t I. apply edges_In in I. auto.
  - destruct H as (q & I & H). apply (S (edges (border q))); auto.
    intros t J. apply edges_In in J. cbn. rewrite !in_flat_map. split; exists q; tauto.
Qed.

Lemma bounding_box_covers g p : constructed g -> on_outline g p ->
  in_box (bounding_box g) p.
Proof.
  intros C H. destruct (bounding_box_hull g C) as (_ & A & _).
  eapply outline_in_hull; eauto.
Qed.

Lemma vertex_on_outline g v : constructed g -> In v (vertices_of g) -> on_outline g v.
Proof.
  assert (E : forall vs v, In v vs -> on_segs (edges vs) v).
  { clear. intros [|w0 vs] v; [intros []|]. unfold edges.
    generalize (w0 :: vs) as l. intros l. rename w0 into w. clear vs.
    induction l as [|u l IH]; [intros []|]. intros I.
    cbn. destruct l as [|u' l].
    - destruct I as [->|[]]. exists (Seg v w). split; [left; auto|]. apply between_start.
    - destruct I as [->|I].
      + exists (Seg v u'). split; [left; auto|apply between_start].
      + destruct (IH I) as (s & J & O). exists s; split; auto. right; auto. }
  destruct g; cbn; intros C I; try contradiction.
  - exists s. split; [left; auto|]. destruct I as [<-|[<-|[]]];
    [apply between_start|apply between_end].
  - apply in_flat_map in I. destruct I as (s & I & J). exists s. split; auto.
    destruct J as [<-|[<-|[]]]; [apply between_start|apply between_end].
  - apply E; auto.
  - apply E; auto.
  - apply in_flat_map in I. destruct I as (q & I & J). exists q; split; auto.
Qed.

Lemma bounding_box_least g : constructed g ->
  valid_box (bounding_box g)
  /\ (forall p, on_outline g p -> in_box (bounding_box g) p)
  /\ (forall c, (forall p, on_outline g p -> in_box c p) ->
        box_subset (bounding_box g) c).
Proof.
  intros C. destruct (bounding_box_hull g C) as (A & B & D).
  split; auto. split.
  - intros p H. apply bounding_box_covers; auto.
  - intros c K. apply D. intros v I. apply K. apply vertex_on_outline; auto.
Qed.

(** Filters never lose common points. *)
Lemma boxes_not_disjoint g h p : constructed g -> constructed h ->
  on_outline g p -> on_outline h p ->
  box_disjoint_with (bounding_box g) (bounding_box h) = false.
Proof.
  intros A B C D. apply not_true_iff_false. intros E.
  apply disjoint_with_spec in E.
  - apply E. exists p. split; apply bounding_box_covers; auto.
  - apply bounding_box_least; auto.
  - apply bounding_box_least; auto.
Qed.
Lemma boxes_common_continuum g h p q : constructed g -> constructed h -> p <> q ->
  on_outline g p -> on_outline h p -> on_outline g q -> on_outline h q ->
  do_boxes_have_common_continuum (bounding_box g) (bounding_box h) = true.
Proof.
  intros A B N C D E F. apply continuum_filter_complete.
  exists p, q. split; auto. repeat split; apply bounding_box_covers; auto.
Qed.

Lemma relate_predicates a b : solid_box a -> solid_box b ->
  (box_relate_to a b = Some EQUAL <-> box_equals_to a b = true)
  /\ (box_relate_to a b = Some DISJOINT <-> box_disjoint_with a b = true)
  /\ (box_relate_to a b = Some TOUCH <-> box_touches a b = true)
  /\ (box_relate_to a b = Some COVER <-> box_covers a b = true)
  /\ (box_relate_to a b = Some WITHIN <-> box_within a b = true)
  /\ (box_relate_to a b = Some ENCLOSES <-> box_encloses a b = true)
  /\ (box_relate_to a b = Some ENCLOSED <-> box_enclosed_by a b = true)
  /\ (box_relate_to a b = Some OVERLAP <-> box_overlaps a b = true).
Proof.
  intros Ha Hb.
  assert (Va : valid_box a) by (box_destr; split; qlra).
  assert (Vb : valid_box b) by (box_destr; split; qlra).
  rewrite !relate_spec, equals_to_spec, disjoint_with_spec, touches_spec, covers_spec,
    within_spec, encloses_spec, enclosed_by_spec, overlaps_spec by auto.
  cbn. tauto.
Qed.
Lemma degenerate_touch_equal : exists a b, valid_box a /\ valid_box b
  /\ box_touches a b = true /\ box_equals_to a b = true.
Proof.
  exists (Box 0 0 0 0), (Box 0 0 0 0). vm_compute. repeat split; discriminate.
Qed.
