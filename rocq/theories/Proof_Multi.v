(** Lists of valid polygons: their oriented segments and their interiors. *)
From Coq Require Import QArith Qcanon Bool List Arith Lia Permutation.
From Verif Require Import QcTac Model_Base Model_Utils Model_Box Model_Geometry Model_Contour Model_Linear Model_Mixed Model_Shaped Model_Multipolygon Spec_Base Spec_Segment Spec_Clip Spec_Contour
  Spec_Relate Spec_Bounds Spec_Sweep Spec_Shaped Spec_Multipolygon
  Proof_SegOps Proof_Base Proof_Line Proof_Contour Proof_Edges Proof_Bounds Proof_Shrink Proof_Locate Proof_Locate3 Proof_Locate4 Proof_SegLoops Proof_Sweep4 Proof_Sweep6 Proof_Sweep18 Proof_Parity
  Proof_Corner Proof_Region Proof_Ray Proof_Orient Proof_Nested Proof_Nested2 Proof_Bridge Proof_Odd Proof_Clip Proof_Ready Proof_Polygons.
Import ListNotations.
Local Open Scope Qc_scope.

Definition some_inside (l : list polygon) (q : point) : Prop := exists p, In p l /\ inside_polygon p q.
Notation ins q := (fun vs => insideb vs q).

Lemma outlines_app a b : outlines (a ++ b) = outlines a ++ outlines b.
Proof. unfold outlines. apply flat_map_app. Qed.
Lemma inside_off p q : inside_polygon p q -> off_outlines (rings p) q.
Proof.
  intros I O. destruct p as [b hs]. destruct (api_polygon b hs q) as (A & _). apply A in I. destruct I as [I1 I2].
  apply on_outlines in O. destruct O as (vs & [<-|J] & O); apply api_boundary in O; cbn [border holes] in *; [congruence|]. rewrite I2 in O by auto. discriminate O.
Qed.
Lemma off_app a b q : off_outlines (a ++ b) q <-> off_outlines a q /\ off_outlines b q.
Proof. unfold off_outlines. rewrite outlines_app, on_segs_app. tauto. Qed.
Lemma valid_tail p l : valid_polygons (p :: l) -> valid_polygon p /\ valid_polygons l /\ forall p', In p' l -> forall q, ~ (inside_polygon p q /\ inside_polygon p' q).
Proof.
  intros [V1 V2 V3]. inversion V1; subst. inversion V3 as [|? ? F1 F2]; subst. split; auto. split.
  - constructor; auto. cbn [flat_map] in V2. rewrite outlines_app in V2. destruct V2 as [P F]. apply Forall_app in P. apply FOP_app_inv in F. split; tauto.
  - rewrite Forall_forall in F1. auto.
Qed.
Lemma valid_one p : valid_polygon p -> valid_polygons [p].
Proof.
  intros V. constructor; [constructor; auto| |repeat constructor]. cbn [flat_map]. rewrite app_nil_r. apply (vp_edges _ V).
Qed.
Lemma list_odd l q : valid_polygons l -> off_outlines (flat_map rings l) q -> (some_inside l q <-> xsum (ins q) (flat_map rings l) = true).
Proof.
  induction l as [|p l IH]; intros V Off.
  - split; [intros (p & [] & _)|discriminate].
  - apply valid_tail in V. destruct V as (V1 & V2 & V3). cbn [flat_map] in *. apply off_app in Off. destruct Off as [O1 O2].
    rewrite xsum_app. specialize (IH V2 O2). pose proof (polygon_odd p q V1 O1) as E. rewrite odd_xsum in E.
    assert (Q : some_inside (p :: l) q <-> inside_polygon p q \/ some_inside l q).
    { split; [intros (x & [<-|I] & J); [auto|right; exists x; auto]|intros [J|(x & I & J)]; [exists p; split; auto; left; auto|exists x; split; auto; right; auto]]. }
    assert (D : inside_polygon p q -> some_inside l q -> False) by (intros A (p' & I & J); apply (V3 p' I q); auto).
    rewrite Q. rewrite IH, E in *. clear - D. destruct (xsum _ (rings p)), (xsum _ (flat_map rings l)); cbn [xorb]; intuition congruence.
Qed.
Lemma nc_flat_filter {A} (f : A -> list segment) k l : non_crossing (flat_map f l) -> non_crossing (flat_map f (filter k l)).
Proof.
  assert (Sub : forall x, In x (flat_map f (filter k l)) -> In x (flat_map f l)).
  { intros x I. apply in_flat_map in I. destruct I as (a & I & J). apply filter_In in I. apply in_flat_map. exists a. tauto. }
  intros [P F]. split; [rewrite Forall_forall in *; auto|]. clear Sub P. induction l as [|a l IH]; [constructor|]. cbn [filter flat_map] in *.
  apply FOP_app_inv in F. destruct F as (F1 & F2 & F3). destruct (k a); auto. cbn [flat_map]. apply FOP_app; auto.
  intros x y I J. apply F3; auto. apply in_flat_map in J. destruct J as (b & J1 & J2). apply filter_In in J1. apply in_flat_map. exists b. tauto.
Qed.
Lemma outlines_rings l : outlines (flat_map rings l) = flat_map (fun p => outlines (rings p)) l.
Proof. induction l as [|p l IH]; auto. cbn [flat_map]. rewrite outlines_app, IH. auto. Qed.
Lemma valid_filter k l : valid_polygons l -> valid_polygons (filter k l).
Proof.
  intros [V1 V2 V3]. constructor.
  - rewrite Forall_forall in *. intros p I. apply filter_In in I. apply V1, I.
  - rewrite outlines_rings in *. apply nc_flat_filter; auto.
  - clear V1 V2. induction l as [|p l IH]; [constructor|]. inversion V3 as [|? ? F1 F2]; subst. cbn [filter]. destruct (k p); auto. constructor; auto.
    rewrite Forall_forall in *. intros x I. apply filter_In in I. apply F1, I.
Qed.
Lemma off_filter k l q : off_outlines (flat_map rings l) q -> off_outlines (flat_map rings (filter k l)) q.
Proof.
  intros O Q. apply O. apply on_outlines in Q. destruct Q as (vs & I & Q). apply on_outlines. exists vs. split; auto.
  apply in_flat_map in I. destruct I as (p & I & J). apply filter_In in I. apply in_flat_map. exists p. tauto.
Qed.

(** Next to an edge of one region the other one is not inside. *)
Lemma two_apart eps r1 r2 e q : non_crossing (outlines (r1 ++ r2)) -> rising eps (ends_of (outlines (r1 ++ r2))) ->
  (forall z, off_outlines (r1 ++ r2) z -> xsum (ins z) r1 = true -> xsum (ins z) r2 = true -> False) ->
  In e (outlines r1) -> on_seg e q -> (forall v, In v (ends_of (outlines (r1 ++ r2))) -> Xs eps v <> Xs eps q) ->
  xsum (below_seg eps q) (outlines r2) = false.
Proof.
  intros Nc Ri Ap Ie On Gn. set (R := outlines (r1 ++ r2)) in *.
  assert (Sd : Forall (sound_edge eps) R) by (apply sound_all; auto; apply Nc).
  assert (Ge : forall x, In x R -> Xs eps (seg_start x) <> Xs eps q /\ Xs eps (seg_end x) <> Xs eps q).
  { intros x I. split; apply Gn; unfold ends_of; apply in_flat_map; exists x; cbn; auto. }
  destruct (nudge eps R q Sd) as (up & dn & Xu & Xd & Fu & Fd & Nu).
  { intros x I. destruct (Ge x I). destruct (lo_hi x) as [[-> ->]|[-> ->]]; auto. }
  apply in_split in Ie as Sp. destruct Sp as (A & B & E1).
  assert (ER : R = A ++ e :: (B ++ outlines r2)) by (unfold R; rewrite outlines_app, E1, <- app_assoc; reflexivity).
  assert (Al : forall x, In x (A ++ B ++ outlines r2) -> ~ on_seg x q) by (apply (alone eps A e (B ++ outlines r2) q); auto; rewrite <- ER; auto).
  assert (IR : In e R) by (rewrite ER; apply in_or_app; right; left; auto).
  assert (Sm : forall x, In x (A ++ B ++ outlines r2) -> below_seg eps up x = below_seg eps q x /\ below_seg eps dn x = below_seg eps q x).
  { intros x I. apply Nu; [|apply Al; auto]. rewrite ER. rewrite !in_app_iff in *. cbn. rewrite in_app_iff. tauto. }
  assert (Ou : forall z, z = up \/ z = dn -> xsum (below_seg eps z) (outlines r2) = xsum (below_seg eps q) (outlines r2)).
  { intros z Z. apply xsum_ext. intros x I. destruct (Sm x) as [S1 S2]; [apply in_or_app; right; apply in_or_app; auto|]. destruct Z as [-> | ->]; auto. }
  destruct (proj1 (Nu e IR) On) as (_ & U & D).
  assert (Own : xsum (below_seg eps up) (outlines r1) = negb (xsum (below_seg eps dn) (outlines r1))).
  { rewrite E1, !xsum_app. cbn [xsum]. rewrite U, D.
    rewrite (xsum_ext (below_seg eps up) (below_seg eps dn) A) by (intros x I; destruct (Sm x) as [S1 S2]; [apply in_or_app; auto|congruence]).
    rewrite (xsum_ext (below_seg eps up) (below_seg eps dn) B) by (intros x I; destruct (Sm x) as [S1 S2]; [apply in_or_app; right; apply in_or_app; auto|congruence]).
    destruct (xsum (below_seg eps dn) A), (xsum (below_seg eps dn) B); auto. }
  assert (Par : forall z r, Xs eps z = Xs eps q -> off_outlines (r1 ++ r2) z -> (forall x, In x (outlines r) -> In x R) -> xsum (ins z) r = xsum (below_seg eps z) (outlines r)).
  { intros z r Xz Oz Sr. assert (Or : off_outlines r z) by (intros (x & I & O); apply Oz; exists x; split; auto; apply Sr; auto).
    rewrite insideb_outlines by exact Or. apply parity_below; auto; [|apply even_outlines]. intros v I. rewrite Xz. apply Gn.
    unfold ends_of in *. apply in_flat_map in I. destruct I as (x & I & J). apply in_flat_map. exists x. auto. }
  assert (S1 : forall x, In x (outlines r1) -> In x R) by (intros x I; unfold R; rewrite outlines_app; apply in_or_app; auto).
  assert (S2 : forall x, In x (outlines r2) -> In x R) by (intros x I; unfold R; rewrite outlines_app; apply in_or_app; auto).
  destruct (xsum (below_seg eps q) (outlines r2)) eqn:Q; auto. exfalso.
  destruct (xsum (below_seg eps dn) (outlines r1)) eqn:Dn.
  - apply (Ap dn Fd); rewrite Par; auto.
  - apply (Ap up Fu); rewrite Par; auto.
Qed.

Record prepared_list (l : list polygon) (r : list (list point)) : Prop := {
  pl_segments : polygons_segments l = outlines r;
  pl_same : Forall2 same_cycle (flat_map rings l) r;
  pl_nc : non_crossing (outlines r);
  pl_side : forall eps, rising eps (ends_of (outlines r)) -> forall e q, In e (outlines r) -> on_seg e q ->
    (forall v, In v (ends_of (outlines r)) -> Xs eps v <> Xs eps q) -> xsum (below_seg eps q) (outlines r) = negb (segment_flag e) }.
Lemma ends_app a b : ends_of (a ++ b) = ends_of a ++ ends_of b.
Proof. unfold ends_of. apply flat_map_app. Qed.
Lemma prepare_list l : valid_polygons l -> exists r, prepared_list l r.
Proof.
  induction l as [|p l IH]; intros V.
  - exists []. constructor; auto; [constructor|split; constructor|intros eps _ e q []].
  - pose proof V as V0. apply valid_tail in V. destruct V as (V1 & V2 & V3). destruct (prepare p V1) as (r & P), (IH V2) as (r' & P').
    assert (Sm : Forall2 same_cycle (rings p ++ flat_map rings l) (r ++ r')) by (apply Forall2_app; [apply (pr_same _ _ P)|apply (pl_same _ _ P')]).
    assert (Nc : non_crossing (outlines (r ++ r'))).
    { apply (non_crossing_same (outlines (rings p ++ flat_map rings l))); [apply outlines_same; auto|]. apply (vm_edges _ V0). }
    assert (Ap : forall z, off_outlines (r ++ r') z -> xsum (ins z) r = true -> xsum (ins z) r' = true -> False).
    { intros z Oz I1 I2. apply (off_same _ _ z Sm) in Oz. apply off_app in Oz. destruct Oz as [O1 O2].
      rewrite <- (Forall2_rings_inside _ _ z (pr_same _ _ P)) in I1. rewrite <- (Forall2_rings_inside _ _ z (pl_same _ _ P')) in I2.
      apply odd_xsum in I1. apply polygon_odd in I1; auto. apply list_odd in I2; auto. destruct I2 as (p' & I & J). apply (V3 p' I z). auto. }
    exists (r ++ r'). constructor; auto.
    + unfold polygons_segments. cbn [flat_map]. rewrite outlines_app, (pr_segments _ _ P). f_equal. apply (pl_segments _ _ P').
    + intros eps Ri e q Ie On Gn. rewrite outlines_app, xsum_app.
      assert (Ri1 : rising eps (ends_of (outlines r)) /\ rising eps (ends_of (outlines r'))).
      { split; apply (rising_incl eps _ (ends_of (outlines (r ++ r')))); auto; intros x I; rewrite outlines_app, ends_app; apply in_or_app; auto. }
      assert (Gn1 : (forall v, In v (ends_of (outlines r)) -> Xs eps v <> Xs eps q) /\ (forall v, In v (ends_of (outlines r')) -> Xs eps v <> Xs eps q)).
      { split; intros v I; apply Gn; rewrite outlines_app, ends_app; apply in_or_app; auto. }
      destruct Ri1 as [Ra Rb], Gn1 as [Ga Gb]. rewrite outlines_app in Ie. apply in_app_or in Ie. destruct Ie as [Ie|Ie].
      * rewrite (two_apart eps r r' e q); auto. rewrite (pr_side _ _ P eps Ra e q); auto. destruct (segment_flag e); auto.
      * assert (Pm : forall x, In x (outlines (r' ++ r)) <-> In x (outlines (r ++ r'))) by (intros x; rewrite !outlines_app, !in_app_iff; tauto).
        rewrite (two_apart eps r' r e q); auto.
        -- rewrite (pl_side _ _ P' eps Rb e q); auto. destruct (segment_flag e); auto.
        -- destruct Nc as [N1 N2]. split; [rewrite Forall_forall in *; intros x I; apply N1, Pm; auto|].
           apply (FOP_perm _ touch_or_disjoint_sym (outlines (r ++ r'))); auto. rewrite !outlines_app. apply Permutation_app_comm.
        -- apply (rising_incl eps _ (ends_of (outlines (r ++ r')))); auto. intros x I. rewrite outlines_app, ends_app in *. rewrite in_app_iff in *. tauto.
        -- intros z Oz I1 I2. apply (Ap z); auto. apply off_app. apply off_app in Oz. tauto.
        -- intros v I. apply Gn. rewrite outlines_app, ends_app in *. rewrite in_app_iff in *. tauto.
Qed.
