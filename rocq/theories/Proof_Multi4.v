(** The operators in terms of [locate]. *)
From Coq Require Import QArith Qcanon Bool List Arith Lia Permutation.
From Verif Require Import QcTac Model_Base Model_Utils Model_Box Model_Geometry Model_Contour Model_Linear Model_Mixed Model_Shaped Model_Multipolygon Spec_Base Spec_Segment Spec_Clip Spec_Contour
  Spec_Relate Spec_Bounds Spec_Sweep Spec_Shaped Spec_Multipolygon
  Proof_Locate4 Proof_Sweep18 Proof_Nested Proof_Odd Proof_Polygons Proof_Multi Proof_Multi2 Proof_Multi3.
Import ListNotations.
Local Open Scope Qc_scope.

Definition parts_of (g : geometry) : list polygon := match g with GPolygon p => [p] | GMultipolygon l => l | _ => [] end.
Lemma rings_parts g : geometry_rings g = flat_map rings (parts_of g).
Proof. destruct g; auto. cbn. rewrite app_nil_r. auto. Qed.
Lemma valid_parts g : valid_shaped g -> valid_polygons (parts_of g).
Proof. destruct g; try contradiction; cbn [valid_shaped parts_of]; [apply valid_one|tauto]. Qed.
Lemma polygon_off p q : off_outlines (rings p) q -> geometry_locate (GPolygon p) q <> BOUNDARY.
Proof.
  intros O B. destruct p as [b hs]. destruct (api_polygon b hs q) as (_ & A2 & A3).
  assert (Nb : forall h, In h (b :: hs) -> region_location h q <> BOUNDARY).
  { intros h I Q. apply api_boundary in Q. apply O. apply on_outlines. exists h. auto. }
  destruct (region_location b q) eqn:Lb.
  - apply (Nb b); auto. left; auto.
  - rewrite A2 in B by congruence. congruence.
  - assert (D : (forall k, In k hs -> region_location k q = EXTERIOR) \/ exists l1 h l2, hs = l1 ++ h :: l2 /\ (forall k, In k l1 -> region_location k q = EXTERIOR) /\ region_location h q = INTERIOR).
    { assert (Nh : forall h, In h hs -> region_location h q <> BOUNDARY) by (intros h I; apply Nb; right; auto). clear - Nh.
      induction hs as [|h hs IH]; [left; intros k []|]. destruct (region_location h q) eqn:E.
      - exfalso. apply (Nh h); auto. left; auto.
      - destruct IH as [IH|(l1 & k & l2 & -> & I1 & I2)]; [intros k I; apply Nh; right; auto|left; intros k [<-|I]; auto|].
        right. exists (h :: l1), k, l2. split; auto. split; auto. intros j [<-|I]; auto.
      - right. exists [], h, hs. split; auto. split; auto. intros k []. }
    destruct D as [D|(l1 & h & l2 & E & I1 & I2)].
    + destruct (api_polygon b hs q) as (A1 & _). assert (X : geometry_locate (GPolygon (Poly b hs)) q = INTERIOR) by (apply A1; auto). congruence.
    + destruct (A3 l1 h l2 E eq_refl I1) as [A4 _]. rewrite A4 in B; auto. discriminate.
Qed.
Lemma inside_parts g q : valid_shaped g -> off_outlines (geometry_rings g) q -> (inside g q <-> some_inside (parts_of g) q).
Proof.
  rewrite rings_parts. destruct g; try contradiction; cbn [valid_shaped parts_of]; intros V Off.
  - split; [intros I; exists p; split; [left; auto|exact I]|intros (x & [<-|[]] & I); exact I].
  - destruct V as [_ V]. unfold inside. destruct (api_multipolygon polygons q) as (A1 & A2).
    assert (Nb : forall p, In p polygons -> geometry_locate (GPolygon p) q <> BOUNDARY).
    { intros p I. apply polygon_off. intros O. apply Off. apply on_outlines in O. destruct O as (vs & J & O). apply on_outlines. exists vs. split; auto. apply in_flat_map. exists p. auto. }
    assert (D : (forall p, In p polygons -> geometry_locate (GPolygon p) q = EXTERIOR) \/ exists l1 p l2, polygons = l1 ++ p :: l2 /\ (forall k, In k l1 -> geometry_locate (GPolygon k) q = EXTERIOR) /\ geometry_locate (GPolygon p) q = INTERIOR).
    { clear - Nb. induction polygons as [|h hs IH]; [left; intros k []|]. destruct (geometry_locate (GPolygon h) q) eqn:E.
      - exfalso. apply (Nb h); auto. left; auto.
      - destruct IH as [IH|(l1 & k & l2 & -> & I1 & I2)]; [intros k I; apply Nb; right; auto|left; intros k [<-|I]; auto|].
        right. exists (h :: l1), k, l2. split; auto. split; auto. intros j [<-|I]; auto.
      - right. exists [], h, hs. split; auto. split; auto. intros k []. }
    destruct D as [D|(l1 & p & l2 & E & I1 & I2)].
    + rewrite (A1 D). split; [discriminate|]. intros (p & I & J). unfold inside_polygon in J. rewrite D in J; auto.
    + rewrite (A2 l1 p l2 E I1) by congruence. split; auto. intros _. exists p. split; [rewrite E; apply in_or_app; right; left; auto|exact I2].
Qed.

Section Operators.
Variables g g' : geometry.
Hypothesis V : valid_shaped g.
Hypothesis V' : valid_shaped g'.
Variables (shape : tree_shape) (fuel : nat).
Hypothesis Fuel : (enough (shaped_size g + shaped_size g') <= fuel)%nat.

Definition clips_geometries (op : Prop -> Prop -> Prop) (outcome : option clip_outcome) : Prop :=
  exists h, outcome = Some (Clips h) /\ shaped h /\ Forall nondegenerate (geometry_rings h)
    /\ (forall x, on_segs (outlines (geometry_rings h)) x -> on_segs (outlines (geometry_rings g)) x \/ on_segs (outlines (geometry_rings g')) x)
    /\ forall q, off_outlines (geometry_rings g) q -> off_outlines (geometry_rings g') q -> (inside_odd (geometry_rings h) q <-> op (inside g q) (inside g' q)).
Lemma geometries_fuel : (enough (lists_count (parts_of g) (parts_of g')) <= fuel)%nat.
Proof. unfold lists_count. rewrite <- !rings_parts. exact Fuel. Qed.
Lemma lift_lists (op : Prop -> Prop -> Prop) outcome : (forall a b c d : Prop, (a <-> b) -> (c <-> d) -> (op a c <-> op b d)) ->
  clips_lists op (parts_of g) (parts_of g') outcome -> clips_geometries op (Some outcome).
Proof.
  intros OpM (h & E & Sh & Nd & Sub & Odd). exists h. rewrite E. split; auto. split; auto. split; auto. rewrite <- !rings_parts in Sub. split; auto.
  intros q O1 O2. rewrite Odd by (rewrite <- rings_parts; auto). apply OpM; symmetry; apply inside_parts; auto.
Qed.
End Operators.
Lemma lift_polygons (op : Prop -> Prop -> Prop) outcome p p' : clips_to op p p' outcome -> clips_geometries (GPolygon p) (GPolygon p') op (Some outcome).
Proof. intros (h & E & Sh & Nd & Sub & Odd). exists h. rewrite E. split; auto. Qed.

Theorem and_geometries g g' shape fuel : valid_shaped g -> valid_shaped g' -> (enough (shaped_size g + shaped_size g') <= fuel)%nat ->
  clips_geometries g g' and (shaped_and fuel shape g g').
Proof.
  intros V V' F. pose proof (geometries_fuel g g' fuel F) as F'. destruct g; try contradiction; destruct g'; try contradiction; cbn [shaped_and].
  - apply lift_polygons. apply intersection_clips; auto.
  - apply lift_lists; auto; [intros; tauto|]. apply and_pm; auto. apply V'.
  - apply lift_lists; auto; [intros; tauto|]. apply and_mp; auto. apply V.
  - apply lift_lists; auto; [intros; tauto|]. apply and_mm; auto; [apply V|apply V'].
Qed.
Theorem or_geometries g g' shape fuel : valid_shaped g -> valid_shaped g' -> (enough (shaped_size g + shaped_size g') <= fuel)%nat ->
  clips_geometries g g' or (shaped_or fuel shape g g').
Proof.
  intros V V' F. pose proof (geometries_fuel g g' fuel F) as F'. destruct g; try contradiction; destruct g'; try contradiction; cbn [shaped_or].
  - apply lift_polygons. apply union_clips; auto.
  - destruct V' as [L V2]. apply lift_lists; auto; [split; auto|intros; tauto|]. apply or_pm; auto. lia.
  - destruct V as [L V2]. apply lift_lists; auto; [split; auto|intros; tauto|]. apply or_mp; auto. lia.
  - destruct V as [L V2], V' as [L' V2']. apply lift_lists; auto; [split; auto|split; auto|intros; tauto|]. apply or_mm; auto. rewrite app_length. lia.
Qed.
Theorem sub_geometries g g' shape fuel : valid_shaped g -> valid_shaped g' -> (enough (shaped_size g + shaped_size g') <= fuel)%nat ->
  clips_geometries g g' (fun a b => a /\ ~ b) (shaped_sub fuel shape g g').
Proof.
  intros V V' F. pose proof (geometries_fuel g g' fuel F) as F'. destruct g; try contradiction; destruct g'; try contradiction; cbn [shaped_sub].
  - apply lift_polygons. apply difference_clips; auto.
  - destruct V' as [L V2]. apply lift_lists; auto; [split; auto|intros; tauto|]. apply sub_pm; auto.
  - destruct V as [L V2]. apply lift_lists; auto; [split; auto|intros; tauto|]. apply sub_mp; auto.
  - destruct V as [L V2], V' as [L' V2']. apply lift_lists; auto; [split; auto|split; auto|intros; tauto|]. apply sub_mm; auto.
Qed.
Theorem xor_geometries g g' shape fuel : valid_shaped g -> valid_shaped g' -> (enough (shaped_size g + shaped_size g') <= fuel)%nat ->
  clips_geometries g g' (fun a b => (a /\ ~ b) \/ (b /\ ~ a)) (shaped_xor fuel shape g g').
Proof.
  intros V V' F. pose proof (geometries_fuel g g' fuel F) as F'. destruct g; try contradiction; destruct g'; try contradiction; cbn [shaped_xor].
  - apply lift_polygons. apply symmetric_difference_clips; auto.
  - destruct V' as [L V2]. apply lift_lists; auto; [split; auto|intros; tauto|]. apply xor_pm; auto. lia.
  - destruct V as [L V2]. apply lift_lists; auto; [split; auto|intros; tauto|]. apply xor_mp; auto. lia.
  - destruct V as [L V2], V' as [L' V2']. apply lift_lists; auto; [split; auto|split; auto|intros; tauto|]. apply xor_mm; auto. rewrite app_length. lia.
Qed.
