(** The answers of [locate] of valid polygons and multipolygons in terms of points. *)
From Coq Require Import QArith Qcanon Bool List Arith Lia Permutation.
From Verif Require Import QcTac Model_Base Model_Utils Model_Box Model_Geometry Model_Contour Model_Linear Model_Mixed Model_Shaped Model_Multipolygon Model_MixedClip
  Spec_Base Spec_Segment Spec_Clip Spec_Contour Spec_Relate Spec_Bounds Spec_Sweep Spec_Shaped Spec_Multipolygon Spec_RelateShaped Spec_MixedClip
  Proof_Base Proof_Line Proof_SegOps Proof_Contour Proof_Edges Proof_Bounds Proof_Locate Proof_Locate3 Proof_Locate4 Proof_SegLoops Proof_Sweep4 Proof_Sweep6 Proof_Sweep17 Proof_Sweep18 Proof_Parity
  Proof_Corner Proof_Ray Proof_Orient Proof_Nested Proof_Nested2 Proof_Bridge Proof_Odd Proof_Clip Proof_Ready Proof_Polygons Proof_Multi Proof_Multi2
  Proof_RelShaped6 Proof_RelShaped7 Proof_RelShaped8 Proof_RelateShaped Proof_RelateMulti1 Proof_RelateMulti2 Proof_Mix6 Proof_Mix7.
Import ListNotations.
Local Open Scope Qc_scope.

Section Polygon.
Variable p : polygon.
Hypothesis V : valid_polygon p.
Lemma hole_apart h k x : In h (holes p) -> In k (holes p) -> region_location h x = INTERIOR -> region_location k x <> BOUNDARY.
Proof.
  intros Ih Ik Lh Lk. apply api_boundary in Lk.
  assert (Ne : k <> h) by (intros ->; apply api_boundary in Lk; congruence).
  assert (Rh : In h (rings p)) by (right; auto). assert (Rk : In k (rings p)) by (right; auto).
  assert (One : forall vs, outlines [vs] = edges vs) by (intros vs; unfold outlines; cbn [flat_map]; apply app_nil_r).
  assert (N1 : forall vs, In vs (rings p) -> non_crossing (outlines [vs])) by (intros vs I; rewrite One; apply (ring_nc (rings p)); auto; apply (vp_edges _ V)).
  assert (Off : off_outlines [h] x) by (unfold off_outlines; rewrite One; intros O; apply api_boundary in O; congruence).
  assert (On : on_segs (outlines [k]) x) by (rewrite One; exact Lk).
  assert (Px : parity (outlines [h]) x = true).
  { rewrite One, <- insideb_parity; [unfold insideb; rewrite Lh; auto|]. unfold off_outlines in Off. rewrite One in Off. exact Off. }
  destruct (beside [k] [h] x true (N1 k Rk) (N1 h Rh) On Off) as (z & O1 & O2 & P1 & P2).
  rewrite Px in P2.
  destruct (off_more [k; h] (rings p) z) as (z' & Oz' & Sm); [intros vs [<-|[<-|[]]]; auto|apply (vp_edges _ V)| |].
  { intros O. apply on_outlines in O. destruct O as (vs & [<-|[<-|[]]] & O); [apply O1|apply O2]; rewrite One; exact O. }
  unfold off_outlines in O1, O2. rewrite One in *.
  assert (A : insideb k z' = true) by (rewrite Sm by (left; auto); rewrite insideb_parity; auto).
  assert (B : insideb h z' = true) by (rewrite Sm by (right; left; auto); rewrite insideb_parity; auto).
  apply insideb_true in A, B. destruct (ForallOrdPairs_In (vp_apart _ V z' Oz') k h Ik Ih) as [E|[R|R]]; [congruence|apply R; auto|apply R; auto].
Qed.
Lemma polygon_boundary x : geometry_locate (GPolygon p) x = BOUNDARY <-> boundary p x.
Proof.
  assert (Ha := fun h k => hole_apart h k x). assert (Hi := fun h => hole_inside p V h x). clear V. destruct p as [b hs]. cbn [border holes] in *.
  destruct (api_polygon_sets b hs x) as [_ E]; [exact Ha|].
  rewrite E. unfold boundary. rewrite on_outlines. unfold rings; cbn [border holes]. split.
  - intros [B|(_ & h & Ih & B)]; [exists b|exists h]; (split; [|apply api_boundary; auto]); [left; auto|right; auto].
  - intros (vs & [<-|I] & O); [left; apply api_boundary; auto|].
    destruct (on_segs_dec (edges b) x) as [Q|Q]; [left; apply api_boundary; exact Q|]. right. split; [|exists vs; split; auto; apply api_boundary; auto].
    apply (Hi vs); auto.
Qed.
Lemma polygon_contains x : geometry_locate (GPolygon p) x <> EXTERIOR <-> region p x.
Proof.
  pose proof (polygon_boundary x) as B. unfold region, inside_polygon. destruct (geometry_locate (GPolygon p) x); intuition congruence.
Qed.
End Polygon.

Section Several.
Variable l : list polygon.
Hypothesis V : valid_polygons l.
Lemma each p : In p l -> valid_polygon p.
Proof. pose proof (vm_each _ V) as Vs. rewrite Forall_forall in Vs. auto. Qed.
(** The polygon that decides. *)
Lemma first_located x (k : list polygon) : (forall p, In p k -> geometry_locate (GPolygon p) x = EXTERIOR)
  \/ exists l1 p l2, k = l1 ++ p :: l2 /\ (forall p', In p' l1 -> geometry_locate (GPolygon p') x = EXTERIOR) /\ geometry_locate (GPolygon p) x <> EXTERIOR.
Proof.
  induction k as [|p k IH]; [left; intros p []|].
  destruct (geometry_locate (GPolygon p) x) eqn:E; [right; exists [], p, k; split; [auto|split; [intros p' []|congruence]]| |right; exists [], p, k; split; [auto|split; [intros p' []|congruence]]].
  destruct IH as [A|(l1 & q & l2 & -> & A & B)]; [left; intros p' [<-|I]; auto|right].
  exists (p :: l1), q, l2. split; auto. split; auto. intros p' [<-|I]; auto.
Qed.
Lemma list_located x : (geometry_locate (GMultipolygon l) x = INTERIOR <-> inside_some l x) /\ (geometry_locate (GMultipolygon l) x = BOUNDARY <-> boundary_some l x).
Proof.
  destruct (api_multipolygon l x) as [M1 M2]. destruct (first_located x l) as [A|(l1 & p & l2 & E & A & B)].
  - rewrite (M1 A). split; (split; [discriminate|]); intros (p & I & J); exfalso.
    + unfold inside_polygon in J. rewrite A in J by auto. discriminate J.
    + apply polygon_boundary in J; auto using each. rewrite A in J by auto. discriminate J.
  - rewrite (M2 l1 p l2 E A B). assert (Ip : In p l) by (rewrite E; apply in_or_app; right; left; auto). assert (Bp := polygon_boundary p (each p Ip) x).
    assert (Ap : forall q q', In q l -> In q' l -> inside_polygon q x -> boundary q' x -> False) by (intros q q' I I'; apply (pairs_apart l q q' x V I I')).
    split; split.
    + intros Q. exists p. auto.
    + intros (p' & I & J). destruct (geometry_locate (GPolygon p) x) eqn:Q; [exfalso; apply (Ap p' p I Ip J), Bp; auto|congruence|auto].
    + intros Q. exists p. split; auto. apply Bp; auto.
    + intros (p' & I & J). destruct (geometry_locate (GPolygon p) x) eqn:Q; [auto|congruence|exfalso; apply (Ap p p' Ip I Q J)].
Qed.
End Several.

(** Both kinds. *)
Lemma located g x : valid_shaped g ->
  (geometry_locate g x = INTERIOR <-> inside_some (polygons_of g) x) /\ (geometry_locate g x = BOUNDARY <-> boundary_some (polygons_of g) x).
Proof.
  destruct g as [| | | |p|l]; try contradiction; intros V; cbn [polygons_of].
  - split; [split; [intros Q; exists p; split; [left; auto|exact Q]|intros (q & [<-|[]] & Q); exact Q]|].
    rewrite (polygon_boundary p V). split; [intros Q; exists p; split; [left; auto|auto]|intros (q & [<-|[]] & Q); auto].
  - apply list_located. apply V.
Qed.
Lemma in_shaped_located g x : valid_shaped g -> (in_shaped g x <-> geometry_locate g x <> EXTERIOR).
Proof.
  intros V. destruct (located g x V) as [A B].
  assert (Q : in_shaped g x <-> inside_some (polygons_of g) x \/ boundary_some (polygons_of g) x).
  { unfold in_shaped, in_some, region. split; [intros (p & I & [J|J]); [left|right]; exists p; auto|intros [(p & I & J)|(p & I & J)]; exists p; auto]. }
  rewrite Q, <- A, <- B. destruct (geometry_locate g x); intuition congruence.
Qed.
Theorem shaped_contains g x : valid_shaped g -> (geometry_contains g x = true <-> in_shaped g x).
Proof. intros V. rewrite api_contains. symmetry. apply in_shaped_located; auto. Qed.

(** From a point inside the polygons one may walk some way along any segment. *)
Lemma inside_walk l s q : Forall valid_polygon l -> some_inside l q -> proper_seg s -> on_seg s q -> on_piece_within [s] l q.
Proof.
  intros Vl (p & Ip & J) Ps Os. rewrite Forall_forall in Vl. assert (Vp := Vl p Ip). assert (Off := Proof_Multi.inside_off p q J).
  set (pts := ends_of (s :: outlines (rings p))). destruct (eps_exists pts) as (eps & Pe & Ri).
  assert (Sd : Forall (sound_edge eps) (s :: outlines (rings p))) by (apply sound_all; [constructor; auto; apply (vp_edges _ Vp)|intros v w Iv Iw; apply Ri; auto]).
  inversion Sd as [|? ? Ss So]; subst.
  destruct (slide eps (outlines (rings p)) [Xs eps q] s q Ss Os So Off) as (w & Ow & Nt & Of).
  assert (Nw : q <> w) by (intros E; apply Nt; left; rewrite E; auto).
  exists s, (Seg q w). split; [left; auto|]. split; [intros x Ox; apply (between_trans _ _ q w x); auto|]. split; [exact Nw|]. split; [apply between_start|].
  intros x Ox. exists p. split; auto. left.
  assert (Sm : forall vs, In vs (rings p) -> region_location vs x = region_location vs q).
  { intros vs I. symmetry. apply api_not_crossing. intros y O Q. apply (Of y); [apply (between_trans _ _ q x y); auto; apply between_start|apply on_outlines; exists vs; auto]. }
  unfold inside_polygon in *. destruct p as [b hs]. destruct (api_polygon b hs x) as (Qx & _). destruct (api_polygon b hs q) as (Qq & _). apply Qx. apply Qq in J. destruct J as [J1 J2].
  split; [rewrite Sm; auto; left; auto|intros h I; rewrite Sm; auto; right; auto].
Qed.

Lemma contained_piece a b q : valid_shaped b -> (on_piece_within (parts a) (polygons_of b) q <-> on_contained_piece a b q).
Proof.
  intros V. unfold on_piece_within, on_contained_piece. split; intros (s & t & Is & Sb & Pt & Ot & C); exists s, t; repeat (split; [auto|]); intros x Ox; apply (shaped_contains b x V); [exact (C x Ox)|].
  apply C; auto.
Qed.
Theorem mixed_and_contained fuel shape a b : linear_input a -> valid_shaped b -> (enough (length (parts a) + shaped_size b) <= fuel)%nat ->
  (exists g, mixed_and fuel shape a b = Some (Clips g) /\ good_result g /\ forall q, on_geometry g q <-> on_contained_piece a b q)
  /\ (exists g, mixed_and fuel shape b a = Some (Clips g) /\ good_result g /\ forall q, on_geometry g q <-> on_contained_piece a b q).
Proof.
  intros La Vb Fu. destruct (mixed_and_exact fuel shape a b La Vb Fu) as [(g & E & G & Q) (g' & E' & G' & Q')].
  split; [exists g|exists g']; (split; [auto|]); (split; [auto|]); intros q; rewrite <- (contained_piece a b q Vb); auto.
Qed.
(** Between the points inside and the common points. *)
Theorem mixed_and_points fuel shape a b : linear_input a -> valid_shaped b -> (enough (length (parts a) + shaped_size b) <= fuel)%nat ->
  exists g, mixed_and fuel shape a b = Some (Clips g)
  /\ (forall q, on_geometry g q -> on_geometry a q /\ geometry_contains b q = true)
  /\ (forall q, on_geometry a q -> geometry_locate b q = INTERIOR -> on_geometry g q).
Proof.
  intros La Vb Fu. destruct (mixed_and_exact fuel shape a b La Vb Fu) as [(g & E & G & Q) _]. exists g. split; auto. split.
  - intros q O. apply Q in O. destruct O as (s & t & Is & Sb & Pt & Ot & C). split; [exists s; auto|]. apply (shaped_contains b q Vb). exact (C q Ot).
  - intros q (s & Is & Os) L. apply Q. apply (proj1 (located b q Vb)) in L.
    assert (Ps : proper_seg s).
    { destruct a as [|s0|ss|vs| |]; try contradiction; cbn [linear_input] in La; [destruct Is as [<-|[]]; auto| |]; destruct La as [_ [F _]]; rewrite Forall_forall in F; auto. }
    destruct (inside_walk (polygons_of b) s q) as (s' & t & [<-|[]] & R); auto; [|exists s, t; auto].
    destruct b as [| | | |p|l]; try contradiction; cbn [polygons_of]; [apply Forall_cons; [exact Vb|apply Forall_nil]|destruct Vb as [_ Vb]; apply (vm_each _ Vb)].
Qed.
