(** The relation of two polygons. *)
From Coq Require Import QArith Qcanon Bool List Arith Lia.
From Verif Require Import QcTac Model_Base Model_Utils Model_Box Model_Geometry Model_Contour Model_Linear Model_Mixed Model_Shaped Model_Relate Model_RelateLinear Model_RelateShaped
  Spec_Base Spec_Segment Spec_Clip Spec_Contour Spec_Relate Spec_Bounds Spec_Sweep Spec_Shaped Spec_RelateShaped
  Proof_Base Proof_Line Proof_Contour Proof_Edges Proof_Bounds Proof_Locate Proof_Locate3 Proof_Locate4 Proof_Sweep4 Proof_Sweep6 Proof_Sweep18 Proof_SegLoops Proof_Parity
  Proof_Corner Proof_Ray Proof_Orient Proof_Nested Proof_Nested2 Proof_Bridge
  Proof_RelateP Proof_Odd Proof_Clip Proof_Ready Proof_Polygons Proof_RelShaped6 Proof_RelShaped7 Proof_RelShaped8.
Import ListNotations.
Local Open Scope Qc_scope.

(** Fewer contours: a point off them has the same contours round it as one off all. *)
Lemma off_more r r' x : (forall vs, In vs r -> In vs r') -> non_crossing (outlines r') -> off_outlines r x ->
  exists z, off_outlines r' z /\ forall vs, In vs r -> insideb vs z = insideb vs x.
Proof.
  intros Sub Nc Off. destruct (eps_exists (ends_of (outlines r'))) as (eps & Pe & Ri).
  assert (Sd' : Forall (sound_edge eps) (outlines r')).
  { apply sound_all; [apply Nc|]. intros v w Iv Iw. apply Ri; auto. }
  assert (Inc : forall e, In e (outlines r) -> In e (outlines r')).
  { intros e I. unfold outlines in *. apply in_flat_map in I. destruct I as (vs & I & J). apply in_flat_map. exists vs. auto. }
  assert (Sd : Forall (sound_edge eps) (outlines r)) by (rewrite Forall_forall in *; auto).
  destruct (creep eps (outlines r) (map (Xs eps) (ends_of (outlines r'))) x (Pt (px x + 1) (py x)) Sd Off) as (s & S0 & S1 & Nt & Of).
  { unfold Xs. cbn. intros E. qlra. }
  set (x' := lerp x (Pt (px x + 1) (py x)) s) in *.
  assert (Gx : forall v, In v (ends_of (outlines r')) -> Xs eps v <> Xs eps x') by (intros v I E; apply Nt; rewrite <- E; apply in_map; auto).
  destruct (nudge eps (outlines r') x' Sd') as (up & dn & Xu & Xd & Ou & Od & Bl).
  { intros e I. destruct (lohi_ends _ e I). auto. }
  exists dn. split; auto. intros vs I.
  assert (Ox' : ~ on_contour vs x') by (intros O; apply (Of x'); [apply between_end|apply on_outlines; exists vs; auto]).
  assert (Odn : ~ on_contour vs dn) by (intros O; apply Od, on_outlines; exists vs; auto).
  assert (E1 : insideb vs x = insideb vs x').
  { unfold insideb. rewrite (api_not_crossing vs x x'); auto. intros z O Q. apply (Of z Q). apply on_outlines. exists vs; auto. }
  assert (Iv : forall e, In e (edges vs) -> In e (outlines r')) by (intros e Ie; unfold outlines; apply in_flat_map; exists vs; auto).
  assert (Gv : forall v, In v (ends_of (edges vs)) -> In v (ends_of (outlines r'))).
  { intros v J. unfold ends_of in *. apply in_flat_map in J. destruct J as (e & Je & J). apply in_flat_map. exists e. auto. }
  rewrite E1, !insideb_parity by auto. rewrite (parity_below eps (edges vs) dn), (parity_below eps (edges vs) x'); auto using even_edges.
  - apply xsum_ext. intros e Ie. destruct (Bl e (Iv e Ie)) as [_ Q]. apply Q. intros O. apply Ox'. exists e; auto.
  - intros v J. rewrite Xd. auto.
Qed.

(** Inside a valid polygon. *)
Lemma inside_inn p x : valid_polygon p -> (inside_polygon p x <-> inn (outlines (rings p)) x).
Proof.
  intros V. assert (Of : inside_polygon p x -> off_outlines (rings p) x).
  { intros I O. destruct p as [b hs]. unfold inside_polygon in I. destruct (api_polygon b hs x) as (Q & _). apply Q in I. destruct I as [I1 I2].
    apply on_outlines in O. destruct O as (vs & Iv & O). apply api_boundary in O. destruct Iv as [<-|Iv]; [cbn [border] in *; congruence|]. specialize (I2 vs Iv). congruence. }
  assert (Pq : off_outlines (rings p) x -> (inside_polygon p x <-> parity (outlines (rings p)) x = true)).
  { intros O. rewrite (polygon_odd p x V O), odd_xsum, (insideb_outlines _ _ O). tauto. }
  split; [intros I; split; [apply Of; auto|apply Pq; auto]|intros [O P]; apply Pq; auto].
Qed.

Section Box.
Variable p : polygon.
Hypothesis V : valid_polygon p.
Notation bx := (bounding_box (GPolygon p)).
Lemma border_box x : on_contour (border p) x -> in_box bx x.
Proof. intros (e & Ie & Oe). apply edges_In in Ie. apply (in_box_on_seg _ e); auto; apply (contour_box_in (border p)); apply Ie. Qed.
Lemma ring_box vs x : on_contour vs x -> in_box (contour_box vs) x.
Proof. intros (e & Ie & Oe). apply edges_In in Ie. apply (in_box_on_seg _ e); auto; apply (contour_box_in vs); apply Ie. Qed.
Lemma strict_box b x : inside_box b x -> in_box b x.
Proof. intros ((A & B) & (C & D)). repeat split; qlra. Qed.
(** The outline of a hole does not leave the border. *)
Lemma hole_inside h x : In h (holes p) -> on_contour h x -> ~ on_contour (border p) x -> inside_ring (border p) x.
Proof.
  intros Ih (e & Ie & Oe) Nb. pose proof (vp_edges _ V) as Nc. assert (Ih' : In h (rings p)) by (right; auto). assert (Ib : In (border p) (rings p)) by (left; auto).
  destruct (eps_exists (ends_of (outlines (rings p)))) as (eps & Pe & Ri).
  assert (Sd : Forall (sound_edge eps) (outlines (rings p))).
  { apply sound_all; [apply Nc|]. intros v w Iv Iw. apply Ri; auto. }
  assert (Sr : forall vs, In vs (rings p) -> Forall (sound_edge eps) (edges vs)).
  { intros vs I. rewrite Forall_forall in *. intros g Ig. apply Sd. unfold outlines. apply in_flat_map. exists vs. auto. }
  assert (Er : forall vs v, In vs (rings p) -> In v (ends_of (edges vs)) -> In v (ends_of (outlines (rings p)))).
  { intros vs v I J. unfold ends_of in *. apply in_flat_map in J. destruct J as (g & Jg & J). apply in_flat_map. exists g. split; auto. unfold outlines. apply in_flat_map. exists vs. auto. }
  assert (Se : sound_edge eps e) by (specialize (Sr h Ih'); rewrite Forall_forall in Sr; auto).
  destruct (slide eps (edges (border p)) (map (Xs eps) (ends_of (outlines (rings p)))) e x Se Oe (Sr _ Ib) Nb) as (x' & Ox & Nt & Of).
  assert (Gx : forall v, In v (ends_of (outlines (rings p))) -> Xs eps v <> Xs eps x') by (intros v I E; apply Nt; rewrite <- E; apply in_map; auto).
  assert (Nb' : ~ on_contour (border p) x') by (apply Of, between_end).
  destruct (sides eps (edges h) (edges (border p)) e x') with (v := true) as (z & Xz & Oz & Z1 & Z2); auto.
  - apply (ring_nc (rings p)); auto.
  - apply Forall_app; auto.
  - intros v I. rewrite ends_app in I. apply in_app_or in I. destruct I as [I|I]; apply Gx; [apply (Er h)|apply (Er (border p))]; auto.
  - assert (Oh : ~ on_contour h z) by (intros (g & Ig & Og); apply Oz; exists g; split; auto; apply in_or_app; auto).
    assert (Ob : ~ on_contour (border p) z) by (intros (g & Ig & Og); apply Oz; exists g; split; auto; apply in_or_app; auto).
    destruct (off_more [h; border p] (rings p) z) as (z' & Oz' & Sm); auto.
    { intros vs [<-|[<-|[]]]; auto. }
    { intros O. apply on_outlines in O. destruct O as (vs & [<-|[<-|[]]] & O); auto. }
    assert (Ih1 : inside_ring h z').
    { apply insideb_true. rewrite Sm by (left; auto). rewrite insideb_parity by auto. rewrite (parity_below eps); auto using even_edges.
      intros v I. rewrite Xz. apply Gx, (Er h); auto. }
    pose proof (vp_within _ V z' h Oz' Ih Ih1) as Ib1. apply insideb_true in Ib1. rewrite Sm in Ib1 by (right; left; auto).
    rewrite insideb_parity in Ib1 by auto. rewrite (parity_below eps) in Ib1; auto using even_edges; [|intros v I; rewrite Xz; apply Gx, (Er (border p)); auto].
    rewrite Z2 in Ib1. rewrite <- (parity_below eps) in Ib1; auto using even_edges; [|intros v I; apply Gx, (Er (border p)); auto].
    rewrite <- insideb_parity in Ib1 by auto. apply insideb_true. rewrite <- Ib1. unfold insideb. rewrite (api_not_crossing (border p) x x'); auto.
    intros y O Q. apply (Of y Q O).
Qed.
Lemma boundary_box x : boundary p x -> in_box bx x.
Proof.
  intros O. apply on_outlines in O. destruct O as (vs & [<-|I] & O); [apply border_box; auto|].
  destruct (on_segs_dec (edges (border p)) x) as [Q|Q]; [apply border_box; exact Q|].
  apply strict_box. apply inside_strict. apply (hole_inside vs); auto.
Qed.
Lemma region_box x : region p x -> in_box bx x.
Proof. intros [I|O]; [apply strict_box, inside_polygon_box; auto|apply boundary_box; auto]. Qed.
End Box.
Lemma disjoint_no_point b b' x : box_disjoint_with b b' = true -> in_box b x -> in_box b' x -> False.
Proof.
  intros D ((A1 & A2) & (A3 & A4)) ((B1 & B2) & (B3 & B4)). unfold box_disjoint_with in D.
  repeat rewrite ?orb_true_iff, ?qltb_true in D. repeat match goal with H : _ \/ _ |- _ => destruct H end; qlra.
Qed.

(** The polygon without the holes whose boxes are apart from the other box. *)
Definition near_box (b : box) (h : list point) : bool := negb (box_disjoint_with (contour_box h) b).
Definition kept (p : polygon) (b : box) : polygon := Poly (border p) (filter (near_box b) (holes p)).
Lemma kept_segments p b : polygon_to_segments p b = outlines (rings (kept p b)).
Proof.
  unfold polygon_to_segments, outlines, rings, kept. cbn [border holes flat_map]. rewrite edges_to_contour. f_equal.
Qed.
Lemma kept_rings p b vs : In vs (rings (kept p b)) -> In vs (rings p).
Proof. intros [<-|I]; [left; auto|right]. cbn [kept holes] in I. apply filter_In in I. apply I. Qed.
Lemma kept_valid p b : valid_polygon p -> valid_polygon (kept p b).
Proof.
  intros V. assert (More : forall x, off_outlines (rings (kept p b)) x -> exists z, off_outlines (rings p) z /\ forall vs, In vs (rings (kept p b)) -> (inside_ring vs z <-> inside_ring vs x)).
  { intros x O. destruct (off_more (rings (kept p b)) (rings p) x (kept_rings p b) (vp_edges _ V) O) as (z & Oz & Sm). exists z. split; auto. intros vs I.
    rewrite <- !insideb_true, (Sm vs I). tauto. }
  constructor.
  - apply Forall_forall. intros vs I. pose proof (vp_simple _ V) as S. rewrite Forall_forall in S. apply S, (kept_rings p b); auto.
  - destruct (vp_edges _ V) as [P F]. split.
    + rewrite Forall_forall in *. intros e I. apply P. unfold outlines in *. apply in_flat_map in I. destruct I as (vs & I & J). apply in_flat_map. exists vs. split; auto. apply (kept_rings p b); auto.
    + unfold outlines, rings, kept in *. cbn [border holes flat_map] in *. apply FOP_app_inv in F. destruct F as (F1 & F2 & F3). apply FOP_app; auto.
      * clear - F2. induction (holes p) as [|h l IH]; [constructor|]. cbn [flat_map filter] in *. apply FOP_app_inv in F2. destruct F2 as (G1 & G2 & G3).
        destruct (near_box b h); auto. cbn [flat_map]. apply FOP_app; auto. intros x y Ix Iy. apply G3; auto. apply in_flat_map in Iy. destruct Iy as (k & Ik & J).
        apply filter_In in Ik. apply in_flat_map. exists k. tauto.
      * intros x y Ix Iy. apply F3; auto. apply in_flat_map in Iy. destruct Iy as (k & Ik & J). apply filter_In in Ik. apply in_flat_map. exists k. tauto.
  - intros x h O Ih I. destruct (More x O) as (z & Oz & Sm). apply Sm; [left; auto|]. apply (vp_within _ V z h); auto.
    + cbn [kept holes] in Ih. apply filter_In in Ih. apply Ih.
    + apply Sm; auto. right; auto.
  - intros x O. destruct (More x O) as (z & Oz & Sm). pose proof (vp_apart _ V z Oz) as F.
    assert (Sm' : forall vs, In vs (filter (near_box b) (holes p)) -> (inside_ring vs z <-> inside_ring vs x)) by (intros vs I; apply Sm; right; auto).
    clear - F Sm'. cbn [kept holes]. revert Sm'. induction F as [|h l F1 F2 IH]; intros Sm; cbn [filter] in *; [constructor|].
    destruct (near_box b h); auto. constructor.
    + rewrite Forall_forall in *. intros k Ik [J1 J2]. apply (F1 k); [apply filter_In in Ik; apply Ik|]. split; apply Sm; auto; [left; auto|right; auto].
    + apply IH. intros vs I. apply Sm. right; auto.
Qed.
Lemma kept_agree p b x : valid_polygon p -> in_box b x -> (inside_polygon (kept p b) x <-> inside_polygon p x) /\ (boundary (kept p b) x <-> boundary p x).
Proof.
  intros V I. assert (Far : forall h, In h (holes p) -> ~ In h (holes (kept p b)) -> ~ in_box (contour_box h) x).
  { intros h Ih Nk J. destruct (box_disjoint_with (contour_box h) b) eqn:E; [apply (disjoint_no_point _ _ x E); auto|].
    apply Nk. cbn [kept holes]. apply filter_In. split; auto. unfold near_box. rewrite E. auto. }
  assert (Dk : forall h, In h (holes p) -> {In h (holes (kept p b))} + {~ In h (holes (kept p b))}).
  { intros h Ih. destruct (near_box b h) eqn:E; [left|right]; cbn [kept holes]; rewrite filter_In, E; [auto|intros [_ Q]; discriminate]. }
  split.
  - unfold inside_polygon. destruct p as [bd hs]. unfold kept in *. cbn [border holes] in *.
    rewrite (proj1 (api_polygon bd hs x)), (proj1 (api_polygon bd (filter (near_box b) hs) x)). split; intros [A1 A2]; (split; [exact A1|]); intros h Ih.
    + destruct (Dk h Ih) as [K|K]; auto. apply api_outside_box. apply Far; auto.
    + apply A2. apply filter_In in Ih. apply Ih.
  - unfold boundary. rewrite !on_outlines. split; intros (vs & Iv & O).
    + exists vs. split; auto. apply (kept_rings p b); auto.
    + destruct Iv as [<-|Iv]; [exists (border p); split; auto; left; auto|]. destruct (Dk vs Iv) as [K|K]; [exists vs; split; auto; right; auto|].
      exfalso. apply (Far vs Iv K). apply ring_box; auto.
Qed.
(** A hole that was left out makes the polygon no part of the other one. *)
Lemma kept_whole p b : valid_polygon p -> kept p b = p \/
  ((exists x, region p x /\ ~ in_box b x) /\ exists x, region (kept p b) x /\ ~ in_box b x).
Proof.
  intros V. destruct (forallb (near_box b) (holes p)) eqn:E.
  { left. unfold kept. rewrite filter_every; [destruct p; reflexivity|]. rewrite forallb_forall in E. auto. }
  right. assert (D : exists h, In h (holes p) /\ near_box b h = false).
  { clear - E. induction (holes p) as [|h l IH]; [discriminate|]. cbn [forallb] in E. destruct (near_box b h) eqn:Q; [|exists h; split; auto; left; auto].
    destruct (IH E) as (k & I & K). exists k. split; auto. right; auto. }
  destruct D as (h & Ih & Nh). assert (Ih' : In h (rings p)) by (right; auto).
  assert (Dj : box_disjoint_with (contour_box h) b = true) by (unfold near_box in Nh; apply negb_false_iff in Nh; auto).
  assert (Nn : h <> []). { intros ->. pose proof (vp_simple _ V) as S. rewrite Forall_forall in S. destruct (S [] Ih') as [[Q _] _]. cbn in Q. lia. }
  split.
  - destruct h as [|v l] eqn:Eh; [congruence|]. rewrite <- Eh in *. assert (Iv : In v h) by (rewrite Eh; left; auto).
    exists v. destruct (vertex_edge h v Iv) as (e & Ie & Es). assert (O : on_contour h v) by (exists e; split; auto; rewrite <- Es; apply between_start).
    split; [right; apply on_outlines; exists h; auto|]. intros J. apply (disjoint_no_point _ _ v Dj); auto. apply ring_box; auto.
  - destruct (inner_point [h] (outlines (rings p))) as (z & O1 & O2 & Iz).
    + unfold outlines. cbn [flat_map]. rewrite app_nil_r. apply (ring_nc (rings p)); auto. apply V.
    + discriminate.
    + intros [Q|[]]. auto.
    + apply (vp_edges _ V).
    + cbn [xsum] in Iz. rewrite xorb_false_r in Iz. apply insideb_true in Iz. exists z. split.
      * left. unfold inside_polygon, kept. apply api_polygon. split; [apply (vp_within _ V z h); auto|]. intros k Ik. apply filter_In in Ik. destruct Ik as [Ik Nk].
        assert (Nb : region_location k z <> BOUNDARY) by (intros Q; apply api_boundary in Q; apply O2, on_outlines; exists k; split; auto; right; auto).
        assert (Ni : ~ inside_ring k z).
        { intros Q. pose proof (vp_apart _ V z O2) as F. clear - F Ih Ik Nh Nk Iz Q. induction F as [|a l F1 F2 IH]; [destruct Ih|]. rewrite Forall_forall in F1.
          destruct Ih as [<-|Ih], Ik as [<-|Ik]; [congruence|apply (F1 k Ik); auto|apply (F1 h Ih); auto|auto]. }
        unfold inside_ring in Ni. destruct (region_location k z); congruence.
      * intros J. apply (disjoint_no_point _ _ z Dj); auto. apply strict_box, (inside_strict h); auto.
Qed.

(** The relation depends only on the points near the other operand. *)
Lemma points_transfer (i1 i2 : Prop) (I1 O1 I2 O2 J1 P1 J2 P2 : point -> Prop) r :
  (forall x, (I2 x \/ O2 x) \/ (J2 x \/ P2 x) -> (I1 x <-> J1 x) /\ (O1 x <-> P1 x)) ->
  (forall x, (I1 x \/ O1 x) \/ (J1 x \/ P1 x) -> (I2 x <-> J2 x) /\ (O2 x <-> P2 x)) ->
  (i1 /\ forall x, (I1 x <-> J1 x) /\ (O1 x <-> P1 x)) \/
    (~ (i1 /\ forall x, I1 x \/ O1 x -> I2 x \/ O2 x) /\ ~ forall x, J1 x \/ P1 x -> J2 x \/ P2 x) ->
  (i2 /\ forall x, (I2 x <-> J2 x) /\ (O2 x <-> P2 x)) \/
    (~ (i2 /\ forall x, I2 x \/ O2 x -> I1 x \/ O1 x) /\ ~ forall x, J2 x \/ P2 x -> J1 x \/ P1 x) ->
  points_relation i1 i2 I1 O1 I2 O2 r -> sets_relation J1 P1 J2 P2 r.
Proof.
  intros E1 E2 D1 D2 R.
  assert (A12 : (i1 /\ forall x, I1 x \/ O1 x -> I2 x \/ O2 x) <-> (forall x, J1 x \/ P1 x -> J2 x \/ P2 x)).
  { destruct D1 as [[Di1 D]|[D D']]; [|tauto].
    split; [intros [_ Q]|intros Q; split; auto]; intros x X; specialize (Q x); destruct (D x) as [Di Do].
    - destruct (E2 x (or_intror X)). tauto.
    - destruct (E2 x (or_introl X)). tauto. }
  assert (A21 : (i2 /\ forall x, I2 x \/ O2 x -> I1 x \/ O1 x) <-> (forall x, J2 x \/ P2 x -> J1 x \/ P1 x)).
  { destruct D2 as [[Di2 D]|[D D']]; [|tauto].
    split; [intros [_ Q]|intros Q; split; auto]; intros x X; specialize (Q x); destruct (D x) as [Di Do].
    - destruct (E1 x (or_intror X)). tauto.
    - destruct (E1 x (or_introl X)). tauto. }
  assert (C : forall x, (J1 x \/ P1 x) -> (J2 x \/ P2 x) -> (I1 x <-> J1 x) /\ (O1 x <-> P1 x) /\ (I2 x <-> J2 x) /\ (O2 x <-> P2 x)).
  { intros x A B. destruct (E1 x (or_intror B)), (E2 x (or_intror A)). auto. }
  assert (C' : forall x, (I1 x \/ O1 x) -> (I2 x \/ O2 x) -> (I1 x <-> J1 x) /\ (O1 x <-> P1 x) /\ (I2 x <-> J2 x) /\ (O2 x <-> P2 x)).
  { intros x A B. destruct (E1 x (or_introl B)), (E2 x (or_introl A)). auto. }
  assert (II : (exists x, I1 x /\ I2 x) <-> (exists x, J1 x /\ J2 x)).
  { split; intros (x & A & B); exists x; [specialize (C' x (or_introl A) (or_introl B))|specialize (C x (or_introl A) (or_introl B))]; tauto. }
  assert (OO : (exists x, O1 x /\ O2 x) <-> (exists x, P1 x /\ P2 x)).
  { split; intros (x & A & B); exists x; [specialize (C' x (or_intror A) (or_intror B))|specialize (C x (or_intror A) (or_intror B))]; tauto. }
  assert (OI : (exists x, O1 x /\ I2 x) <-> (exists x, P1 x /\ J2 x)).
  { split; intros (x & A & B); exists x; [specialize (C' x (or_intror A) (or_introl B))|specialize (C x (or_intror A) (or_introl B))]; tauto. }
  assert (IO : (exists x, O2 x /\ I1 x) <-> (exists x, P2 x /\ J1 x)).
  { split; intros (x & A & B); exists x; [specialize (C' x (or_introl B) (or_intror A))|specialize (C x (or_introl B) (or_intror A))]; tauto. }
  assert (RR : (exists x, (I1 x \/ O1 x) /\ (I2 x \/ O2 x)) <-> (exists x, (J1 x \/ P1 x) /\ (J2 x \/ P2 x))).
  { split; intros (x & A & B); exists x; [specialize (C' x A B)|specialize (C x A B)]; tauto. }
  destruct r; cbn [points_relation sets_relation] in *; rewrite <- ?A12, <- ?A21, <- ?II, <- ?OO, <- ?OI, <- ?IO, <- ?RR; auto.
  - destruct R as (R1 & R2 & R3). split; auto. split; auto. destruct D1 as [[_ D]|[D _]]; [|contradiction].
    intros x X. destruct (E2 x (or_intror (or_intror X))) as [_ Q2]. apply Q2, R3, D, X.
  - destruct R as (R1 & R2 & R3). split; auto. split; auto. destruct D2 as [[_ D]|[D _]]; [|contradiction].
    intros x X. destruct (E1 x (or_intror (or_intror X))) as [_ Q2]. apply Q2, R3, D, X.
Qed.
(** No two relations hold at once. *)
Section Exclusive.
Variables I O I' O' : point -> Prop.
Hypothesis NO : exists x, O x.
Hypothesis NO' : exists x, O' x.
Hypothesis Off : forall x, I x -> O x -> False.
Hypothesis Off' : forall x, I' x -> O' x -> False.
Hypothesis M : (forall x, I x \/ O x -> I' x \/ O' x) -> exists x, I x /\ I' x.
Hypothesis M' : (forall x, I' x \/ O' x -> I x \/ O x) -> exists x, I x /\ I' x.
Lemma sets_exclusive r r' : sets_relation I O I' O' r -> sets_relation I O I' O' r' -> r = r'.
Proof.
  destruct NO as (x1 & B1). destruct NO' as (x2 & B2).
  assert (Ot : (forall x, O x -> O' x) -> exists x, O x /\ O' x) by (intros Q; exists x1; auto).
  assert (Ot' : (forall x, O' x -> O x) -> exists x, O x /\ O' x) by (intros Q; exists x2; auto).
  assert (In1 : (forall x, O x -> O' x) -> (exists x, O x /\ I' x) -> False).
  { intros Q (x & A & B). apply (Off' x B). auto. }
  assert (In2 : (forall x, O' x -> O x) -> (exists x, O' x /\ I x) -> False).
  { intros Q (x & A & B). apply (Off x B). auto. }
  assert (Rg : (exists x, I x /\ I' x) -> exists x, (I x \/ O x) /\ (I' x \/ O' x)).
  { intros (x & A & B). exists x. split; left; auto. }
  intros R R'. destruct r, r'; try reflexivity; exfalso; cbn [sets_relation] in R, R'; tauto.
Qed.
Lemma sets_swap r : sets_relation I O I' O' r -> sets_relation I' O' I O (complement r).
Proof.
  clear. assert (Sy : forall (P Q : point -> Prop), (exists x, P x /\ Q x) <-> exists x, Q x /\ P x) by (intros P Q; split; intros (x & A & B); exists x; auto).
  pose proof (Sy (fun x => I x \/ O x) (fun x => I' x \/ O' x)). pose proof (Sy I I'). pose proof (Sy O O'). cbn beta in *.
  destruct r; cbv beta iota zeta delta [sets_relation complement relation_is orb]; tauto.
Qed.
End Exclusive.

(** Next to an outline, off another one. *)
Lemma beside ra rb x v : non_crossing (outlines ra) -> non_crossing (outlines rb) -> on_segs (outlines ra) x -> ~ on_segs (outlines rb) x ->
  exists z, off_outlines ra z /\ off_outlines rb z /\ parity (outlines ra) z = v /\ parity (outlines rb) z = parity (outlines rb) x.
Proof.
  intros NA NB O Nb. destruct (good_exists (operands (outlines ra) (outlines rb)) (length (outlines ra))) as (eps & _ & G).
  { intros s I. unfold operands in I. apply in_map_iff in I. destruct I as (y & <- & I). apply sorted_pair_lt.
    apply in_app_or in I. destruct I as [I|I]; [pose proof (proj1 NA) as Q|pose proof (proj1 NB) as Q]; rewrite Forall_forall in Q; auto. }
  destruct (both_sides ra rb eps NA NB G true x v O Nb) as (z & A & B & C & D). exists z. auto.
Qed.
