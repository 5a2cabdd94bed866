(** Lists of polygons to be related: two outlines round a point; the holes left out. *)
From Coq Require Import QArith Qcanon Bool List Arith Lia Permutation.
From Verif Require Import QcTac Model_Base Model_Utils Model_Box Model_Geometry Model_Contour Model_Linear Model_Mixed Model_Shaped Model_Multipolygon Model_Relate Model_RelateLinear Model_RelateShaped
  Spec_Base Spec_Segment Spec_Clip Spec_Contour Spec_Relate Spec_Bounds Spec_Sweep Spec_Shaped Spec_Multipolygon Spec_RelateShaped
  Proof_Base Proof_Line Proof_Contour Proof_Edges Proof_Bounds Proof_Locate Proof_Locate3 Proof_Locate4 Proof_Sweep4 Proof_Sweep6 Proof_Sweep18 Proof_SegLoops Proof_Parity
  Proof_Corner Proof_Ray Proof_Orient Proof_Nested Proof_Nested2 Proof_Bridge
  Proof_RelateP Proof_Odd Proof_Clip Proof_Ready Proof_Polygons Proof_Multi Proof_RelShaped3 Proof_RelShaped6 Proof_RelShaped7 Proof_RelShaped8 Proof_RelateShaped.
Import ListNotations.
Local Open Scope Qc_scope.

Lemma topmost {T} (f : T -> Qc) (l : list T) : l <> [] -> exists x, In x l /\ forall y, In y l -> f y <= f x.
Proof.
  induction l as [|a l IH]; [congruence|]. intros _. destruct l as [|b l].
  - exists a. split; [left; auto|]. intros y [<-|[]]. apply Qcle_refl.
  - destruct IH as (x & I & M); [congruence|]. destruct (Qclt_le_dec (f x) (f a)) as [L|L].
    + exists a. split; [left; auto|]. intros y [<-|J]; [apply Qcle_refl|]. specialize (M y J). qlra.
    + exists x. split; [right; auto|]. intros y [<-|J]; auto.
Qed.

(** Of two outlines round a point one goes inside the other. *)
Lemma two_inside r1 r2 z : non_crossing (outlines (r1 ++ r2)) -> inn (outlines r1) z -> inn (outlines r2) z ->
  exists w, (on_segs (outlines r1) w /\ inn (outlines r2) w) \/ (on_segs (outlines r2) w /\ inn (outlines r1) w).
Proof.
  intros Nc [O1 P1] [O2 P2]. set (R := outlines (r1 ++ r2)) in *.
  assert (ER : R = outlines r1 ++ outlines r2) by apply outlines_app.
  destruct (eps_exists (ends_of R)) as (eps & Pe & Ri).
  assert (Sd : Forall (sound_edge eps) R) by (apply sound_all; [apply Nc|]; intros v w Iv Iw; apply Ri; auto).
  assert (OR : ~ on_segs R z) by (rewrite ER; intros (e & I & O); apply in_app_or in I; destruct I; [apply O1|apply O2]; exists e; auto).
  destruct (creep eps R (map (Xs eps) (ends_of R)) z (Pt (px z + 1) (py z)) Sd OR) as (s & S0 & S1 & Nt & Of).
  { unfold Xs. cbn. intros E. qlra. }
  set (x := lerp z (Pt (px z + 1) (py z)) s) in *. clearbody x.
  assert (Gx : forall v, In v (ends_of R) -> Xs eps v <> Xs eps x) by (intros v I E; apply Nt; rewrite <- E; apply in_map; auto).
  assert (Sub : forall (b : bool) e, In e (outlines (if b then r1 else r2)) -> In e R) by (intros b e I; rewrite ER; apply in_or_app; destruct b; auto).
  assert (Ox : ~ on_segs R x) by (apply Of, between_end).
  assert (Gb : forall (b : bool) v, In v (ends_of (outlines (if b then r1 else r2))) -> Xs eps v <> Xs eps x).
  { intros b v I. apply Gx. unfold ends_of in *. apply in_flat_map in I. destruct I as (e & I & J). apply in_flat_map. exists e. split; auto. apply (Sub b); auto. }
  assert (Px : forall b : bool, xsum (below_seg eps x) (outlines (if b then r1 else r2)) = true).
  { intros b. rewrite <- (parity_below eps (outlines (if b then r1 else r2)) x); [| |intros v I; apply (Gb b); auto|apply even_outlines].
    - rewrite <- (parity_way (if b then r1 else r2) z x); [destruct b; auto|]. intros y Oy (e & I & Q). apply (Of y Oy). exists e. split; auto. apply (Sub b); auto.
    - intros (e & I & Q). apply Ox. exists e. split; auto. apply (Sub b); auto. }
  destruct (topmost (fun e => height eps e (Xs eps x)) (filter (below_seg eps x) R)) as (e & Ie & Top).
  { destruct (xsum_some _ _ (Px true)) as (e & I & Q). intros E. assert (J : In e (filter (below_seg eps x) R)) by (apply filter_In; split; auto; apply (Sub true); auto). rewrite E in J. destruct J. }
  apply filter_In in Ie. destruct Ie as [IR Be]. rewrite Forall_forall in Sd. rewrite (below_height eps e x (Sd e IR)) in Be.
  apply andb_prop in Be. destruct Be as [Be B3]. apply andb_prop in Be. destruct Be as [B1 B2].
  destruct (qltb_spec (Xs eps (lo e)) (Xs eps x)) as [L1|]; [|discriminate]. destruct (qltb_spec (Xs eps x) (Xs eps (hi e))) as [L2|]; [|discriminate].
  destruct (qltb_spec (height eps e (Xs eps x)) (py x)) as [L3|]; [|discriminate]. clear B1 B2 B3.
  set (w := spot eps (Xs eps x) (height eps e (Xs eps x))).
  assert (Xw : Xs eps w = Xs eps x) by apply spot_X. assert (Yw : py w = height eps e (Xs eps x)) by reflexivity. clearbody w.
  assert (Ow : on_seg e w). { apply (between_on eps e w); auto; rewrite ?Xw; try qlra. }
  assert (Ge : forall y, In y R -> Xs eps (seg_start y) <> Xs eps w /\ Xs eps (seg_end y) <> Xs eps w).
  { intros y I. rewrite Xw. split; apply Gx; unfold ends_of; apply in_flat_map; exists y; cbn; auto. }
  assert (Main : forall b : bool, In e (outlines (if b then r1 else r2)) -> inn (outlines (if b then r2 else r1)) w).
  { intros b Ib. assert (Al : forall y, In y (outlines (if b then r2 else r1)) -> ~ on_seg y w).
    { apply in_split in Ib. destruct Ib as (A & B & Eb). destruct b.
      - intros y I. apply (alone eps A e (B ++ outlines r2) w); auto.
        + assert (E : R = A ++ e :: B ++ outlines r2) by (rewrite ER, Eb, <- app_assoc; reflexivity). rewrite <- E. auto.
        + assert (E : R = A ++ e :: B ++ outlines r2) by (rewrite ER, Eb, <- app_assoc; reflexivity). rewrite <- E. auto.
        + rewrite !in_app_iff. auto.
      - intros y I. assert (E : R = (outlines r1 ++ A) ++ e :: B) by (rewrite ER, Eb, <- app_assoc; reflexivity).
        apply (alone eps (outlines r1 ++ A) e B w); auto; rewrite <- ?E; auto. rewrite !in_app_iff. auto. }
    assert (Nw : ~ on_segs (outlines (if b then r2 else r1)) w) by (intros (y & I & O); apply (Al y I O)).
    assert (Gw : forall v, In v (ends_of (outlines (if b then r2 else r1))) -> Xs eps v <> Xs eps w) by (intros v I; rewrite Xw; apply (Gb (negb b)); destruct b; auto).
    split; auto. rewrite (parity_below eps _ w); auto using even_outlines.
    pose proof (Px (negb b)) as Pb. replace (if negb b then r1 else r2) with (if b then r2 else r1) in Pb by (destruct b; auto). rewrite <- Pb.
    apply xsum_ext. intros y I. assert (IyR : In y R) by (apply (Sub (negb b)); destruct b; auto).
    rewrite !below_height by auto. rewrite Xw. destruct (qltb_spec (Xs eps (lo y)) (Xs eps x)) as [M1|M1]; auto. destruct (qltb_spec (Xs eps x) (Xs eps (hi y))) as [M2|M2]; auto. cbn [andb].
    destruct (qltb_spec (height eps y (Xs eps x)) (py x)) as [M3|M3].
    - assert (Tp : height eps y (Xs eps x) <= height eps e (Xs eps x)).
      { apply Top. apply filter_In. split; auto. rewrite below_height by auto. destruct (qltb_spec (Xs eps (lo y)) (Xs eps x)); [|contradiction]. destruct (qltb_spec (Xs eps x) (Xs eps (hi y))); [|contradiction].
        destruct (qltb_spec (height eps y (Xs eps x)) (py x)); [auto|contradiction]. }
      destruct (qltb_spec (height eps y (Xs eps x)) (py w)) as [M4|M4]; auto. exfalso. apply (Al y I). apply (between_on eps y w); auto; rewrite ?Xw; [qlra|qlra|].
      rewrite Yw in *. apply Qcnot_lt_le in M4. qlra.
    - destruct (qltb_spec (height eps y (Xs eps x)) (py w)) as [M4|M4]; auto. rewrite Yw in M4. apply Qcnot_lt_le in M3. exfalso. qlra. }
  assert (IR' := IR). rewrite ER in IR'. apply in_app_or in IR'. exists w.
  destruct IR' as [I|I]; [left|right]; (split; [exists e; auto|]); [apply (Main true I)|apply (Main false I)].
Qed.

(** A hole round another polygon is round its box. *)
Lemma hole_round p h : valid_polygon p -> non_crossing (edges h) -> (forall x, inside_polygon p x -> inside_ring h x) ->
  forall x, in_box (polygon_box p) x -> in_box (contour_box h) x.
Proof.
  intros V Nc Sub.
  assert (Vt : forall v, In v (border p) -> in_box (contour_box h) v).
  { intros v Iv. destruct (vertex_edge (border p) v Iv) as (e & Ie & Es).
    assert (O : on_segs (outlines (rings p)) v) by (apply on_outlines; exists (border p); split; [left; auto|]; exists e; split; auto; rewrite <- Es; apply between_start).
    assert (Eo : outlines [h] = edges h) by (unfold outlines; cbn [flat_map]; apply app_nil_r).
    destruct (on_segs_dec (edges h) v) as [D|D]; [apply ring_box; exact D|].
    destruct (beside (rings p) [h] v true (vp_edges _ V)) as (z & Oz1 & Oz2 & Pz1 & Pz2); rewrite ?Eo; auto.
    rewrite Eo in Pz2. assert (Iz : inside_ring h z) by (apply Sub, inside_inn; auto; split; auto).
    apply strict_box, inside_strict. apply inside_parity; [auto|]. rewrite <- Pz2. apply inside_parity; auto.
    intros Q. apply Oz2. rewrite Eo. auto. }
  intros x I. pose proof (vp_simple _ V) as S. rewrite Forall_forall in S. destruct (S (border p) (or_introl eq_refl)) as [[L _] _].
  unfold polygon_box, bounding_box in I. destruct (border p) as [|v vs]; [cbn in L; lia|].
  destruct (contour_box_hull v vs) as (_ & _ & H). apply (H (contour_box h)); auto.
Qed.
Lemma kept_split p b z : valid_polygon p -> off_outlines (rings p) z -> inside_polygon (kept p b) z ->
  inside_polygon p z \/ exists h, In h (holes p) /\ near_box b h = false /\ inside_ring h z.
Proof.
  intros V Of I. destruct p as [bd hs]. unfold inside_polygon in *. unfold kept in I. cbn [border holes] in *. apply api_polygon in I. destruct I as [I1 I2].
  destruct (existsb (fun h => negb (near_box b h) && insideb h z) hs) eqn:E.
  - right. apply existsb_exists in E. destruct E as (h & Ih & Q). apply andb_prop in Q. destruct Q as [Q1 Q2]. exists h. split; auto. split; [apply negb_true_iff; auto|apply insideb_true; auto].
  - left. apply api_polygon. split; auto. intros h Ih.
    assert (Nb : region_location h z <> BOUNDARY) by (intros Q; apply api_boundary in Q; apply Of, on_outlines; exists h; split; auto; right; auto).
    destruct (near_box b h) eqn:Nh; [apply I2, filter_In; auto|].
    assert (Ni : insideb h z = false).
    { destruct (insideb h z) eqn:Q; auto. rewrite <- E. symmetry. apply existsb_exists. exists h. rewrite Nh, Q. auto. }
    destruct (region_location h z) eqn:Q; auto; exfalso; [apply Nb; auto|apply insideb_true in Q; congruence].
Qed.
Section Two.
Variables p1 p2 : polygon.
Variable b : box.
Hypothesis V1 : valid_polygon p1.
Hypothesis V2 : valid_polygon p2.
Hypothesis Nc : non_crossing (outlines (rings p1 ++ rings p2)).
Hypothesis Ap : forall x, ~ (inside_polygon p1 x /\ inside_polygon p2 x).
Definition settled_pair (p p' : polygon) : Prop := forall h, In h (holes p) ->
  (forall x, inside_polygon p' x -> inside_ring h x) \/ (forall x, ~ (inside_polygon p' x /\ inside_ring h x)).
Hypothesis S12 : settled_pair p1 p2.
Hypothesis S21 : settled_pair p2 p1.
Hypothesis N1 : exists x, in_box (polygon_box p1) x /\ in_box b x.
Hypothesis N2 : exists x, in_box (polygon_box p2) x /\ in_box b x.
Lemma not_all p p' h : valid_polygon p -> valid_polygon p' -> (exists x, in_box (polygon_box p') x /\ in_box b x) -> In h (holes p) -> near_box b h = false ->
  (forall x, inside_polygon p' x -> inside_ring h x) -> False.
Proof.
  intros V V' (x & X1 & X2) Ih Nh Al. assert (Nch : non_crossing (edges h)) by (apply (ring_nc (rings p)); [right; auto|apply V]).
  unfold near_box in Nh. apply negb_false_iff in Nh. apply (disjoint_no_point _ _ x Nh); auto. apply (hole_round p' h); auto.
Qed.
Lemma no_around p p' h h' w : valid_polygon p -> valid_polygon p' -> In h (holes p) -> In h' (holes p') -> (forall x, ~ (inside_polygon p x /\ inside_ring h' x)) ->
  on_segs (outlines [h]) w -> inn (outlines [h']) w -> False.
Proof.
  intros V V' Ih Ih' No O [Ow Pw]. assert (Eo : forall k, outlines [k] = edges k) by (intros k; unfold outlines; cbn [flat_map]; apply app_nil_r).
  rewrite !Eo in *. destruct (beside (rings p) [h'] w true (vp_edges _ V)) as (z & Oz1 & Oz2 & Pz1 & Pz2); rewrite ?Eo; auto.
  - apply (ring_nc (rings p')); [right; auto|apply V'].
  - apply on_outlines. exists h. split; [right; auto|]. auto.
  - rewrite Eo in Pz2. apply (No z). split; [apply inside_inn; auto; split; auto|]. apply inside_parity; [|rewrite Pz2; auto]. intros Q. apply Oz2. rewrite Eo. auto.
Qed.
Lemma kept_apart x : ~ (inside_polygon (kept p1 b) x /\ inside_polygon (kept p2 b) x).
Proof.
  intros [I1 I2].
  assert (Vk1 := kept_valid p1 b V1). assert (Vk2 := kept_valid p2 b V2).
  destruct (off_more (rings (kept p1 b) ++ rings (kept p2 b)) (rings p1 ++ rings p2) x) as (z & Oz & Sm).
  - intros vs I. apply in_app_or in I. apply in_or_app. destruct I as [I|I]; [left|right]; apply kept_rings in I; auto.
  - auto.
  - apply off_app. split; [apply (inside_off (kept p1 b))|apply (inside_off (kept p2 b))]; auto.
  - apply off_app in Oz. destruct Oz as [Oz1 Oz2].
    assert (Tr : forall p, valid_polygon p -> off_outlines (rings p) z -> (forall vs, In vs (rings (kept p b)) -> insideb vs z = insideb vs x) -> inside_polygon (kept p b) x -> inside_polygon (kept p b) z).
    { intros p V Op Sp Ip. assert (Ok : off_outlines (rings (kept p b)) z) by (intros Q; apply Op; apply on_outlines in Q; destruct Q as (vs & Iv & Q); apply on_outlines; exists vs; split; auto; apply (kept_rings p b); auto).
      apply (polygon_odd (kept p b) z (kept_valid p b V) Ok). apply odd_xsum. rewrite (xsum_ext (fun vs => insideb vs z) (fun vs => insideb vs x)) by auto. apply odd_xsum.
      apply (polygon_odd (kept p b) x (kept_valid p b V)); auto. apply inside_off; auto. }
    apply Tr in I1; auto; [|intros vs I; apply Sm, in_or_app; auto]. apply Tr in I2; auto; [|intros vs I; apply Sm, in_or_app; auto].
    apply kept_split in I1; auto. apply kept_split in I2; auto.
    destruct I1 as [I1|(h1 & J1 & K1 & I1)], I2 as [I2|(h2 & J2 & K2 & I2)].
    + apply (Ap z); auto.
    + destruct (S21 h2 J2) as [Q|Q]; [apply (not_all p2 p1 h2); auto|apply (Q z); auto].
    + destruct (S12 h1 J1) as [Q|Q]; [apply (not_all p1 p2 h1); auto|apply (Q z); auto].
    + destruct (S12 h1 J1) as [Q1|Q1]; [apply (not_all p1 p2 h1); auto|]. destruct (S21 h2 J2) as [Q2|Q2]; [apply (not_all p2 p1 h2); auto|].
      assert (Iz : forall p h, In h (holes p) -> off_outlines (rings p) z -> inside_ring h z -> inn (outlines [h]) z).
      { intros p h Ih Op Iz. assert (Oh : ~ on_contour h z) by (intros Q; apply Op, on_outlines; exists h; split; auto; right; auto).
        split; [rewrite on_outlines; intros (vs & [<-|[]] & Q); auto|]. unfold outlines. cbn [flat_map]. rewrite app_nil_r. apply inside_parity; auto. }
      destruct (two_inside [h1] [h2] z) as (w & [[W1 W2]|[W1 W2]]); eauto.
      * rewrite outlines_app in Nc |- *. destruct Nc as [Np Nf]. apply Forall_app in Np. destruct Np as [Np1 Np2]. apply FOP_app_inv in Nf. destruct Nf as (Nf1 & Nf2 & Nf3).
        assert (Ih : forall p h, In h (holes p) -> forall e, In e (outlines [h]) -> In e (outlines (rings p))).
        { intros p h I e Ie. unfold outlines in *. apply in_flat_map in Ie. destruct Ie as (vs & [<-|[]] & Ie). apply in_flat_map. exists h. split; auto. right; auto. }
        assert (Nh : forall p h, valid_polygon p -> In h (holes p) -> non_crossing (outlines [h])).
        { intros p h V I. unfold outlines. cbn [flat_map]. rewrite app_nil_r. apply (ring_nc (rings p)); [right; auto|apply V]. }
        split; [apply Forall_app; split; [apply (Nh p1 h1)|apply (Nh p2 h2)]; auto|].
        apply FOP_app; [apply (Nh p1 h1); auto|apply (Nh p2 h2); auto|]. intros e e' Ie Ie'. apply Nf3; [apply (Ih p1 h1)|apply (Ih p2 h2)]; auto.
      * apply (no_around p1 p2 h1 h2 w); auto.
      * apply (no_around p2 p1 h2 h1 w); auto.
Qed.
End Two.
