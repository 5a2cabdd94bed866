(** What a valid polygon gives to the clipping: its oriented segments, its box, inner points. *)
From Coq Require Import QArith Qcanon Bool List Arith Lia Permutation.
From Verif Require Import QcTac Model_Base Model_Utils Model_Box Model_Geometry Model_Contour Model_Linear Model_Mixed Spec_Base Spec_Segment Spec_Clip Spec_Contour
  Spec_Relate Spec_Bounds Spec_Shaped
  Proof_Base Proof_Line Proof_Contour Proof_Edges Proof_Bounds Proof_Shrink Proof_Locate Proof_Locate3 Proof_Locate4 Proof_Sweep4 Proof_Sweep6 Proof_Sweep18 Proof_Ottmann15 Proof_Parity
  Proof_Corner Proof_Region Proof_Ray Proof_Orient Proof_Nested Proof_Nested2 Proof_RelateP Proof_SegLoops Proof_Odd Proof_Clip.
Import ListNotations.
Local Open Scope Qc_scope.

Lemma vertex_edge vs v : In v vs -> exists e, In e (edges vs) /\ seg_start e = v.
Proof.
  intros I. apply (In_nth _ _ origin) in I. destruct I as (i & L & <-). pose proof (edges_nth vs i L) as E. apply nth_error_In in E.
  eexists. split; [exact E|]. reflexivity.
Qed.
Lemma concat_ends r v : In v (concat r) <-> In v (ends_of (outlines r)).
Proof.
  split.
  - intros I. apply in_concat in I. destruct I as (vs & I & J). destruct (vertex_edge vs v J) as (e & K & <-). unfold ends_of, outlines.
    apply in_flat_map. exists e. split; [apply in_flat_map; exists vs; auto|left; auto].
  - intros I. unfold ends_of in I. apply in_flat_map in I. destruct I as (e & I & J). apply in_flat_map in I. destruct I as (vs & K & I).
    apply edges_In in I. apply in_concat. exists vs. split; auto. destruct J as [<-|[<-|[]]]; apply I.
Qed.

Record prepared (p : polygon) (r : list (list point)) : Prop := {
  pr_segments : polygon_to_correctly_oriented_segments p = outlines r;
  pr_same : Forall2 same_cycle (rings p) r;
  pr_nc : non_crossing (outlines r);
  pr_side : forall eps, rising eps (ends_of (outlines r)) -> forall e q, In e (outlines r) -> on_seg e q ->
    (forall v, In v (ends_of (outlines r)) -> Xs eps v <> Xs eps q) -> xsum (below_seg eps q) (outlines r) = negb (segment_flag e) }.
Lemma prepare p : valid_polygon p -> exists r, prepared p r.
Proof.
  intros V. destruct p as [b hs]. destruct (polygon_segments b hs) as (b' & hs' & E & Sb & Sh & Ob & Oh).
  exists (b' :: hs'). assert (V' := valid_cycle b hs b' hs' V Sb Sh). pose proof (vp_simple _ V) as Sm. unfold rings in Sm; cbn [border holes] in Sm.
  inversion Sm as [|? ? Sb0 Sh0]; subst.
  constructor.
  - rewrite E. reflexivity.
  - constructor; auto.
  - apply (vp_edges _ V').
  - intros eps Ri e q I O Gn. apply polygon_side; auto.
    + apply Ob, Sb0.
    + clear - Oh Sh0. intros h I. revert Sh0. induction Oh as [|x y l l' Q F IH]; [destruct I|]. intros Sh0. inversion Sh0 as [|? ? [S1 _] S2]; subst.
      destruct I as [<-|I]; auto.
    + intros v w Iv Iw. apply Ri; apply concat_ends; auto.
    + intros v Iv. apply Gn, concat_ends; auto.
Qed.
Lemma Forall2_rings_inside l l' q : Forall2 same_cycle l l' -> xsum (fun vs => insideb vs q) l = xsum (fun vs => insideb vs q) l'.
Proof.
  induction 1 as [|x y l l' S F IH]; auto. cbn [xsum]. rewrite IH. f_equal. unfold insideb. rewrite (api_representation x y q S). auto.
Qed.

(** The interior of a contour is strictly within its box. *)
Lemma inside_strict vs q : inside_ring vs q -> inside_box (bounding_box (GContour vs)) q.
Proof.
  intros I. assert (Bx : in_box (bounding_box (GContour vs)) q).
  { unfold in_box. assert (Q : ~ ~ in_box (bounding_box (GContour vs)) q) by (intros N; unfold inside_ring in I; rewrite (api_outside_box vs q N) in I; discriminate I).
    unfold in_box in Q. repeat split; apply Qcnot_lt_le; intros L; apply Q; intros ((A1 & A2) & (B1 & B2)); qlra. }
  assert (Off : ~ on_contour vs q) by (intros O; apply api_boundary in O; unfold inside_ring in I; congruence).
  assert (Pb : forall x, on_contour vs x -> in_box (bounding_box (GContour vs)) x).
  { intros x (e & Ie & Oe). apply edges_In in Ie. apply (in_box_on_seg _ e); auto; apply contour_box_in; apply Ie. }
  set (bx := bounding_box (GContour vs)) in *. destruct Bx as ((A1 & A2) & (B1 & B2)).
  assert (Mv : forall dx dy, ~ in_box bx (Pt (px q + dx) (py q + dy)) -> (forall t, 0 <= t -> t <= 1 -> in_box bx (Pt (px q + t * dx) (py q + t * dy)) -> t = 0) -> False).
  { intros dx dy N M. assert (E : region_location vs q = region_location vs (Pt (px q + dx) (py q + dy))).
    { apply api_not_crossing. intros x O (t & T0 & T1 & Ex). cbn [seg_start seg_end] in Ex.
      assert (Ex' : x = Pt (px q + t * dx) (py q + t * dy)) by (rewrite Ex; unfold lerp; apply point_ext; cbn [px py]; ring).
      pose proof (Pb x O) as Bx. rewrite Ex' in Bx. apply M in Bx; auto. apply Off. rewrite Bx in Ex'. replace q with x; auto. rewrite Ex'. apply point_ext; cbn [px py]; ring. }
    rewrite (api_outside_box vs _ N) in E. unfold inside_ring in I. congruence. }
  assert (Zt : forall z t, 0 <= t -> 0 < z -> t * z <= 0 -> t = 0).
  { intros z t T0 Z L. apply Qcle_lt_or_eq in T0. destruct T0 as [T0|T0]; auto. exfalso. assert (0 < t * z) by (apply Qcmult_pos; auto). qlra. }
  repeat split; apply Qcnot_le_lt; intros L.
  - apply (Mv (- (1)) 0); [intros ((C1 & C2) & _); cbn [px] in *; qlra|]. intros t T0 T1 ((C1 & C2) & _). cbn [px] in *. apply (Zt 1); auto; qlra.
  - apply (Mv 1 0); [intros ((C1 & C2) & _); cbn [px] in *; qlra|]. intros t T0 T1 ((C1 & C2) & _). cbn [px] in *. apply (Zt 1); auto; qlra.
  - apply (Mv 0 (- (1))); [intros (_ & (C1 & C2)); cbn [py] in *; qlra|]. intros t T0 T1 (_ & (C1 & C2)). cbn [py] in *. apply (Zt 1); auto; qlra.
  - apply (Mv 0 1); [intros (_ & (C1 & C2)); cbn [py] in *; qlra|]. intros t T0 T1 (_ & (C1 & C2)). cbn [py] in *. apply (Zt 1); auto; qlra.
Qed.
Lemma inside_polygon_box p q : inside_polygon p q -> inside_box (bounding_box (GPolygon p)) q.
Proof.
  intros I. destruct p as [b hs]. unfold inside_polygon in I. destruct (api_polygon b hs q) as (A & _). apply A in I. destruct I as [I _].
  apply inside_strict in I. exact I.
Qed.
Lemma no_common_area_apart p p' q : do_boxes_have_no_common_area (bounding_box (GPolygon p)) (bounding_box (GPolygon p')) = true ->
  inside_polygon p q -> inside_polygon p' q -> False.
Proof.
  intros D I J. apply inside_polygon_box in I. apply inside_polygon_box in J.
  set (b := bounding_box (GPolygon p)) in *. set (b' := bounding_box (GPolygon p')) in *. clearbody b b'.
  destruct I as ((I1 & I2) & (I3 & I4)), J as ((J1 & J2) & (J3 & J4)).
  unfold do_boxes_have_no_common_area, box_disjoint_with, box_touches in D.
  repeat rewrite ?orb_true_iff, ?andb_true_iff, ?qltb_true, ?qleb_true, ?qeqb_true in D.
  repeat match goal with H : _ \/ _ |- _ => destruct H | H : _ /\ _ |- _ => destruct H end; qlra.
Qed.
Lemma no_common_continuum_area b b' : do_boxes_have_no_common_continuum b b' = true -> do_boxes_have_no_common_area b b' = true.
Proof.
  unfold do_boxes_have_no_common_continuum, do_boxes_have_no_common_area. rewrite !orb_true_iff, !andb_true_iff. tauto.
Qed.

(** A point off the segments, in the given column, on the odd side of an edge. *)
Lemma flip eps R S e t : non_crossing R -> In e R -> Forall (sound_edge eps) (R ++ S) -> Xs eps (lo e) < t -> t < Xs eps (hi e) ->
  (forall v, In v (ends_of (R ++ S)) -> Xs eps v <> t) ->
  exists q, Xs eps q = t /\ ~ on_segs (R ++ S) q /\ xsum (below_seg eps q) R = true.
Proof.
  intros Nc Ie Sd T1 T2 Gn. set (q := spot eps t (height eps e t)). assert (Xq : Xs eps q = t) by apply spot_X.
  assert (Oq : on_seg e q).
  { rewrite Forall_forall in Sd. apply between_on with (eps := eps); [apply Sd, in_or_app; auto|rewrite Xq; qlra|rewrite Xq; qlra|rewrite Xq; reflexivity]. }
  assert (Gs : forall x, In x (R ++ S) -> Xs eps (seg_start x) <> Xs eps q /\ Xs eps (seg_end x) <> Xs eps q).
  { intros x I. rewrite Xq. split; apply Gn; unfold ends_of; apply in_flat_map; exists x; cbn; auto. }
  destruct (nudge eps (R ++ S) q Sd) as (up & down & Xu & Xd & Ou & Od & Bl).
  { intros x I. destruct (Gs x I), (lo_hi x) as [[-> ->]|[-> ->]]; auto. }
  destruct (xsum (below_seg eps down) R) eqn:Bd; [exists down; split; [congruence|auto]|]. exists up. split; [congruence|]. split; auto.
  apply in_split in Ie. destruct Ie as (R1 & R2 & ->).
  assert (Al : forall x, In x (R1 ++ R2) -> ~ on_seg x q) by (apply (alone eps R1 e R2 q); auto; intros x I; apply Gs, in_or_app; auto).
  rewrite xsum_app in *. cbn [xsum] in *.
  destruct (Bl e) as [Be _]; [apply in_or_app; left; apply in_or_app; right; left; auto|]. destruct (Be Oq) as (_ & Bu & Bdn). rewrite Bu, Bdn in *.
  assert (Q1 : xsum (below_seg eps up) R1 = xsum (below_seg eps down) R1).
  { apply xsum_ext. intros x I. destruct (Bl x) as [_ Bx]; [apply in_or_app; left; apply in_or_app; auto|]. destruct Bx as [-> ->]; auto. apply Al, in_or_app; auto. }
  assert (Q2 : xsum (below_seg eps up) R2 = xsum (below_seg eps down) R2).
  { apply xsum_ext. intros x I. destruct (Bl x) as [_ Bx]; [apply in_or_app; left; apply in_or_app; right; right; auto|]. destruct Bx as [-> ->]; auto. apply Al, in_or_app; auto. }
  rewrite Q1, Q2. revert Bd. destruct (xsum (below_seg eps down) R1), (xsum (below_seg eps down) R2); cbn; congruence.
Qed.
Lemma column_below (l : list Qc) (x : Qc) : exists u, u < x /\ forall z, In z l -> z < x -> z < u.
Proof.
  induction l as [|z l (u & L & B)]; [exists (x - 1); split; [qlra|intros z []]|]. destruct (Qclt_le_dec z x) as [Lz|Lz].
  - destruct (Qclt_le_dec z u) as [Q|Q]; [exists u; split; auto; intros w [<-|I]; auto|].
    destruct (qmid z x Lz) as (m & M1 & M2). exists m. split; auto. intros w [<-|I] Lw; auto. specialize (B w I Lw). qlra.
  - exists u. split; auto. intros w [<-|I] Lw; auto. qlra.
Qed.
Lemma column_above (l : list Qc) (x : Qc) : exists u, x < u /\ forall z, In z l -> x < z -> u < z.
Proof.
  destruct (column_below (map Qcopp l) (- x)) as (u & L & B). exists (- u). split; [qlra|]. intros z I Lz.
  assert (- z < u) by (apply B; [apply in_map; auto|qlra]). qlra.
Qed.
Lemma sound_all eps l : Forall proper_seg l -> rising eps (ends_of l) -> Forall (sound_edge eps) l.
Proof.
  intros P Ri. rewrite Forall_forall in *. intros e I. apply sound_proper; auto. intros v w Iv Iw. apply Ri; unfold ends_of; apply in_flat_map; exists e; auto.
Qed.
Lemma rising_incl eps l m : (forall x, In x l -> In x m) -> rising eps m -> rising eps l.
Proof. intros I R p q Ip Iq. apply R; auto. Qed.

(** A valid polygon has a point inside off any further segments. *)
Lemma inner_point r S : non_crossing (outlines r) -> r <> [] -> ~ In [] r -> Forall proper_seg S ->
  exists q, off_outlines r q /\ ~ on_segs S q /\ xsum (fun vs => insideb vs q) r = true.
Proof.
  intros Nc Ne Nn PS. destruct (eps_exists (ends_of (outlines r ++ S))) as (eps & Pe & Ri).
  assert (Ri' : rising eps (ends_of (outlines r ++ S))) by (intros v w Iv Iw; apply Ri; auto).
  assert (Sd : Forall (sound_edge eps) (outlines r ++ S)).
  { apply sound_all; auto. apply Forall_app. split; auto. apply Nc. }
  destruct r as [|vs r]; [congruence|]. destruct vs as [|v vs]; [exfalso; apply Nn; left; auto|].
  destruct (vertex_edge (v :: vs) v) as (e & Ie & _); [left; auto|].
  assert (Ie' : In e (outlines ((v :: vs) :: r))) by (apply in_flat_map; exists (v :: vs); split; auto; left; auto).
  set (R := outlines ((v :: vs) :: r)) in *.
  assert (Se : Xs eps (lo e) < Xs eps (hi e)) by (rewrite Forall_forall in Sd; apply (Sd e); apply in_or_app; auto).
  destruct (column_below (map (Xs eps) (ends_of (R ++ S))) (Xs eps (hi e))) as (t & T1 & T2).
  assert (InE : In (lo e) (ends_of (R ++ S))).
  { unfold ends_of. apply in_flat_map. exists e. split; [apply in_or_app; auto|]. destruct (lo_hi e) as [[-> _]|[-> _]]; cbn; auto. }
  destruct (flip eps R S e t Nc Ie' Sd) as (q & Xq & Off & Q); auto.
  - apply T2; auto. apply in_map; auto.
  - intros w I E. destruct (Qclt_le_dec (Xs eps w) (Xs eps (hi e))) as [L|L]; [|qlra]. assert (Xs eps w < t) by (apply T2; auto; apply in_map; auto). qlra.
  - exists q. assert (O1 : ~ on_segs R q) by (intros (x & I & O); apply Off; exists x; split; auto; apply in_or_app; auto). split; [exact O1|].
    split; [intros (x & I & O); apply Off; exists x; split; auto; apply in_or_app; auto|].
    rewrite insideb_outlines by exact O1. fold R. rewrite (parity_below eps); auto; [|apply even_outlines].
    intros w I E. assert (I' : In w (ends_of (R ++ S))) by (unfold ends_of; rewrite flat_map_app; apply in_or_app; auto).
    destruct (Qclt_le_dec (Xs eps w) (Xs eps (hi e))) as [L|L]; [|qlra]. assert (Xs eps w < t) by (apply T2; auto; apply in_map; auto). qlra.
Qed.

(** The holes are within the columns of the border. *)
Lemma ring_nc r h : In h r -> non_crossing (outlines r) -> non_crossing (edges h).
Proof.
  intros I [P F]. apply in_split in I. destruct I as (r1 & r2 & ->). unfold outlines in *. rewrite flat_map_app in *. cbn [flat_map] in *.
  apply Forall_app in P. destruct P as [_ P]. apply Forall_app in P. destruct P as [P _].
  apply FOP_app_inv in F. destruct F as (_ & F & _). apply FOP_app_inv in F. split; tauto.
Qed.
Section Holes.
Variable p : polygon.
Hypothesis V : valid_polygon p.
Variable eps : Qc.
Hypothesis Ri : rising eps (ends_of (outlines (rings p))).
Notation X := (Xs eps).
Notation R := (outlines (rings p)).
Lemma ends_ring h v : In h (rings p) -> In v (ends_of (edges h)) -> In v (ends_of R).
Proof.
  intros I J. unfold ends_of in *. apply in_flat_map in J. destruct J as (e & Ie & J). apply in_flat_map. exists e. split; auto. apply in_flat_map. exists h. auto.
Qed.
Lemma hole_column h e t : In h (holes p) -> In e (edges h) -> X (lo e) < t -> t < X (hi e) -> (forall v, In v (ends_of R) -> X v <> t) ->
  (forall w, In w (border p) -> X w < t) \/ (forall w, In w (border p) -> t < X w) -> False.
Proof.
  intros Ih Ie T1 T2 Gn Out. assert (Ih' : In h (rings p)) by (right; auto).
  assert (Nc := ring_nc _ _ Ih' (vp_edges _ V)).
  assert (Pr : Forall (sound_edge eps) R) by (apply sound_all; auto; apply (vp_edges _ V)).
  assert (Ph : Forall (sound_edge eps) (edges h)).
  { apply sound_all; [apply Nc|]. intros v w Iv Iw. apply Ri; apply (ends_ring h); auto. }
  destruct (flip eps (edges h) R e t Nc Ie) as (q & Xq & Off & Q); auto.
  - apply Forall_app; auto.
  - intros v I. unfold ends_of in I. rewrite flat_map_app in I. apply in_app_or in I. destruct I as [I|I]; [|apply Gn; exact I]. apply Gn. apply (ends_ring h); auto.
  - assert (OR : off_outlines (rings p) q) by (intros (x & I & O); apply Off; exists x; split; auto; apply in_or_app; auto).
    assert (Oc : forall vs, In vs (rings p) -> ~ on_contour vs q) by (intros vs I O; apply OR, on_outlines; exists vs; auto).
    assert (Bl : forall vs, In vs (rings p) -> parity (edges vs) q = xsum (below_seg eps q) (edges vs)).
    { intros vs I. apply parity_below; [apply (Oc vs I)| |apply even_edges]. intros v Iv. rewrite Xq. apply Gn. apply (ends_ring vs); auto. }
    assert (Inh : inside_ring h q) by (apply inside_parity; [apply Oc; auto|rewrite Bl; auto]).
    pose proof (vp_within _ V q h OR Ih Inh) as Inb. assert (Ib : In (border p) (rings p)) by (left; auto).
    apply inside_parity in Inb; [|apply Oc; auto]. rewrite Bl in Inb by auto. rewrite xsum_false in Inb; [discriminate|].
    intros x I. assert (Sx : sound_edge eps x) by (rewrite Forall_forall in Pr; apply Pr; apply in_flat_map; exists (border p); auto).
    rewrite below_height by auto. rewrite Xq. apply edges_In in I. destruct I as [I1 I2].
    assert (I3 : In (lo x) (border p) /\ In (hi x) (border p)) by (destruct (lo_hi x) as [[-> ->]|[-> ->]]; auto). destruct I3 as [I3 I4].
    destruct Out as [Out|Out].
    + rewrite (qltb_not t (X (hi x))) by (specialize (Out _ I4); qlra). rewrite andb_false_r. auto.
    + rewrite (qltb_not (X (lo x)) t) by (specialize (Out _ I3); qlra). auto.
Qed.
Lemma hole_range h v : In h (holes p) -> In v h -> (exists w, In w (border p) /\ px v <= px w) /\ (exists w, In w (border p) /\ px w <= px v).
Proof.
  intros Ih Iv. assert (Ih' : In h (rings p)) by (right; auto).
  assert (Mono : forall a b, In a (concat (rings p)) -> In b (concat (rings p)) -> px a < px b -> X a < X b).
  { intros a b Ia Ib L. apply Ri; [apply concat_ends; auto|apply concat_ends; auto|left; auto]. }
  assert (Ch : forall x, In x h -> In x (concat (rings p))) by (intros x I; apply in_concat; exists h; auto).
  assert (Cb : forall x, In x (border p) -> In x (concat (rings p))) by (intros x I; apply in_concat; exists (border p); split; auto; left; auto).
  assert (Pr : Forall (sound_edge eps) R) by (apply sound_all; auto; apply (vp_edges _ V)).
  assert (Ne : h <> []) by (intros ->; destruct Iv).
  assert (Dec : forall (f : Qc -> Qc -> Prop), (forall a b, {f a b} + {~ f a b}) -> (exists w, In w (border p) /\ f (px v) (px w)) \/ (forall w, In w (border p) -> ~ f (px v) (px w))).
  { clear - v. intros f D. induction (border p) as [|w l IH]; [right; intros w []|]. destruct (D (px v) (px w)) as [Y|N]; [left; exists w; split; auto; left; auto|].
    destruct IH as [(u & I & Y)|IH]; [left; exists u; split; auto; right; auto|right; intros u [<-|I]; auto]. }
  split.
  - destruct (Dec Qcle) as [Q|Q]; auto; [intros a b; destruct (Qclt_le_dec b a); [right; qlra|left; auto]|]. exfalso.
    destruct (max_of X h Ne) as (m & Im & Mx). assert (Pm : px v <= px m) by (apply Qcnot_lt_le; intros L; pose proof (Mono m v (Ch m Im) (Ch v Iv) L); specialize (Mx v Iv); qlra).
    destruct (vertex_edge h m Im) as (e & Ie & Es). destruct (edges_In h e Ie) as [J1 J2].
    assert (Se : X (lo e) < X (hi e)) by (rewrite Forall_forall in Pr; apply (Pr e); apply in_flat_map; exists h; auto).
    assert (Hm : hi e = m /\ In (lo e) h).
    { destruct (lo_hi e) as [[A1 A2]|[A1 A2]]; [|rewrite A1, A2; auto]. exfalso. rewrite A1, A2, Es in Se. specialize (Mx _ J2). qlra. }
    destruct Hm as [Hm Il].
    destruct (column_below (map X (ends_of R)) (X (hi e))) as (t & T1 & T2).
    assert (T3 : forall w, In w (concat (rings p)) -> X w < X (hi e) -> X w < t) by (intros w I L; apply T2; auto; apply in_map, concat_ends; auto).
    apply (hole_column h e t); auto.
    + intros w I E. apply concat_ends in I. destruct (Qclt_le_dec (X w) (X (hi e))) as [L|L]; [|qlra]. specialize (T3 w I L). qlra.
    + left. intros w I. apply T3; auto. rewrite Hm. apply Mono; auto. specialize (Q w I). apply Qcnot_le_lt in Q. qlra.
  - destruct (Dec (fun a b => b <= a)) as [Q|Q]; auto; [intros a b; destruct (Qclt_le_dec a b); [right; qlra|left; auto]|]. exfalso.
    destruct (max_of (fun x => - X x) h Ne) as (m & Im & Mx). assert (Pm : px m <= px v) by (apply Qcnot_lt_le; intros L; pose proof (Mono v m (Ch v Iv) (Ch m Im) L); specialize (Mx v Iv); qlra).
    destruct (vertex_edge h m Im) as (e & Ie & Es). destruct (edges_In h e Ie) as [J1 J2].
    assert (Se : X (lo e) < X (hi e)) by (rewrite Forall_forall in Pr; apply (Pr e); apply in_flat_map; exists h; auto).
    assert (Hm : lo e = m /\ In (hi e) h).
    { destruct (lo_hi e) as [[A1 A2]|[A1 A2]]; [rewrite A1, A2; auto|]. exfalso. rewrite A1, A2, Es in Se. specialize (Mx _ J2). qlra. }
    destruct Hm as [Hm Il].
    destruct (column_above (map X (ends_of R)) (X (lo e))) as (t & T1 & T2).
    assert (T3 : forall w, In w (concat (rings p)) -> X (lo e) < X w -> t < X w) by (intros w I L; apply T2; auto; apply in_map, concat_ends; auto).
    apply (hole_column h e t); auto.
    + intros w I E. apply concat_ends in I. destruct (Qclt_le_dec (X (lo e)) (X w)) as [L|L]; [|qlra]. specialize (T3 w I L). qlra.
    + right. intros w I. apply T3; auto. rewrite Hm. apply Mono; auto. specialize (Q w I). apply Qcnot_le_lt in Q. qlra.
Qed.
End Holes.
Lemma vertices_range p v : valid_polygon p -> In v (concat (rings p)) -> min_x (bounding_box (GPolygon p)) <= px v /\ px v <= max_x (bounding_box (GPolygon p)).
Proof.
  intros V I. assert (Bd : forall w, In w (border p) -> min_x (bounding_box (GPolygon p)) <= px w /\ px w <= max_x (bounding_box (GPolygon p))).
  { intros w Iw. pose proof (contour_box_in (border p) w Iw) as [Q _]. exact Q. }
  apply in_concat in I. destruct I as (h & [<-|Ih] & Iv); auto.
  destruct (eps_exists (ends_of (outlines (rings p)))) as (eps & _ & Ri).
  destruct (hole_range p V eps Ri h v Ih Iv) as [(w & Iw & L) (u & Iu & L')]. destruct (Bd w Iw), (Bd u Iu). split; qlra.
Qed.
