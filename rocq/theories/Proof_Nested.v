(** Valid polygons: the parity below their edges. *)
From Coq Require Import QArith Qcanon Bool List Arith Lia Permutation.
From Verif Require Import QcTac Model_Base Model_Utils Model_Geometry Model_Contour Model_Linear Model_Mixed Proof_Base Proof_Line Proof_SegOps Proof_SegOps2
  Proof_Contour Proof_Contour2 Proof_Edges Proof_Shrink Proof_RelateP Proof_Relate6 Proof_Sweep4 Proof_Sweep6 Proof_Sweep17 Proof_Locate Proof_Locate2 Proof_Locate4 Proof_Parity Proof_Corner
  Proof_Ray Proof_Orient Spec_Base Spec_Segment Spec_Clip Spec_Contour Spec_Relate Spec_Shaped.
Import ListNotations.
Local Open Scope Qc_scope.

Lemma FOP_perm {A} (R : A -> A -> Prop) (Sy : forall x y, R x y -> R y x) l r : Permutation l r -> ForallOrdPairs R l -> ForallOrdPairs R r.
Proof.
  induction 1 as [|x l r P IH|x y l|l m r P1 IH1 P2 IH2]; intros F; auto.
  - inversion F; subst. constructor; auto. rewrite Forall_forall in *. intros z I. apply H1. apply (Permutation_in _ (Permutation_sym P)); auto.
  - inversion F as [|? ? F1 F2]; subst. inversion F2 as [|? ? F3 F4]; subst. inversion F1; subst. constructor; [|constructor; auto]. constructor; auto.
Qed.
Lemma FOP_forall2 {A} (R : A -> A -> Prop) (Q : A -> A -> Prop) (Cl : forall x y x' y', Q x x' -> Q y y' -> R x y -> R x' y') l r :
  Forall2 Q l r -> ForallOrdPairs R l -> ForallOrdPairs R r.
Proof.
  induction 1 as [|x y l r Qx F2 IH]; intros F; [constructor|]. inversion F as [|? ? F1 F3]; subst. constructor; auto.
  clear - Cl Qx F2 F1. induction F2; [constructor|]. inversion F1; subst. constructor; eauto.
Qed.
Lemma non_crossing_same l r : same_multiset same_segment l r -> non_crossing l -> non_crossing r.
Proof.
  intros (m & P & F) [Pr Td].
  assert (M : non_crossing m).
  { split.
    - clear Td P. induction F as [|x y l m Q F IH]; [constructor|]. inversion Pr; subst. constructor; auto.
      destruct Q as [-> | ->]; auto. unfold proper_seg in *. destruct x; cbn in *. auto.
    - apply (FOP_forall2 touch_or_disjoint same_segment) with (l := l); auto.
      intros x y x' y' [-> | ->] [-> | ->] T; auto using touch_or_disjoint_reverse, tod_reverse_r. }
  destruct M as [M1 M2]. split.
  - rewrite Forall_forall in *. intros x I. apply M1. apply (Permutation_in _ (Permutation_sym P)); auto.
  - apply (FOP_perm touch_or_disjoint touch_or_disjoint_sym m); auto.
Qed.
Lemma outlines_same l l' : Forall2 same_cycle l l' -> same_multiset same_segment (outlines l) (outlines l').
Proof.
  induction 1 as [|x y l l' S F IH]; [exists []; split; constructor|]. apply same_multiset_app; auto. apply same_cycle_edges; auto.
Qed.
Lemma on_outlines l q : on_segs (outlines l) q <-> exists vs, In vs l /\ on_contour vs q.
Proof.
  unfold outlines, on_segs, on_contour. split.
  - intros (s & I & O). apply in_flat_map in I. destruct I as (vs & I & J). exists vs. split; auto. exists s. auto.
  - intros (vs & I & s & J & O). exists s. split; auto. apply in_flat_map. exists vs. auto.
Qed.
Lemma off_same l l' q : Forall2 same_cycle l l' -> off_outlines l q <-> off_outlines l' q.
Proof.
  intros F. unfold off_outlines. rewrite !on_outlines.
  assert (Q : (exists vs, In vs l /\ on_contour vs q) <-> (exists vs, In vs l' /\ on_contour vs q)); [|tauto].
  induction F as [|x y l l' S F IH]; [tauto|]. pose proof (on_contour_cycle x y q S). split.
  - intros (vs & [<-|I] & O); [exists y; split; [left; auto|tauto]|]. destruct (proj1 IH) as (w & J & P); eauto. exists w. split; [right|]; auto.
  - intros (vs & [<-|I] & O); [exists x; split; [left; auto|tauto]|]. destruct (proj2 IH) as (w & J & P); eauto. exists w. split; [right|]; auto.
Qed.
Lemma inside_same vs vs' q : same_cycle vs vs' -> inside_ring vs q <-> inside_ring vs' q.
Proof. intros S. unfold inside_ring. rewrite (api_representation vs vs' q S). tauto. Qed.
Lemma valid_cycle b hs b' hs' : valid_polygon (Poly b hs) -> same_cycle b b' -> Forall2 same_cycle hs hs' -> valid_polygon (Poly b' hs').
Proof.
  intros [V1 V2 V3 V4] S F. unfold rings in *; cbn [border holes] in *.
  assert (FF : Forall2 same_cycle (b :: hs) (b' :: hs')) by (constructor; auto).
  assert (Off : forall q, off_outlines (b' :: hs') q -> off_outlines (b :: hs) q) by (intros q; apply off_same; auto).
  constructor; unfold rings; cbn [border holes].
  - clear - V1 FF. induction FF as [|x y l r Sx F IH]; [constructor|]. inversion V1; subst. constructor; auto. apply (same_cycle_simple x y); auto.
  - apply (non_crossing_same (outlines (b :: hs))); auto. apply outlines_same; auto.
  - intros q h' Oq I In_. assert (Ex : exists h, In h hs /\ same_cycle h h').
    { clear - F I. induction F as [|x y l r Sx F IH]; [destruct I|]. destruct I as [<-|I]; [exists x; split; [left|]; auto|].
      destruct (IH I) as (h & J & Q). exists h. split; [right|]; auto. }
    destruct Ex as (h & J & Sh). apply (inside_same b b' q S). apply (V3 q h); auto. apply (inside_same h h' q Sh); auto.
  - intros q Oq. apply (FOP_forall2 _ same_cycle) with (l := hs); auto.
    intros x y x' y' Sx Sy Nx [I1 I2]. apply Nx. split; [apply (inside_same x x' q Sx)|apply (inside_same y y' q Sy)]; auto.
Qed.
Lemma inside_parity vs q : ~ on_contour vs q -> (inside_ring vs q <-> parity (edges vs) q = true).
Proof.
  intros Off. unfold inside_ring. rewrite region_api. destruct (locate_region vs q) as [_ L]. rewrite (L Off).
  destruct (parity (edges vs) q); split; intros; congruence.
Qed.

(** A gap round a height. *)
Lemma gap_round (l : list Qc) (y : Qc) : exists d, 0 < d /\ forall z, In z l -> z <> y -> z < y - d \/ y + d < z.
Proof.
  induction l as [|x l (d & P & IH)]; [exists 1; split; [qlra|intros z []]|].
  destruct (Qc_dec x y) as [[L|L]|L].
  - destruct (qmid 0 (y - x)) as (m & M1 & M2); [qlra|]. exists (if qltb m d then m else d). split; [destruct (qltb m d); auto|].
    intros z [<-|I] Nz; [left; destruct (qltb_spec m d); qlra|]. destruct (IH z I Nz); [left|right]; destruct (qltb_spec m d); qlra.
  - destruct (qmid 0 (x - y)) as (m & M1 & M2); [qlra|]. exists (if qltb m d then m else d). split; [destruct (qltb m d); auto|].
    intros z [<-|I] Nz; [right; destruct (qltb_spec m d); qlra|]. destruct (IH z I Nz); [left|right]; destruct (qltb_spec m d); qlra.
  - exists d. split; auto. intros z [<-|I] Nz; [congruence|auto].
Qed.

Section Polygon.
Variable eps : Qc.
Notation X := (Xs eps).
Definition lo (e : segment) : point := fst (sorted_pair e).
Definition hi (e : segment) : point := snd (sorted_pair e).
Definition height (e : segment) (t : Qc) : Qc := line_at eps (lo e) (hi e) t.
Lemma lo_hi e : (lo e = seg_start e /\ hi e = seg_end e) \/ (lo e = seg_end e /\ hi e = seg_start e).
Proof. unfold lo, hi, sorted_pair, to_sorted_pair. destruct (point_lt _ _); auto. Qed.
Definition sound_edge (e : segment) : Prop := X (lo e) < X (hi e).
Lemma below_height e q : sound_edge e -> below_seg eps q e = qltb (X (lo e)) (X q) && qltb (X q) (X (hi e)) && qltb (height e (X q)) (py q).
Proof.
  intros S. unfold height. rewrite <- (below_line eps (lo e) (hi e) q S). unfold below_seg.
  destruct (lo_hi e) as [[-> ->]|[-> ->]]; auto. apply below_pair_sym.
Qed.
Lemma on_height e q : sound_edge e -> on_seg e q -> py q = height e (X q).
Proof. intros S O. apply (on_line eps (lo e) (hi e) q S). apply (proj2 (sorted_pair_on e q)). exact O. Qed.
Lemma on_between e q : sound_edge e -> on_seg e q -> X (lo e) <= X q /\ X q <= X (hi e).
Proof.
  intros S O. apply (proj2 (sorted_pair_on e q)) in O. destruct O as (t & T0 & T1 & ->). unfold sound_edge in S.
  change (fst (sorted_pair e)) with (lo e) in *. change (snd (sorted_pair e)) with (hi e) in *.
  assert (Ex : X (lerp (lo e) (hi e) t) = X (lo e) + t * (X (hi e) - X (lo e))) by (unfold Xs, lerp; cbn; ring).
  set (a := X (lo e)) in *. set (b := X (hi e)) in *. rewrite Ex. assert (0 <= t * (b - a)) by qnra.
  assert (0 <= (1 - t) * (b - a)) by qnra. replace ((1 - t) * (b - a)) with ((b - a) - t * (b - a)) in H0 by ring. split; qlra.
Qed.
Lemma height_hi e : sound_edge e -> height e (X (hi e)) = py (hi e).
Proof.
  intros S. unfold height, line_at, sound_edge in *. set (a := X (lo e)) in *. set (b := X (hi e)) in *. clearbody a b. field. intros Q. qlra.
Qed.
Lemma height_lo e : height e (X (lo e)) = py (lo e).
Proof. unfold height, line_at. ring. Qed.
Lemma between_on e q : sound_edge e -> X (lo e) <= X q -> X q <= X (hi e) -> py q = height e (X q) -> on_seg e q.
Proof.
  intros S A B C. apply (proj1 (sorted_pair_on e q)). change (between (lo e) (hi e) q).
  assert (Ar : area2 (lo e) (hi e) q = 0).
  { rewrite (area2_sheared eps). rewrite C. unfold height, line_at, sound_edge in *. set (a := X (lo e)) in *. set (b := X (hi e)) in *. set (t := X q) in *.
    clearbody a b t. field. intros Q. qlra. }
  destruct (Qcle_lt_or_eq _ _ A) as [A'|A'].
  - destruct (Qcle_lt_or_eq _ _ B) as [B'|B'].
    + apply (sheared_between eps); auto.
    + assert (Y : py q = py (hi e)) by (rewrite C, B'; apply height_hi; auto).
      assert (q = hi e) by (apply point_ext; auto; unfold Xs in B'; rewrite Y in B'; qlra).
      subst q. apply between_end.
  - assert (Y : py q = py (lo e)) by (rewrite C, <- A'; apply height_lo).
    assert (q = lo e) by (apply point_ext; auto; unfold Xs in A'; rewrite Y in A'; qlra). subst q. apply between_start.
Qed.

(** Just above and just below a point. *)
Lemma nudge (segs : list segment) (q : point) : Forall sound_edge segs ->
  (forall e, In e segs -> X (lo e) <> X q /\ X (hi e) <> X q) ->
  exists up down, X up = X q /\ X down = X q /\ ~ on_segs segs up /\ ~ on_segs segs down
    /\ forall e, In e segs -> (on_seg e q -> below_seg eps q e = false /\ below_seg eps up e = true /\ below_seg eps down e = false)
       /\ (~ on_seg e q -> below_seg eps up e = below_seg eps q e /\ below_seg eps down e = below_seg eps q e).
Proof.
  intros Sd Gn. rewrite Forall_forall in Sd.
  destruct (gap_round (map (fun e => height e (X q)) segs) (py q)) as (d & Pd & Gp).
  destruct (qmid 0 d Pd) as (d' & D1 & D2).
  assert (Gp' : forall e, In e segs -> height e (X q) <> py q -> height e (X q) < py q - d \/ py q + d < height e (X q)).
  { intros e I. apply Gp. apply in_map_iff. exists e. auto. }
  exists (spot eps (X q) (py q + d')), (spot eps (X q) (py q - d')).
  assert (Xu : X (spot eps (X q) (py q + d')) = X q) by apply spot_X.
  assert (Xd : X (spot eps (X q) (py q - d')) = X q) by apply spot_X.
  split; auto. split; auto.
  assert (Hq : forall e, In e segs -> height e (X q) <> py q + d' /\ height e (X q) <> py q - d').
  { intros e I. destruct (Qc_eq_dec (height e (X q)) (py q)) as [Q|Q]; [rewrite Q; split; intros R; qlra|].
    destruct (Gp' e I Q); split; intros R; qlra. }
  split; [|split].
  - intros (e & I & O). apply on_height in O; auto. rewrite Xu in O. cbn [spot py] in O. destruct (Hq e I). auto.
  - intros (e & I & O). apply on_height in O; auto. rewrite Xd in O. cbn [spot py] in O. destruct (Hq e I). auto.
  - intros e I. rewrite !below_height by auto. rewrite Xu, Xd. cbn [spot py]. destruct (Gn e I) as [N1 N2]. split.
    + intros O. pose proof (on_height e q (Sd e I) O) as Py. pose proof (on_between e q (Sd e I) O) as [B1 B2].
      rewrite (qltb_yes (X (lo e))), (qltb_yes (X q)). cbn [andb]. rewrite <- Py.
      * rewrite (qltb_not (py q) (py q)), (qltb_yes (py q)), (qltb_not (py q) (py q - d')) by qlra. auto.
      * apply Qcle_lt_or_eq in B2. destruct B2; auto. congruence.
      * apply Qcle_lt_or_eq in B1. destruct B1; auto. congruence.
    + intros O. destruct (qltb (X (lo e)) (X q)) eqn:B1; auto. destruct (qltb (X q) (X (hi e))) eqn:B2; auto. cbn [andb].
      apply qltb_true in B1. apply qltb_true in B2.
      assert (Nq : height e (X q) <> py q) by (intros Q; apply O, between_on; auto; qlra).
      destruct (Gp' e I Nq) as [L|L].
      * rewrite !qltb_yes by qlra. auto.
      * rewrite !qltb_not by qlra. auto.
Qed.
End Polygon.
