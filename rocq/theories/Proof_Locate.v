(** Point location in regions. *)
From Coq Require Import QArith Qcanon Bool List ZArith Lia Permutation.
From Verif Require Import QcTac Model_Base Model_Box Model_Geometry Model_Utils Model_Contour
  Spec_Base Spec_Segment Spec_Contour Proof_Base Proof_Line Proof_SegRel Proof_Bounds Proof_Utils Proof_Contour
  Proof_Contour2 Proof_Edges.
Import ListNotations.
Local Open Scope Qc_scope.

Ltac ptd := unfold area2, lerp, meet, on_seg in *; repeat match goal with p : point |- _ => destruct p end;
  cbn [px py seg_start seg_end] in *.

(** ** Toggling *)
Definition up (a b p : point) : bool :=
  qleb (py a) (py p) && qltb (py p) (py b) && qltb 0 (area2 a b p).
Definition tog (a b p : point) : bool := up a b p || up b a p.
Lemma tog_sym a b p : tog a b p = tog b a p.
Proof. unfold tog. apply orb_comm. Qed.

Lemma height_between a b p : py a < py b -> area2 a b p = 0 -> py a <= py p -> py p <= py b ->
  between a b p.
Proof.
  intros L A H1 H2. exists ((py p - py a) / (py b - py a)).
  assert (D : py b - py a <> 0) by (intro; qlra). assert (P : 0 < py b - py a) by qlra.
  assert (E : (py p - py a) / (py b - py a) * (py b - py a) = py p - py a) by (field; auto).
  set (t := (py p - py a) / (py b - py a)) in *.
  assert (0 <= t) by (destruct (Qclt_le_dec t 0); auto; exfalso; qnra).
  assert (t <= 1) by (destruct (Qclt_le_dec 1 t); auto; exfalso; qnra).
  split; auto. split; auto. apply point_ext; unfold lerp; cbn [px py]; [|qlra].
  assert (K : (px p - (px a + t * (px b - px a))) * (py b - py a) = 0).
  { unfold area2 in A. qlra || qnra. }
  apply Qcmult_integral in K. destruct K; [qlra|contradiction].
Qed.
Lemma toggles_tog e p : ~ on_seg e p -> edge_toggles e p = tog (seg_start e) (seg_end e) p.
Proof.
  intros N. destruct e as [a b]. unfold edge_toggles, tog, up. cbn [seg_start seg_end] in *.
  rewrite (area2_swap12 a b).
  assert (C : py a < py b -> py a <= py p -> py p <= py b -> area2 a b p <> 0).
  { intros L H1 H2 Z. apply N. apply height_between; auto. }
  assert (C' : py b < py a -> py b <= py p -> py p <= py a -> area2 a b p <> 0).
  { intros L H1 H2 Z. apply N. unfold on_seg; cbn [seg_start seg_end]. apply between_sym. apply height_between; auto.
    rewrite area2_swap12. qlra. }
  destruct (orient_spec a b p) as [[-> O]|[[-> O]|[-> O]]]; cbn [orientation_is];
    repeat qcase; cbn; auto; exfalso; try qlra;
    try (apply C; auto; qlra); try (apply C'; auto; qlra).
Qed.

(** ** The loop over edges *)
Definition parity (l : list segment) (p : point) : bool :=
  fold_right (fun e acc => xorb (edge_toggles e p) acc) false l.
Lemma locate_edges_boundary l p b : on_segs l p -> locate_point_in_edges l p b = BOUNDARY.
Proof.
  revert b; induction l as [|e l IH]; intros b (s & I & O); [destruct I|].
  cbn [locate_point_in_edges].
  destruct (location_is_spec (locate_point_in_segment (seg_start e) (seg_end e) p) BOUNDARY) as [K|K]; auto.
  apply IH. destruct I as [->|I]; [|exists s; auto]. exfalso. apply K. apply locate_spec; auto.
Qed.
Lemma locate_edges_parity l p b : ~ on_segs l p ->
  locate_point_in_edges l p b = if xorb b (parity l p) then INTERIOR else EXTERIOR.
Proof.
  revert b; induction l as [|e l IH]; intros b N; cbn [locate_point_in_edges parity fold_right].
  - rewrite xorb_false_r. auto.
  - destruct (location_is_spec (locate_point_in_segment (seg_start e) (seg_end e) p) BOUNDARY) as [K|K].
    + exfalso. apply N. exists e. split; [cbn; auto|]. apply locate_spec in K; auto.
    + rewrite IH by (intros (s & I & O); apply N; exists s; cbn; auto).
      fold (parity l p). destruct (edge_toggles e p), b, (parity l p); reflexivity.
Qed.
Lemma locate_region vs p :
  (on_contour vs p -> locate_point_in_region vs p = BOUNDARY)
  /\ (~ on_contour vs p ->
      locate_point_in_region vs p = if parity (edges vs) p then INTERIOR else EXTERIOR).
Proof.
  unfold locate_point_in_region, on_contour. change (to_contour_segments vs) with (edges vs). split; intros H.
  - apply locate_edges_boundary; auto.
  - rewrite locate_edges_parity by auto. destruct (parity _ _); auto.
Qed.
Lemma on_segs_dec l p : {on_segs l p} + {~ on_segs l p}.
Proof.
  induction l as [|e l IH].
  - right. intros (s & [] & _).
  - destruct (between_dec (seg_start e) (seg_end e) p) as [B|B].
    + left. exists e. split; [cbn; auto|exact B].
    + destruct IH as [IH|IH].
      * left. destruct IH as (s & I & O). exists s. cbn; auto.
      * right. intros (s & [<-|I] & O); [apply B; exact O|apply IH; exists s; auto].
Qed.
Lemma region_boundary vs p : locate_point_in_region vs p = BOUNDARY <-> on_contour vs p.
Proof.
  destruct (locate_region vs p) as [B I]. split; [|exact B].
  intros H. destruct (on_segs_dec (edges vs) p) as [O|O]; auto.
  rewrite (I O) in H. destruct (parity _ _); discriminate.
Qed.

(** ** Representation *)
Lemma parity_permutation l r p : Permutation l r -> parity l p = parity r p.
Proof.
  induction 1; cbn [parity fold_right] in *; auto.
  - unfold parity in *. congruence.
  - rewrite <- !xorb_assoc. f_equal. apply xorb_comm.
  - congruence.
Qed.
Lemma on_reverse_seg s p : on_seg (reverse_seg s) p <-> on_seg s p.
Proof. unfold on_seg, reverse_seg; cbn. apply between_sym. Qed.
Lemma parity_reverse l p : ~ on_segs l p -> parity (map reverse_seg l) p = parity l p.
Proof.
  induction l as [|e l IH]; intros N; auto. cbn [map parity fold_right].
  fold (parity (map reverse_seg l) p). fold (parity l p).
  rewrite IH by (intros (s & I & O); apply N; exists s; cbn; auto).
  assert (Ne : ~ on_seg e p) by (intros O; apply N; exists e; cbn; auto).
  rewrite (toggles_tog e) by auto. rewrite (toggles_tog (reverse_seg e)) by (rewrite on_reverse_seg; auto).
  destruct e; cbn. rewrite tog_sym. auto.
Qed.
Lemma on_segs_permutation l r p : Permutation l r -> on_segs l p -> on_segs r p.
Proof. intros P (s & I & O). exists s. split; auto. apply (Permutation_in s P); auto. Qed.
Lemma on_segs_reverse l p : on_segs (map reverse_seg l) p <-> on_segs l p.
Proof.
  split; intros (s & I & O).
  - apply in_map_iff in I. destruct I as (t & <- & I). exists t. split; auto. apply on_reverse_seg; auto.
  - exists (reverse_seg s). split; [apply in_map; auto|]. apply on_reverse_seg; auto.
Qed.
Lemma on_contour_cycle vs vs' p : same_cycle vs vs' -> (on_contour vs p <-> on_contour vs' p).
Proof.
  intros S. unfold on_contour. destruct (edges_same_cycle vs vs' S) as [P|P].
  - split; apply on_segs_permutation; [|symmetry]; auto.
  - rewrite <- (on_segs_reverse (edges vs)). split; apply on_segs_permutation; [|symmetry]; auto.
Qed.
Lemma region_representation vs vs' p : same_cycle vs vs' ->
  locate_point_in_region vs p = locate_point_in_region vs' p.
Proof.
  intros S. destruct (locate_region vs p) as [B I], (locate_region vs' p) as [B' I'].
  destruct (on_segs_dec (edges vs) p) as [O|O].
  - rewrite B, B'; auto. apply (on_contour_cycle vs vs'); auto.
  - rewrite I, I'; auto; [|intros K; apply O, (on_contour_cycle vs vs' p S), K].
    destruct (edges_same_cycle vs vs' S) as [P|P].
    + rewrite (parity_permutation _ _ p P). auto.
    + rewrite <- (parity_permutation _ _ p P), parity_reverse; auto.
Qed.

(** ** Moving the point *)
Definition side (p q v : point) : bool :=
  qltb (py p) (py v) && qleb (py v) (py q) && qltb (area2 p q v) 0.

(** In the strip of heights between [p] and [q] the sides of [pq] are separated by it. *)
Lemma strip_separated p q u v : py p < py q ->
  py p <= py u -> py u <= py q -> py p <= py v -> py v <= py q ->
  area2 p q u < 0 -> 0 <= area2 p q v -> exists x, between u v x /\ between p q x.
Proof.
  intros L U1 U2 V1 V2 Au Av.
  set (A := area2 p q u) in *. set (B := area2 p q v) in *.
  assert (D : A - B <> 0) by (intro; qlra).
  assert (E : A / (A - B) * (A - B) = A) by (field; auto).
  set (t := A / (A - B)) in *.
  assert (0 <= t) by (destruct (Qclt_le_dec t 0); auto; exfalso; qnra).
  assert (t <= 1) by (destruct (Qclt_le_dec 1 t); auto; exfalso; qnra).
  exists (lerp u v t). split; [exists t; auto|].
  apply height_between; auto.
  - rewrite area2_lerp. fold A B. qlra.
  - unfold lerp; cbn [py]. qnra.
  - unfold lerp; cbn [py]. qnra.
Qed.
(** The point of the edge [ab] at the height of [p]. *)
Lemma at_height a b p : py a <= py p -> py p < py b ->
  exists x, between a b x /\ py x = py p /\ (0 < area2 a b p <-> px p < px x)
            /\ (area2 a b p < 0 <-> px x < px p) /\ exists t, 0 <= t /\ t < 1 /\ x = lerp a b t.
Proof.
  intros L1 L2. assert (D : py b - py a <> 0) by (intro; qlra).
  assert (E : (py p - py a) / (py b - py a) * (py b - py a) = py p - py a) by (field; auto).
  set (t := (py p - py a) / (py b - py a)) in *.
  assert (0 <= t) by (destruct (Qclt_le_dec t 0); auto; exfalso; qnra).
  assert (t < 1) by (destruct (Qclt_le_dec t 1); auto; exfalso; qnra).
  exists (lerp a b t). split; [exists t; split; auto; split; auto; qlra|].
  split; [unfold lerp; cbn [py]; qlra|].
  assert (K : area2 a b p = (py b - py a) * (px (lerp a b t) - px p)).
  { unfold area2, lerp; cbn [px]. rewrite <- E. ring. }
  rewrite K. generalize (px (lerp a b t)). intros x.
  split; [split; intros; qnra|]. split; [split; intros; qnra|].
  exists t. auto.
Qed.

Lemma up_false_low a b p : py p < py a -> up a b p = false.
Proof. intros. unfold up. rewrite (proj2 (qleb_false _ _)) by auto. auto. Qed.
Lemma up_false_high a b p : py b <= py p -> up a b p = false.
Proof. intros. unfold up. rewrite (proj2 (qltb_false (py p) _)) by auto. rewrite andb_false_r. auto. Qed.
Lemma up_true a b p : py a <= py p -> py p < py b -> up a b p = qltb 0 (area2 a b p).
Proof.
  intros. unfold up. rewrite (proj2 (qleb_true _ _)), (proj2 (qltb_true _ _)) by auto. auto.
Qed.
Lemma side_low p q v : py v <= py p -> side p q v = false.
Proof. intros. unfold side. rewrite (proj2 (qltb_false _ _)) by auto. auto. Qed.
Lemma side_high p q v : py q < py v -> side p q v = false.
Proof. intros. unfold side. rewrite (proj2 (qleb_false _ _)) by auto. rewrite andb_false_r. auto. Qed.
Lemma side_mid p q v : py p < py v -> py v <= py q -> side p q v = qltb (area2 p q v) 0.
Proof. intros. unfold side. rewrite (proj2 (qltb_true _ _)), (proj2 (qleb_true _ _)) by auto. auto. Qed.

Lemma meet_sym s t : meet s t -> meet t s.
Proof. intros (x & H & K). exists x; auto. Qed.
Lemma cross_relation p q a b :
  area2 p q b - area2 p q a = - (area2 a b q - area2 a b p).
Proof. unfold area2; ring. Qed.

(** One edge with an upward segment [pq] not meeting it. *)
Lemma edge_parity_up p q a b : py p < py q -> py a <= py b -> ~ meet (Seg a b) (Seg p q) ->
  xorb (tog a b p) (tog a b q) = xorb (side p q a) (side p q b).
Proof.
  intros L W N.
  assert (M : forall x, between a b x -> between p q x -> False)
    by (intros x H K; apply N; exists x; split; auto).
  unfold tog.
  destruct (Qclt_le_dec (py p) (py a)) as [Ha|Ha].
  - rewrite (up_false_low a b p) by auto. rewrite (up_false_low b a p) by qlra.
    destruct (Qclt_le_dec (py q) (py a)) as [Ha'|Ha'].
    + rewrite (up_false_low a b q) by auto. rewrite (up_false_low b a q) by qlra.
      rewrite !side_high by qlra. auto.
    + rewrite (up_false_high b a q) by qlra. rewrite (side_mid p q a) by auto. rewrite orb_false_r.
      destruct (Qclt_le_dec (py q) (py b)) as [Hb|Hb].
      * rewrite (side_high p q b) by auto. rewrite up_true by auto.
        destruct (at_height a b q Ha' Hb) as (x & Bx & Yx & P1 & P2 & t & T0 & T1 & Ex).
        rewrite xorb_false_r. cbn [orb xorb].
        assert (Ax : area2 p q x = - (py q - py p) * (px x - px q))
          by (unfold area2; rewrite Yx; ring).
        assert (S : forall y, between a x y -> between a b y).
        { intros y (s & S0 & S1 & ->). exists (s * t). rewrite Ex.
          split; [qnra|]. split; [qnra|]. unfold lerp; cbn [px py]; f_equal; ring. }
        destruct (qltb_spec 0 (area2 a b q)) as [Q1|Q1]; destruct (qltb_spec (area2 p q a) 0) as [Q2|Q2]; auto; exfalso.
        -- apply P1 in Q1. destruct (strip_separated p q x a L) as (y & Y1 & Y2); try qlra; [qnra|].
           apply (M y); auto. apply S, between_sym; auto.
        -- assert (px x <= px q) by (destruct (Qclt_le_dec (px q) (px x)) as [K|K]; auto; apply P1 in K; contradiction).
           destruct (strip_separated p q a x L) as (y & Y1 & Y2); try qlra; [qnra|].
           apply (M y); auto.
      * rewrite (side_mid p q b) by qlra. rewrite (up_false_high a b q) by auto. cbn.
        destruct (qltb_spec (area2 p q a) 0) as [Q1|Q1]; destruct (qltb_spec (area2 p q b) 0) as [Q2|Q2]; auto; exfalso.
        -- destruct (strip_separated p q a b L) as (y & Y1 & Y2); try qlra. apply (M y); auto.
        -- destruct (strip_separated p q b a L) as (y & Y1 & Y2); try qlra. apply (M y); auto. apply between_sym; auto.
  - rewrite (side_low p q a) by auto. rewrite (up_false_high b a p) by auto. rewrite (up_false_high b a q) by qlra.
    rewrite !orb_false_r.
    destruct (Qclt_le_dec (py p) (py b)) as [Hb|Hb].
    + rewrite (up_true a b p) by auto.
      destruct (Qclt_le_dec (py q) (py b)) as [Hb'|Hb'].
      * rewrite (side_high p q b) by auto. rewrite up_true by (auto; qlra).
        destruct (at_height a b p Ha Hb) as (x & Bx & Yx & P1 & P2 & _).
        assert (La : py a <= py q) by qlra.
        destruct (at_height a b q La Hb') as (z & Bz & Yz & R1 & R2 & _).
        assert (S : forall y, between x z y -> between a b y).
        { intros y (s & S0 & S1 & ->). destruct Bx as (t & T0 & T1 & ->), Bz as (u & U0 & U1 & ->).
          exists (t + s * (u - t)). split; [qnra|]. split; [qnra|]. unfold lerp; cbn [px py]; f_equal; ring. }
        assert (Ax : area2 p q x = - (py q - py p) * (px x - px p))
          by (unfold area2; rewrite Yx; ring).
        assert (Az : area2 p q z = - (py q - py p) * (px z - px q))
          by (unfold area2; rewrite Yz; ring).
        destruct (qltb_spec 0 (area2 a b p)) as [Q1|Q1]; destruct (qltb_spec 0 (area2 a b q)) as [Q2|Q2]; auto; exfalso.
        -- apply P1 in Q1.
           assert (px z <= px q) by (destruct (Qclt_le_dec (px q) (px z)) as [K|K]; auto; apply R1 in K; contradiction).
           destruct (strip_separated p q x z L) as (y & Y1 & Y2); try qlra; [qnra|qnra|].
           apply (M y); auto.
        -- apply R1 in Q2.
           assert (px x <= px p) by (destruct (Qclt_le_dec (px p) (px x)) as [K|K]; auto; apply P1 in K; contradiction).
           destruct (strip_separated p q z x L) as (y & Y1 & Y2); try qlra; [qnra|qnra|].
           apply (M y); auto. apply S, between_sym; auto.
      * rewrite (side_mid p q b) by auto. rewrite (up_false_high a b q) by auto.
        destruct (at_height a b p Ha Hb) as (x & Bx & Yx & P1 & P2 & t & T0 & T1 & Ex).
        assert (S : forall y, between x b y -> between a b y).
        { intros y (s & S0 & S1 & ->). exists (t + s * (1 - t)). rewrite Ex.
          split; [qnra|]. split; [qnra|]. unfold lerp; cbn [px py]; f_equal; ring. }
        assert (Ax : area2 p q x = - (py q - py p) * (px x - px p))
          by (unfold area2; rewrite Yx; ring).
        destruct (qltb_spec 0 (area2 a b p)) as [Q1|Q1]; destruct (qltb_spec (area2 p q b) 0) as [Q2|Q2]; auto; exfalso.
        -- apply P1 in Q1. destruct (strip_separated p q x b L) as (y & Y1 & Y2); try qlra; [qnra|].
           apply (M y); auto.
        -- assert (px x <= px p) by (destruct (Qclt_le_dec (px p) (px x)) as [K|K]; auto; apply P1 in K; contradiction).
           destruct (strip_separated p q b x L) as (y & Y1 & Y2); try qlra; [qnra|].
           apply (M y); auto. apply S, between_sym; auto.
    + rewrite (side_low p q b) by auto. rewrite !up_false_high by qlra. auto.
Qed.
Lemma xorb_comm4 a b : xorb a b = xorb b a. Proof. apply xorb_comm. Qed.
Lemma edge_parity p q a b : py p < py q -> ~ meet (Seg a b) (Seg p q) ->
  xorb (tog a b p) (tog a b q) = xorb (side p q a) (side p q b).
Proof.
  intros L N. destruct (Qclt_le_dec (py b) (py a)) as [W|W].
  - rewrite (tog_sym a b p), (tog_sym a b q), (xorb_comm (side p q a)).
    apply edge_parity_up; auto; [qlra|]. intros (x & H & K). apply N. exists x. split; auto.
    apply on_reverse_seg in H. exact H.
  - apply edge_parity_up; auto.
Qed.
