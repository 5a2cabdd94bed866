(** Point location in strictly convex contours; in polylines; in polygons and
    multipolygons. *)
From Coq Require Import QArith Qcanon List Bool Lia Permutation.
From Verif Require Import QcTac Model_Base Model_Box Model_Geometry Model_Segment Model_Contour
  Spec_Base Spec_Segment Spec_Contour Proof_Base Proof_Line Proof_Bounds Proof_Contour Proof_Edges
  Proof_Locate Proof_Locate2 Proof_Locate3.
Import ListNotations.
Local Open Scope Qc_scope.

Lemma edges_cut v0 v1 v2 r :
  edges (v0 :: v1 :: v2 :: r) = Seg v0 v1 :: Seg v1 v2 :: edges_from v0 (v2 :: r)
  /\ edges (v0 :: v2 :: r) = Seg v0 v2 :: edges_from v0 (v2 :: r).
Proof. split; reflexivity. Qed.
Lemma vertex_edge vs v : In v vs -> exists w, In w vs /\ In (Seg v w) (edges vs).
Proof.
  intros I. assert (I' := I). rewrite <- (edges_starts vs) in I'. apply in_map_iff in I'.
  destruct I' as ([a b] & E & J). cbn in E. subst a. exists b. split; auto.
  apply (edges_In _ _ J).
Qed.

Lemma convex_left vs e v : strictly_convex_ccw vs -> In e (edges vs) -> In v vs ->
  0 <= area2 (seg_start e) (seg_end e) v.
Proof.
  intros [N H] I J.
  destruct (point_dec v (seg_start e)) as [->|N1]; [unfold area2; qlra|].
  destruct (point_dec v (seg_end e)) as [->|N2]; [unfold area2; qlra|].
  apply Qclt_le_weak, H; auto.
Qed.
Lemma area2_lerp_third a b p q t : area2 a b (lerp p q t) = (1 - t) * area2 a b p + t * area2 a b q.
Proof. unfold area2, lerp; cbn [px py]; ring. Qed.
Lemma convex_left_contour vs e x : strictly_convex_ccw vs -> In e (edges vs) -> on_contour vs x ->
  0 <= area2 (seg_start e) (seg_end e) x.
Proof.
  intros C I ([a b] & J & (t & T0 & T1 & ->)). cbn [seg_start seg_end].
  destruct (edges_In _ _ J) as [Ia Ib]. cbn [seg_start seg_end] in Ia, Ib.
  assert (A := convex_left vs e a C I Ia). assert (B := convex_left vs e b C I Ib).
  rewrite area2_lerp_third. qnra.
Qed.

(** Strictly outside of an edge. *)
Lemma convex_outside vs e p : strictly_convex_ccw vs -> In e (edges vs) ->
  area2 (seg_start e) (seg_end e) p < 0 -> locate_point_in_region vs p = EXTERIOR.
Proof.
  intros C I L. destruct e as [a b]. cbn [seg_start seg_end] in L.
  set (dx := px b - px a). set (dy := py b - py a).
  (* walk to the right of the edge *)
  set (f := fun k => Pt (px p + k * dy) (py p - k * dx)).
  assert (A : forall k, area2 a b (f k) = area2 a b p - k * (dx * dx + dy * dy))
    by (intros; unfold area2, f, dx, dy; cbn [px py]; ring).
  assert (Far : exists k, 0 <= k /\ ~ in_box (bounding_box (GContour vs)) (f k)).
  { set (B := bounding_box (GContour vs)).
    assert (D : ~ (dx = 0 /\ dy = 0)).
    { intros [X Y]. assert (a = b) by (apply point_ext; unfold dx, dy in *; qlra). subst b.
      unfold area2 in L. qlra. }
    assert (W : forall d u m : Qc, 0 < d -> exists k, 0 <= k /\ m < u + k * d).
    { intros d u m P. assert (N : d <> 0) by qlra.
      set (k0 := (m - u) / d).
      assert (K : k0 * d = m - u) by (unfold k0; field; auto). clearbody k0.
      destruct (Qclt_le_dec 0 k0); [exists (k0 + 1)|exists 1]; split; try qlra; try qnra. }
    assert (Sg : forall q : Qc, q <> 0 -> 0 < q \/ 0 < - q).
    { intros q N. destruct (Qclt_le_dec 0 q) as [P|P]; auto. right.
      apply Qcle_lt_or_eq in P. destruct P as [P|P]; [qlra|contradiction]. }
    destruct (Qc_eq_dec dy 0) as [Z|Z].
    - assert (Z' : dx <> 0) by auto. destruct (Sg dx Z') as [P|P].
      + destruct (W dx (- py p) (- min_y B) P) as (k & K0 & K). exists k. split; auto.
        intros [_ [M _]]. unfold f in M; cbn [px py] in M. clearbody B dx dy. clear A f. qlra.
      + destruct (W (- dx) (py p) (max_y B) P) as (k & K0 & K). exists k. split; auto.
        intros [_ [_ M]]. unfold f in M; cbn [px py] in M. clearbody B dx dy. clear A f. qlra.
    - destruct (Sg dy Z) as [P|P].
      + destruct (W dy (px p) (max_x B) P) as (k & K0 & K). exists k. split; auto.
        intros [[_ M] _]. unfold f in M; cbn [px py] in M. clearbody B dx dy. clear A f. qlra.
      + destruct (W (- dy) (- px p) (- min_x B) P) as (k & K0 & K). exists k. split; auto.
        intros [[M _] _]. unfold f in M; cbn [px py] in M. clearbody B dx dy. clear A f. qlra. }
  destruct Far as (k & K0 & O).
  rewrite <- (region_outside_box vs (f k) O). apply region_not_crossing.
  intros x X (t & T0 & T1 & E). cbn [seg_start seg_end] in E.
  assert (Z := convex_left_contour vs (Seg a b) x C I X). cbn [seg_start seg_end] in Z.
  rewrite E, area2_lerp_third, A in Z.
  assert (Sq : 0 <= dx * dx + dy * dy) by qnra.
  set (s := dx * dx + dy * dy) in *. set (g := area2 a b p) in *. clearbody s g.
  assert (0 <= k * s) by qnra. set (ks := k * s) in *. clearbody ks. qnra.
Qed.

(** Dropping the second vertex of a strictly convex contour leaves a strictly convex one. *)
Lemma convex_cut v0 v1 v2 v3 r : strictly_convex_ccw (v0 :: v1 :: v2 :: v3 :: r) ->
  strictly_convex_ccw (v0 :: v2 :: v3 :: r).
Proof.
  intros C. assert (C' := C). destruct C' as [N H].
  set (vs := v0 :: v1 :: v2 :: v3 :: r) in *.
  assert (N0 : v0 <> v1) by (inversion N; subst; intros ->; apply H2; cbn; auto).
  assert (N2 : v0 <> v2) by (inversion N; subst; intros ->; apply H2; cbn; auto).
  assert (N3 : v1 <> v2) by (inversion N; subst; inversion H3; subst; intros ->; apply H4; cbn; auto).
  assert (Sub : forall v, In v (v0 :: v2 :: v3 :: r) -> In v vs /\ v <> v1).
  { intros v I. split; [unfold vs; cbn in *; tauto|]. intros ->.
    inversion N as [|? ? A1 A2]; inversion A2 as [|? ? B1 B2]; subst.
    destruct I as [I|I]; [auto|]. apply B1; auto. }
  split.
  - inversion N as [|? ? A1 A2]; inversion A2 as [|? ? B1 B2]; subst. constructor; auto.
    intros I; apply A1; cbn in *; tauto.
  - intros s v I J Ns Ne. destruct (Sub v J) as [Jv Nv].
    destruct (edges_cut v0 v1 v2 (v3 :: r)) as [E1 E2]. rewrite E2 in I.
    destruct I as [<-|I]; [|apply H; auto; unfold vs; rewrite E1; cbn; auto].
    cbn [seg_start seg_end] in *.
    assert (A01 : 0 < area2 v0 v1 v) by (apply (H (Seg v0 v1)); auto; unfold vs; rewrite E1; cbn; auto).
    assert (A12 : 0 < area2 v1 v2 v) by (apply (H (Seg v1 v2)); auto; unfold vs; rewrite E1; cbn; auto).
    assert (S : 0 < area2 v0 v1 v2)
      by (apply (H (Seg v0 v1)); auto; unfold vs; rewrite ?E1; cbn; auto).
    destruct (Qclt_le_dec 0 (area2 v0 v2 v)) as [P|P]; auto. exfalso.
    destruct (vertex_edge vs v Jv) as (w & Jw & Iw).
    assert (F : area2 v1 v2 v * area2 v w v0 + (- area2 v0 v2 v) * area2 v w v1 + area2 v0 v1 v * area2 v w v2 = 0)
      by (unfold area2; ring).
    assert (G0 := convex_left vs (Seg v w) v0 C Iw ltac:(unfold vs; cbn; auto)).
    assert (G1 := convex_left vs (Seg v w) v1 C Iw ltac:(unfold vs; cbn; auto)).
    assert (G2 := convex_left vs (Seg v w) v2 C Iw ltac:(unfold vs; cbn; auto)).
    cbn [seg_start seg_end] in *.
    assert (Z0 : area2 v w v0 <= 0 /\ area2 v w v2 <= 0).
    { set (a := area2 v1 v2 v) in *. set (b := area2 v0 v2 v) in *. set (c := area2 v0 v1 v) in *.
      set (x := area2 v w v0) in *. set (y := area2 v w v1) in *. set (z := area2 v w v2) in *.
      clearbody a b c x y z.
      assert (0 <= (- b) * y) by qnra. set (by_ := (- b) * y) in *. clearbody by_.
      split; apply Qcnot_lt_le; intros L; qnra. }
    destruct Z0 as [Z0 Z2].
    assert (W0 : v0 = w).
    { destruct (point_dec v0 w) as [|D]; auto. exfalso.
      assert (K : 0 < area2 v w v0) by (apply (H (Seg v w)); auto; unfold vs; cbn; auto). qlra. }
    assert (W2 : v2 = w).
    { destruct (point_dec v2 w) as [|D]; auto. exfalso.
      assert (K : 0 < area2 v w v2) by (apply (H (Seg v w)); auto; unfold vs; cbn; auto). qlra. }
    congruence.
Qed.

Definition left_of_all (vs : list point) (p : point) : Prop :=
  forall e, In e (edges vs) -> 0 < area2 (seg_start e) (seg_end e) p.
Lemma left_not_on vs p : left_of_all vs p -> ~ on_contour vs p.
Proof.
  intros L (e & I & O). apply L in I. apply between_collinear in O. qlra.
Qed.
Lemma interior_parity vs p : ~ on_contour vs p ->
  (locate_point_in_region vs p = INTERIOR <-> parity (edges vs) p = true).
Proof.
  intros N. destruct (locate_region vs p) as [_ I]. rewrite I by auto.
  destruct (parity _ _); split; congruence.
Qed.
Lemma convex_inside_cut v0 v1 v2 v3 r p :
  (forall q, left_of_all (v0 :: v2 :: v3 :: r) q -> locate_point_in_region (v0 :: v2 :: v3 :: r) q = INTERIOR) ->
  strictly_convex_ccw (v0 :: v1 :: v2 :: v3 :: r) ->
  left_of_all (v0 :: v1 :: v2 :: v3 :: r) p -> area2 v0 v2 p <> 0 ->
  locate_point_in_region (v0 :: v1 :: v2 :: v3 :: r) p = INTERIOR.
Proof.
  intros IH C L Z. assert (C' := convex_cut _ _ _ _ _ C).
  set (vs := v0 :: v1 :: v2 :: v3 :: r) in *. set (us := v0 :: v2 :: v3 :: r) in *.
  destruct (edges_cut v0 v1 v2 (v3 :: r)) as [E1 E2]. fold vs in E1. fold us in E2.
  assert (A1 : 0 < area2 v0 v1 p) by (apply (L (Seg v0 v1)); rewrite E1; cbn; auto).
  assert (A2 : 0 < area2 v1 v2 p) by (apply (L (Seg v1 v2)); rewrite E1; cbn; auto).
  assert (S : 0 < area2 v0 v1 v2).
  { destruct C as [N H]. apply (H (Seg v0 v1)); cbn [seg_start seg_end].
    - rewrite E1; cbn; auto.
    - unfold vs; cbn; auto.
    - inversion N; subst. intros ->. apply H2; cbn; auto.
    - inversion N; subst. inversion H3; subst. intros ->. apply H4; cbn; auto. }
  assert (Nv := left_not_on vs p L).
  assert (N02 : ~ between v0 v2 p) by (intros B; apply between_collinear in B; auto).
  assert (Nt : ~ on_contour [v0; v1; v2] p).
  { intros (e & I & O). apply between_collinear in O. cbn in I.
    destruct I as [<-|[<-|[<-|[]]]]; cbn [seg_start seg_end] in O; try qlra.
    rewrite area2_swap12 in O. apply Z. qlra. }
  assert (Nu : ~ on_contour us p).
  { intros (e & I & O). rewrite E2 in I. destruct I as [<-|I]; [apply N02, O|].
    apply Nv. exists e. split; auto. rewrite E1; cbn; auto. }
  assert (P : parity (edges vs) p = xorb (parity (edges [v0; v1; v2]) p) (parity (edges us) p)).
  { rewrite E1, E2. change (edges [v0; v1; v2]) with [Seg v0 v1; Seg v1 v2; Seg v2 v0].
    assert (PC : forall e l, parity (e :: l) p = xorb (edge_toggles e p) (parity l p)) by reflexivity.
    rewrite !PC. change (parity [] p) with false.
    assert (T1 : edge_toggles (Seg v2 v0) p = edge_toggles (Seg v0 v2) p).
    { rewrite !toggles_tog; [apply tog_sym|exact N02|].
      intros B. apply N02, between_sym, B. }
    rewrite T1.
    destruct (edge_toggles (Seg v0 v1) p), (edge_toggles (Seg v1 v2) p), (edge_toggles (Seg v0 v2) p),
      (parity (edges_from v0 (v2 :: v3 :: r)) p); reflexivity. }
  rewrite interior_parity, P by auto.
  assert (T := triangle_parity v0 v1 v2 p S Nt).
  destruct (Qclt_le_dec 0 (area2 v0 v2 p)) as [Q|Q].
  - (* beyond the diagonal *)
    assert (U : parity (edges us) p = true).
    { apply interior_parity; auto. apply IH. intros e I. rewrite E2 in I. destruct I as [<-|I]; auto.
      apply L. rewrite E1; cbn; auto. }
    rewrite U. destruct (parity (edges [v0; v1; v2]) p); auto. exfalso.
    destruct (proj1 T eq_refl) as (_ & _ & K). rewrite area2_swap12 in K. qlra.
  - assert (Q' : area2 v0 v2 p < 0) by (apply Qcle_lt_or_eq in Q; destruct Q; auto; contradiction).
    assert (T' : parity (edges [v0; v1; v2]) p = true).
    { apply T. repeat split; auto. rewrite area2_swap12. qlra. }
    rewrite T'. destruct (parity (edges us) p) eqn:U; auto. exfalso.
    apply interior_parity in U; auto.
    rewrite (convex_outside us (Seg v0 v2) p C') in U; [discriminate|rewrite E2; cbn; auto|exact Q'].
Qed.
Lemma convex_inside vs p : (3 <= length vs)%nat -> strictly_convex_ccw vs -> left_of_all vs p ->
  locate_point_in_region vs p = INTERIOR.
Proof.
  remember (length vs) as n eqn:En. intros Hn. revert vs p En.
  induction Hn as [|n Hn IH]; intros vs p En C L.
  - destruct vs as [|a [|b [|c [|? ?]]]]; try discriminate En.
    apply interior_parity; [apply left_not_on; auto|].
    apply triangle_parity; [|apply left_not_on; auto|].
    + destruct C as [N H]. apply (H (Seg a b)); cbn; auto; inversion N; subst; intros ->;
        [apply H2; cbn; auto|inversion H3; subst; apply H4; cbn; auto].
    + repeat split; [apply (L (Seg a b))|apply (L (Seg b c))|apply (L (Seg c a))]; cbn; auto.
  - destruct vs as [|v0 [|v1 [|v2 [|v3 r]]]]; try (cbn in En; lia).
    assert (R : forall q, left_of_all (v0 :: v2 :: v3 :: r) q ->
       locate_point_in_region (v0 :: v2 :: v3 :: r) q = INTERIOR).
    { intros q Lq. apply IH; auto. apply (convex_cut _ v1); auto. }
    destruct (Qc_eq_dec (area2 v0 v2 p) 0) as [Z|Z]; [|apply convex_inside_cut; auto].
    set (vs := v0 :: v1 :: v2 :: v3 :: r) in *.
    set (t := 1 / (1 + 1)).
    set (p' := lerp p v1 t).
    assert (T0 : 0 < t) by reflexivity. assert (T1 : t < 1) by reflexivity.
    assert (Seg' : forall x, on_seg (Seg p p') x -> left_of_all vs x).
    { intros x (u & U0 & U1 & ->) e I. cbn [seg_start seg_end].
      unfold p'. rewrite !area2_lerp_third.
      assert (A := L e I). assert (B := convex_left vs e v1 C I ltac:(unfold vs; cbn; auto)).
      generalize dependent (area2 (seg_start e) (seg_end e) p). intros a A.
      generalize dependent (area2 (seg_start e) (seg_end e) v1). intros b B.
      clearbody t. clear - A B U0 U1 T0 T1.
      assert (0 <= u * t) by qnra. assert (u * t < 1) by qnra.
      replace ((1 - u) * a + u * ((1 - t) * a + t * b)) with ((1 - u * t) * a + (u * t) * b) by ring.
      set (k := u * t) in *. clearbody k. qnra. }
    transitivity (locate_point_in_region vs p').
    + apply region_not_crossing. intros x O B. apply Seg', left_not_on in B. auto.
    + apply convex_inside_cut; auto.
      * apply Seg'. apply between_end.
      * unfold p'. rewrite area2_lerp_third, Z.
        assert (S : 0 < area2 v0 v1 v2).
        { destruct C as [N H]. apply (H (Seg v0 v1)); cbn [seg_start seg_end].
          - cbn; auto.
          - unfold vs; cbn; auto.
          - inversion N; subst. intros ->. apply H2; cbn; auto.
          - inversion N; subst. inversion H3; subst. intros ->. apply H4; cbn; auto. }
        replace (area2 v0 v2 v1) with (- area2 v0 v1 v2) by (unfold area2; ring).
        set (a := area2 v0 v1 v2) in *. clearbody a t. intros K.
        assert (0 < t * a) by qnra. qlra.
Qed.
Lemma other_vertex (vs : list point) a : (2 <= length vs)%nat -> NoDup vs -> exists v, In v vs /\ v <> a.
Proof.
  intros L N. destruct vs as [|v [|w r]]; cbn in L; try lia.
  destruct (point_dec v a) as [->|D]; [|exists v; split; cbn; auto].
  exists w. split; [cbn; auto|]. intros ->. inversion N; subst. apply H1; cbn; auto.
Qed.
Lemma convex_edge_proper vs e : (2 <= length vs)%nat -> strictly_convex_ccw vs -> In e (edges vs) ->
  seg_start e <> seg_end e.
Proof.
  intros L [N H] I E. destruct (other_vertex vs (seg_start e) L N) as (v & J & D).
  assert (K : 0 < area2 (seg_start e) (seg_end e) v) by (apply H; congruence).
  rewrite <- E in K. unfold area2 in K. qlra.
Qed.
Lemma convex_beside vs e p : (2 <= length vs)%nat -> strictly_convex_ccw vs -> In e (edges vs) ->
  area2 (seg_start e) (seg_end e) p = 0 -> ~ on_contour vs p -> locate_point_in_region vs p = EXTERIOR.
Proof.
  intros Ln C I Z O. assert (D := convex_edge_proper vs e Ln C I).
  destruct e as [a b]. cbn [seg_start seg_end] in *.
  set (dx := px b - px a). set (dy := py b - py a).
  assert (Sq : 0 < dx * dx + dy * dy).
  { assert (N : ~ (dx = 0 /\ dy = 0)) by (intros [X Y]; apply D, point_ext; unfold dx, dy in *; qlra).
    clearbody dx dy. destruct (Qc_eq_dec dx 0) as [->|X].
    - assert (dy <> 0) by auto. assert (dy < 0 \/ 0 < dy) by (destruct (Qclt_le_dec dy 0) as [|G]; auto;
        apply Qcle_lt_or_eq in G; destruct G; auto; congruence). destruct H0; qnra.
    - assert (dx < 0 \/ 0 < dx) by (destruct (Qclt_le_dec dx 0) as [|G]; auto;
        apply Qcle_lt_or_eq in G; destruct G; auto; congruence). destruct H; qnra. }
  set (q := Pt (px p + dy) (py p - dx)).
  assert (A : area2 a b q = - (dx * dx + dy * dy))
    by (replace (- (dx * dx + dy * dy)) with (area2 a b p - (dx * dx + dy * dy)) by (rewrite Z; ring);
        unfold area2, q, dx, dy; cbn [px py]; ring).
  transitivity (locate_point_in_region vs q).
  - apply region_not_crossing. intros x X (t & T0 & T1 & E). cbn [seg_start seg_end] in E.
    assert (Y := convex_left_contour vs (Seg a b) x C I X). cbn [seg_start seg_end] in Y.
    rewrite E, area2_lerp_third, A, Z in Y.
    assert (t = 0).
    { set (s := dx * dx + dy * dy) in *. clearbody s. destruct (Qc_eq_dec t 0); auto. exfalso.
      assert (0 < t) by (apply Qcle_lt_or_eq in T0; destruct T0; auto; congruence).
      assert (0 < t * s) by qnra. qlra. }
    subst t. apply O. replace p with x; auto. rewrite E. apply point_ext; unfold lerp; cbn [px py]; ring.
  - apply (convex_outside vs (Seg a b)); auto. cbn [seg_start seg_end]. rewrite A. qlra.
Qed.
Lemma region_convex vs vs' p : (3 <= length vs)%nat -> strictly_convex_ccw vs -> same_cycle vs vs' ->
  (locate_point_in_region vs' p = INTERIOR
   <-> forall e, In e (edges vs) -> 0 < area2 (seg_start e) (seg_end e) p).
Proof.
  intros L C S. rewrite <- (region_representation vs vs' p S). split.
  - intros J e I. destruct (Qclt_le_dec 0 (area2 (seg_start e) (seg_end e) p)) as [|G]; auto. exfalso.
    apply Qcle_lt_or_eq in G. destruct G as [G|G].
    + rewrite (convex_outside vs e p C I G) in J. discriminate.
    + assert (O : ~ on_contour vs p).
      { intros O. apply (region_boundary vs p) in O. congruence. }
      rewrite (convex_beside vs e p ltac:(lia) C I G O) in J. discriminate.
  - apply convex_inside; auto.
Qed.

(** ** Polylines *)
Lemma segment_locate_on s p : on_seg s p -> segment_locate s p = BOUNDARY.
Proof. intros O. apply locate_spec. exact O. Qed.
Lemma segment_locate_off s p : ~ on_seg s p -> segment_locate s p = EXTERIOR.
Proof. intros O. apply locate_exterior. exact O. Qed.
Lemma multisegment_located l p :
  (on_segs l p -> multisegment_locate l p = BOUNDARY) /\ (~ on_segs l p -> multisegment_locate l p = EXTERIOR).
Proof.
  induction l as [|s l [IH1 IH2]]; cbn [multisegment_locate].
  - split; auto. intros (s & [] & _).
  - split.
    + intros (t & [<-|I] & O); [rewrite segment_locate_on by auto; auto|].
      destruct (on_segs_dec [s] p) as [(t' & [<-|[]] & O')|N]; [rewrite segment_locate_on by auto; auto|].
      rewrite segment_locate_off by (intros O'; apply N; exists s; cbn; auto). cbn.
      apply IH1. exists t; auto.
    + intros N. rewrite segment_locate_off by (intros O'; apply N; exists s; cbn; auto). cbn.
      apply IH2. intros (t & I & O). apply N. exists t; cbn; auto.
Qed.
Lemma contour_located vs p :
  (on_contour vs p -> contour_locate vs p = BOUNDARY) /\ (~ on_contour vs p -> contour_locate vs p = EXTERIOR).
Proof.
  unfold contour_locate. change (to_contour_segments vs) with (edges vs). unfold on_contour.
  induction (edges vs) as [|s l [IH1 IH2]]; cbn [forallb].
  - split; auto. intros (s & [] & _).
  - split.
    + intros (t & [<-|I] & O); [rewrite segment_locate_on by auto; auto|].
      destruct (location_is (segment_locate s p) EXTERIOR); cbn [andb]; auto. apply IH1. exists t; auto.
    + intros N. rewrite segment_locate_off by (intros O'; apply N; exists s; cbn; auto). cbn.
      apply IH2. intros (t & I & O). apply N. exists t; cbn; auto.
Qed.
Lemma polyline_located g p : linear_geometry g ->
  (geometry_locate g p = BOUNDARY <-> on_geometry g p)
  /\ (geometry_locate g p = EXTERIOR <-> ~ on_geometry g p)
  /\ (geometry_contains g p = true <-> on_geometry g p).
Proof.
  intros K.
  assert (H : (on_geometry g p -> geometry_locate g p = BOUNDARY)
              /\ (~ on_geometry g p -> geometry_locate g p = EXTERIOR)).
  { destruct g; try contradiction; unfold on_geometry; cbn [parts geometry_locate].
    - split; intros O; [apply segment_locate_on|apply segment_locate_off].
      + destruct O as (t & [<-|[]] & O). exact O.
      + intros O'. apply O. eexists; cbn; eauto.
    - apply multisegment_located.
    - apply contour_located. }
  assert (G : geometry_contains g p = negb (location_is (geometry_locate g p) EXTERIOR))
    by (destruct g; try contradiction; reflexivity).
  rewrite G. destruct H as [H1 H2].
  destruct (on_segs_dec (parts g) p) as [O|O]; [rewrite (H1 O)|rewrite (H2 O)]; cbn;
    (repeat split; intros; try discriminate; auto; try contradiction).
Qed.

(** ** Polygons and multipolygons *)
Lemma locate_in_holes_outside hs p d : (forall h, In h hs -> locate_point_in_region h p = EXTERIOR) ->
  locate_in_holes hs p d = d.
Proof.
  induction hs as [|h hs IH]; intros H; auto. cbn [locate_in_holes].
  rewrite (H h) by (cbn; auto). cbn. apply IH. intros; apply H; cbn; auto.
Qed.
Lemma locate_in_holes_first hs h hs' p d : (forall h, In h hs -> locate_point_in_region h p = EXTERIOR) ->
  locate_point_in_region h p <> EXTERIOR ->
  locate_in_holes (hs ++ h :: hs') p d
  = match locate_point_in_region h p with INTERIOR => EXTERIOR | l => l end.
Proof.
  intros H N. induction hs as [|h' hs IH]; cbn [app locate_in_holes].
  - destruct (locate_point_in_region h p); cbn; auto. contradiction.
  - rewrite (H h') by (cbn; auto). cbn. apply IH. intros; apply H; cbn; auto.
Qed.
Lemma first_split {A} (P : A -> Prop) (D : forall x, {P x} + {~ P x}) l :
  (forall x, In x l -> P x) \/ exists l1 x l2, l = l1 ++ x :: l2 /\ (forall y, In y l1 -> P y) /\ ~ P x.
Proof.
  induction l as [|x l [IH|(l1 & y & l2 & -> & H & N)]].
  - left. intros x [].
  - destruct (D x) as [K|K].
    + left. intros y [<-|I]; auto.
    + right. exists [], x, l. repeat split; auto. intros y [].
  - destruct (D x) as [K|K].
    + right. exists (x :: l1), y, l2. repeat split; auto. intros z [<-|I]; auto.
    + right. exists [], x, (l1 ++ y :: l2). repeat split; auto. intros z [].
Qed.
Lemma location_dec (a b : location) : {a = b} + {a <> b}.
Proof. decide equality. Qed.
Lemma polygon_located b hs p : let g := GPolygon (Poly b hs) in
  (geometry_locate g p = INTERIOR <->
     locate_point_in_region b p = INTERIOR /\ forall h, In h hs -> locate_point_in_region h p = EXTERIOR)
  /\ (locate_point_in_region b p <> INTERIOR -> geometry_locate g p = locate_point_in_region b p)
  /\ (forall l1 h l2, hs = l1 ++ h :: l2 -> locate_point_in_region b p = INTERIOR ->
       (forall k, In k l1 -> locate_point_in_region k p = EXTERIOR) ->
       (locate_point_in_region h p = INTERIOR -> geometry_locate g p = EXTERIOR)
       /\ (locate_point_in_region h p = BOUNDARY -> geometry_locate g p = BOUNDARY)).
Proof.
  cbn [geometry_locate]. unfold polygon_locate. cbn [border holes].
  destruct (location_dec (locate_point_in_region b p) INTERIOR) as [E|E].
  - rewrite E. cbn [location_is]. split; [|split].
    + destruct (first_split (fun h => locate_point_in_region h p = EXTERIOR)
        (fun h => location_dec _ _) hs) as [H|(l1 & h & l2 & -> & H & N)].
      * rewrite locate_in_holes_outside by auto. tauto.
      * rewrite locate_in_holes_first by auto. split.
        -- destruct (locate_point_in_region h p); try discriminate; contradiction.
        -- intros [_ K]. exfalso. apply N, K. apply in_or_app; cbn; auto.
    + congruence.
    + intros l1 h l2 -> _ H. split; intros K; rewrite locate_in_holes_first by (auto; congruence);
        rewrite K; auto.
  - assert (F : location_is (locate_point_in_region b p) INTERIOR = false)
      by (destruct (locate_point_in_region b p); auto; contradiction).
    rewrite F. repeat split; auto; try congruence; intros; try (destruct H; congruence); contradiction.
Qed.
(** Without a point both inside one hole and on another. *)
Lemma polygon_located_sets b hs p : let g := GPolygon (Poly b hs) in
  (forall h k, In h hs -> In k hs -> locate_point_in_region h p = INTERIOR ->
     locate_point_in_region k p <> BOUNDARY) ->
  (geometry_locate g p = EXTERIOR <-> locate_point_in_region b p = EXTERIOR
     \/ locate_point_in_region b p = INTERIOR /\ exists h, In h hs /\ locate_point_in_region h p = INTERIOR)
  /\ (geometry_locate g p = BOUNDARY <-> locate_point_in_region b p = BOUNDARY
     \/ locate_point_in_region b p = INTERIOR /\ exists h, In h hs /\ locate_point_in_region h p = BOUNDARY).
Proof.
  intros g X. destruct (polygon_located b hs p) as (P1 & P2 & P3). fold g in P1, P2, P3.
  destruct (location_dec (locate_point_in_region b p) INTERIOR) as [E|E].
  - destruct (first_split (fun h => locate_point_in_region h p = EXTERIOR)
        (fun h => location_dec _ _) hs) as [H|(l1 & h & l2 & Eh & H & N)].
    + rewrite (proj2 P1 (conj E H)). rewrite E. split; (split; [discriminate|]);
        (intros [K|(_ & h & I & K)]; [discriminate|rewrite (H h I) in K; discriminate]).
    + destruct (P3 l1 h l2 Eh E H) as [Q1 Q2]. assert (Ih : In h hs) by (rewrite Eh; apply in_or_app; cbn; auto).
      destruct (locate_point_in_region h p) eqn:Lh; try contradiction.
      * rewrite Q2 by auto. rewrite E. split; (split; [|]); try discriminate; eauto.
        intros [K|(_ & k & I & K)]; [discriminate|]. exfalso. exact (X k h I Ih K Lh).
      * rewrite Q1 by auto. rewrite E. split; (split; [|]); try discriminate; eauto.
        intros [K|(_ & k & I & K)]; [discriminate|]. exfalso. exact (X h k Ih I Lh K).
  - rewrite P2 by auto. split; (split; [auto|]); intros [K|[K _]]; auto; contradiction.
Qed.
Lemma multipolygon_located l p :
  ((forall q, In q l -> polygon_locate q p = EXTERIOR) -> multipolygon_locate l p = EXTERIOR)
  /\ (forall l1 q l2, l = l1 ++ q :: l2 -> (forall r, In r l1 -> polygon_locate r p = EXTERIOR) ->
      polygon_locate q p <> EXTERIOR -> multipolygon_locate l p = polygon_locate q p).
Proof.
  induction l as [|q l [IH1 IH2]]; cbn [multipolygon_locate].
  - split; auto. intros [|] ? ? E; discriminate.
  - split.
    + intros H. rewrite (H q) by (cbn; auto). cbn. apply IH1. intros; apply H; cbn; auto.
    + intros [|q' l1] r l2 E H N; cbn in E; inversion E; subst.
      * destruct (polygon_locate r p); cbn; auto. contradiction.
      * rewrite (H q') by (cbn; auto). cbn. eapply IH2; eauto. intros; apply H; cbn; auto.
Qed.
Lemma multipolygon_contains l p :
  geometry_contains (GMultipolygon l) p = true <-> exists q, In q l /\ geometry_contains (GPolygon q) p = true.
Proof.
  cbn [geometry_contains geometry_locate]. destruct (multipolygon_located l p) as [M1 M2].
  assert (G : forall x, negb (location_is x EXTERIOR) = true <-> x <> EXTERIOR)
    by (intros []; cbn; split; congruence).
  destruct (first_split (fun q => polygon_locate q p = EXTERIOR)
        (fun h => location_dec _ _) l) as [H|(l1 & h & l2 & -> & H & N)].
  - rewrite M1 by auto. split; [discriminate|]. intros (q & I & K). rewrite (H q I) in K. discriminate.
  - rewrite (M2 l1 h l2) by auto. split; [|intros; apply G; auto].
    intros K. exists h. split; auto. apply in_or_app; cbn; auto.
Qed.

(** ** In terms of the API *)
Lemma region_api vs p : region_location vs p = locate_point_in_region vs p.
Proof. unfold region_location. cbn [geometry_locate]. unfold polygon_locate; cbn [border holes locate_in_holes].
  destruct (location_is _ _); auto. Qed.
Lemma api_boundary vs p : region_location vs p = BOUNDARY <-> on_contour vs p.
Proof. rewrite region_api. apply region_boundary. Qed.
Lemma api_representation vs vs' p : same_cycle vs vs' -> region_location vs p = region_location vs' p.
Proof. rewrite !region_api. apply region_representation. Qed.
Lemma api_not_crossing vs p q : (forall x, on_contour vs x -> ~ on_seg (Seg p q) x) ->
  region_location vs p = region_location vs q.
Proof. rewrite !region_api. apply region_not_crossing. Qed.
Lemma api_outside_box vs p : ~ in_box (bounding_box (GContour vs)) p -> region_location vs p = EXTERIOR.
Proof. rewrite !region_api. apply region_outside_box. Qed.
Lemma api_parity vs p q n : ~ on_contour vs p -> ~ in_box (bounding_box (GContour vs)) q ->
  (forall v, In v vs -> ~ on_seg (Seg p q) v) ->
  counts (fun e => meet e (Seg p q)) (edges vs) n ->
  region_location vs p = if Nat.odd n then INTERIOR else EXTERIOR.
Proof. rewrite !region_api. apply region_parity. Qed.
Lemma api_triangle a b c p : area2 a b c <> 0 ->
  (region_location [a; b; c] p = INTERIOR
   <-> (0 < area2 a b p /\ 0 < area2 b c p /\ 0 < area2 c a p)
       \/ (area2 a b p < 0 /\ area2 b c p < 0 /\ area2 c a p < 0)).
Proof. rewrite !region_api. apply region_triangle. Qed.
Lemma api_convex vs vs' p : (3 <= length vs)%nat -> strictly_convex_ccw vs -> same_cycle vs vs' ->
  (region_location vs' p = INTERIOR
   <-> forall e, In e (edges vs) -> 0 < area2 (seg_start e) (seg_end e) p).
Proof. rewrite !region_api. apply region_convex. Qed.
Lemma api_polygon b hs p : let g := GPolygon (Poly b hs) in
  (geometry_locate g p = INTERIOR <->
     region_location b p = INTERIOR /\ forall h, In h hs -> region_location h p = EXTERIOR)
  /\ (region_location b p <> INTERIOR -> geometry_locate g p = region_location b p)
  /\ (forall l1 h l2, hs = l1 ++ h :: l2 -> region_location b p = INTERIOR ->
       (forall k, In k l1 -> region_location k p = EXTERIOR) ->
       (region_location h p = INTERIOR -> geometry_locate g p = EXTERIOR)
       /\ (region_location h p = BOUNDARY -> geometry_locate g p = BOUNDARY)).
Proof.
  intros g. destruct (polygon_located b hs p) as (P1 & P2 & P3). fold g in P1, P2, P3. rewrite region_api.
  split; [|split]; auto.
  - rewrite P1. split; intros [H K]; split; auto; intros h I; specialize (K h I); rewrite region_api in *; auto.
  - intros l1 h l2 E I H. rewrite region_api. apply (P3 l1 h l2 E I). intros k J.
    rewrite <- region_api. apply H; auto. 
Qed.
Lemma api_polygon_sets b hs p : let g := GPolygon (Poly b hs) in
  (forall h k, In h hs -> In k hs -> region_location h p = INTERIOR -> region_location k p <> BOUNDARY) ->
  (geometry_locate g p = EXTERIOR <-> region_location b p = EXTERIOR
     \/ region_location b p = INTERIOR /\ exists h, In h hs /\ region_location h p = INTERIOR)
  /\ (geometry_locate g p = BOUNDARY <-> region_location b p = BOUNDARY
     \/ region_location b p = INTERIOR /\ exists h, In h hs /\ region_location h p = BOUNDARY).
Proof.
  intros g X. destruct (polygon_located_sets b hs p) as [P1 P2].
  - intros h k I J. rewrite <- (region_api h p), <- (region_api k p). apply X; auto.
  - fold g in P1, P2. rewrite P1, P2. rewrite !region_api.
    split; (split; (intros [K|(K & h & I & J)]; [auto|right; split; auto; exists h; split; auto])).
    all: rewrite ?region_api in *; auto.
Qed.
Lemma api_multipolygon l p : let g := GMultipolygon l in
  ((forall q, In q l -> geometry_locate (GPolygon q) p = EXTERIOR) -> geometry_locate g p = EXTERIOR)
  /\ (forall l1 q l2, l = l1 ++ q :: l2 -> (forall r, In r l1 -> geometry_locate (GPolygon r) p = EXTERIOR) ->
      geometry_locate (GPolygon q) p <> EXTERIOR -> geometry_locate g p = geometry_locate (GPolygon q) p).
Proof. apply multipolygon_located. Qed.
Lemma api_contains g p : geometry_contains g p = true <-> geometry_locate g p <> EXTERIOR.
Proof.
  destruct g; cbn [geometry_contains]; try (split; [discriminate|cbn; congruence]);
  destruct (geometry_locate _ p); cbn; split; congruence.
Qed.
