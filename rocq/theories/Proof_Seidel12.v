(** The trapezoidation, part 12: the trapezoidation of a multisegment. *)
From Coq Require Import QArith Qcanon Bool List Arith Lia NArith Permutation.
From Verif Require Import QcTac Model_Base Model_Utils Model_Box Model_Geometry Model_Contour Model_Linear Model_Seidel Spec_Base Spec_Bounds Spec_Segment Spec_Validity Proof_Base
  Proof_Utils Proof_Bounds Proof_Locate Proof_Locate4 Proof_Sweep Proof_Sweep4 Proof_Seidel11.
Import ListNotations.
Local Open Scope Qc_scope.

Definition segment_edge (k : nat) (s : segment) : edge :=
  if point_lt (seg_start s) (seg_end s) then Edge false k (k + 1) else Edge false (k + 1) k.
Lemma multisegment_edges_In segs : forall k e, In e (multisegment_edges k segs) <->
  exists i s, nth_error segs i = Some s /\ e = segment_edge (k + 2 * i) s.
Proof.
  induction segs as [|s segs IH]; intros k e; cbn [multisegment_edges].
  - split; [intros []|intros (i & s & N & _); destruct i; discriminate].
  - split.
    + intros [<-|I].
      * exists 0%nat, s. split; auto. unfold segment_edge. replace (k + 2 * 0)%nat with k by lia. auto.
      * apply IH in I as (i & s' & N & ->). exists (S i), s'. split; auto. f_equal. lia.
    + intros (i & s' & N & ->). destruct i as [|i].
      * injection N as <-. left. unfold segment_edge. replace (k + 2 * 0)%nat with k by lia. auto.
      * right. apply IH. exists i, s'. split; auto. f_equal. lia.
Qed.
Lemma segment_edge_index k i s j s' : segment_edge (k + 2 * i) s = segment_edge (k + 2 * j) s' -> i = j.
Proof. unfold segment_edge. destruct (point_lt _ _), (point_lt _ _); intros Q; injection Q; lia. Qed.
Lemma multisegment_edges_NoDup segs : forall k, NoDup (multisegment_edges k segs).
Proof.
  induction segs as [|s segs IH]; intros k; [constructor|]. cbn [multisegment_edges]. constructor; [|apply IH].
  intros I. apply multisegment_edges_In in I as (i & s' & _ & Q).
  change (segment_edge k s = segment_edge (k + 2 + 2 * i) s') in Q. replace k with (k + 2 * 0)%nat in Q at 1 by lia.
  replace (k + 2 + 2 * i)%nat with (k + 2 * S i)%nat in Q by lia. apply segment_edge_index in Q. discriminate.
Qed.
Lemma multisegment_edges_length segs : forall k, length (multisegment_edges k segs) = length segs.
Proof. induction segs; intros k; cbn; auto. Qed.
Lemma multisegment_endpoints_length segs : length (multisegment_endpoints segs) = (2 * length segs)%nat.
Proof. induction segs; cbn; lia. Qed.
Lemma multisegment_endpoints_nth segs : forall i s, nth_error segs i = Some s ->
  endpoint_at (multisegment_endpoints segs) (2 * i) = seg_start s /\ endpoint_at (multisegment_endpoints segs) (2 * i + 1) = seg_end s.
Proof.
  induction segs as [|s segs IH]; intros i s' N; [destruct i; discriminate|]. destruct i as [|i].
  - injection N as <-. auto.
  - destruct (IH i s' N) as [A B]. replace (2 * S i + 1)%nat with (S (S (2 * i + 1))) by lia. replace (2 * S i)%nat with (S (S (2 * i))) by lia. auto.
Qed.
Lemma multisegment_endpoints_In segs q : In q (multisegment_endpoints segs) -> In q (flat_map (fun s => [seg_start s; seg_end s]) segs).
Proof. induction segs; cbn; intuition auto. Qed.

Lemma or_one_pos v : 0 <= v -> 0 < or_one v.
Proof. intros L. unfold or_one. destruct (qeqb_spec v 0); [qlra|]. qne; qlra. Qed.
Lemma between_sym a b p : between a b p -> between b a p.
Proof.
  intros (t & T1 & T2 & ->). exists (1 - t). split; [qlra|]. split; [qlra|]. apply point_ext; unfold lerp; cbn; ring.
Qed.

Section Multisegment.
Variables (segs : list segment) (seed : N).
Hypothesis Two : (2 <= length segs)%nat.
Hypothesis Proper : Forall proper_seg segs.
Hypothesis Meet : meet_at_ends segs.
Let es := permute (multisegment_edges 0 segs) seed.
Let eps := multisegment_endpoints segs.

Lemma es_length : length es = length segs.
Proof. unfold es. rewrite <- (Permutation_length (permute_permutation _ _)). apply multisegment_edges_length. Qed.
Lemma es_edge g : (g < length es)%nat -> exists i s, nth_error segs i = Some s /\ edge_at es g = segment_edge (2 * i) s.
Proof.
  intros L. assert (I : In (edge_at es g) (multisegment_edges 0 segs)).
  { apply (Permutation_in _ (Permutation_sym (permute_permutation _ seed))). apply nth_In. auto. }
  apply multisegment_edges_In in I as (i & s & N & Q). exists i, s. auto.
Qed.
Lemma es_ends g i s : nth_error segs i = Some s -> edge_at es g = segment_edge (2 * i) s ->
  (elp es g < length eps)%nat /\ (erp es g < length eps)%nat /\ lex_lt (eL es eps g) (eR es eps g) /\ interior_to_left (edge_at es g) = false /\
  ((eL es eps g = seg_start s /\ eR es eps g = seg_end s) \/ (eL es eps g = seg_end s /\ eR es eps g = seg_start s)).
Proof.
  intros N Eg. unfold eL, eR, elp, erp. rewrite Eg. unfold eps. rewrite multisegment_endpoints_length.
  assert (Li : (i < length segs)%nat) by (apply nth_error_Some; congruence).
  destruct (multisegment_endpoints_nth segs i s N) as [A B].
  assert (P : proper_seg s) by (rewrite Forall_forall in Proper; apply Proper; eapply nth_error_In; eauto).
  unfold segment_edge. destruct (point_lt (seg_start s) (seg_end s)) eqn:Lt; cbn [left_point_index right_point_index interior_to_left]; rewrite A, B.
  - apply point_lt_true in Lt. repeat split; auto; lia.
  - apply point_lt_false in Lt. destruct (lex_total (seg_start s) (seg_end s)) as [[Q|Q]|Q]; [contradiction|contradiction|]. repeat split; auto; lia.
Qed.
Lemma es_between g i s f : nth_error segs i = Some s -> edge_at es g = segment_edge (2 * i) s ->
  (between (eL es eps g) (eR es eps g) f <-> on_seg s f) /\ (f = eL es eps g \/ f = eR es eps g <-> endpoint_of s f).
Proof.
  intros N Eg. destruct (es_ends g i s N Eg) as (_ & _ & _ & _ & Q). unfold on_seg, endpoint_of.
  destruct Q as [[-> ->]|[-> ->]]; split; try tauto. split; apply between_sym.
Qed.
Lemma es_all i s : nth_error segs i = Some s -> exists g, (g < length es)%nat /\ edge_at es g = segment_edge (2 * i) s.
Proof.
  intros N. assert (I : In (segment_edge (2 * i) s) es).
  { apply (Permutation_in _ (permute_permutation _ seed)). apply multisegment_edges_In. exists i, s. auto. }
  destruct (In_nth _ _ (Edge false 0 0) I) as (g & L & Q). exists g. auto.
Qed.

Theorem multisegment_located_by (p : point) : exists t, from_multisegment segs seed = Some t /\
  trapezoidation_locate t p = Some (multisegment_locate segs p).
Proof.
  pose proof es_length as Ln.
  set (ins := map (fun g => (eL es eps g, eR es eps g)) (seq 0 (length es)) ++ [(p, Pt (px p + 1) (py p))]).
  destruct (good_exists ins 0) as (e & _ & G).
  { intros s I. apply in_app_or in I as [I|[<-|[]]].
    - apply in_map_iff in I as (g & <- & I). apply in_seq in I. destruct (es_edge g) as (i & s & N & Eg); [lia|]. cbn. apply (es_ends g i s N Eg).
    - left. cbn. qlra. }
  set (c := Ctx e (all_points ins) ins 0) in *.
  destruct (bounded (map (X c) (c_pts c) ++ map py (c_pts c))) as (A & PA & HA).
  assert (InsE : forall g, (g < length es)%nat -> input c g = (eL es eps g, eR es eps g)).
  { intros g L. unfold input. cbn [c_ins c]. unfold ins. rewrite app_nth1 by (rewrite map_length, seq_length; auto).
    rewrite (nth_indep _ _ ((fun g => (eL es eps g, eR es eps g)) 0%nat)) by (rewrite map_length, seq_length; auto).
    rewrite (map_nth (fun g => (eL es eps g, eR es eps g))). rewrite seq_nth by auto. auto. }
  set (b := bounding_box (GMultisegment segs)).
  destruct (bounding_box_hull (GMultisegment segs) Two) as (_ & Hin & _). fold b in Hin.
  set (corners := [Pt (min_x b - or_one (max_x b - min_x b)) (max_y b + or_one (max_y b - min_y b));
     Pt (max_x b + or_one (max_x b - min_x b)) (max_y b + or_one (max_y b - min_y b));
     Pt (min_x b - or_one (max_x b - min_x b)) (min_y b - or_one (max_y b - min_y b));
     Pt (max_x b + or_one (max_x b - min_x b)) (min_y b - or_one (max_y b - min_y b))]).
  assert (In2 : forall g, (g < length es)%nat -> In (eL es eps g) (vertices_of (GMultisegment segs)) /\ In (eR es eps g) (vertices_of (GMultisegment segs))).
  { intros g L. destruct (es_edge g L) as (i & s & N & Eg). destruct (es_ends g i s N Eg) as (I1 & I2 & _).
    split; apply multisegment_endpoints_In; apply nth_In; auto. }
  destruct (concrete_done es eps corners p c A) as (nodes1 & nodes2 & Ad & Ad2 & Q1 & Q2).
  - intros g L. destruct (es_edge g L) as (i & s & N & Eg). destruct (es_ends g i s N Eg) as (I1 & I2 & _). auto.
  - intros g L. destruct (es_edge g L) as (i & s & N & Eg). apply (es_ends g i s N Eg).
  - intros g g' f L L' Ng B B'. destruct (es_edge g L) as (i & s & N & Eg). destruct (es_edge g' L') as (i' & s' & N' & Eg').
    destruct (es_between g i s f N Eg) as [E1 E2]. destruct (es_between g' i' s' f N' Eg') as [E1' E2'].
    rewrite E2, E2'. apply (Meet i i' s s' f); auto; [|apply E1; auto|apply E1'; auto].
    intros <-. apply Ng. rewrite N in N'. injection N' as <-.
    assert (ND : NoDup es) by (apply (Permutation_NoDup (permute_permutation _ seed)); apply multisegment_edges_NoDup).
    apply (proj1 (NoDup_nth es (Edge false 0 0)) ND); auto. unfold edge_at in *. congruence.
  - unfold corners. do 4 eexists. split; [reflexivity|]. intros g L. cbn [px]. destruct (In2 g L) as [I1 I2].
    pose proof (Hin _ I1) as B1. pose proof (Hin _ I2) as B2. unfold in_box in *.
    assert (0 < or_one (max_x b - min_x b)) by (apply or_one_pos; destruct B1; qlra). destruct B1 as (? & ? & _), B2 as (? & ? & _). repeat split; qlra.
  - exact G.
  - exact InsE.
  - cbn [c_ins c]. unfold ins. rewrite app_length, map_length, seq_length. cbn. lia.
  - cbn [c_pts c]. unfold all_points. apply in_or_app. left. apply in_flat_map. exists (p, Pt (px p + 1) (py p)). split; [|left; auto].
    unfold ins. apply in_or_app. right. left. auto.
  - intros q I. destruct (HA (X c q)) as [B1 B2]; [apply in_or_app; left; apply in_map; auto|].
    destruct (HA (py q)) as [B3 B4]; [apply in_or_app; right; apply in_map; auto|]. auto.
  - lia.
  - intros g L. destruct (es_edge g L) as (i & s & N & Eg). apply (es_ends g i s N Eg).
  - unfold from_multisegment, from_box, box_to_trapezoid. fold b es eps corners.
    rewrite Ad. rewrite Ad2. eexists. split; [reflexivity|]. unfold trapezoidation_locate. cbn [tr_nodes tr_edges tr_endpoints].
    assert (OE : (exists g, (g < length es)%nat /\ between (eL es eps g) (eR es eps g) p) <-> on_segs segs p).
    { split.
      - intros (g & L & B). destruct (es_edge g L) as (i & s & N & Eg). exists s. split; [eapply nth_error_In; eauto|]. apply (es_between g i s p N Eg). auto.
      - intros (s & I & B). apply In_nth_error in I as (i & N). destruct (es_all i s N) as (g & L & Eg). exists g. split; auto. apply (es_between g i s p N Eg). auto. }
    destruct (multisegment_located segs p) as [M1 M2].
    rewrite OE in Q1, Q2.
    destruct (on_segs_dec segs p) as [O|O]; [rewrite (Q1 O), (M1 O)|rewrite (Q2 O), (M2 O)]; auto.
Qed.
End Multisegment.

Lemma multisegment_trapezoidation segs seed : (2 <= length segs)%nat -> Forall proper_seg segs -> meet_at_ends segs ->
  exists t, from_multisegment segs seed = Some t /\
  forall p, (on_segs segs p -> trapezoidation_locate t p = Some BOUNDARY) /\ (~ on_segs segs p -> trapezoidation_locate t p = Some EXTERIOR)
    /\ trapezoidation_locate t p = Some (multisegment_locate segs p).
Proof.
  intros L P Me. destruct (multisegment_located_by segs seed L P Me (Pt 0 0)) as (t & E & _). exists t. split; auto. intros p.
  destruct (multisegment_located_by segs seed L P Me p) as (t' & E' & Q). rewrite E in E'. injection E' as <-. rewrite Q.
  destruct (multisegment_located segs p) as [M1 M2]. repeat split; intros O; [rewrite (M1 O)|rewrite (M2 O)]; auto.
Qed.
