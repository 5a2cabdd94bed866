From Coq Require Import QArith Qcanon Bool List ZArith Lia.
From Verif Require Import QcTac Model_Base Model_Box Model_Geometry
  Model_Segment Spec_Base Spec_Segment Spec_Clip Spec_Bounds Proof_Base Proof_Line Proof_SegRel
  Proof_Box Proof_Box2 Proof_Bounds.
Import ListNotations.
Local Open Scope Qc_scope.

(** ** Boxes of segments *)
Lemma segment_box_reverse s : segment_bounding_box (reverse_seg s) = segment_bounding_box s.
Proof.
  destruct s as [p q]. unfold segment_bounding_box; cbn.
  f_equal; first [apply q_min_comm|apply q_max_comm].
Qed.
Lemma continuum_filter_sym a b :
  do_boxes_have_common_continuum a b = do_boxes_have_common_continuum b a.
Proof.
  unfold do_boxes_have_common_continuum, box_disjoint_with, box_touches.
  rewrite (qeqb_sym (max_x a)), (qeqb_sym (max_x b)).
  destruct (qltb (max_x a) (min_x b)), (qltb (max_y a) (min_y b)),
    (qltb (max_x b) (min_x a)), (qltb (max_y b) (min_y a)); try reflexivity; cbn.
  destruct (qeqb (min_x a) (max_x b)), (qeqb (min_x b) (max_x a)),
   (qeqb (min_y a) (max_y b)), (qeqb (min_y b) (max_y a)); cbn;
   rewrite ?orb_true_r, ?andb_false_r, ?orb_false_r, ?andb_true_r; try reflexivity;
   rewrite (andb_comm (qleb (min_y b) _)), ?(andb_comm (qleb (min_x b) _)); reflexivity.
Qed.

Lemma segment_box_covers s p : on_seg s p -> in_box (segment_bounding_box s) p.
Proof.
  intros H. apply (bounding_box_covers (GSegment s) p); [exact I|].
  exists s. split; [left; auto|auto].
Qed.
Lemma continuum_filter_segments s t : share_continuum s t ->
  do_boxes_have_common_continuum (segment_bounding_box s) (segment_bounding_box t) = true.
Proof.
  intros (p & q & N & ? & ? & ? & ?). apply continuum_filter_complete.
  exists p, q. repeat split; auto; apply segment_box_covers; auto.
Qed.

(** For collinear segments the continuum filter is exact. *)
Lemma continuum_filter_collinear a b t u : lex_lt a b -> t < u -> 1 <= t \/ u <= 0 ->
  do_boxes_have_common_continuum (segment_bounding_box (Seg a b))
    (segment_bounding_box (Seg (lerp a b t) (lerp a b u))) = false.
Proof.
  intros L H K. destruct a as [x y], b as [x' y']. unfold lerp; cbn [px py].
  unfold lex_lt in L; cbn in L.
  assert (G : exists cx cy dx dy,
    x + t * (x' - x) = cx /\ y + t * (y' - y) = cy /\ x + u * (x' - x) = dx
    /\ y + u * (y' - y) = dy) by (repeat eexists).
  destruct G as (cx & cy & dx & dy & E1 & E2 & E3 & E4).
  rewrite E1, E2, E3, E4.
  assert (F : (x < x' /\ cx < dx /\ (x' <= cx \/ dx <= x)
     \/ x = x' /\ cx = x /\ dx = x) /\
    (y < y' /\ cy < dy /\ (y' <= cy \/ dy <= y)
     \/ y' < y /\ dy < cy /\ (cy <= y' \/ y <= dy)
     \/ y = y' /\ cy = y /\ dy = y) /\
     (x < x' \/ y < y')).
  { split; [|split].
    - destruct L as [L|[<- L]].
      + left. split; auto. split; [subst; qnra|].
        destruct K; [left|right]; subst; qnra.
      + right. repeat split; subst; ring.
    - destruct (Qc_trichotomy y y') as [[L'|<-]|L'].
      + left. split; auto. split; [subst; qnra|].
        destruct K; [left|right]; subst; qnra.
      + right; right. repeat split; subst; ring.
      + right; left. split; auto. split; [subst; qnra|].
        destruct K; [left|right]; subst; qnra.
    - destruct L as [|[]]; auto. }
  assert (K' : (x' <= cx /\ (y < y' -> y' <= cy) /\ (y' < y -> cy <= y')
      /\ (x = x' -> y' <= cy)) \/
    (dx <= x /\ (y < y' -> dy <= y) /\ (y' < y -> y <= dy) /\ (x = x' -> dy <= y))).
  { destruct K as [K|K]; [left|right].
    - repeat split; intros; destruct L as [L|[<- L]]; subst; qnra.
    - repeat split; intros; destruct L as [L|[<- L]]; subst; qnra. }
  clear K L E1 E2 E3 E4.
  unfold segment_bounding_box, do_boxes_have_common_continuum, box_disjoint_with,
    box_touches, q_min, q_max; cbn [seg_start seg_end px py min_x max_x min_y max_y].
  destruct F as (F1 & F2 & F3).
  assert (Q : forall a b, a < b -> qltb a b = true) by (intros; qb; auto).
  assert (Q' : forall a b, b <= a -> qltb a b = false) by (intros; qb; auto).
  assert (Q'' : forall a, qltb a a = false) by (intros; qb; qlra).
  destruct F1 as [(X1 & X2 & X3)|(-> & -> & ->)];
  destruct F2 as [(Y1 & Y2 & Y3)|[(Y1 & Y2 & Y3)|(-> & -> & ->)]];
  rewrite ?Q'', ?(Q _ _ X1), ?(Q _ _ X2), ?(Q _ _ Y1), ?(Q _ _ Y2),
    ?(Q' _ _ (Qclt_le_weak _ _ X1)), ?(Q' _ _ (Qclt_le_weak _ _ X2)),
    ?(Q' _ _ (Qclt_le_weak _ _ Y1)), ?(Q' _ _ (Qclt_le_weak _ _ Y2));
  try (exfalso; destruct F3; qlra);
  (destruct K' as [(K1 & K2 & K3 & K4)|(K1 & K2 & K3 & K4)]);
  repeat match goal with
  | K : ?P -> _ |- _ => 
     first [ assert P as PP by (assumption || reflexivity); specialize (K PP); clear PP
           | clear K ]
  end;
  repeat match goal with
  | |- context [qltb ?a ?b] => destruct (qltb_spec a b); try (exfalso; qlra); cbn
  | |- context [qeqb ?p ?q] =>
        let H := fresh in destruct (qeqb_spec p q) as [|H];
        [|apply Qc_neq in H; destruct H]; try (exfalso; qlra); cbn
  | |- context [qleb ?p ?q] => destruct (qleb_spec p q); try (exfalso; qlra); cbn
  end; try reflexivity.
Qed.

(** ** Characterisations for sorted endpoints *)
Lemma share_iff a b c d : lex_lt a b -> lex_lt c d ->
  share_continuum (Seg a b) (Seg c d) <->
  (area2 a b c = 0 /\ area2 a b d = 0) /\ lex_lt c b /\ lex_lt a d.
Proof.
  intros L M.
  assert (Z : share_continuum (Seg a b) (Seg c d) -> area2 a b c = 0 /\ area2 a b d = 0).
  { intros (p & q & N & H1 & H2 & H3 & H4).
    destruct (Qc_eq_dec (area2 a b c) 0), (Qc_eq_dec (area2 a b d) 0); auto;
      exfalso; apply N; eapply (common_unique a b c d); eauto. }
  assert (C : area2 a b c = 0 -> area2 a b d = 0 ->
    (share_continuum (Seg a b) (Seg c d) <-> lex_lt c b /\ lex_lt a d)).
  { intros Hc Hd.
    destruct (collinear_coordinates a b c d L M Hc Hd) as (t & u & -> & -> & H).
    rewrite col_continuum by auto.
    pose proof (lerp_lt a b t 1 L) as K1. rewrite lerp_1 in K1.
    pose proof (lerp_lt a b 0 u L) as K2. rewrite lerp_0 in K2. tauto. }
  split.
  - intros S. split; auto. destruct (Z S). apply C; auto.
  - intros [[] ?]. apply C; auto.
Qed.

Lemma cross_iff a b c d : lex_lt a b -> lex_lt c d ->
  seg_relation_spec CROSS (Seg a b) (Seg c d) <->
  opposite (area2 a b c) (area2 a b d) /\ opposite (area2 c d a) (area2 c d b).
Proof.
  intros L M. split.
  - intros H.
    assert (R : relate_core a b c d = Some CROSS).
    { destruct (relate_core a b c d) as [r|] eqn:E.
      - f_equal. apply (relate_core_sound a b c d r L M) in E.
        exact (seg_relation_exclusive (Seg a b) (Seg c d) r CROSS
          (lex_lt_neq _ _ L) (lex_lt_neq _ _ M) E H).
      - exfalso. exact (relate_core_total a b c d L M E). }
    clear H. revert R. unfold relate_core.
    rewrite <- !on_opposite_sides_spec. unfold on_opposite_sides.
    rewrite !(is_collinear_rev a b), (orient_rev_same a b).
    destruct (point_eq a c && point_eq b d); [discriminate|].
    destruct (orientation_is (orient a b c) (orient a b d)).
    { repeat match goal with |- (if ?x then _ else _) = _ -> _ => destruct x end;
      discriminate. }
    destruct (is_collinear (orient a b c)).
    { match goal with |- (if ?x then _ else _) = _ -> _ => destruct x end; discriminate. }
    destruct (is_collinear (orient a b d)).
    { match goal with |- (if ?x then _ else _) = _ -> _ => destruct x end; discriminate. }
    destruct (orientation_is (orient c d a) (orient c d b)).
    { repeat match goal with |- (if ?x then _ else _) = _ -> _ => destruct x end;
      discriminate. }
    destruct (is_collinear (orient c d a)).
    { match goal with |- (if ?x then _ else _) = _ -> _ => destruct x end; discriminate. }
    destruct (is_collinear (orient c d b)).
    { match goal with |- (if ?x then _ else _) = _ -> _ => destruct x end; discriminate. }
    auto.
  - intros [H K]. destruct (crossing_point a b c d H K) as [I1 I2].
    exists (to_segments_intersection a b c d). split; auto. split; [|split].
    + apply strictly_between_between; auto.
    + apply strictly_between_between; auto.
    + intros q Hq Hq'. apply (common_unique a b c d); auto;
        try (apply strictly_between_between; auto).
      left. intros E; destruct H; qlra.
Qed.

Lemma not_share_cases s t : proper_seg s -> proper_seg t -> ~ share_continuum s t ->
  seg_relation_spec CROSS s t \/ seg_relation_spec TOUCH s t
  \/ seg_relation_spec DISJOINT s t.
Proof.
  intros Hs Ht N. destruct (segment_relate_total s t Hs Ht) as [r E].
  apply segment_relate_spec in E; auto.
  destruct r; cbn [seg_relation_spec] in E; auto; exfalso; try contradiction; apply N.
  - apply subset_continuum; tauto.
  - apply share_continuum_sym, subset_continuum; tauto.
  - apply subset_continuum; auto. intros p. apply E.
  - apply E.
Qed.
Lemma not_share_common s t : proper_seg s -> proper_seg t -> ~ share_continuum s t ->
  (exists p, only_common_point s t p) \/ ~ exists p, on_seg s p /\ on_seg t p.
Proof.
  intros Hs Ht N. destruct (not_share_cases s t Hs Ht N) as [(p & H & _)|[(p & H & _)|H]];
  eauto.
Qed.

Lemma on_seg_dec s p : {on_seg s p} + {~ on_seg s p}.
Proof. apply between_dec. Qed.

Lemma between_trans a b p q r : between a b p -> between a b q -> between p q r ->
  between a b r.
Proof.
  intros (t & ? & ? & ->) (u & ? & ? & ->) (v & ? & ? & ->).
  rewrite lerp_lerp. exists (t + v * (u - t)). repeat split; qnra.
Qed.
Lemma strictly_between_neq p q r : p <> q -> strictly_between p q r -> r <> p /\ r <> q.
Proof. intros N H. apply strictly_between_iff in H; tauto. Qed.

Lemma on_seg_convex s p q r : on_seg s p -> on_seg s q -> strictly_between p q r ->
  on_seg s r.
Proof.
  intros A B C. exact (between_trans _ _ p q r A B (strictly_between_between _ _ _ C)).
Qed.

Lemma in_difference_no_continuum s t p : proper_seg s -> proper_seg t ->
  ~ share_continuum s t -> (in_difference s t p <-> on_seg s p).
Proof.
  intros Hs Ht N. split; [intros []; auto|]. intros Hp. split; auto.
  assert (Q : exists q, q <> p /\ on_seg s q).
  { destruct (point_dec (seg_start s) p) as [<-|].
    - exists (seg_end s). split; [apply not_eq_sym; auto|apply between_end].
    - exists (seg_start s). split; auto. apply between_start. }
  destruct Q as (q & Nq & Hq).
  destruct (not_share_common s t Hs Ht N) as [(x & X1 & X2 & X3)|X].
  - destruct (between_dec p q x) as [B|B].
    + destruct (point_dec x p) as [->|Nx].
      * exists q. split; auto. split; auto. intros r Hr Ho.
        assert (Hr' : on_seg s r).
        { apply (on_seg_convex s p q); auto. }
        apply strictly_between_neq in Hr; auto. apply (proj1 Hr). apply X3; auto.
      * exists x. split; auto. split; auto. intros r Hr Ho.
        assert (Hr' : on_seg s r).
        { apply (on_seg_convex s p x); auto. }
        apply strictly_between_neq in Hr; auto. apply (proj2 Hr). apply X3; auto.
    + exists q. split; auto. split; auto. intros r Hr Ho. apply B.
      assert (Hr' : on_seg s r).
      { apply (on_seg_convex s p q); auto. }
      rewrite <- (X3 r Hr' Ho). apply strictly_between_between; auto.
  - exists q. split; auto. split; auto. intros r Hr Ho. apply X. exists r; split; auto.
    apply (on_seg_convex s p q); auto.
Qed.

(** Closure of the difference in line coordinates. *)
Lemma in_difference_collinear a b t u w : lex_lt a b -> t < u ->
  in_difference (Seg a b) (Seg (lerp a b t) (lerp a b u)) (lerp a b w) <->
  (0 <= w /\ w <= 1) /\ ((w <= t /\ 0 < t) \/ (u <= w /\ u < 1)).
Proof.
  intros L H. unfold in_difference. rewrite (col_on1 a b t u L H).
  assert (S : forall v r, v <> w ->
     (strictly_between (lerp a b w) (lerp a b v) (lerp a b r) <->
      (w < r /\ r < v) \/ (v < r /\ r < w))).
  { intros v r N. destruct (Qc_neq v w N).
    - rewrite strictly_between_sym, strictly_between_lerp by auto.
      split; [tauto|]. intros [|]; [exfalso; qlra|auto].
    - rewrite strictly_between_lerp by auto.
      split; [tauto|]. intros [|]; [auto|exfalso; qlra]. }
  split.
  - intros (Hw & q & Nq & Hq & K). split; auto.
    destruct (col_ex1 _ _ q Hq) as (v & ->).
    rewrite (col_on1 a b t u L H) in Hq.
    assert (N : v <> w) by congruence.
    assert (K' : forall r, (w < r /\ r < v) \/ (v < r /\ r < w) -> ~ (t <= r /\ r <= u)).
    { intros r Hr Hr'. apply (K (lerp a b r)); [apply S; auto|].
      apply col_on; auto. }
    clear K S. destruct (Qc_neq v w N) as [G|G].
    + destruct (Qclt_le_dec t w) as [A|A]; [|left; split; qlra].
      destruct (Qclt_le_dec v u) as [B|B]; [|right; split; qlra].
      destruct (max_lt v t w u) as (m & ? & ?); auto.
      exfalso. apply (K' m); [right; split; qlra|split; qlra].
    + destruct (Qclt_le_dec t v) as [A|A]; [|left; split; qlra].
      destruct (Qclt_le_dec w u) as [B|B]; [|right; split; qlra].
      destruct (max_lt w t v u) as (m & ? & ?); auto.
      exfalso. apply (K' m); [left; split; qlra|split; qlra].
  - intros [Hw K]. split; auto.
    assert (E : exists v, v <> w /\ (0 <= v /\ v <= 1) /\
      forall r, (w < r /\ r < v) \/ (v < r /\ r < w) -> ~ (t <= r /\ r <= u)).
    { destruct K as [[K1 K2]|[K1 K2]].
      - destruct (Qc_eq_dec w 0) as [->|].
        + destruct (Qclt_le_dec t 1).
          * exists t. split; [intro; qlra|]. split; [split; qlra|].
            intros r [|] ?; qlra.
          * exists 1. split; [intro; qlra|]. split; [split; qlra|].
            intros r [|] ?; qlra.
        + exists 0. split; auto. split; [split; qlra|].
          intros r [|] ?; qlra.
      - destruct (Qc_eq_dec w 1) as [->|].
        + destruct (Qclt_le_dec 0 u).
          * exists u. split; [intro; qlra|]. split; [split; qlra|].
            intros r [|] ?; qlra.
          * exists 0. split; [intro; qlra|]. split; [split; qlra|].
            intros r [|] ?; qlra.
        + exists 1. split; auto. split; [split; qlra|].
          intros r [|] ?; qlra. }
    destruct E as (v & N & V & E). exists (lerp a b v).
    split; [rewrite lerp_eq; auto; apply lex_lt_neq; auto|].
    rewrite (col_on1 a b t u L H). split; auto. intros r Hr.
    assert (X : exists r', r = lerp a b r').
    { destruct Hr as (z & _ & _ & ->). rewrite lerp_lerp. eauto. }
    destruct X as (r' & ->). rewrite S in Hr by auto. rewrite col_on by auto. auto.
Qed.

Lemma in_difference_ext s s' t t' p :
  (forall p, on_seg s p <-> on_seg s' p) -> (forall p, on_seg t p <-> on_seg t' p) ->
  (in_difference s t p <-> in_difference s' t' p).
Proof.
  intros A B. unfold in_difference. rewrite A. split; intros (? & q & ? & ? & K);
  (split; [auto|]; exists q; split; [auto|]; split; [apply A; auto|]);
  intros r Hr; [rewrite <- B|rewrite B]; apply K; auto.
Qed.

(** Splitting a segment. *)
Lemma between_split a b x p : between a b x ->
  (between a b p <-> between a x p \/ between x b p).
Proof.
  intros Hx. split.
  - intros (t & ? & ? & ->). destruct Hx as (u & ? & ? & ->).
    destruct (point_dec a b) as [->|N].
    { left. exists 0. repeat split; try qlra. unfold lerp; pt_destr; f_equal; ring. }
    destruct (Qclt_le_dec u t).
    + right. rewrite <- (lerp_1 a b) at 2. rewrite between_lerp' by auto. left; split; qlra.
    + left. rewrite <- (lerp_0 a b) at 1. rewrite between_lerp' by auto. left; split; qlra.
  - intros [H|H]; [apply (between_trans a b a x)|apply (between_trans a b x b)];
    auto using between_start, between_end.
Qed.

(** Sub-segments of non-crossing segments do not cross. *)
Lemma endpoint_sub s s' p : proper_seg s -> proper_seg s' -> seg_subset s' s ->
  endpoint_of s p -> on_seg s' p -> endpoint_of s' p.
Proof.
  intros N N' S E O.
  destruct (point_dec p (seg_start s')) as [->|Na]; [left; auto|].
  destruct (point_dec p (seg_end s')) as [->|Nb]; [right; auto|].
  exfalso.
  assert (St : strictly_between (seg_start s') (seg_end s') p)
    by (apply strictly_between_iff; auto).
  assert (A : on_seg s (seg_start s')) by (apply S, between_start).
  assert (B : on_seg s (seg_end s')) by (apply S, between_end).
  destruct s as [a b]; unfold proper_seg, on_seg in *; cbn [seg_start seg_end] in *.
  destruct A as (t & ? & ? & Et), B as (u & ? & ? & Eu).
  rewrite Et, Eu in *.
  assert (t <> u) by (intros ->; apply N'; congruence).
  assert (exists w, p = lerp a b w /\ (w = 0 \/ w = 1)) as (w & -> & Hw).
  { destruct E as [E|E]; cbn in E; subst; [exists 0|exists 1];
    rewrite ?lerp_0, ?lerp_1; auto. }
  destruct St as (v & ? & ? & Ev). rewrite lerp_lerp, lerp_eq in Ev by auto.
  qne; destruct Hw; subst; qnra.
Qed.
Lemma touch_or_disjoint_sub s t s' t' :
  proper_seg s -> proper_seg t -> proper_seg s' -> proper_seg t' ->
  seg_subset s' s -> seg_subset t' t -> touch_or_disjoint s t -> touch_or_disjoint s' t'.
Proof.
  intros Ns Nt Ns' Nt' S T [(p & (A & B & C) & E)|H].
  - destruct (on_seg_dec s' p) as [O|O]; [destruct (on_seg_dec t' p) as [O'|O']|].
    + left. exists p. split; [split; [|split]; auto|].
      destruct E as [E|E]; [left; apply (endpoint_sub s)|right; apply (endpoint_sub t)]; auto.
    + right. intros (q & Q1 & Q2). apply O'. rewrite <- (C q); auto.
    + right. intros (q & Q1 & Q2). apply O. rewrite <- (C q); auto.
  - right. intros (q & Q1 & Q2). apply H. exists q; auto.
Qed.
Lemma touch_or_disjoint_sym s t : touch_or_disjoint s t -> touch_or_disjoint t s.
Proof.
  intros [(p & H & E)|H]; [left|right].
  - exists p. split; [apply only_common_sym; auto|tauto].
  - intros (p & ? & ?). apply H; exists p; auto.
Qed.
Lemma touch_or_disjoint_reverse s t : touch_or_disjoint s t -> touch_or_disjoint (reverse_seg s) t.
Proof.
  intros [(p & (A & B & C) & E)|H]; [left|right].
  - exists p. split; [split; [|split]|].
    + apply between_sym; auto.
    + auto.
    + intros q Hq. apply C. apply between_sym; auto.
    + destruct E as [[E|E]|E]; [left; right|left; left|right]; auto.
  - intros (p & A & B). apply H; exists p. split; auto. apply between_sym; auto.
Qed.
