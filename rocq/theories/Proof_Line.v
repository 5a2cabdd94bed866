(** Geometry of two segments: common lines, crossing points, unique common
    points. *)
From Coq Require Import QArith Qcanon Bool List ZArith Lia.
From Verif Require Import QcTac Model_Base Model_Box Model_Geometry
  Model_Segment Spec_Base Proof_Base.
Import ListNotations.
Local Open Scope Qc_scope.

(** Sorted endpoints. *)
Lemma to_sorted_pair_cases s e :
  (to_sorted_pair s e = (s, e) /\ lex_lt s e)
  \/ (to_sorted_pair s e = (e, s) /\ lex_le e s).
Proof.
  unfold to_sorted_pair. destruct (point_lt_spec s e) as [|H]; [left|right]; auto.
  split; auto. apply lex_not_lt; auto.
Qed.

Lemma to_sorted_pair_proper s : proper_seg s ->
  exists a b, to_sorted_pair (seg_start s) (seg_end s) = (a, b)
    /\ lex_lt a b /\ (s = Seg a b \/ s = Seg b a).
Proof.
  intros N. destruct s as [p q]; cbn in *.
  destruct (to_sorted_pair_cases p q) as [[-> L]|[-> L]].
  - exists p, q; auto.
  - exists q, p. destruct L as [|<-]; auto. exfalso; apply N; reflexivity.
Qed.

Lemma on_seg_sorted s a b p : (s = Seg a b \/ s = Seg b a) ->
  (on_seg s p <-> between a b p).
Proof. intros [->| ->]; unfold on_seg; cbn; [tauto|apply between_sym]. Qed.
Lemma inside_seg_sorted s a b p : (s = Seg a b \/ s = Seg b a) ->
  (inside_seg s p <-> strictly_between a b p).
Proof. intros [->| ->]; unfold inside_seg; cbn; [tauto|apply strictly_between_sym]. Qed.
Lemma endpoint_sorted s a b p : (s = Seg a b \/ s = Seg b a) ->
  (endpoint_of s p <-> p = a \/ p = b).
Proof. intros [->| ->]; unfold endpoint_of; cbn; tauto. Qed.

(** Coordinates along the line through [a] and [b]. *)
Lemma lerp_0 a b : lerp a b 0 = a.
Proof. unfold lerp; pt_destr; f_equal; ring. Qed.
Lemma lerp_1 a b : lerp a b 1 = b.
Proof. unfold lerp; pt_destr; f_equal; ring. Qed.
Lemma lerp_lerp a b s t u :
  lerp (lerp a b s) (lerp a b t) u = lerp a b (s + u * (t - s)).
Proof. unfold lerp; pt_destr; f_equal; ring. Qed.

Lemma lerp_lt a b s t : lex_lt a b -> (lex_lt (lerp a b s) (lerp a b t) <-> s < t).
Proof.
  intros L.
  assert (H : forall s t, s < t -> lex_lt (lerp a b s) (lerp a b t)).
  { clear s t. intros s t H. unfold lerp, lex_lt in *; pt_destr.
    destruct L as [L|[-> L]]; [left; qnra|right; split; [ring|qnra]]. }
  split; auto. intros K.
  destruct (Qc_trichotomy s t) as [[|E]|G]; auto.
  - subst. exfalso; exact (lex_irrefl _ K).
  - exfalso. exact (lex_asym _ _ K (H _ _ G)).
Qed.
Lemma lerp_eq a b s t : a <> b -> (lerp a b s = lerp a b t <-> s = t).
Proof. intros N; split; [apply lerp_inj; auto|congruence]. Qed.
Lemma lerp_le a b s t : lex_lt a b -> (lex_le (lerp a b s) (lerp a b t) <-> s <= t).
Proof.
  intros L. unfold lex_le. rewrite lerp_lt, lerp_eq by (auto using lex_lt_neq).
  split; [intros [|]; subst; qlra|].
  intros. destruct (Qc_eq_dec s t); auto. left. qne; qlra.
Qed.

Lemma between_lerp a b s t u : lex_lt a b -> s < t ->
  (between (lerp a b s) (lerp a b t) (lerp a b u) <-> s <= u /\ u <= t).
Proof.
  intros L H. rewrite between_lex by (apply lerp_lt; auto).
  rewrite !lerp_le by auto. split; [tauto|].
  intros; split; auto. unfold area2, lerp; pt_destr; ring.
Qed.
Lemma strictly_between_lerp a b s t u : lex_lt a b -> s < t ->
  (strictly_between (lerp a b s) (lerp a b t) (lerp a b u) <-> s < u /\ u < t).
Proof.
  intros L H. rewrite strictly_between_lex by (apply lerp_lt; auto).
  rewrite !lerp_lt by auto. split; [tauto|].
  intros; split; auto. unfold area2, lerp; pt_destr; ring.
Qed.
Lemma between_lerp_ex a b s t p :
  between (lerp a b s) (lerp a b t) p -> exists u, p = lerp a b u.
Proof. intros (u & ? & ? & ->). rewrite lerp_lerp. eauto. Qed.
(** Unordered version. *)
Lemma between_lerp' a b s t u : a <> b ->
  (between (lerp a b s) (lerp a b t) (lerp a b u)
   <-> (s <= u /\ u <= t) \/ (t <= u /\ u <= s)).
Proof.
  assert (G : forall a b s t u, lex_lt a b ->
   (between (lerp a b s) (lerp a b t) (lerp a b u)
   <-> (s <= u /\ u <= t) \/ (t <= u /\ u <= s))).
  { clear. intros a b s t u L.
    destruct (Qc_trichotomy s t) as [[H|H]|H].
    - rewrite between_lerp by auto. split; auto. intros [|]; auto; qlra.
    - subst. rewrite between_same, lerp_eq by (apply lex_lt_neq; auto).
      split; [intros ->; left; split; qlra|intros [|]; qlra].
    - rewrite between_sym, between_lerp by auto. split; auto. intros [|]; auto; qlra. }
  intros N. destruct (lex_neq a b N) as [L|L]; auto.
  assert (E : forall w, lerp a b w = lerp b a (1 - w))
    by (intros; unfold lerp; pt_destr; f_equal; ring).
  rewrite !E, G by auto. split; intros [|]; (left + right); split; qlra.
Qed.

Lemma point_lt_lerp a b s t : lex_lt a b ->
  point_lt (lerp a b s) (lerp a b t) = qltb s t.
Proof.
  intros L. destruct (point_lt_spec (lerp a b s) (lerp a b t)) as [H|H];
  rewrite lerp_lt in H by auto; symmetry; qb; auto. qlra.
Qed.
Lemma point_le_lerp a b s t : lex_lt a b ->
  point_le (lerp a b s) (lerp a b t) = qleb s t.
Proof.
  intros L. destruct (point_le_spec (lerp a b s) (lerp a b t)) as [H|H];
  rewrite lerp_le in H by auto; symmetry; qb; auto. qlra.
Qed.
Lemma point_eq_lerp a b s t : lex_lt a b ->
  point_eq (lerp a b s) (lerp a b t) = qeqb s t.
Proof.
  intros L. destruct (point_eq_spec (lerp a b s) (lerp a b t)) as [H|H];
  rewrite lerp_eq in H by (apply lex_lt_neq; auto); symmetry; qb; auto.
Qed.

(** If two different points of a line are on another line, the lines agree. *)
Lemma same_line a b c d p : a <> b -> c <> d ->
  area2 a b c = 0 -> area2 a b d = 0 -> (area2 a b p = 0 <-> area2 c d p = 0).
Proof.
  intros Nab Ncd Hc Hd.
  destruct (collinear_lerp a b c Nab Hc) as (s & ->).
  destruct (collinear_lerp a b d Nab Hd) as (t & ->).
  assert (s <> t) by congruence.
  assert (E : area2 (lerp a b s) (lerp a b t) p = (t - s) * area2 a b p)
    by (unfold area2, lerp; pt_destr; ring).
  rewrite E. split; [intros ->; ring|].
  intros K. apply Qcmult_integral in K. destruct K; auto.
  exfalso; apply H; qlra.
Qed.

(** Strictly on one side: no common point. *)
Lemma same_side_disjoint a b c d p :
  (0 < area2 a b c /\ 0 < area2 a b d) \/ (area2 a b c < 0 /\ area2 a b d < 0) ->
  between a b p -> between c d p -> False.
Proof.
  intros H K (t & ? & ? & ->). apply between_collinear in K.
  rewrite area2_lerp in K. destruct H; qnra.
Qed.

(** Two common points of segments not on one line coincide. *)
Lemma common_unique a b c d p q :
  (area2 a b c <> 0 \/ area2 a b d <> 0) ->
  between a b p -> between c d p -> between a b q -> between c d q -> p = q.
Proof.
  intros H Kp (t & _ & _ & ->) Kq (u & _ & _ & ->).
  apply between_collinear in Kp, Kq. rewrite area2_lerp in Kp, Kq.
  set (A := area2 a b c) in *. set (B := area2 a b d) in *.
  assert (E : (t - u) * (B - A) = 0) by qlra.
  apply Qcmult_integral in E. destruct E as [E|E].
  - f_equal. qlra.
  - exfalso. assert (B = A) by qlra. subst B.
    destruct H as [H|H]; apply H; rewrite H0 in *; qlra.
Qed.

Definition opposite (u v : Qc) : Prop := (0 < u /\ v < 0) \/ (u < 0 /\ 0 < v).

Lemma cross_multiply_diff a b c d :
  cross_multiply a b c d = area2 c d a - area2 c d b.
Proof. unfold cross_multiply, area2; pt_destr; ring. Qed.
Lemma cross_multiply_first a c d : cross_multiply a c c d = area2 c d a.
Proof. unfold cross_multiply, area2; pt_destr; ring. Qed.

Lemma scale_bounds u v : opposite u v -> 0 < u / (u - v) /\ u / (u - v) < 1.
Proof.
  intros H.
  assert (N : u - v <> 0) by (intro; destruct H; qlra).
  assert (E : u / (u - v) * (u - v) = u) by (field; auto).
  revert E. generalize (u / (u - v)). intros w E.
  split; destruct H; qnra.
Qed.

Lemma to_segments_intersection_lerp a b c d :
  to_segments_intersection a b c d
  = lerp a b (area2 c d a / (area2 c d a - area2 c d b)).
Proof.
  unfold to_segments_intersection, to_segments_intersection_scale.
  rewrite cross_multiply_first, cross_multiply_diff. unfold lerp.
  f_equal; ring.
Qed.

Lemma intersection_symmetric a b c d :
  opposite (area2 a b c) (area2 a b d) -> opposite (area2 c d a) (area2 c d b) ->
  to_segments_intersection a b c d = to_segments_intersection c d a b.
Proof.
  intros H K. rewrite !to_segments_intersection_lerp.
  assert (N1 : area2 c d a - area2 c d b <> 0) by (intro; destruct K; qlra).
  assert (N2 : area2 a b c - area2 a b d <> 0) by (intro; destruct H; qlra).
  assert (E : area2 c d a - area2 c d b = - (area2 a b c - area2 a b d))
    by (unfold area2; pt_destr; ring).
  assert (N3 : - (area2 a b c - area2 a b d) <> 0) by (rewrite <- E; auto).
  rewrite E. set (D := area2 a b c - area2 a b d) in *.
  apply point_ext; unfold lerp; cbn [px py].
  - transitivity ((px a * D - area2 c d a * (px b - px a)) / D); [field; auto|].
    transitivity ((px c * D + area2 a b c * (px d - px c)) / D); [|field; auto].
    f_equal. unfold D, area2; pt_destr; ring.
  - transitivity ((py a * D - area2 c d a * (py b - py a)) / D); [field; auto|].
    transitivity ((py c * D + area2 a b c * (py d - py c)) / D); [|field; auto].
    f_equal. unfold D, area2; pt_destr; ring.
Qed.

Lemma crossing_point a b c d :
  opposite (area2 a b c) (area2 a b d) -> opposite (area2 c d a) (area2 c d b) ->
  strictly_between a b (to_segments_intersection a b c d)
  /\ strictly_between c d (to_segments_intersection a b c d).
Proof.
  intros H K. split.
  - rewrite to_segments_intersection_lerp.
    destruct (scale_bounds _ _ K). eexists; repeat split; eauto.
  - rewrite intersection_symmetric, to_segments_intersection_lerp by auto.
    destruct (scale_bounds _ _ H). eexists; repeat split; eauto.
Qed.

Lemma strictly_between_between a b p : strictly_between a b p -> between a b p.
Proof. intros (t & ? & ? & ->). exists t; repeat split; auto; qlra. Qed.

Lemma opposite_neq a b c d : opposite (area2 a b c) (area2 a b d) -> a <> b /\ c <> d.
Proof.
  intros H; split; intros ->; [rewrite !area2_aab in H|]; destruct H; qlra.
Qed.

(** [on_opposite_sides] in terms of areas. *)
Lemma on_opposite_sides_spec a b c d :
  on_opposite_sides (orient a b c) (orient a b d) = true
  <-> opposite (area2 a b c) (area2 a b d).
Proof.
  unfold on_opposite_sides, is_collinear, opposite.
  destruct (orient_spec a b c) as [[-> ?]|[[-> ?]|[-> ?]]],
           (orient_spec a b d) as [[-> ?]|[[-> ?]|[-> ?]]]; cbn;
  split; try discriminate; auto; intros [|]; exfalso; qlra.
Qed.
Lemma is_collinear_spec a b c :
  is_collinear (orient a b c) = true <-> area2 a b c = 0.
Proof.
  unfold is_collinear. rewrite <- orient_col.
  destruct (orientation_is_spec (orient a b c) COLLINEAR); split; congruence.
Qed.
Lemma is_collinear_spec' a b c : reflect (area2 a b c = 0) (is_collinear (orient a b c)).
Proof. apply iff_reflect. rewrite is_collinear_spec. tauto. Qed.
Lemma on_opposite_sides_spec' a b c d :
  reflect (opposite (area2 a b c) (area2 a b d))
    (on_opposite_sides (orient a b c) (orient a b d)).
Proof. apply iff_reflect. rewrite on_opposite_sides_spec. tauto. Qed.
Lemma opposite_swap a b c d :
  opposite (area2 b a c) (area2 b a d) <-> opposite (area2 a b c) (area2 a b d).
Proof.
  rewrite !(area2_swap12 a b). unfold opposite.
  split; intros [|]; ((left; split; qlra) || (right; split; qlra)).
Qed.
Lemma area2_swap_zero a b c : area2 b a c = 0 <-> area2 a b c = 0.
Proof. rewrite (area2_swap12 a b). split; intros; qlra. Qed.
