(** [Segment.relate_to] for a contour. *)
From Coq Require Import QArith Qcanon Bool List ZArith Lia.
From Verif Require Import QcTac Model_Base Model_Geometry Model_Segment Model_Contour Model_Relate
  Spec_Base Spec_Segment Spec_Clip Spec_Contour Spec_Relate Proof_Base Proof_Line Proof_SegRel Proof_SegOps Proof_SegOps2
  Proof_Bounds Proof_Edges Proof_Outline Proof_Relate Proof_Relate2 Proof_Relate3 Proof_Relate4 Proof_Relate5
  Proof_Relate6 Proof_Relate7.
Import ListNotations.
Local Open Scope Qc_scope.

Lemma lines_meet_once a b c d p q : a <> b -> p <> q -> area2 a b p = 0 -> area2 a b q = 0 ->
  between c d p -> between c d q -> area2 a b c = 0 /\ area2 a b d = 0.
Proof.
  intros N D Zp Zq (t & _ & _ & ->) (u & _ & _ & ->). rewrite area2_lerp in Zp, Zq.
  assert (T : t <> u) by congruence.
  assert (K : (t - u) * (area2 a b d - area2 a b c) = 0) by qlra.
  apply Qcmult_integral in K. destruct K as [K|K]; [exfalso; apply T; qlra|].
  assert (area2 a b c = 0) by (rewrite K in Zp; qlra). split; qlra.
Qed.

Section Segment.
Variables (s0 s1 : point).
Notation s := (Seg s0 s1).
Hypothesis N : s0 <> s1.
Notation is r t := (seg_relation_spec r s t).
Notation rel t := (relate_to_segment_endpoints s0 s1 (seg_start t) (seg_end t)).

Lemma rel_spec t r : proper_seg t -> (rel t = Some r <-> is r t).
Proof. intros P. exact (segment_relate_spec s t r N P). Qed.

(** The condition the loop checks at the common vertex of two consecutive edges. *)
Definition bend (e f : segment) : bool :=
  differs_from_both s0 s1 (seg_start f) && differs_from_both s0 s1 (seg_end f)
  && orientation_is (orient s0 s1 (seg_start f)) COLLINEAR
  && point_vertex_line_divides_angle s0 (seg_start f) (seg_start e) (seg_end f).
Lemma bend_spec e f : bend e f = true <->
  (seg_start f <> s0 /\ seg_start f <> s1) /\ (seg_end f <> s0 /\ seg_end f <> s1) /\
  area2 s0 s1 (seg_start f) = 0 /\
  orient (seg_start f) (seg_start e) s0 = orient (seg_start f) s0 (seg_end f).
Proof.
  unfold bend, differs_from_both, point_vertex_line_divides_angle.
  rewrite !andb_true_iff, !negb_true_iff, !point_eq_false.
  assert (O : forall o o', orientation_is o o' = true <-> o = o')
    by (intros o o'; destruct (orientation_is_spec o o'); split; auto; discriminate).
  rewrite !O, orient_col. split; [intros ((((?&?)&(?&?))&?)&?)|intros ((?&?)&(?&?)&?&?)]; repeat split; auto.
Qed.

(** Areas seen from a point of the segment. *)
Lemma area_from w x : area2 (lerp s0 s1 w) s0 x = - (w * area2 s0 s1 x).
Proof. unfold area2, lerp. cbn. ring. Qed.
Lemma area_from' w x : area2 (lerp s0 s1 w) x s0 = w * area2 s0 s1 x.
Proof. unfold area2, lerp. cbn. ring. Qed.

Section Outline.
Variable es : list segment.
Hypothesis O : outline es.
Let P : forall e, In e es -> proper_seg e.
Proof. intros e. apply Forall_forall. apply (ou_proper es O). Qed.

Lemma others_apart e f : In e es -> In f es -> e <> f -> ~ share_continuum e f.
Proof.
  intros I J D (p & q & Npq & A & B & C & E).
  destruct (ou_meet es O e f p I J D A B) as (E1 & E2). destruct (ou_meet es O e f q I J D C E) as (F1 & F2).
  destruct (outline_adjacent es e f p O I J D E1 E2) as [(X1 & X2)|(X1 & X2)];
  destruct (outline_adjacent es e f q O I J D F1 F2) as [(Y1 & Y2)|(Y1 & Y2)]; try congruence.
  - apply (ou_turn es O e f I J); [congruence|]. rewrite X1, Y1, Y2. unfold area2; ring.
  - apply (ou_turn es O e f I J); [congruence|]. rewrite X2, Y1, X1. unfold area2; ring.
Qed.

(** Adjacent edges are not on one line. *)
Lemma not_one_line e f : In e es -> In f es -> seg_end e = seg_start f ->
  ~ (area2 s0 s1 (seg_start e) = 0 /\ area2 s0 s1 (seg_end e) = 0 /\ area2 s0 s1 (seg_end f) = 0).
Proof.
  intros I J E (A & B & C). apply (ou_turn es O e f I J E).
  apply (same_line s0 s1 (seg_start e) (seg_end e) (seg_end f)); auto. apply P; auto.
Qed.

Lemma touch_end t p : In t es -> is TOUCH t -> inside_seg s p -> on_seg t p ->
  endpoint_of t p /\ forall q, on_seg s q -> on_seg t q -> q = p.
Proof.
  intros I (q & (O1 & O2 & U) & Ends) Ip Op.
  assert (E : p = q) by (apply U; auto; apply strictly_between_between; auto). subst q.
  split; auto. destruct Ends as [Ends|Ends]; auto. exfalso. apply (endpoint_not_inside s p); auto.
Qed.

Lemma sides_opposite w x y : 0 < w ->
  (orient (lerp s0 s1 w) x s0 = orient (lerp s0 s1 w) s0 y <->
   (0 < area2 s0 s1 x /\ area2 s0 s1 y < 0) \/ (area2 s0 s1 x < 0 /\ 0 < area2 s0 s1 y)
   \/ (area2 s0 s1 x = 0 /\ area2 s0 s1 y = 0)).
Proof.
  intros W.
  assert (S : forall z, (0 < w * z <-> 0 < z) /\ (w * z < 0 <-> z < 0) /\ (w * z = 0 <-> z = 0)).
  { intros z.
    assert (P1 : 0 < z -> 0 < w * z) by (intros; qnra).
    assert (P2 : z < 0 -> w * z < 0) by (intros; qnra).
    assert (P3 : z = 0 -> w * z = 0) by (intros ->; ring).
    destruct (Qc_trichotomy z 0) as [[Z|Z]|Z].
    - specialize (P2 Z). clear P1 P3. repeat split; intros; try qlra.
    - specialize (P3 Z). clear P1 P2. repeat split; intros; qlra.
    - specialize (P1 Z). clear P2 P3. repeat split; intros; qlra. }
  assert (A := area_from' w x). assert (B := area_from w y).
  destruct (S (area2 s0 s1 x)) as (X1 & X2 & X3). destruct (S (area2 s0 s1 y)) as (Y1 & Y2 & Y3).
  rewrite <- A in X1, X2, X3.
  assert (Y1' : area2 (lerp s0 s1 w) s0 y < 0 <-> 0 < area2 s0 s1 y) by (rewrite <- Y1, B; split; intros; qlra).
  assert (Y2' : 0 < area2 (lerp s0 s1 w) s0 y <-> area2 s0 s1 y < 0) by (rewrite <- Y2, B; split; intros; qlra).
  assert (Y3' : area2 (lerp s0 s1 w) s0 y = 0 <-> area2 s0 s1 y = 0) by (rewrite <- Y3, B; split; intros; qlra).
  rewrite <- X1, <- X2, <- X3, <- Y1', <- Y2', <- Y3'.
  rewrite <- !orient_ccw, <- !orient_cw, <- !orient_col.
  destruct (orient (lerp s0 s1 w) x s0), (orient (lerp s0 s1 w) s0 y); split; intros; try congruence; auto;
    repeat match goal with K : _ \/ _ |- _ => destruct K | K : _ /\ _ |- _ => destruct K end; congruence.
Qed.

Lemma bend_passes e f : In e es -> In f es -> seg_end e = seg_start f -> is TOUCH e -> bend e f = true ->
  passes_through s es (seg_start f).
Proof.
  intros I J E T B. apply bend_spec in B. destruct B as ((V0 & V1) & (F0 & F1) & C & D).
  assert (OV : on_seg s (seg_start f)).
  { destruct (on_seg_dec s (seg_start f)) as [K|K]; auto. exfalso.
    destruct T as (q & (O1 & O2 & _) & _).
    assert (Nq : q <> seg_start f) by congruence.
    destruct (lines_meet_once s0 s1 (seg_start e) (seg_end e) q (seg_start f)) as (Z1 & Z2); auto.
    - apply between_collinear. exact O1.
    - rewrite <- E. apply between_end.
    - assert (Z3 : orient (seg_start f) (seg_start e) s0 = COLLINEAR).
      { apply orient_col. destruct (collinear_lerp s0 s1 _ N Z1) as (x & X).
        destruct (collinear_lerp s0 s1 _ N C) as (y & Y). rewrite X, Y, area_from', area2_self_lerp. ring. }
      rewrite Z3 in D. symmetry in D. apply orient_col in D.
      apply (not_one_line e f I J E). split; [auto|]. split; [rewrite E; auto|].
      destruct (collinear_lerp s0 s1 _ N C) as (y & Y). rewrite Y, area_from in D.
      assert (Ny : y <> 0) by (intros ->; apply V0; rewrite Y; apply lerp_0).
      destruct (Qcmult_integral y (area2 s0 s1 (seg_end f))) as [|]; auto; [qlra|contradiction]. }
  assert (IV : inside_seg s (seg_start f)) by (apply strictly_between_iff; auto).
  pose proof IV as (w & W0 & W1 & W). cbn [seg_start seg_end] in W. rewrite W in D at 1 2.
  apply (sides_opposite w _ _ W0) in D.
  split; [auto|].
  assert (Oe : on_seg e (seg_start f)) by (rewrite <- E; apply between_end).
  assert (Of : on_seg f (seg_start f)) by apply between_start.
  destruct D as [(D1 & D2)|[(D1 & D2)|(D1 & D2)]].
  - exists e, f, (seg_start e), (seg_end f). cbn [seg_start seg_end].
    repeat split; auto; [apply between_start|apply between_end].
  - exists f, e, (seg_end f), (seg_start e). cbn [seg_start seg_end].
    repeat split; auto; [apply between_end|apply between_start].
  - exfalso. apply (not_one_line e f I J E). rewrite E. auto.
Qed.

Lemma passes_bend p : (forall t, In t es -> is TOUCH t \/ is DISJOINT t) -> passes_through s es p ->
  exists e f, In e es /\ In f es /\ seg_end e = seg_start f /\ is TOUCH e /\ is TOUCH f /\ bend e f = true.
Proof.
  intros A (Ip & t & u & q & r & It & Iu & Ot & Ou & Oq & Aq & Or & Ar). cbn [seg_start seg_end] in *.
  assert (OB : on_seg s p) by (apply strictly_between_between; auto).
  assert (T : forall t, In t es -> on_seg t p -> is TOUCH t).
  { intros v I K. destruct (A v I) as [|D]; auto. exfalso. apply D. eauto. }
  destruct (touch_end t p It (T t It Ot) Ip Ot) as (Et & Ut).
  destruct (touch_end u p Iu (T u Iu Ou) Ip Ou) as (Eu & Uu).
  pose proof (on_side s0 s1 t q Oq Aq) as St. pose proof (on_side' s0 s1 u r Or Ar) as Su.
  assert (Zp : area2 s0 s1 p = 0) by (apply between_collinear; auto).
  assert (D : t <> u).
  { intros <-. destruct Et as [Et|Et]; rewrite Et in Zp; rewrite Zp in *; destruct St, Su; qlra. }
  pose proof Ip as (w & W0 & W1 & W). cbn [seg_start seg_end] in W.
  assert (Nz : forall x, area2 s0 s1 x <> 0 -> x <> s0 /\ x <> s1).
  { intros x K. split; intros ->; apply K; unfold area2; ring. }
  assert (Np : p <> s0 /\ p <> s1).
  { split; intros K; apply (endpoint_not_inside s p N); auto; [left|right]; auto. }
  destruct (outline_adjacent es t u p O It Iu D Et Eu) as [(E1 & E2)|(E1 & E2)].
  - exists t, u. repeat split; auto; [congruence|]. apply bend_spec.
    rewrite E1 in St. rewrite E2 in *.
    assert (S1 : 0 < area2 s0 s1 (seg_start t)) by (destruct St; qlra).
    assert (S2 : area2 s0 s1 (seg_end u) < 0) by (destruct Su; qlra).
    split; [auto|]. split; [apply Nz; intros K; qlra|]. split; [auto|].
    rewrite W at 1 2. apply (sides_opposite w _ _ W0). auto.
  - exists u, t. repeat split; auto; [congruence|]. apply bend_spec.
    rewrite E1 in Su. rewrite E2 in *.
    assert (S1 : 0 < area2 s0 s1 (seg_end t)) by (destruct St; qlra).
    assert (S2 : area2 s0 s1 (seg_start u) < 0) by (destruct Su; qlra).
    split; [auto|]. split; [apply Nz; intros K; qlra|]. split; [auto|].
    rewrite W at 1 2. apply (sides_opposite w _ _ W0). auto.
Qed.
End Outline.
End Segment.
