(** The plane sweep, part 19: the operations on geometries. *)
From Coq Require Import QArith Qcanon Bool List Arith Lia.
From Verif Require Import QcTac Model_Base Model_Box Model_Geometry Model_Utils Model_Linear Spec_Base
  Spec_Segment Spec_Clip Spec_Sweep Spec_Bounds Proof_Base Proof_Line Proof_Box Proof_Box2 Proof_Bounds
  Proof_Edges Proof_SegRel Proof_SegOps Proof_SegOps2 Proof_SegLoops Proof_SegUnion Proof_Sweep Proof_Sweep6 Proof_Sweep9
  Proof_Sweep15 Proof_Sweep16 Proof_Sweep17 Proof_Sweep18.
Import ListNotations.
Local Open Scope Qc_scope.

Lemma multisegmental_two g : multisegmental g -> (2 <= length (parts g))%nat.
Proof. destruct g; cbn; try tauto. rewrite edges_length. lia. Qed.
Lemma parts_in_box g v q : multisegmental g -> In v (parts g) -> on_seg v q -> in_box (bounding_box g) q.
Proof.
  intros M I O. apply parts_of_box; [apply multisegmental_constructed; auto|]. exists v; auto.
Qed.
Lemma filter_le {A} (f : A -> bool) l : (length (filter f l) <= length l)%nat.
Proof. induction l as [|x l IH]; cbn; auto. destruct (f x); cbn; lia. Qed.

Lemma whole_multisegment l : (2 <= length l)%nat -> new_multisegment l = Some (GMultisegment l).
Proof. intros L. unfold new_multisegment. destruct (Nat.ltb_spec (length l) 2); auto. lia. Qed.

(** When the operands may meet in endpoints only. *)
Section Apart.
Variables (a b : list segment).
Hypothesis Na : non_crossing a.
Hypothesis Nb : non_crossing b.
Hypothesis E : ends_only a b.
Lemma apart_nc : non_crossing (a ++ b).
Proof.
  apply non_crossing_app; auto. intros u w Iu Iw. apply meet_ends_tod.
  - apply (non_crossing_proper a); auto.
  - apply (non_crossing_proper b); auto.
  - intros p. apply E; auto.
Qed.
Lemma apart_difference p : in_difference_lists a b p <-> on_segs a p.
Proof.
  split.
  - intros (u & I & O & _). exists u; auto.
  - intros (u & I & O). exists u. split; auto. assert (P : proper_seg u) by (apply (non_crossing_proper a); auto).
    apply difference_whole; auto. intros r Ir (v & Iv & Ov).
    destruct (E u v r) as [Q _]; auto; [apply inside_on; auto|]. apply (endpoint_not_inside u r); auto.
Qed.
Lemma apart_common p : ~ on_common_continuum_lists a b p.
Proof.
  intros (u & v & Iu & Iv & Sh & _). revert Sh. apply tod_no_share, meet_ends_tod.
  - apply (non_crossing_proper a); auto.
  - apply (non_crossing_proper b); auto.
  - intros q. apply E; auto.
Qed.
End Apart.

Lemma apart_boxes a b b1 b2 : do_boxes_have_no_common_continuum b1 b2 = true ->
  (forall u q, In u a -> on_seg u q -> in_box b1 q) -> (forall v q, In v b -> on_seg v q -> in_box b2 q) ->
  ends_only a b.
Proof.
  intros F H1 H2 u v p Iu Iv Ou Ov. rewrite no_continuum_negb in F. apply negb_true_iff in F.
  apply (corner_ends b1 b2); auto.
  - intros q. apply H1; auto.
  - intros q. apply H2; auto.
Qed.
Lemma apart_with a b box_b : non_crossing a -> (forall v q, In v b -> on_seg v q -> in_box box_b q) ->
  with_common_continuum box_b a = [] -> ends_only a b.
Proof.
  intros N H F u v p Iu Iv. pose proof (split_box a b box_b N H) as S. rewrite F in S.
  apply (so_ends _ _ _ _ S); auto. apply (so_in _ _ _ _ S) in Iu. destruct Iu as [[]|]; auto.
Qed.

Section Ops.
Variables (fuel : nat) (shape : tree_shape).

Section Both.
Variables (first second : geometry).
Hypothesis M1 : multisegmental first.
Hypothesis M2 : multisegmental second.
Hypothesis N1 : non_crossing (parts first).
Hypothesis N2 : non_crossing (parts second).
Hypothesis F : (enough (length (parts first) + length (parts second)) <= fuel)%nat.
Notation A := (parts first). Notation B := (parts second).
Notation k1 := (with_common_continuum (bounding_box second) A).
Notation k2 := (without_common_continuum (bounding_box second) A).
Notation l1 := (with_common_continuum (bounding_box first) B).
Notation l2 := (without_common_continuum (bounding_box first) B).

Lemma in_first u q : In u A -> on_seg u q -> in_box (bounding_box first) q.
Proof. apply parts_in_box; auto. Qed.
Lemma in_second u q : In u B -> on_seg u q -> in_box (bounding_box second) q.
Proof. apply parts_in_box; auto. Qed.
Lemma split_first : split_off A B k1 k2.
Proof. apply split_box; auto. apply in_second. Qed.
Lemma split_second : split_off B A l1 l2.
Proof. apply split_box; auto. apply in_first. Qed.
Lemma fuel_enough (k l : list segment) : (length k <= length A)%nat -> (length l <= length B)%nat ->
  (enough (length (k ++ l)) <= fuel)%nat.
Proof. intros H1 H2. etransitivity; [apply enough_mono|exact F]. rewrite app_length. lia. Qed.
Lemma with_le box_ l : (length (with_common_continuum box_ l) <= length l)%nat.
Proof. apply filter_le. Qed.
Lemma reaching_le lo hi l : (length (reaching lo hi l) <= length l)%nat.
Proof. apply filter_le. Qed.

(** Every branch but the sweep. *)
Lemma no_sweep : do_boxes_have_no_common_continuum (bounding_box first) (bounding_box second) = true
  \/ k1 = [] \/ l1 = [] -> ends_only A B.
Proof.
  intros [Q|[Q|Q]].
  - apply (apart_boxes A B _ _ Q in_first in_second).
  - apply (apart_with A B _ N1 in_second Q).
  - apply ends_only_sym. apply (apart_with B A _ N2 in_first Q).
Qed.
Lemma together : new_multisegment (A ++ B) = Some (GMultisegment (A ++ B)).
Proof.
  apply whole_multisegment. rewrite app_length. pose proof (multisegmental_two first M1). lia.
Qed.
Lemma together_good : ends_only A B -> good_result (GMultisegment (A ++ B)).
Proof.
  intros E. split; [apply apart_nc; auto|]. rewrite app_length.
  pose proof (multisegmental_two first M1). lia.
Qed.

Lemma unite_both : exists g, unite_multisegmental_with_multisegmental fuel shape first second = Clips g
  /\ good_result g /\ forall p, on_geometry g p <-> on_geometry first p \/ on_geometry second p.
Proof.
  unfold unite_multisegmental_with_multisegmental. cbv zeta. rewrite (segments_parts first), (segments_parts second), together.
  assert (Go : ends_only A B -> exists g, clip_of (Some (GMultisegment (A ++ B))) = Clips g
    /\ good_result g /\ forall p, on_geometry g p <-> on_geometry first p \/ on_geometry second p).
  { intros E. exists (GMultisegment (A ++ B)). split; [reflexivity|]. split; [apply together_good; auto|].
    intros p. unfold on_geometry. cbn [parts]. apply on_segs_app. }
  destruct (do_boxes_have_no_common_continuum _ _) eqn:Q; [apply Go, no_sweep; auto|].
  pose proof (union_result A B k1 k2 l1 l2 split_first split_second fuel shape
    (fuel_enough _ _ (with_le _ _) (with_le _ _))) as (o & ev & Sw & NR & Cv).
  destruct k1 as [|x xs] eqn:K1; [apply Go, no_sweep; auto|].
  destruct l1 as [|y ys] eqn:L1; [apply Go, no_sweep; auto|].
  rewrite Sw. destruct (collect_non_empty (reduce_union o ev ++ k2 ++ l2)) as (g & Eg & Pg & Gg).
  - intros E0. assert (Ix : In x A).
    { apply (so_in _ _ _ _ split_first). left. rewrite K1. left; auto. }
    assert (O : on_segs (reduce_union o ev ++ k2 ++ l2) (seg_start x)).
    { apply Cv. left. exists x. split; auto. apply between_start. }
    rewrite E0 in O. destruct O as (s & [] & _).
  - rewrite Eg. exists g. split; [reflexivity|]. split; auto. intros p. unfold on_geometry. rewrite Pg. apply Cv.
Qed.

Lemma intersect_both : exists g, intersect_multisegmental_with_multisegmental fuel shape first second = Clips g
  /\ good_result g /\ forall p, on_geometry g p <-> on_common_continuum_lists A B p.
Proof.
  unfold intersect_multisegmental_with_multisegmental. cbv zeta. rewrite (segments_parts first), (segments_parts second).
  assert (Go : ends_only A B -> exists g, Clips GEmpty = Clips g
    /\ good_result g /\ forall p, on_geometry g p <-> on_common_continuum_lists A B p).
  { intros E. exists GEmpty. split; [reflexivity|]. split; [split; [apply non_crossing_nil|exact I]|].
    intros p. split; [intros (s & [] & _)|intros Q; destruct (apart_common A B N1 N2 E p Q)]. }
  destruct (do_boxes_have_no_common_continuum _ _) eqn:Q; [apply Go, no_sweep; auto|].
  pose proof (intersection_result A B k1 k2 l1 l2 split_first split_second fuel shape) as R. cbv zeta in R.
  destruct R as (o & ev & Sw & NR & Cv).
  { apply fuel_enough; (etransitivity; [apply reaching_le|apply with_le]). }
  destruct k1 as [|x xs] eqn:K1; [apply Go, no_sweep; auto|].
  destruct l1 as [|y ys] eqn:L1; [apply Go, no_sweep; auto|].
  rewrite Sw. destruct (collect_maybe (reduce_intersection o ev)) as (g & Eg & Pg & Gg).
  rewrite Eg. exists g. split; [reflexivity|]. split; auto. intros p. unfold on_geometry. rewrite Pg. apply Cv.
Qed.

Lemma subtract_both : exists g, subtract_multisegmental_from_multisegmental fuel shape first second = Clips g
  /\ good_result g /\ forall p, on_geometry g p <-> in_difference_lists A B p.
Proof.
  unfold subtract_multisegmental_from_multisegmental. cbv zeta. rewrite (segments_parts first), (segments_parts second).
  assert (Go : ends_only A B -> exists g, Clips first = Clips g
    /\ good_result g /\ forall p, on_geometry g p <-> in_difference_lists A B p).
  { intros E. exists first. split; [reflexivity|]. split; [apply multisegmental_good; auto|].
    intros p. rewrite (apart_difference A B N1 E p). reflexivity. }
  destruct (do_boxes_have_no_common_continuum _ _) eqn:Q; [apply Go, no_sweep; auto|].
  pose proof (difference_result A B k1 k2 l1 l2 split_first split_second fuel shape) as R. cbv zeta in R.
  destruct R as (o & ev & Sw & NR & Cv).
  { apply fuel_enough; [apply with_le|etransitivity; [apply reaching_le|apply with_le]]. }
  destruct k1 as [|x xs] eqn:K1; [apply Go, no_sweep; auto|].
  destruct l1 as [|y ys] eqn:L1; [apply Go, no_sweep; auto|].
  rewrite Sw. destruct (collect_maybe (reduce_difference o ev ++ k2)) as (g & Eg & Pg & Gg).
  rewrite Eg. exists g. split; [reflexivity|]. split; auto. intros p. unfold on_geometry. rewrite Pg. apply Cv.
Qed.

Lemma symmetric_subtract_both :
  exists g, symmetric_subtract_multisegmental_from_multisegmental fuel shape first second = Clips g
  /\ good_result g
  /\ forall p, on_geometry g p <-> in_difference_lists A B p \/ in_difference_lists B A p.
Proof.
  unfold symmetric_subtract_multisegmental_from_multisegmental. cbv zeta. rewrite (segments_parts first), (segments_parts second), together.
  assert (Go : ends_only A B -> exists g, clip_of (Some (GMultisegment (A ++ B))) = Clips g
    /\ good_result g /\ forall p, on_geometry g p <-> in_difference_lists A B p \/ in_difference_lists B A p).
  { intros E. exists (GMultisegment (A ++ B)). split; [reflexivity|]. split; [apply together_good; auto|].
    intros p. rewrite (apart_difference A B N1 E p), (apart_difference B A N2 (ends_only_sym _ _ E) p).
    unfold on_geometry. cbn [parts]. apply on_segs_app. }
  destruct (do_boxes_have_no_common_continuum _ _) eqn:Q; [apply Go, no_sweep; auto|].
  pose proof (symmetric_difference_result A B k1 k2 l1 l2 split_first split_second fuel shape
    (fuel_enough _ _ (with_le _ _) (with_le _ _))) as (o & ev & Sw & NR & Cv).
  destruct k1 as [|x xs] eqn:K1; [apply Go, no_sweep; auto|].
  destruct l1 as [|y ys] eqn:L1; [apply Go, no_sweep; auto|].
  rewrite Sw. destruct (collect_maybe (reduce_symmetric_difference o ev ++ k2 ++ l2)) as (g & Eg & Pg & Gg).
  rewrite Eg. exists g. split; [reflexivity|]. split; auto. intros p. unfold on_geometry. rewrite Pg. apply Cv.
Qed.
End Both.

(** *** A segment and a multisegment or a contour *)
Section One.
Variables (g : geometry) (s : segment).
Hypothesis M : multisegmental g.
Hypothesis Ng : non_crossing (parts g).
Hypothesis P : proper_seg s.
Hypothesis F : (enough (S (length (parts g))) <= fuel)%nat.
Notation B := (parts g).
Notation l1 := (with_common_continuum (segment_bounding_box s) B).
Notation l2 := (without_common_continuum (segment_bounding_box s) B).

Lemma in_one u q : In u [s] -> on_seg u q -> in_box (segment_bounding_box s) q.
Proof. intros [<-|[]] O. apply segment_box_covers; auto. Qed.
Lemma in_many u q : In u B -> on_seg u q -> in_box (bounding_box g) q.
Proof. apply parts_in_box; auto. Qed.
Lemma split_one : split_off [s] B [s] [].
Proof. apply split_all, non_crossing_one; auto. Qed.
Lemma split_many : split_off B [s] l1 l2.
Proof. apply split_box; auto. apply in_one. Qed.
Lemma fuel_one (l : list segment) : (length l <= length B)%nat -> (enough (length ([s] ++ l)) <= fuel)%nat.
Proof. intros H1. etransitivity; [apply enough_mono|exact F]. cbn. lia. Qed.
Lemma fuel_one' (l : list segment) : (length l <= length B)%nat -> (enough (length (l ++ [s])) <= fuel)%nat.
Proof. intros H1. etransitivity; [apply enough_mono|exact F]. rewrite app_length. cbn. lia. Qed.

Lemma no_sweep_one : do_boxes_have_no_common_continuum (segment_bounding_box s) (bounding_box g) = true
  \/ l1 = [] -> ends_only [s] B.
Proof.
  intros [Q|Q].
  - apply (apart_boxes [s] B _ _ Q in_one in_many).
  - apply ends_only_sym. apply (apart_with B [s] _ Ng in_one Q).
Qed.
Lemma no_sweep_one' : do_boxes_have_no_common_continuum (bounding_box g) (segment_bounding_box s) = true
  \/ l1 = [] -> ends_only [s] B.
Proof.
  intros [Q|Q].
  - apply ends_only_sym, (apart_boxes B [s] _ _ Q in_many in_one).
  - apply no_sweep_one; auto.
Qed.

Lemma subtract_one : exists r, subtract_multisegmental_from_segment fuel shape s g = Clips r
  /\ good_result r /\ forall p, on_geometry r p <-> in_difference_lists [s] B p.
Proof.
  unfold subtract_multisegmental_from_segment. cbv zeta. rewrite (segments_parts g).
  assert (Go : ends_only [s] B -> exists r, Clips (GSegment s) = Clips r
    /\ good_result r /\ forall p, on_geometry r p <-> in_difference_lists [s] B p).
  { intros E. exists (GSegment s). split; [reflexivity|].
    split; [split; [apply non_crossing_one; auto|exact I]|].
    intros p. rewrite (apart_difference [s] B (non_crossing_one s P) E p). reflexivity. }
  destruct (do_boxes_have_no_common_continuum _ _) eqn:Q; [apply Go, no_sweep_one; auto|].
  pose proof (difference_result [s] B [s] [] l1 l2 split_one split_many fuel shape) as R. cbv zeta in R.
  change (min_x_of [s]) with (min_x (segment_bounding_box s)) in R.
  change (max_x_of [s]) with (max_x (segment_bounding_box s)) in R.
  destruct R as (o & ev & Sw & NR & Cv).
  { apply fuel_one. etransitivity; [apply filter_le|apply filter_le]. }
  rewrite app_nil_r in NR, Cv.
  destruct l1 as [|y ys] eqn:L1; [apply Go, no_sweep_one; auto|].
  rewrite Sw. destruct (collect_maybe (reduce_difference o ev)) as (r & Eg & Pg & Gg).
  rewrite Eg. exists r. split; [reflexivity|]. split; auto. intros p. unfold on_geometry. rewrite Pg. apply Cv.
Qed.

Lemma symmetric_subtract_one : exists r, symmetric_subtract_multisegmental_from_segment fuel shape s g = Clips r
  /\ good_result r
  /\ forall p, on_geometry r p <-> in_difference_lists [s] B p \/ in_difference_lists B [s] p.
Proof.
  unfold symmetric_subtract_multisegmental_from_segment. cbv zeta. rewrite (segments_parts g).
  assert (Lg : (2 <= length (s :: B))%nat) by (pose proof (multisegmental_two g M); cbn; lia).
  rewrite (whole_multisegment (s :: B) Lg).
  assert (Go : ends_only [s] B -> exists r, clip_of (Some (GMultisegment (s :: B))) = Clips r
    /\ good_result r /\ forall p, on_geometry r p <-> in_difference_lists [s] B p \/ in_difference_lists B [s] p).
  { intros E. exists (GMultisegment (s :: B)). split; [reflexivity|].
    split; [split; [apply (apart_nc [s] B (non_crossing_one s P) Ng E)|exact Lg]|].
    intros p. rewrite (apart_difference [s] B (non_crossing_one s P) E p),
      (apart_difference B [s] Ng (ends_only_sym _ _ E) p). apply (on_segs_app [s] B). }
  destruct (do_boxes_have_no_common_continuum _ _) eqn:Q; [apply Go, no_sweep_one; auto|].
  pose proof (symmetric_difference_result [s] B [s] [] l1 l2 split_one split_many fuel shape
    (fuel_one _ (filter_le _ _))) as (o & ev & Sw & NR & Cv).
  cbn [app] in NR, Cv.
  destruct l1 as [|y ys] eqn:L1; [apply Go, no_sweep_one; auto|].
  rewrite Sw. destruct (collect_maybe (reduce_symmetric_difference o ev ++ l2)) as (r & Eg & Pg & Gg).
  rewrite Eg. exists r. split; [reflexivity|]. split; auto. intros p. unfold on_geometry. rewrite Pg. apply Cv.
Qed.

Lemma symmetric_subtract_one' : exists r, symmetric_subtract_segment_from_multisegmental fuel shape g s = Clips r
  /\ good_result r
  /\ forall p, on_geometry r p <-> in_difference_lists B [s] p \/ in_difference_lists [s] B p.
Proof.
  unfold symmetric_subtract_segment_from_multisegmental. cbv zeta. rewrite (segments_parts g).
  assert (Lg : (2 <= length (B ++ [s]))%nat) by (pose proof (multisegmental_two g M); rewrite app_length; cbn; lia).
  rewrite (whole_multisegment (B ++ [s]) Lg).
  assert (Go : ends_only [s] B -> exists r, clip_of (Some (GMultisegment (B ++ [s]))) = Clips r
    /\ good_result r /\ forall p, on_geometry r p <-> in_difference_lists B [s] p \/ in_difference_lists [s] B p).
  { intros E. exists (GMultisegment (B ++ [s])). split; [reflexivity|].
    split; [split; [apply (apart_nc B [s] Ng (non_crossing_one s P) (ends_only_sym _ _ E))|exact Lg]|].
    intros p. rewrite (apart_difference [s] B (non_crossing_one s P) E p),
      (apart_difference B [s] Ng (ends_only_sym _ _ E) p). apply (on_segs_app B [s]). }
  destruct (do_boxes_have_no_common_continuum _ _) eqn:Q; [apply Go, no_sweep_one'; auto|].
  pose proof (symmetric_difference_result B [s] l1 l2 [s] [] split_many split_one fuel shape
    (fuel_one' _ (filter_le _ _))) as (o & ev & Sw & NR & Cv).
  rewrite app_nil_r in NR, Cv.
  destruct l1 as [|y ys] eqn:L1; [apply Go, no_sweep_one'; auto|].
  rewrite Sw. destruct (collect_maybe (reduce_symmetric_difference o ev ++ l2)) as (r & Eg & Pg & Gg).
  rewrite Eg. exists r. split; [reflexivity|]. split; auto. intros p. unfold on_geometry. rewrite Pg. apply Cv.
Qed.
End One.
End Ops.
