(** Relating a segment to a multisegment or a contour: the forms of the properties. *)
From Coq Require Import QArith Qcanon Bool List ZArith Lia Permutation.
From Verif Require Import QcTac Model_Base Model_Geometry Model_Segment Model_Contour Model_Relate
  Spec_Base Spec_Segment Spec_Clip Spec_Contour Spec_Relate Spec_Literals Proof_Base Proof_Line Proof_SegRel Proof_SegOps
  Proof_Bounds Proof_Contour Proof_Contour2 Proof_Contour3 Proof_Edges Proof_Outline Proof_Relate7 Proof_RelateC Proof_RelateC2 Proof_Sweep20.
Import ListNotations.
Local Open Scope Qc_scope.

(** A decision procedure for [simple_contour] on literals. *)
Definition same_endpoint (s t : segment) : bool :=
  point_eq (seg_start s) (seg_start t) || point_eq (seg_start s) (seg_end t)
  || point_eq (seg_end s) (seg_start t) || point_eq (seg_end s) (seg_end t).
Definition meet_at_ends (s t : segment) : bool :=
  (point_eq (seg_start s) (seg_start t) && point_eq (seg_end s) (seg_end t)) ||
  match segment_relate_to_segment s t with
  | Some DISJOINT => true
  | Some TOUCH => same_endpoint s t
  | _ => false
  end.
Definition simple_contour_b (vs : list point) : bool :=
  nondegenerateb vs && forallb (fun s => negb (point_eq (seg_start s) (seg_end s))) (edges vs)
  && forallb (fun s => forallb (meet_at_ends s) (edges vs)) (edges vs).

Lemma same_endpoint_common s t : same_endpoint s t = true ->
  exists p, endpoint_of s p /\ endpoint_of t p /\ on_seg s p /\ on_seg t p.
Proof.
  unfold same_endpoint. rewrite !orb_true_iff, !point_eq_true. destruct s as [a b], t as [c d]. cbn.
  intros [[[E|E]|E]|E]; subst.
  - exists c. unfold endpoint_of, on_seg; cbn. auto using between_start.
  - exists d. unfold endpoint_of, on_seg; cbn. auto using between_start, between_end.
  - exists c. unfold endpoint_of, on_seg; cbn. auto using between_start, between_end.
  - exists d. unfold endpoint_of, on_seg; cbn. auto using between_start, between_end.
Qed.
Lemma meet_at_ends_spec s t p : proper_seg s -> proper_seg t -> meet_at_ends s t = true -> s <> t ->
  on_seg s p -> on_seg t p -> endpoint_of s p /\ endpoint_of t p.
Proof.
  intros P P' M N Op Op'. unfold meet_at_ends in M. apply orb_true_iff in M. destruct M as [M|M].
  - apply andb_true_iff in M. rewrite !point_eq_true in M. destruct s, t; cbn in M. destruct M; congruence.
  - destruct (segment_relate_to_segment s t) as [r|] eqn:E; [|discriminate].
    pose proof (proj1 (segment_relate_spec s t r P P') E) as R.
    destruct r; try discriminate.
    + exfalso. apply R. exists p; auto.
    + destruct (same_endpoint_common s t M) as (q & E1 & E2 & O1 & O2).
      destruct R as (z & (_ & _ & U) & _).
      assert (p = q) by (transitivity z; [|symmetry]; apply U; auto). subst; auto.
Qed.
Lemma simple_literal vs : simple_contour_b vs = true -> simple_contour vs.
Proof.
  unfold simple_contour_b. rewrite !andb_true_iff, !forallb_forall. intros ((N & P) & M).
  split; [apply nondegenerateb_spec; auto|]. intros s t p Is It D.
  assert (X : forall s, In s (edges vs) -> proper_seg s).
  { intros z Iz. specialize (P z Iz). apply negb_true_iff, point_eq_false in P. auto. }
  specialize (M s Is). rewrite forallb_forall in M. apply meet_at_ends_spec; auto.
Qed.

(** ** Multisegments *)
Lemma relate_multisegment_only s l r : proper_seg s -> non_crossing l -> (2 <= length l)%nat ->
  (segment_relate_to_multisegment s l = Some r <-> segment_list_relation_spec r s l).
Proof.
  intros P NC Len. destruct (multisegment_relation_any s l P NC Len) as (r' & E & K).
  split; intros H.
  - congruence.
  - rewrite E. f_equal. apply (spec_exclusive s l); auto; [apply NC|]. intros ->. cbn in Len. lia.
Qed.
Lemma complement_inj r' r : complement r' = complement r -> r' = r.
Proof. destruct r', r; cbn; congruence. Qed.
Lemma relate_multisegment_back l s r : proper_seg s -> non_crossing l -> (2 <= length l)%nat ->
  (multisegment_relate_to_segment l s = Some (complement r) <-> segment_list_relation_spec r s l).
Proof.
  intros P NC Len. unfold multisegment_relate_to_segment.
  destruct (multisegment_relation_any s l P NC Len) as (r' & E & K). rewrite E. cbn [option_map].
  rewrite <- (relate_multisegment_only s l r P NC Len), E. split; intros H; [|congruence].
  f_equal. apply complement_inj. congruence.
Qed.
Lemma proper_same s s' : same_segment s s' -> proper_seg s -> proper_seg s'.
Proof. intros [->| ->] P; auto. unfold proper_seg in *; cbn. auto. Qed.
Lemma relate_multisegment_same s s' l l' : proper_seg s -> non_crossing l -> (2 <= length l)%nat ->
  non_crossing l' -> (2 <= length l')%nat -> same_segment s s' -> same_set same_segment l l' ->
  segment_relate_to_multisegment s l = segment_relate_to_multisegment s' l'
  /\ multisegment_relate_to_segment l s = multisegment_relate_to_segment l' s'.
Proof.
  intros P NC Len NC' Len' E F.
  assert (X : segment_relate_to_multisegment s l = segment_relate_to_multisegment s' l').
  { destruct (multisegment_relation_any s l P NC Len) as (r & R & K). rewrite R. symmetry.
    apply relate_multisegment_only; auto.
    - apply (proper_same s); auto.
    - apply (spec_same r s s' l l'); auto. destruct F as [A B]. split; auto.
      intros t' I. destruct (B t' I) as (t & I' & K'). exists t. split; auto. apply sud_sym; auto. }
  split; auto. unfold multisegment_relate_to_segment. rewrite X. auto.
Qed.

(** ** Contours *)
Lemma edges_nonempty vs : simple_contour vs -> edges vs <> [].
Proof. intros K E. pose proof (ou_length _ (simple_outline vs K)) as L. rewrite E in L. cbn in L. lia. Qed.
Lemma relate_contour_any s vs : proper_seg s -> simple_contour vs ->
  exists r, segment_relate_to_contour s vs = Some r /\ segment_list_relation_spec r s (edges vs).
Proof.
  intros P C. unfold segment_relate_to_contour. rewrite edges_to_contour. destruct s as [a b].
  apply contour_relation; auto. apply simple_outline; auto.
Qed.
Lemma relate_contour_only s vs r : proper_seg s -> simple_contour vs ->
  (segment_relate_to_contour s vs = Some r <-> segment_list_relation_spec r s (edges vs)).
Proof.
  intros P C. destruct (relate_contour_any s vs P C) as (r' & E & K). split; intros H.
  - congruence.
  - rewrite E. f_equal. apply (spec_exclusive s (edges vs)); auto.
    + apply (ou_proper _ (simple_outline vs C)).
    + apply edges_nonempty; auto.
Qed.
Lemma relate_contour_back vs s r : proper_seg s -> simple_contour vs ->
  (contour_relate_to_segment vs s = Some (complement r) <-> segment_list_relation_spec r s (edges vs)).
Proof.
  intros P C. unfold contour_relate_to_segment.
  destruct (relate_contour_any s vs P C) as (r' & E & K). rewrite E. cbn [option_map].
  rewrite <- (relate_contour_only s vs r P C), E. split; intros H; [|congruence].
  f_equal. apply complement_inj. congruence.
Qed.

Lemma consecutive_rotation vs vs' a b c : rotation_of vs vs' -> consecutive vs' a b c -> consecutive vs a b c.
Proof. intros R (r & R' & L). exists r. split; auto. apply (rotation_trans _ vs'); auto. Qed.
Lemma consecutive_rev vs a b c : (3 <= length vs)%nat -> consecutive (rev vs) a b c -> consecutive vs c b a.
Proof.
  intros Len (r & R & L). assert (Lr := rotation_length _ _ R). rewrite rev_length in Lr.
  apply rotation_rev in R. rewrite rev_involutive in R.
  destruct (exists_last (l := r)) as (r0 & z & ->); [intros ->; cbn in Lr; lia|].
  cbn [last] in L. destruct (r0 ++ [z]) as [|y r'] eqn:E; [destruct r0; discriminate|].
  rewrite <- E in *. rewrite last_last in L. subst z.
  exists (rev r0 ++ [c]). split.
  - apply (rotation_trans _ _ _ R). exists (a :: rev r0 ++ [c]), [b]. cbn. rewrite !rev_app_distr. cbn. rewrite <- app_assoc. auto.
  - change (a :: rev r0 ++ [c]) with ((a :: rev r0) ++ [c]). apply last_last.
Qed.
Lemma same_cycle_nondegenerate vs vs' : same_cycle vs vs' -> nondegenerate vs -> nondegenerate vs'.
Proof.
  intros K (Len & D & T). split; [rewrite <- (same_cycle_length _ _ K); auto|].
  split; [apply (same_cycle_nodup _ _ K); auto|]. intros a b c C. destruct K as [R|R].
  - apply T. apply (consecutive_rotation _ vs'); auto.
  - assert (X : area2 c b a <> 0).
    { apply T. apply consecutive_rev; auto. apply (consecutive_rotation _ vs'); auto. }
    intros Z. apply X. replace (area2 c b a) with (- area2 a b c) by (unfold area2; ring).
    rewrite Z. ring.
Qed.
Lemma endpoint_same s s' p : same_up_to_direction s s' -> (endpoint_of s p <-> endpoint_of s' p).
Proof. intros [->| ->]; unfold endpoint_of; cbn; tauto. Qed.
Lemma same_cycle_segments vs vs' : same_cycle vs vs' -> same_segments (edges vs) (edges vs').
Proof.
  intros F. destruct (edges_same_cycle vs vs' F) as [Q|Q].
  - split; intros t I; exists t; (split; [|left; auto]);
      [apply (Permutation_in _ Q)|apply (Permutation_in _ (Permutation_sym Q))]; auto.
  - split; intros t I.
    + exists (reverse_seg t). split; [|right; auto]. apply (Permutation_in _ Q), in_map. auto.
    + apply (Permutation_in _ (Permutation_sym Q)), in_map_iff in I. destruct I as (u & <- & I).
      exists u. split; auto. right. destruct u; auto.
Qed.
Lemma same_cycle_simple vs vs' : same_cycle vs vs' -> simple_contour vs -> simple_contour vs'.
Proof.
  intros F (N & M). split; [apply (same_cycle_nondegenerate vs vs'); auto|].
  intros s t p I1 I2 D O1 O2.
  assert (X : exists f : segment -> segment, (forall z, In z (edges vs') -> In (f z) (edges vs) /\ same_up_to_direction z (f z))
     /\ forall y z, f y = f z -> y = z).
  { destruct (edges_same_cycle vs vs' F) as [Q|Q].
    - exists (fun z => z). split; auto. intros z Iz. split; [apply (Permutation_in _ (Permutation_sym Q)); auto|left; auto].
    - exists reverse_seg. split.
      + intros z Iz. split; [|right; auto]. apply (Permutation_in _ (Permutation_sym Q)), in_map_iff in Iz.
        destruct Iz as (u & <- & I). destruct u; auto.
      + intros [a b] [c d] E. unfold reverse_seg in E; cbn in E. congruence. }
  destruct X as (f & A & Inj). destruct (A s I1) as [J1 K1]. destruct (A t I2) as [J2 K2].
  rewrite (endpoint_same s (f s)), (endpoint_same t (f t)) by auto. apply M; auto.
  - apply (sud_on s (f s)); auto.
  - apply (sud_on t (f t)); auto.
Qed.
Lemma relate_contour_same s s' vs vs' : proper_seg s -> simple_contour vs ->
  same_segment s s' -> same_cycle vs vs' ->
  segment_relate_to_contour s vs = segment_relate_to_contour s' vs'
  /\ contour_relate_to_segment vs s = contour_relate_to_segment vs' s'.
Proof.
  intros P C E F.
  assert (X : segment_relate_to_contour s vs = segment_relate_to_contour s' vs').
  { destruct (relate_contour_any s vs P C) as (r & R & K). rewrite R. symmetry. apply relate_contour_only.
    - apply (proper_same s); auto.
    - apply (same_cycle_simple vs); auto.
    - apply (spec_same r s s' (edges vs) (edges vs')); auto. apply same_cycle_segments; auto. }
  split; auto. unfold contour_relate_to_segment. rewrite X. auto.
Qed.
