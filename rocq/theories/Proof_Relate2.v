(** [Segment.relate_to] for a multisegment: the loop. *)
From Coq Require Import QArith Qcanon Bool List ZArith Lia.
From Verif Require Import QcTac Model_Base Model_Geometry Model_Segment Model_Contour Model_Relate
  Spec_Base Spec_Segment Spec_Clip Spec_Relate Proof_Base Proof_Line Proof_SegRel Proof_SegOps Proof_SegOps2
  Proof_Relate.
Import ListNotations.
Local Open Scope Qc_scope.

Section Line.
Variables (a b : point).
Hypothesis L : lex_lt a b.
Notation base := (Seg a b).
Let N : a <> b := a_neq_b a b L.

(** The sorted endpoints of [t] are at the coordinates [u] and [v]. *)
Definition at_coords (t : segment) (u v : Qc) : Prop :=
  u < v /\ (t = Seg (lerp a b u) (lerp a b v) \/ t = Seg (lerp a b v) (lerp a b u)).

Lemma at_coords_on t u v w : at_coords t u v -> (on_seg t (lerp a b w) <-> u <= w /\ w <= v).
Proof.
  intros (M & E). rewrite (on_seg_sorted t _ _ _ E). apply between_lerp; auto.
Qed.
Lemma at_coords_ex t u v p : at_coords t u v -> on_seg t p -> exists w, p = lerp a b w.
Proof.
  intros (M & E) O. rewrite (on_seg_sorted t _ _ _ E) in O. exact (between_lerp_ex _ _ _ _ _ O).
Qed.

Lemma share_coords t : proper_seg t -> share_continuum base t ->
  exists u v, at_coords t u v /\ u < 1 /\ 0 < v.
Proof.
  intros P S. destruct (to_sorted_pair_proper t P) as (c & d & _ & M & E).
  assert (S' : share_continuum base (Seg c d)).
  { destruct S as (p & q & K & A & B & C & D). exists p, q.
    rewrite (on_seg_sorted t _ _ p E) in B. rewrite (on_seg_sorted t _ _ q E) in D. auto 6. }
  pose proof (proj1 (share_iff a b c d L M) S') as ((A & B) & _).
  destruct (collinear_coordinates a b c d L M A B) as (u & v & -> & -> & K).
  exists u, v. split; [split; auto|]. apply (col_continuum a b u v L K). auto.
Qed.
Lemma coords_share t u v : at_coords t u v -> u < 1 -> 0 < v -> share_continuum base t.
Proof.
  intros (K & E) A B. destruct (proj2 (col_continuum a b u v L K) (conj A B)) as (p & q & D & H1 & H2 & H3 & H4).
  exists p, q. rewrite (on_seg_sorted t _ _ p E), (on_seg_sorted t _ _ q E). auto 6.
Qed.

Notation rel t := (relate_to_segment_endpoints a b (seg_start t) (seg_end t)).

Inductive part_case (t : segment) : Prop :=
| CaseInside r : rel t = Some r -> r = COMPONENT \/ r = EQUAL -> seg_subset base t -> part_case t
| CaseComposite u v : rel t = Some COMPOSITE -> at_coords t u v -> 0 <= u -> v <= 1 ->
    0 < u \/ v < 1 -> part_case t
| CaseOverlap u v : rel t = Some OVERLAP -> at_coords t u v ->
    (u < 0 /\ 0 < v /\ v < 1) \/ (0 < u /\ u < 1 /\ 1 < v) -> part_case t
| CaseApart r : rel t = Some r -> r = TOUCH \/ r = CROSS \/ r = DISJOINT ->
    seg_relation_spec r base t -> ~ share_continuum base t -> part_case t.

Lemma part_cases t : proper_seg t -> part_case t.
Proof.
  intros P. destruct (segment_relate_total base t N P) as (r & E).
  pose proof (proj1 (segment_relate_spec base t r N P) E) as S.
  change (segment_relate_to_segment base t) with (rel t) in E.
  destruct r; cbn in S; try contradiction.
  - (* COMPONENT *) eapply CaseInside; eauto. apply S.
  - (* COMPOSITE *)
    destruct (share_coords t P) as (u & v & K & _); [apply share_continuum_sym, subset_continuum; auto; apply S|].
    destruct S as (S1 & S2).
    assert (K1 : 0 <= u /\ v <= 1).
    { assert (X : forall w, u <= w -> w <= v -> 0 <= w /\ w <= 1).
      { intros w A B. apply (on_base a b L), S1, (at_coords_on t u v w K). auto. }
      destruct K as (K & _). split; apply X; qlra. }
    apply CaseComposite with u v; try tauto.
    destruct (Qclt_le_dec 0 u); auto. destruct (Qclt_le_dec v 1); auto. exfalso. apply S2.
    intros p Op. destruct (base_ex a b p Op) as (w & -> & A & B).
    apply (at_coords_on t u v w K). split; qlra.
  - (* CROSS *) eapply CaseApart; eauto. destruct S as (p & K & _). exact (only_common_no_continuum _ _ _ K).
  - (* DISJOINT *) eapply CaseApart; eauto. intros (p & q & _ & A & B & _). eauto.
  - (* EQUAL *) eapply CaseInside; eauto. intros p. apply S.
  - (* OVERLAP *)
    destruct S as (S0 & S1 & S2). destruct (share_coords t P S0) as (u & v & K & A & B).
    apply CaseOverlap with u v; auto.
    destruct (Qclt_le_dec u 0) as [U|U].
    + left. repeat split; auto. destruct (Qclt_le_dec v 1); auto. exfalso. apply S1.
      intros p Op. destruct (base_ex a b p Op) as (w & -> & C & D).
      apply (at_coords_on t u v w K). split; qlra.
    + right. destruct (Qclt_le_dec 1 v) as [V|V].
      * repeat split; auto. destruct (Qc_eq_dec u 0) as [Z|Z]; [|qne; qlra]. exfalso. apply S1.
        intros p Op. destruct (base_ex a b p Op) as (w & -> & C & D).
        apply (at_coords_on t u v w K). split; qlra.
      * exfalso. apply S2. intros p Op. destruct (at_coords_ex t u v p K Op) as (w & ->).
        apply (at_coords_on t u v w K) in Op. apply (on_base a b L). split; qlra.
  - (* TOUCH *) eapply CaseApart; eauto. destruct S as (p & K & _). exact (only_common_no_continuum _ _ _ K).
Qed.

(** ** Touching in the middle *)
Definition touches_mid (t : segment) : Prop :=
  seg_relation_spec TOUCH base t /\ seg_start t <> a /\ seg_end t <> a /\ seg_start t <> b /\ seg_end t <> b.
Definition the_scale (t : segment) : Qc :=
  to_segments_intersection_scale a b (seg_start t) (seg_end t).
Definition the_free_end (t : segment) : point :=
  if location_is (locate_point_in_segment a b (seg_end t)) BOUNDARY then seg_start t else seg_end t.

Lemma the_scale_eq t : the_scale t
  = area2 (seg_start t) (seg_end t) a / (area2 (seg_start t) (seg_end t) a - area2 (seg_start t) (seg_end t) b).
Proof.
  unfold the_scale, to_segments_intersection_scale. rewrite cross_multiply_first. f_equal. f_equal.
  apply cross_multiply_diff.
Qed.

Lemma not_both_on_line t : proper_seg t -> touches_mid t ->
  ~ (area2 a b (seg_start t) = 0 /\ area2 a b (seg_end t) = 0).
Proof.
  intros P (T & A1 & A2 & B1 & B2) (C & D).
  destruct (to_sorted_pair_proper t P) as (c & d & _ & M & E).
  assert (CD : area2 a b c = 0 /\ area2 a b d = 0 /\ c <> a /\ d <> a /\ c <> b /\ d <> b)
    by (destruct E as [-> | ->]; cbn in *; auto 8).
  destruct CD as (C' & D' & A1' & A2' & B1' & B2').
  destruct (collinear_coordinates a b c d L M C' D') as (u & v & -> & -> & K).
  assert (Z1 : v <> 0) by (intros ->; apply A2', lerp_0).
  assert (Z2 : u <> 1) by (intros ->; apply B1', lerp_1).
  destruct T as (p & T & _). apply (only_common_no_continuum _ _ _ T).
  apply (coords_share t u v); [split; auto| |].
  - destruct T as (O1 & O2 & _). destruct (base_ex a b p O1) as (w & -> & W1 & W2).
    apply (at_coords_on t u v w) in O2; [|split; auto]. qne; qlra.
  - destruct T as (O1 & O2 & _). destruct (base_ex a b p O1) as (w & -> & W1 & W2).
    apply (at_coords_on t u v w) in O2; [|split; auto]. qne; qlra.
Qed.

Lemma mid_touch t : proper_seg t -> touches_mid t ->
  let w := the_scale t in let e := the_free_end t in
  0 <= w /\ w <= 1 /\ on_seg t (lerp a b w) /\ area2 a b e <> 0 /\
  (forall q, on_seg base q -> on_seg t q -> q = lerp a b w) /\
  (0 < w /\ w < 1 /\ (t = Seg (lerp a b w) e \/ t = Seg e (lerp a b w))
   \/ (w = 0 \/ w = 1) /\ inside_seg t (lerp a b w) /\ endpoint_of t e).
Proof.
  intros P T w e. pose proof (not_both_on_line t P T) as NB. pose proof (the_scale_eq t) as SE. fold w in SE.
  destruct T as ((p & (O1 & O2 & U) & Ends) & A1 & A2 & B1 & B2).
  destruct (base_ex a b p O1) as (w0 & -> & W1 & W2).
  destruct t as [c d]; cbn [seg_start seg_end] in *.
  assert (ID : area2 c d a - area2 c d b = area2 a b d - area2 a b c)
    by (unfold area2; ring).
  assert (Z : exists s, 0 <= s /\ s <= 1 /\ lerp a b w0 = lerp c d s /\ area2 a b c + s * (area2 a b d - area2 a b c) = 0).
  { destruct O2 as (s & S1 & S2 & S3). cbn [seg_start seg_end] in S3. exists s. repeat split; auto.
    rewrite <- area2_lerp, <- S3. apply area2_self_lerp. }
  destruct Z as (s & S1 & S2 & S3 & S4).
  assert (NZ : area2 c d a - area2 c d b <> 0).
  { rewrite ID. intros E. rewrite E in S4. apply NB. split; qlra. }
  assert (E0 : area2 c d a + w0 * (area2 c d b - area2 c d a) = 0).
  { rewrite <- area2_lerp, S3. apply area2_self_lerp. }
  assert (Ew : w = w0).
  { rewrite SE. assert (X : area2 c d a = w0 * (area2 c d a - area2 c d b)) by qlra.
    rewrite X at 1. field. exact NZ. }
  rewrite Ew. clear SE Ew E0.
  assert (Qe : endpoint_of (Seg c d) e).
  { unfold e, the_free_end. cbn. destruct (location_is _ _); [left|right]; auto. }
  assert (Main : area2 a b e <> 0 /\
    (0 < w0 /\ w0 < 1 /\ (Seg c d = Seg (lerp a b w0) e \/ Seg c d = Seg e (lerp a b w0))
     \/ (w0 = 0 \/ w0 = 1) /\ inside_seg (Seg c d) (lerp a b w0) /\ endpoint_of (Seg c d) e)).
  { destruct (Qc_eq_dec w0 0) as [W|W]; [|destruct (Qc_eq_dec w0 1) as [W'|W']].
    3: { assert (P' : lerp a b w0 = c \/ lerp a b w0 = d).
         { destruct Ends as [[E|E]|[E|E]]; auto; exfalso; cbn in E.
           - apply W. apply (lerp_inj a b); auto. rewrite lerp_0. auto.
           - apply W'. apply (lerp_inj a b); auto. rewrite lerp_1. auto. }
         assert (Ee : (c = lerp a b w0 /\ e = d) \/ (d = lerp a b w0 /\ e = c)).
         { unfold e, the_free_end. cbn [seg_start seg_end].
           destruct (location_is_spec (locate_point_in_segment a b d) BOUNDARY) as [K|K].
           - right. split; auto. apply locate_spec in K. apply U; auto. exact (between_end c d).
           - left. split; auto. destruct P' as [|E]; auto. exfalso. apply K, locate_spec. rewrite <- E. exact O1. }
         split.
         - intros E. apply NB. destruct Ee as [(E1 & E2)|(E1 & E2)]; rewrite E1; split;
             rewrite ?area2_self_lerp; auto; congruence.
         - left. split; [qne; qlra|]. split; [qne; qlra|].
           destruct Ee as [(E1 & E2)|(E1 & E2)]; [left|right]; congruence. }
    all: assert (IN : 0 < s /\ s < 1) by
      (split; [destruct (Qc_eq_dec s 0) as [->|]; [|qne; qlra]|destruct (Qc_eq_dec s 1) as [->|]; [|qne; qlra]];
       rewrite ?lerp_0, ?lerp_1 in S3; exfalso; subst w0; rewrite ?lerp_0, ?lerp_1 in S3; congruence).
    all: split; [|right; split; [auto|]; split; [rewrite S3; exists s; tauto|auto]].
    all: intros E; apply NB; destruct Qe as [Qe|Qe]; cbn in Qe; rewrite Qe in E;
      rewrite E in S4; destruct IN; split; auto; qne; qnra. }
  destruct Main as (M1 & M2). split; [auto|]. split; [auto|]. split; [auto|]. split; [auto|]. split; [|auto].
  intros q Q1 Q2. apply U; auto.
Qed.
End Line.
