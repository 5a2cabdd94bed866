(** Segments and multisegments: any direction, exactly one relation. *)
From Coq Require Import QArith Qcanon Bool List ZArith Lia.
From Verif Require Import QcTac Model_Base Model_Geometry Model_Segment Model_Contour Model_Relate
  Spec_Base Spec_Segment Spec_Clip Spec_Relate Proof_Base Proof_Line Proof_SegRel Proof_SegOps Proof_SegOps2
  Proof_Relate Proof_Relate2 Proof_Relate3 Proof_Relate4 Proof_Relate5 Proof_Relate6.
Import ListNotations.
Local Open Scope Qc_scope.

Lemma on_seg_reverse s p : on_seg (reverse_seg s) p <-> on_seg s p.
Proof. apply between_sym. Qed.
Lemma inside_seg_reverse s p : inside_seg (reverse_seg s) p <-> inside_seg s p.
Proof. apply strictly_between_sym. Qed.
Lemma area2_swap a b p : area2 b a p = - area2 a b p.
Proof. unfold area2. ring. Qed.

Definition same_up_to_direction (s s' : segment) : Prop := s' = s \/ s' = reverse_seg s.
Lemma sud_on s s' p : same_up_to_direction s s' -> (on_seg s' p <-> on_seg s p).
Proof. intros [->| ->]; [tauto|apply on_seg_reverse]. Qed.

(** The meaning depends only on the sets of segments, regardless of directions. *)
Definition same_segments (l l' : list segment) : Prop :=
  (forall t, In t l -> exists t', In t' l' /\ same_up_to_direction t t') /\
  (forall t', In t' l' -> exists t, In t l /\ same_up_to_direction t' t).

Lemma on_segs_same l l' p : same_segments l l' -> (on_segs l p <-> on_segs l' p).
Proof.
  intros (A & B). split.
  - intros (t & I & O). destruct (A t I) as (t' & I' & E). exists t'. split; auto. apply (sud_on t t'); auto.
  - intros (t & I & O). destruct (B t I) as (t' & I' & E). exists t'. split; auto. apply (sud_on t t'); auto.
Qed.
Lemma share_sud s s' t t' : same_up_to_direction s s' -> same_up_to_direction t t' ->
  share_continuum s t -> share_continuum s' t'.
Proof.
  intros A B (p & q & N & H1 & H2 & H3 & H4). exists p, q.
  repeat split; auto; first [apply (sud_on s s')|apply (sud_on t t')]; auto.
Qed.

Lemma passes_same s s' l l' p : same_up_to_direction s s' -> same_segments l l' ->
  passes_through s l p -> passes_through s' l' p.
Proof.
  intros E (A & _) (I & t & u & q & r & It & Iu & Ot & Ou & Oq & Aq & Or & Ar).
  destruct (A t It) as (t' & It' & Et). destruct (A u Iu) as (u' & Iu' & Eu).
  assert (X : forall t t' p, same_up_to_direction t t' -> on_seg t p -> on_seg t' p)
    by (intros v v' z K; apply (sud_on v v' z K)).
  destruct E as [->| ->].
  - split; auto. exists t', u', q, r. eauto 12.
  - split; [apply inside_seg_reverse; auto|]. exists u', t', r, q. cbn [seg_start seg_end reverse_seg].
    rewrite !(area2_swap (seg_start s) (seg_end s)).
    split; [auto|]. split; [auto|]. split; [eauto|]. split; [eauto|]. split; [eauto|].
    split; [qlra|]. split; [eauto|qlra].
Qed.

Lemma same_segments_sym l l' : same_segments l l' -> same_segments l' l.
Proof. intros (A & B); split; auto. Qed.
Lemma sud_sym s s' : same_up_to_direction s s' -> same_up_to_direction s' s.
Proof. intros [->| ->]; [left; auto|right]. destruct s; auto. Qed.

Lemma spec_same r s s' l l' : same_up_to_direction s s' -> same_segments l l' ->
  segment_list_relation_spec r s l -> segment_list_relation_spec r s' l'.
Proof.
  intros E F.
  assert (O : forall p, on_seg s' p <-> on_seg s p) by (intros; apply sud_on; auto).
  assert (O' : forall p, on_segs l' p <-> on_segs l p) by (intros; symmetry; apply on_segs_same; auto).
  assert (Ov : (exists t, In t l' /\ share_continuum s' t) <-> (exists t, In t l /\ share_continuum s t)).
  { destruct F as (A & B). split.
    - intros (t & I & K). destruct (B t I) as (t' & I' & E'). exists t'. split; auto.
      apply (share_sud s' s t t'); auto using sud_sym.
    - intros (t & I & K). destruct (A t I) as (t' & I' & E'). exists t'. split; auto.
      apply (share_sud s s' t t'); auto. }
  assert (C : (exists p, passes_through s' l' p) <-> (exists p, passes_through s l p)).
  { split; intros (p & K); exists p.
    - apply (passes_same s' s l' l); auto using sud_sym, same_segments_sym.
    - apply (passes_same s s' l l'); auto. }
  assert (S1 : (forall p, on_seg s' p -> on_segs l' p) <-> (forall p, on_seg s p -> on_segs l p)).
  { split; intros K p; specialize (K p); rewrite O, O' in *; auto. }
  assert (S2 : (forall p, on_segs l' p -> on_seg s' p) <-> (forall p, on_segs l p -> on_seg s p)).
  { split; intros K p; specialize (K p); rewrite O, O' in *; auto. }
  assert (S3 : (exists p, on_seg s' p /\ on_segs l' p) <-> (exists p, on_seg s p /\ on_segs l p)).
  { split; intros (p & K); exists p; rewrite O, O' in *; auto. }
  unfold segment_list_relation_spec. cbv zeta. destruct r; tauto.
Qed.
Lemma same_segments_refl l : same_segments l l.
Proof. split; intros t I; exists t; split; auto; left; auto. Qed.

Lemma multisegment_relation_any s l : proper_seg s -> non_crossing l -> (2 <= length l)%nat ->
  exists r, segment_relate_to_multisegment s l = Some r /\ segment_list_relation_spec r s l.
Proof.
  intros P NC Len. destruct (to_sorted_pair_proper s P) as (a & b & _ & L & E).
  destruct (sorted_relation a b L l NC Len) as (r & R1 & R2). exists r. split.
  - destruct E as [-> | ->]; [exact R1|].
    unfold segment_relate_to_multisegment. cbn [seg_start seg_end].
    unfold relate_to_multisegment_segments in *.
    rewrite !point_gt_lt in *.
    destruct (point_lt_spec a b) as [|K]; [|contradiction].
    destruct (point_lt_spec b a) as [K|K]; [exfalso; exact (lex_asym _ _ K L)|]. exact R1.
  - apply (spec_same r (Seg a b) s l l); auto using same_segments_refl.
Qed.

Lemma spec_exclusive s l r r' : proper_seg s -> Forall proper_seg l -> l <> [] ->
  segment_list_relation_spec r s l -> segment_list_relation_spec r' s l -> r = r'.
Proof.
  intros P PL NE.
  assert (Sub : (forall p, on_seg s p -> on_segs l p) -> exists t, In t l /\ share_continuum s t).
  { intros SB. destruct (to_sorted_pair_proper s P) as (a & b & _ & L & E).
    assert (EO : forall p, on_seg s p <-> on_seg (Seg a b) p) by (intros; apply on_seg_sorted; auto).
    destruct (room a b L l 0 1 PL) as (lo & hi & R1 & R2 & R3 & R4); try qlra.
    pose proof (half_twice lo hi) as HT. remember (half lo hi) as h eqn:Eh. clear Eh.
    destruct (SB (lerp a b h)) as (t & I & O); [apply EO, (on_base a b L); split; qlra|].
    exists t. split; auto. assert (Pt_ : proper_seg t) by (rewrite Forall_forall in PL; auto).
    destruct (part_cases a b L t Pt_) as [r0 R C SS|u v R K' U V UV|u v R K' UV|r0 R C SP NS].
    - destruct (subset_continuum (Seg a b) t (a_neq_b a b L) SS) as (p & q & N & A & B & C' & D).
      exists p, q. rewrite !EO. auto 6.
    - assert (X : share_continuum (Seg a b) t) by (apply (coords_share a b L t u v K'); destruct K'; qlra).
      destruct X as (p & q & N & A & B & C & D). exists p, q. rewrite !EO. auto 6.
    - assert (X : share_continuum (Seg a b) t) by (apply (coords_share a b L t u v K'); destruct K', UV; qlra).
      destruct X as (p & q & N & A & B & C & D). exists p, q. rewrite !EO. auto 6.
    - exfalso. apply (R4 t h I NS); auto; qlra. }
  assert (Sup : (forall p, on_segs l p -> on_seg s p) -> exists t, In t l /\ share_continuum s t).
  { intros SB. destruct l as [|t l]; [congruence|]. inversion PL; subst. exists t. split; [cbn; auto|].
    apply share_continuum_sym, subset_continuum; auto. intros p O. apply SB. exists t; cbn; auto. }
  assert (Ov : (exists t, In t l /\ share_continuum s t) -> exists p, on_seg s p /\ on_segs l p).
  { intros (t & I & p & q & _ & A & B & _). exists p. split; auto. exists t; auto. }
  assert (Cr : (exists p, passes_through s l p) -> exists p, on_seg s p /\ on_segs l p).
  { intros (p & I & t & _ & _ & _ & It & _ & Ot & _). exists p. split; [apply strictly_between_between; auto|].
    exists t; auto. }
  unfold segment_list_relation_spec. cbv zeta.
  destruct r, r'; try reflexivity; intros A B; exfalso; try contradiction; tauto.
Qed.
