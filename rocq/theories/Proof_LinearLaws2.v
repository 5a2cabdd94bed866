(** The operators change only finitely many points of the set operations, so that the set
    operations decide the results. *)
From Coq Require Import QArith Qcanon Bool List Arith Lia.
From Verif Require Import QcTac Model_Base Model_Box Model_Geometry Model_Contour Model_Segment Model_Linear Model_MixedClip Model_LinearOperators
  Spec_Base Spec_Segment Spec_Clip Spec_Contour Spec_Bounds Spec_Sweep Spec_Shaped Spec_Multipolygon Spec_RelateShaped Spec_Tight Spec_MixedClip Spec_LinearLaws
  Proof_Base Proof_Line Proof_SegRel Proof_SegOps Proof_SegOps2 Proof_SegOps3 Proof_SegLoops Proof_SegUnion Proof_Locate Proof_Sweep17 Proof_Sweep19 Proof_Sweep20
  Proof_Tight7 Proof_Tight10 Proof_Located Proof_LinearLaws1.
Import ListNotations.
Local Open Scope Qc_scope.

Lemma middle_strict p q : p <> q -> strictly_between p q (lerp p q (/ (1 + 1))).
Proof. intros _. exists (/ (1 + 1)). split; [reflexivity|]. split; reflexivity. Qed.
(** Points of which almost all are those of another list of segments are all. *)
Lemma almost_within k l (F : list point) : Forall proper_seg k -> Forall proper_seg l ->
  (forall p, ~ In p F -> on_segs k p -> on_segs l p) -> forall p, on_segs k p -> on_segs l p.
Proof.
  intros Pk Pl H p O. destruct (on_segs_dec l p) as [Y|N]; [exact Y|exfalso].
  destruct (outside_difference k l p Pk Pl O N) as (s & I & Op & q & Nq & Oq & Free).
  destruct (walk F p q) as (r & R1 & R2 & R3); [intros E; apply Nq; symmetry; exact E|].
  assert (Npq : p <> q) by (intros E; apply Nq; symmetry; exact E).
  assert (Npr : p <> r). { intros E. apply (proj1 (strictly_between_neq p q r Npq R1)). symmetry. exact E. }
  set (m := lerp p r (/ (1 + 1))). assert (M : strictly_between p r m) by (apply middle_strict, Npr).
  apply (Free m (R2 m M)). apply H.
  - intros K. exact (R3 m K M).
  - exists s. split; [exact I|]. apply (on_seg_convex s p q); auto.
Qed.
Lemma almost_equal k l : Forall proper_seg k -> Forall proper_seg l -> almost_same (on_segs k) (on_segs l) ->
  forall p, on_segs k p <-> on_segs l p.
Proof.
  intros Pk Pl (F & H) p. split; [apply (almost_within k l F Pk Pl)|apply (almost_within l k F Pl Pk)]; intros x N O; apply (H x N), O.
Qed.
Lemma almost_refl P : almost_same P P.
Proof. exists []. intros p _. reflexivity. Qed.
Lemma almost_same_sym P Q : almost_same P Q -> almost_same Q P.
Proof. intros (F & H). exists F. intros p N. symmetry. apply (H p N). Qed.
Lemma almost_same_trans P Q R : almost_same P Q -> almost_same Q R -> almost_same P R.
Proof.
  intros (F & H) (G & K). exists (F ++ G). intros p N. rewrite in_app_iff in N.
  rewrite (H p), (K p) by tauto. reflexivity.
Qed.
(** The common points of segments that do not overlap. *)
Lemma lonely_pair s t : proper_seg s -> proper_seg t -> exists F : list point, ~ share_continuum s t -> forall p, on_seg s p -> on_seg t p -> In p F.
Proof.
  intros Ps Pt. destruct (intersect_segments s t Ps Pt) as [(Sh & _)|(Sh & _)].
  - exists []. intros K. contradiction.
  - destruct (not_share_common s t Ps Pt Sh) as [(p & O)|N].
    + exists [p]. intros _ x X Y. left. destruct O as (O1 & O2 & U). symmetry. apply U; assumption.
    + exists []. intros _ p X Y. apply N. exists p. split; assumption.
Qed.
Lemma lonely_one s l : proper_seg s -> Forall proper_seg l ->
  exists F : list point, forall t p, In t l -> ~ share_continuum s t -> on_seg s p -> on_seg t p -> In p F.
Proof.
  intros Ps Pl. induction Pl as [|t l Pt Pl (F & H)].
  - exists []. intros t p [].
  - destruct (lonely_pair s t Ps Pt) as (G & K). exists (G ++ F). intros u p [<-|I] N O O'; apply in_or_app; [left; apply (K N); assumption|right; apply (H u); assumption].
Qed.
Lemma lonely k l : Forall proper_seg k -> Forall proper_seg l ->
  exists F : list point, forall s t p, In s k -> In t l -> ~ share_continuum s t -> on_seg s p -> on_seg t p -> In p F.
Proof.
  intros Pk Pl. induction Pk as [|s k Ps Pk (F & H)].
  - exists []. intros s t p [].
  - destruct (lonely_one s l Ps Pl) as (G & K). exists (G ++ F). intros u t p [<-|I] I' N O O'; apply in_or_app; [left; apply (K t); assumption|right; apply (H u t); assumption].
Qed.
Lemma share_dec s t : proper_seg s -> proper_seg t -> share_continuum s t \/ ~ share_continuum s t.
Proof. intros Ps Pt. destruct (intersect_segments s t Ps Pt) as [(Sh & _)|(Sh & _)]; [left|right]; exact Sh. Qed.
(** A way along a segment from a point inside of it stays on it for a while. *)
Lemma stay u v x y : u <> v -> 0 < x -> x < 1 -> x <> y ->
  exists r, strictly_between (lerp u v x) (lerp u v y) r /\ between u v r.
Proof.
  intros N X0 X1 D. assert (T : exists z, (x < z /\ z < y \/ y < z /\ z < x) /\ 0 <= z /\ z <= 1).
  { destruct (Qclt_le_dec x y) as [L|L].
    - destruct (Qclt_le_dec y 1) as [L'|L'].
      + exists ((x + y) * / (1 + 1)). assert (E : (1 + 1) * / (1 + 1) = 1) by (apply Qcmult_inv_r; discriminate). split; [left; split; qnra|split; qnra].
      + exists ((x + 1) * / (1 + 1)). assert (E : (1 + 1) * / (1 + 1) = 1) by (apply Qcmult_inv_r; discriminate). split; [left; split; qnra|split; qnra].
    - assert (L2 : y < x) by (apply Qcle_lt_or_eq in L; destruct L as [L|L]; [exact L|subst; contradiction]).
      destruct (Qclt_le_dec 0 y) as [L'|L'].
      + exists ((x + y) * / (1 + 1)). assert (E : (1 + 1) * / (1 + 1) = 1) by (apply Qcmult_inv_r; discriminate). split; [right; split; qnra|split; qnra].
      + exists (x * / (1 + 1)). assert (E : (1 + 1) * / (1 + 1) = 1) by (apply Qcmult_inv_r; discriminate). split; [right; split; qnra|split; qnra]. }
  destruct T as (z & Z & Z0 & Z1). exists (lerp u v z). split.
  - destruct Z as [(A1 & A2)|(A1 & A2)]; [apply strictly_between_lerp'; assumption|].
    apply strictly_between_sym. apply strictly_between_lerp'; assumption.
  - exists z. split; [exact Z0|]. split; [exact Z1|reflexivity].
Qed.
Lemma endpoints_of (l : list segment) : exists F : list point, forall t p, In t l -> endpoint_of t p -> In p F.
Proof.
  exists (map seg_start l ++ map seg_end l). intros t p I [E|E]; rewrite E; apply in_or_app; [left|right]; apply in_map; exact I.
Qed.
Lemma share_line s t p : proper_seg s -> proper_seg t -> share_continuum s t -> on_seg s p -> area2 (seg_start t) (seg_end t) p = 0.
Proof.
  intros Ps Pt (u & v & N & A & B & C & D) O.
  assert (L : forall w, on_seg t w -> area2 (seg_start t) (seg_end t) w = 0) by (intros w W; apply between_collinear, W).
  assert (K : forall w, on_seg s w -> area2 (seg_start s) (seg_end s) w = 0) by (intros w W; apply between_collinear, W).
  assert (Eu : area2 u v p = 0).
  { apply (proj1 (same_line (seg_start s) (seg_end s) u v p Ps N (K u A) (K v C))), K, O. }
  apply (proj2 (same_line (seg_start t) (seg_end t) u v p Pt N (L u B) (L v D))), Eu.
Qed.
Lemma difference_almost k l : Forall proper_seg k -> Forall proper_seg l ->
  almost_same (in_difference_lists k l) (fun p => on_segs k p /\ ~ on_segs l p).
Proof.
  intros Pk Pl. destruct (lonely k l Pk Pl) as (F & H). destruct (endpoints_of l) as (G & K).
  exists (F ++ G). intros p N. rewrite in_app_iff in N. split.
  - intros D. split; [apply (difference_inside _ _ _ D)|]. intros (t & It & Ot).
    destruct D as (s & Is & Os & q & Nq & Oq & Free).
    assert (Ps : proper_seg s) by (rewrite Forall_forall in Pk; apply Pk, Is).
    assert (Pt : proper_seg t) by (rewrite Forall_forall in Pl; apply Pl, It).
    destruct (share_dec s t Ps Pt) as [Sh|Sh]; [|apply N; left; apply (H s t); assumption].
    pose proof (share_line s t q Ps Pt Sh Oq) as Z. destruct (collinear_lerp _ _ _ Pt Z) as (y & Ey).
    destruct Ot as (x & X0 & X1 & Ex).
    assert (x <> 0). { intros E. apply N. right. apply (K t); [exact It|]. left. rewrite Ex, E. apply lerp_0. }
    assert (x <> 1). { intros E. apply N. right. apply (K t); [exact It|]. right. rewrite Ex, E. apply lerp_1. }
    destruct (stay (seg_start t) (seg_end t) x y Pt) as (r & R1 & R2).
    + apply Qcle_lt_or_eq in X0. destruct X0 as [L|E]; [exact L|]. exfalso. auto.
    + apply Qcle_lt_or_eq in X1. destruct X1 as [L|E]; [exact L|]. exfalso. auto.
    + intros E. apply Nq. rewrite Ex, Ey, E. reflexivity.
    + apply (Free r); [rewrite Ex, Ey; exact R1|]. exists t. split; [exact It|exact R2].
  - intros [O O']. apply outside_difference; assumption.
Qed.
Lemma common_almost k l : Forall proper_seg k -> Forall proper_seg l ->
  almost_same (on_common_continuum_lists k l) (fun p => on_segs k p /\ on_segs l p).
Proof.
  intros Pk Pl. destruct (lonely k l Pk Pl) as (F & H). exists F. intros p N. split.
  - intros (s & t & Is & It & _ & O & O'). split; [exists s|exists t]; split; assumption.
  - intros [(s & Is & O) (t & It & O')]. exists s, t. split; [exact Is|]. split; [exact It|]. split; [|split; assumption].
    rewrite Forall_forall in Pk, Pl. destruct (share_dec s t (Pk s Is) (Pl t It)) as [Sh|Sh]; [exact Sh|].
    exfalso. apply N. apply (H s t); assumption.
Qed.
