(** The outline of the result of an operator is where the operation changes its answer. *)
From Coq Require Import QArith Qcanon Bool List Arith Lia Permutation.
From Verif Require Import QcTac Model_Base Model_Utils Model_Box Model_Geometry Model_Contour Model_Linear Model_Mixed Model_Shaped Model_Multipolygon Spec_Base Spec_Segment Spec_Clip Spec_Contour
  Spec_Relate Spec_Bounds Spec_Sweep Spec_Shaped Spec_Multipolygon Spec_RelateShaped Spec_Tight
  Proof_Base Proof_Line Proof_SegRel Proof_SegOps Proof_Relate6 Proof_SegLoops Proof_Contour Proof_Contour2 Proof_Edges Proof_Bounds Proof_Shrink Proof_Locate Proof_Locate3 Proof_Locate4 Proof_Sweep4 Proof_Sweep6 Proof_Sweep18 Proof_Parity
  Proof_Corner Proof_Region Proof_Ray Proof_Orient Proof_Nested Proof_Nested2 Proof_Bridge Proof_Odd Proof_Clip Proof_Ready Proof_RelShaped6 Proof_Polygons Proof_Multi Proof_Multi2 Proof_Multi3 Proof_Multi4
  Proof_Tight1 Proof_Tight3 Proof_Tight4 Proof_Tight5 Proof_Tight6.
Import ListNotations.
Local Open Scope Qc_scope.


(** Points near a point. *)
Lemma close_self d x : 0 < d -> close_to d x x.
Proof. intros P. repeat split; qlra. Qed.
Lemma close_less d d' x y : d <= d' -> close_to d x y -> close_to d' x y.
Proof. intros L (A & B & C & D). repeat split; qlra. Qed.
Lemma close_way d x z y : close_to d x z -> on_seg (Seg x z) y -> close_to d x y.
Proof.
  intros (A & B & C & D) (t & T0 & T1 & ->). cbn [seg_start seg_end]. unfold close_to, lerp. cbn [px py].
  assert (G : forall u, - d < u -> u < d -> - d < t * u /\ t * u < d).
  { clear - T0 T1. intros u U1 U2. assert (Pd : 0 < d) by qlra. destruct (Qclt_le_dec u 0) as [L|L].
    - assert (0 <= t * (- u)) by (apply Qcmult_nonneg; qlra). assert (0 <= (1 - t) * (- u)) by (apply Qcmult_nonneg; qlra).
      replace (t * - u) with (- (t * u)) in * by ring. replace ((1 - t) * - u) with (- u + t * u) in * by ring. split; qlra.
    - assert (0 <= t * u) by (apply Qcmult_nonneg; qlra). assert (0 <= (1 - t) * u) by (apply Qcmult_nonneg; qlra).
      replace ((1 - t) * u) with (u - t * u) in * by ring. split; qlra. }
  destruct (G (px z - px x)) as [G1 G2]; [qlra|qlra|]. destruct (G (py z - py x)) as [G3 G4]; [qlra|qlra|]. repeat split; qlra.
Qed.
Lemma segs_gap l x : ~ on_segs l x -> exists d, 0 < d /\ forall y, close_to d x y -> ~ on_segs l y.
Proof.
  induction l as [|e l IH]; intros Off.
  - exists 1. split; [vm_compute; reflexivity|]. intros y _ (e & [] & _).
  - destruct (seg_gap e x) as (d1 & P1 & G1). { intros O. apply Off. exists e. split; [left|]; auto. }
    destruct IH as (d2 & P2 & G2). { intros (g & I & O). apply Off. exists g. split; [right|]; auto. }
    assert (Mm : exists d, 0 < d /\ d <= d1 /\ d <= d2) by (clear - P1 P2; destruct (Qclt_le_dec d1 d2); [exists d1|exists d2]; repeat split; qlra).
    destruct Mm as (d & P & L1 & L2). exists d. split; auto. intros y C (g & [<-|I] & O).
    + apply (G1 y); auto. apply (close_less d); auto.
    + apply (G2 y); [apply (close_less d); auto|]. exists g. auto.
Qed.
(** The parity does not change round a point off the outlines. *)
Lemma parity_round r x : ~ on_segs (outlines r) x -> exists d, 0 < d /\ forall y, close_to d x y -> ~ on_segs (outlines r) y /\ parity (outlines r) y = parity (outlines r) x.
Proof.
  intros Off. destruct (segs_gap _ _ Off) as (d & P & G). exists d. split; auto. intros y C. split; [auto|].
  symmetry. apply parity_way. intros z O. apply G. apply (close_way d x y); auto.
Qed.
(** There are points off any drawing near any point. *)
Lemma off_near S0 x d : Forall proper_seg S0 -> 0 < d -> exists z, close_to d x z /\ ~ on_segs S0 z.
Proof.
  intros P Pd. set (e := Seg x (Pt (px x + 1) (py x))). assert (One : 0 < 1) by (vm_compute; reflexivity).
  assert (Pe : proper_seg e). { unfold proper_seg, e. cbn [seg_start seg_end]. intros E. apply (f_equal px) in E. cbn [px] in E. qlra. }
  destruct (flip_near S0 [] e x d []) as (m & up & down & _ & _ & _ & _ & _ & Cl & _); auto.
  - unfold on_seg, e. cbn [seg_start seg_end]. apply between_start.
  - destruct (Cl up (or_introl eq_refl)) as (Cz & _ & Oz). exists up. auto.
Qed.

Lemma odd_parity l q : off_outlines l q -> (inside_odd l q <-> parity (outlines l) q = true).
Proof. intros Off. rewrite odd_xsum, insideb_outlines by auto. reflexivity. Qed.
Lemma proper_parts g : valid_shaped g -> Forall proper_seg (outlines (geometry_rings g)).
Proof. intros V. rewrite rings_parts. apply (proj1 (vm_edges _ (valid_parts g V))). Qed.

Lemma ring_edge vs : nondegenerate vs -> exists e, In e (edges vs).
Proof.
  intros (L & _). destruct vs as [|a [|b r]]; cbn [length] in L; try lia. exists (Seg a b). left. reflexivity.
Qed.
Lemma ring_outlined l vs : In vs l -> nondegenerate vs -> exists x, on_segs (outlines l) x.
Proof.
  intros I Nd. destruct (ring_edge vs Nd) as (e & Ie). exists (seg_start e). exists e. split; [apply in_flat_map; exists vs; auto|]. apply between_start.
Qed.
Lemma drawn_empty h : shaped h -> Forall nondegenerate (geometry_rings h) -> (forall x, ~ outlined h x) -> h = GEmpty.
Proof.
  intros Sh Nd X. destruct h as [ | | | |p|l]; cbn [shaped] in Sh; try contradiction; auto; exfalso.
  - destruct (ring_outlined (geometry_rings (GPolygon p)) (border p)) as (x & O); [left; reflexivity| |exact (X x O)]. inversion Nd; auto.
  - destruct l as [|p l]; cbn [length] in Sh; [lia|].
    destruct (ring_outlined (geometry_rings (GMultipolygon (p :: l))) (border p)) as (x & O); [left; reflexivity| |exact (X x O)]. inversion Nd; auto.
Qed.
Section Drawn.
Variables (g g' h : geometry) (holds : point -> Prop).
Hypothesis V : valid_shaped g.
Hypothesis V' : valid_shaped g'.
Hypothesis Two : two_sided (outlines (geometry_rings g) ++ outlines (geometry_rings g')) (geometry_rings h).
Hypothesis Sub : forall x, outlined h x -> outlined g x \/ outlined g' x.
Hypothesis Odd : forall q, clear_of g g' q -> (inside_odd (geometry_rings h) q <-> holds q).
Lemma clear_result q : clear_of g g' q -> ~ outlined h q.
Proof. clear - Sub. intros [A B] C. destruct (Sub q C); auto. Qed.
Lemma clear_split q : ~ on_segs (outlines (geometry_rings g) ++ outlines (geometry_rings g')) q -> clear_of g g' q.
Proof. clear. intros N. apply off_segs_app in N. exact N. Qed.
Lemma holds_parity q : clear_of g g' q -> (holds q <-> parity (outlines (geometry_rings h)) q = true).
Proof. clear V V' Two. intros C. rewrite <- (Odd q C). apply odd_parity. apply clear_result; auto. Qed.
Theorem outline_sides x : outlined h x <-> between_sides (clear_of g g') holds x.
Proof.
  split.
  - intros O d Pd. split; [destruct (Two x d true O Pd) as (z & C & N & P)|destruct (Two x d false O Pd) as (z & C & N & P)]; exists z; (split; [exact C|split; [apply clear_split; auto|]]).
    + apply holds_parity; [apply clear_split; auto|exact P].
    + intros H. apply holds_parity in H; [congruence|apply clear_split; auto].
  - intros B. destruct (on_segs_dec (outlines (geometry_rings h)) x) as [O|O]; [exact O|exfalso].
    destruct (parity_round _ _ O) as (d & Pd & G). destruct (B d Pd) as [(q1 & C1 & O1 & H1) (q2 & C2 & O2 & H2)].
    apply H2, holds_parity; auto. apply holds_parity in H1; auto. destruct (G q1 C1) as [_ E1], (G q2 C2) as [_ E2]. congruence.
Qed.
(** Empty exactly if the operation holds nowhere off the outlines. *)
Theorem nothing_drawn : shaped h -> Forall nondegenerate (geometry_rings h) -> (h = GEmpty <-> forall q, clear_of g g' q -> ~ holds q).
Proof.
  intros Sh Nd. split.
  - intros E q C H. apply holds_parity in H; auto. rewrite E in H. discriminate.
  - intros No. assert (X : forall x, ~ outlined h x).
    { intros x O. apply outline_sides in O. destruct (O 1) as [(z & _ & C & H) _]; [vm_compute; reflexivity|]. exact (No z C H). }
    apply drawn_empty; auto.
Qed.
End Drawn.
