(** Laws of the operators between linear geometries; empty results; agreement with the relations. *)
From Coq Require Import QArith Qcanon Bool List Arith Lia.
From Verif Require Import QcTac Model_Base Model_Box Model_Geometry Model_Contour Model_Segment Model_Linear Model_MixedClip Model_LinearOperators Model_Relate Model_RelateLinear
  Spec_Base Spec_Segment Spec_Clip Spec_Contour Spec_Relate Spec_Bounds Spec_Sweep Spec_Shaped Spec_Multipolygon Spec_RelateShaped Spec_Tight Spec_MixedClip Spec_RelateLinear Spec_LinearLaws
  Proof_Base Proof_Line Proof_SegRel Proof_SegOps Proof_SegOps2 Proof_SegOps3 Proof_SegLoops Proof_SegUnion Proof_Locate Proof_RelateP Proof_Sweep17 Proof_Sweep19 Proof_Sweep20 Proof_RelSweep7
  Proof_Relate6 Proof_Relate7 Proof_LinearLaws1 Proof_LinearLaws2 Proof_LinearLaws3.
Import ListNotations.
Local Open Scope Qc_scope.

Lemma pointwise e f : lvalid e -> lvalid f -> (forall p, denotes e p <-> denotes f p) -> law e f.
Proof. intros Ve Vf H. apply same_denotation; [exact Ve|exact Vf|]. apply almost_of, H. Qed.
(** The laws, for operands that are expressions themselves. *)
Ltac law_by := apply pointwise; cbn [lvalid denotes]; [tauto|tauto|]; intros p;
  repeat match goal with V : lvalid ?e |- _ => pose proof (denotes_dec e p V); clear V end; tauto.
Theorem exchange_laws s t a b : lvalid a -> lvalid b ->
  law (LAnd s a b) (LAnd t b a) /\ law (LOr s a b) (LOr t b a) /\ law (LXor s a b) (LXor t b a)
  /\ law (LSub s a b) (LSub t a b).
Proof. intros Va Vb. repeat match goal with |- _ /\ _ => split end; law_by. Qed.
Theorem grouping_laws s t u v a b c : lvalid a -> lvalid b -> lvalid c ->
  law (LAnd s (LAnd t a b) c) (LAnd u a (LAnd v b c))
  /\ law (LOr s (LOr t a b) c) (LOr u a (LOr v b c))
  /\ law (LXor s (LXor t a b) c) (LXor u a (LXor v b c))
  /\ law (LSub s (LSub t a b) c) (LSub u a (LOr v b c)).
Proof. intros Va Vb Vc. repeat match goal with |- _ /\ _ => split end; law_by. Qed.
Theorem distribution_laws s t u v w a b c : lvalid a -> lvalid b -> lvalid c ->
  law (LAnd s a (LOr t b c)) (LOr u (LAnd v a b) (LAnd w a c))
  /\ law (LOr s a (LAnd t b c)) (LAnd u (LOr v a b) (LOr w a c))
  /\ law (LAnd s a (LXor t b c)) (LXor u (LAnd v a b) (LAnd w a c))
  /\ law (LAnd s a (LSub t b c)) (LSub u (LAnd v a b) (LAnd w a c))
  /\ law (LSub s a (LAnd t b c)) (LOr u (LSub v a b) (LSub w a c))
  /\ law (LSub s a (LOr t b c)) (LAnd u (LSub v a b) (LSub w a c)).
Proof. intros Va Vb Vc. repeat match goal with |- _ /\ _ => split end; law_by. Qed.
Theorem reduction_laws s t u a b : lvalid a -> lvalid b ->
  law (LAnd s a a) a /\ law (LOr s a a) a /\ law (LSub s a a) (Lin GEmpty) /\ law (LXor s a a) (Lin GEmpty)
  /\ law (LOr s (LAnd t a b) (LSub u a b)) a
  /\ law (LSub s a (LSub t a b)) (LAnd u a b)
  /\ law (LSub s a (LAnd t a b)) (LSub u a b)
  /\ law (LOr s a (LAnd t a b)) a /\ law (LAnd s a (LOr t a b)) a
  /\ law (LXor s a (LXor t a b)) b.
Proof.
  intros Va Vb. assert (E : lvalid (Lin GEmpty)) by exact Logic.I.
  assert (N : forall p, ~ on_geometry GEmpty p) by (intros p (x & [] & _)).
  repeat match goal with |- _ /\ _ => split end; (apply pointwise; cbn [lvalid denotes]; [tauto|tauto|]; intros p; specialize (N p);
    pose proof (denotes_dec a p Va); pose proof (denotes_dec b p Vb); tauto).
Qed.
Theorem symmetric_laws s t u v a b : lvalid a -> lvalid b ->
  law (LXor s a b) (LOr t (LSub u a b) (LSub v b a)) /\ law (LXor s a b) (LSub t (LOr u a b) (LAnd v a b)).
Proof. intros Va Vb. repeat match goal with |- _ /\ _ => split end; law_by. Qed.
Theorem inside_laws s t u v w a b g h : lvalid a -> lvalid b -> valid_shaped g -> valid_shaped h ->
  law (LInside s a g) (LClip t g a)
  /\ law (LInside s (LAnd t a b) g) (LAnd u (LInside v a g) b)
  /\ law (LInside s (LOr t a b) g) (LOr u (LInside v a g) (LInside w b g))
  /\ law (LInside s (LSub t a b) g) (LSub u (LInside v a g) b)
  /\ law (LInside s (LXor t a b) g) (LXor u (LInside v a g) (LInside w b g))
  /\ law (LInside s (LInside t a g) h) (LInside u (LInside v a h) g)
  /\ law (LInside s (LInside t a g) g) (LInside u a g).
Proof. intros Va Vb Vg Vh. repeat match goal with |- _ /\ _ => split end; law_by. Qed.

(** ** Empty results *)
Lemma empty_iff_points g : linear_valid g -> (g = GEmpty <-> forall p, ~ on_geometry g p).
Proof.
  intros V. split; [intros -> p (s & [] & _)|]. intros H.
  assert (N : parts g = []). { destruct (parts g) as [|s l] eqn:E; [reflexivity|]. destruct (H (seg_start s)). exists s. unfold on_geometry. rewrite E. split; [left; reflexivity|apply between_start]. }
  destruct g as [|s|l|vs|p|ps]; try contradiction; [reflexivity|discriminate| |].
  - pose proof (multisegmental_two _ (proj1 V)) as T. rewrite N in T. cbn in T. lia.
  - pose proof (multisegmental_two _ (proj1 V)) as T. rewrite N in T. cbn in T. lia.
Qed.
Lemma gives_empty o P : gives o P -> (o = Some (Clips GEmpty) <-> forall p, ~ P p).
Proof.
  intros (g & E & V & C). rewrite E. split.
  - intros K. assert (g = GEmpty) by (injection K; auto). subst g. intros p Q. apply C in Q. destruct Q as (s & [] & _).
  - intros N. f_equal. f_equal. apply empty_iff_points; [exact V|]. intros p Q. apply (N p), C, Q.
Qed.
Section Empty.
Variables (fuel : nat) (shape : tree_shape) (a b : geometry).
Hypothesis Va : linear_valid a.
Hypothesis Vb : linear_valid b.
Hypothesis Fuel : (enough (length (parts a) + length (parts b)) <= fuel)%nat.
Lemma fuel_swapped : (enough (length (parts b) + length (parts a)) <= fuel)%nat.
Proof. rewrite Nat.add_comm. exact Fuel. Qed.
Lemma and_nothing : linear_and fuel shape a b = Some (Clips GEmpty)
  <-> ~ exists s t, In s (parts a) /\ In t (parts b) /\ share_continuum s t.
Proof.
  rewrite (gives_empty _ _ (and_linear fuel shape a b Va Vb Fuel)). split.
  - intros N (s & t & Is & It & Sh). destruct Sh as (u & v & D & A & B & C & E).
    apply (N u). exists s, t. split; [exact Is|]. split; [exact It|]. split; [exists u, v; auto|split; assumption].
  - intros N p (s & t & Is & It & Sh & _). apply N. exists s, t. auto.
Qed.
Lemma or_nothing : linear_or fuel shape a b = Some (Clips GEmpty) <-> a = GEmpty /\ b = GEmpty.
Proof.
  rewrite (gives_empty _ _ (or_linear fuel shape a b Va Vb Fuel)), (empty_iff_points a Va), (empty_iff_points b Vb).
  unfold C_or, on_geometry. split.
  - intros N. split; intros p O; apply (N p); [left|right]; exact O.
  - intros [N M] p [O|O]; [apply (N p O)|apply (M p O)].
Qed.
End Empty.
Lemma sub_nothing_points a b : linear_valid a -> linear_valid b ->
  ((forall p, ~ C_sub a b p) <-> forall p, on_geometry a p -> on_geometry b p).
Proof.
  intros Va Vb. pose proof (linear_proper a Va) as Pa. pose proof (linear_proper b Vb) as Pb. split.
  - intros N p O. destruct (on_segs_dec (parts b) p) as [Y|Y]; [exact Y|]. destruct (N p). apply outside_difference; assumption.
  - intros H p (s & Is & O & q & D & Oq & Free).
    assert (Npq : p <> q) by (intros E; apply D; symmetry; exact E).
    pose proof (middle_strict p q Npq) as M. apply (Free _ M), H. exists s. split; [exact Is|].
    apply (on_seg_convex s p q); assumption.
Qed.
Section Empty2.
Variables (fuel : nat) (shape : tree_shape) (a b : geometry).
Hypothesis Va : linear_valid a.
Hypothesis Vb : linear_valid b.
Hypothesis Fuel : (enough (length (parts a) + length (parts b)) <= fuel)%nat.
Lemma sub_nothing : linear_sub fuel shape a b = Some (Clips GEmpty) <-> forall p, on_geometry a p -> on_geometry b p.
Proof. rewrite (gives_empty _ _ (sub_linear fuel shape a b Va Vb Fuel)). apply sub_nothing_points; assumption. Qed.
Lemma xor_nothing : linear_xor fuel shape a b = Some (Clips GEmpty) <-> forall p, on_geometry a p <-> on_geometry b p.
Proof.
  rewrite (gives_empty _ _ (xor_linear fuel shape a b Va Vb Fuel)).
  assert (E : (forall p, ~ C_xor a b p) <-> (forall p, ~ C_sub a b p) /\ (forall p, ~ C_sub b a p)).
  { unfold C_xor, C_sub. split; [intros H; split; intros p K; apply (H p); [left|right]; exact K|intros [H K] p [Q|Q]; [apply (H p Q)|apply (K p Q)]]. }
  rewrite E, (sub_nothing_points a b Va Vb), (sub_nothing_points b a Vb Va). split.
  - intros [H K] p. split; [apply H|apply K].
  - intros H. split; intros p; apply H.
Qed.
End Empty2.

(** ** The relations *)
Lemma spec_agrees r a b : linear_valid a -> linear_valid b -> a <> GEmpty -> b <> GEmpty ->
  linear_relation_spec r (parts a) (parts b) -> operations_agree r a b.
Proof.
  intros Va Vb Na Nb S fuel shape Fu.
  rewrite (and_nothing fuel shape a b Va Vb Fu), (sub_nothing fuel shape a b Va Vb Fu),
    (sub_nothing fuel shape b a Vb Va (fuel_swapped fuel a b Fu)), (xor_nothing fuel shape a b Va Vb Fu).
  set (sub := forall p, on_geometry a p -> on_geometry b p). set (sup := forall p, on_geometry b p -> on_geometry a p).
  set (sh := exists s t, In s (parts a) /\ In t (parts b) /\ share_continuum s t).
  assert (E : (forall p, on_geometry a p <-> on_geometry b p) <-> sub /\ sup).
  { unfold sub, sup. split; [intros H; split; intros p; apply H|intros [H K] p; split; [apply H|apply K]]. }
  rewrite E. clear E.
  pose proof (linear_proper a Va) as Pa. pose proof (linear_proper b Vb) as Pb.
  assert (Ha : exists s, In s (parts a)).
  { destruct (parts a) as [|s l] eqn:K; [|exists s; left; reflexivity]. destruct Na. apply empty_iff_points; [exact Va|]. intros p (x & I & _). rewrite K in I. destruct I. }
  assert (Hb : exists s, In s (parts b)).
  { destruct (parts b) as [|s l] eqn:K; [|exists s; left; reflexivity]. destruct Nb. apply empty_iff_points; [exact Vb|]. intros p (x & I & _). rewrite K in I. destruct I. }
  assert (Sub : sub -> sh).
  { intros H. destruct Ha as (s & I). rewrite Forall_forall in Pa. destruct (relater_overlap s (parts b) (Pa s I) Pb) as (t & It & Sh).
    - intros p O. apply H. exists s. split; assumption.
    - exists s, t. auto. }
  assert (Sup : sup -> sh).
  { intros H. destruct Hb as (s & I). rewrite Forall_forall in Pb. destruct (relater_overlap s (parts a) (Pb s I) Pa) as (t & It & Sh).
    - intros p O. apply H. exists s. split; assumption.
    - exists t, s. split; [exact It|]. split; [exact I|]. destruct Sh as (u & v & D & A & B & C & F). exists u, v. auto. }
  assert (Com : sh -> exists p, on_segs (parts a) p /\ on_segs (parts b) p).
  { intros (s & t & Is & It & u & v & _ & A & B & _). exists u. split; [exists s|exists t]; auto. }
  assert (T : forall l, In r l -> In r l) by auto. clear Na Nb Ha Hb Pa Pb Fu Va Vb.
  assert (Q : match r with EQUAL => sub /\ sup | COMPONENT => sub /\ ~ sup | COMPOSITE => sup /\ ~ sub | OVERLAP => sh /\ ~ sub /\ ~ sup
    | CROSS | TOUCH => ~ sh | DISJOINT => ~ sh | _ => False end).
  { destruct r; cbn in S; try exact S; try tauto; try (intros K; apply S, Com, K). }
  clear S Com T. clearbody sub sup sh.
  destruct r; cbn [In] in *; try contradiction; repeat match goal with |- _ /\ _ => split end; split; intros K;
    try (repeat match goal with H : _ \/ _ |- _ => destruct H as [H|H] end; try discriminate; tauto).
Qed.

Lemma single_spec r s l : segment_list_relation_spec r s l -> linear_relation_spec r [s] l.
Proof.
  assert (E : forall p, on_segs [s] p <-> on_seg s p) by (intros p; apply on_single).
  assert (Sub : (forall p, on_seg s p -> on_segs l p) <-> (forall p, on_segs [s] p -> on_segs l p)).
  { split; intros H p O; apply H, E, O. }
  assert (Sup : (forall p, on_segs l p -> on_seg s p) <-> (forall p, on_segs l p -> on_segs [s] p)).
  { split; intros H p O; apply E, H, O. }
  assert (Com : (exists p, on_seg s p /\ on_segs l p) <-> (exists p, on_segs [s] p /\ on_segs l p)).
  { split; intros (p & O & O'); exists p; (split; [apply E, O|exact O']). }
  assert (Ov : (exists t, In t l /\ share_continuum s t) <-> (exists s0 t, In s0 [s] /\ In t l /\ share_continuum s0 t)).
  { split; [intros (t & I & H); exists s, t; split; [left; reflexivity|auto]|intros (s0 & t & [<-|[]] & I & H); exists t; auto]. }
  assert (Cr : (exists p, passes_through s l p) -> exists p, on_segs [s] p /\ on_segs l p).
  { intros (p & Ip & t & _ & _ & _ & It & _ & Ot & _). exists p. split; [apply E; apply strictly_between_between; exact Ip|exists t; split; assumption]. }
  unfold segment_list_relation_spec, linear_relation_spec. cbv zeta.
  destruct r; tauto.
Qed.
Lemma pair_spec r s t : proper_seg s -> proper_seg t -> seg_relation_spec r s t -> linear_relation_spec r [s] [t].
Proof.
  intros Ps Pt. assert (E : forall u p, on_segs [u] p <-> on_seg u p) by (intros u p; apply on_single).
  assert (Sub : forall u v, seg_subset u v <-> (forall p, on_segs [u] p -> on_segs [v] p)).
  { intros u v. split; intros H p O; apply E, H, E, O. }
  assert (Com : (exists p, on_seg s p /\ on_seg t p) <-> (exists p, on_segs [s] p /\ on_segs [t] p)).
  { split; intros (p & O & O'); exists p; (split; apply E; assumption). }
  assert (Ov : share_continuum s t <-> (exists s0 t0, In s0 [s] /\ In t0 [t] /\ share_continuum s0 t0)).
  { split; [intros H; exists s, t; split; [left; reflexivity|split; [left; reflexivity|exact H]]|intros (s0 & t0 & [<-|[]] & [<-|[]] & H); exact H]. }
  assert (One : forall p, only_common_point s t p -> (exists q, on_seg s q /\ on_seg t q) /\ ~ share_continuum s t).
  { intros p (O & O' & U). split; [exists p; auto|]. intros (u & v & D & A & B & C & F). apply D. rewrite (U u A B), (U v C F). reflexivity. }
  assert (Same : seg_same s t <-> seg_subset s t /\ seg_subset t s).
  { unfold seg_same, seg_subset. split; [intros H; split; intros p; apply H|intros [H K] p; split; [apply H|apply K]]. }
  unfold linear_relation_spec. cbv zeta. unfold seg_relation_spec.
  pose proof (Sub s t) as S1. pose proof (Sub t s) as S2. clear Sub E.
  destruct r; try tauto; intros (p & O & _); pose proof (One p O); tauto.
Qed.
Lemma spec_complement r l l' : linear_relation_spec r l l' -> linear_relation_spec (complement r) l' l.
Proof.
  assert (Com : (exists p, on_segs l p /\ on_segs l' p) <-> (exists p, on_segs l' p /\ on_segs l p)).
  { split; intros (p & A & B); exists p; auto. }
  assert (Ov : (exists s t, In s l /\ In t l' /\ share_continuum s t) <-> (exists s t, In s l' /\ In t l /\ share_continuum s t)).
  { split; intros (s & t & A & B & u & v & D & O1 & O2 & O3 & O4); exists t, s; (split; [exact B|]; split; [exact A|]; exists u, v; auto). }
  unfold linear_relation_spec. cbv zeta. destruct r; cbn; tauto.
Qed.
Lemma complement_twice r : complement (complement r) = r.
Proof. destruct r; reflexivity. Qed.

Theorem segments_agree s t r : proper_seg s -> proper_seg t -> segment_relate_to_segment s t = Some r ->
  operations_agree r (GSegment s) (GSegment t).
Proof.
  intros Ps Pt H. apply spec_agrees; [exact Ps|exact Pt|discriminate|discriminate|].
  apply pair_spec; [exact Ps|exact Pt|]. apply segment_relate_spec; assumption.
Qed.
Lemma multisegment_valid l : non_crossing l -> (2 <= length l)%nat -> linear_valid (GMultisegment l).
Proof. intros N L. split; [exact L|exact N]. Qed.
Lemma contour_valid vs : simple_contour vs -> linear_valid (GContour vs).
Proof. intros C. split; [apply (proj1 C)|]. apply joined_non_crossing, simple_joined, C. Qed.
Theorem segment_multisegment_agree s l r : proper_seg s -> non_crossing l -> (2 <= length l)%nat ->
  (segment_relate_to_multisegment s l = Some r -> operations_agree r (GSegment s) (GMultisegment l))
  /\ (multisegment_relate_to_segment l s = Some r -> operations_agree r (GMultisegment l) (GSegment s)).
Proof.
  intros Ps N L. pose proof (multisegment_valid l N L) as Vl. split; intros H.
  - apply spec_agrees; [exact Ps|exact Vl|discriminate|discriminate|]. apply single_spec.
    apply (relate_multisegment_only s l r); assumption.
  - apply spec_agrees; [exact Vl|exact Ps|discriminate|discriminate|].
    rewrite <- (complement_twice r). apply spec_complement, single_spec.
    apply (relate_multisegment_back l s (complement r)); [exact Ps|exact N|exact L|]. rewrite complement_twice. exact H.
Qed.
Theorem segment_contour_agree s vs r : proper_seg s -> simple_contour vs ->
  (segment_relate_to_contour s vs = Some r -> operations_agree r (GSegment s) (GContour vs))
  /\ (contour_relate_to_segment vs s = Some r -> operations_agree r (GContour vs) (GSegment s)).
Proof.
  intros Ps C. pose proof (contour_valid vs C) as Vl. split; intros H.
  - apply spec_agrees; [exact Ps|exact Vl|discriminate|discriminate|]. apply single_spec.
    apply (relate_contour_only s vs r); assumption.
  - apply spec_agrees; [exact Vl|exact Ps|discriminate|discriminate|].
    rewrite <- (complement_twice r). apply spec_complement, single_spec.
    apply (relate_contour_back vs s (complement r)); [exact Ps|exact C|]. rewrite complement_twice. exact H.
Qed.
Lemma joined_valid g : joined_operand g -> linear_valid g.
Proof.
  intros J. pose proof (operand_joined g J) as N. apply joined_non_crossing in N.
  destruct g as [|s|l|vs|p|ps]; try contradiction; (split; [|exact N]).
  - apply J.
  - apply (proj1 J).
Qed.
Lemma joined_some g : joined_operand g -> g <> GEmpty.
Proof. intros J E. subst g. exact J. Qed.
Theorem linear_agree first second : joined_operand first -> joined_operand second ->
  (forall s, In s (parts first) -> ~ same_points s (parts second)) ->
  (forall s, In s (parts second) -> ~ same_points s (parts first)) ->
  forall fuel shape, (enough (length (parts first) + length (parts second)) <= fuel)%nat ->
  (exists r, linear_relate_to fuel shape first second = Relates r /\ operations_agree r first second)
  \/ (linear_relate_to fuel shape first second = RelateRaises /\ operations_agree DISJOINT first second).
Proof.
  intros J1 J2 H1 H2 fuel shape Fu. destruct (linear_relate_spec first second J1 J2 H1 H2 fuel shape Fu) as [(r & E & S)|(E & S)]; [left; exists r|right]; (split; [exact E|]);
    apply spec_agrees; try apply joined_valid; try apply joined_some; assumption.
Qed.
Theorem contours_agree vs vs' : simple_contour vs -> simple_contour vs' ->
  forall fuel shape, (enough (length vs + length vs') <= fuel)%nat ->
  (exists r, linear_relate_to fuel shape (GContour vs) (GContour vs') = Relates r /\ operations_agree r (GContour vs) (GContour vs'))
  \/ (linear_relate_to fuel shape (GContour vs) (GContour vs') = RelateRaises /\ operations_agree DISJOINT (GContour vs) (GContour vs')).
Proof.
  intros C C' fuel shape Fu. destruct (contours_relate_spec vs vs' fuel shape C C' Fu) as [(r & E & S)|(E & S)]; [left; exists r|right]; (split; [exact E|]);
    apply spec_agrees; try apply contour_valid; try discriminate; assumption.
Qed.
