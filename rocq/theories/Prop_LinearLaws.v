(** C87, C88: the laws of the operators between linear geometries, Empty among them, and their
    agreement with [relate_to].

    Every occurrence of an operator has its own tree shape, how the search tree of its sweep
    line happens to be balanced; [comes_to] allows any bounds that suffice for the loops. *)
From Coq Require Import QArith Qcanon Bool List Arith ZArith Lia.
From Verif Require Import QcTac Model_Base Model_Geometry Model_Contour Model_Segment Model_Linear Model_LinearOperators Model_Relate Model_RelateLinear
  Spec_Base Spec_Segment Spec_Clip Spec_Contour Spec_Relate Spec_Bounds Spec_Sweep Spec_Shaped Spec_Multipolygon Spec_MixedClip Spec_RelateLinear Spec_Literals Spec_LinearLaws
  Proof_RelateP Proof_Sweep20 Proof_LinearLaws1 Proof_LinearLaws2 Proof_LinearLaws3 Proof_LinearLaws4 Prop_RelateMixed.
Import ListNotations.

(** ** C87 *)
(** The operators, for operands of all linear kinds: no exception, a valid geometry, these points. *)
Theorem c87_operators : forall fuel shape a b, linear_valid a -> linear_valid b ->
  (enough (length (parts a) + length (parts b)) <= fuel)%nat ->
  let gives outcome P := exists g, outcome = Some (Clips g) /\ linear_valid g /\ forall p, on_geometry g p <-> P p in
  gives (linear_and fuel shape a b) (on_common_continuum_lists (parts a) (parts b))
  /\ gives (linear_or fuel shape a b) (fun p => on_geometry a p \/ on_geometry b p)
  /\ gives (linear_sub fuel shape a b) (in_difference_lists (parts a) (parts b))
  /\ gives (linear_xor fuel shape a b)
       (fun p => in_difference_lists (parts a) (parts b) p \/ in_difference_lists (parts b) (parts a) p).
Proof.
  exact (fun fuel shape a b Va Vb F => conj (and_linear fuel shape a b Va Vb F) (conj (or_linear fuel shape a b Va Vb F)
    (conj (sub_linear fuel shape a b Va Vb F) (xor_linear fuel shape a b Va Vb F)))).
Qed.
Print Assumptions c87_operators.
(** So an expression of valid operands never raises; whatever it comes to is valid and has the
    points of the set operation it denotes, but for finitely many points. *)
Theorem c87_expressions : forall e, lvalid e -> (exists g, comes_to e g)
  /\ forall g, comes_to e g -> linear_valid g /\ almost_same (on_geometry g) (denotes e).
Proof. exact expressions. Qed.
Print Assumptions c87_expressions.
(** Results that differ in finitely many points do not differ, so expressions that denote the
    same set operation, up to finitely many points, come to the same points. *)
Theorem c87_same_denotation : forall e f, lvalid e -> lvalid f -> almost_same (denotes e) (denotes f) -> law e f.
Proof. exact same_denotation. Qed.
Print Assumptions c87_same_denotation.
(** Some of the laws. *)
Theorem c87_exchange : forall s t a b, lvalid a -> lvalid b ->
  law (LAnd s a b) (LAnd t b a) /\ law (LOr s a b) (LOr t b a) /\ law (LXor s a b) (LXor t b a)
  /\ law (LSub s a b) (LSub t a b).
Proof. exact exchange_laws. Qed.
Print Assumptions c87_exchange.
Theorem c87_grouping : forall s t u v a b c, lvalid a -> lvalid b -> lvalid c ->
  law (LAnd s (LAnd t a b) c) (LAnd u a (LAnd v b c))
  /\ law (LOr s (LOr t a b) c) (LOr u a (LOr v b c))
  /\ law (LXor s (LXor t a b) c) (LXor u a (LXor v b c))
  /\ law (LSub s (LSub t a b) c) (LSub u a (LOr v b c)).
Proof. exact grouping_laws. Qed.
Print Assumptions c87_grouping.
Theorem c87_distribution : forall s t u v w a b c, lvalid a -> lvalid b -> lvalid c ->
  law (LAnd s a (LOr t b c)) (LOr u (LAnd v a b) (LAnd w a c))
  /\ law (LOr s a (LAnd t b c)) (LAnd u (LOr v a b) (LOr w a c))
  /\ law (LAnd s a (LXor t b c)) (LXor u (LAnd v a b) (LAnd w a c))
  /\ law (LAnd s a (LSub t b c)) (LSub u (LAnd v a b) (LAnd w a c))
  /\ law (LSub s a (LAnd t b c)) (LOr u (LSub v a b) (LSub w a c))
  /\ law (LSub s a (LOr t b c)) (LAnd u (LSub v a b) (LSub w a c)).
Proof. exact distribution_laws. Qed.
Print Assumptions c87_distribution.
Theorem c87_reduction : forall s t u a b, lvalid a -> lvalid b ->
  law (LAnd s a a) a /\ law (LOr s a a) a /\ law (LSub s a a) (Lin GEmpty) /\ law (LXor s a a) (Lin GEmpty)
  /\ law (LOr s (LAnd t a b) (LSub u a b)) a
  /\ law (LSub s a (LSub t a b)) (LAnd u a b)
  /\ law (LSub s a (LAnd t a b)) (LSub u a b)
  /\ law (LOr s a (LAnd t a b)) a /\ law (LAnd s a (LOr t a b)) a
  /\ law (LXor s a (LXor t a b)) b.
Proof. exact reduction_laws. Qed.
Print Assumptions c87_reduction.
Theorem c87_symmetric_difference : forall s t u v a b, lvalid a -> lvalid b ->
  law (LXor s a b) (LOr t (LSub u a b) (LSub v b a)) /\ law (LXor s a b) (LSub t (LOr u a b) (LAnd v a b)).
Proof. exact symmetric_laws. Qed.
Print Assumptions c87_symmetric_difference.
(** With polygons and multipolygons [g] and [h]: [a & g] distributes over the operators. *)
Theorem c87_inside : forall s t u v w a b g h, lvalid a -> lvalid b -> valid_shaped g -> valid_shaped h ->
  law (LInside s a g) (LClip t g a)
  /\ law (LInside s (LAnd t a b) g) (LAnd u (LInside v a g) b)
  /\ law (LInside s (LOr t a b) g) (LOr u (LInside v a g) (LInside w b g))
  /\ law (LInside s (LSub t a b) g) (LSub u (LInside v a g) b)
  /\ law (LInside s (LXor t a b) g) (LXor u (LInside v a g) (LInside w b g))
  /\ law (LInside s (LInside t a g) h) (LInside u (LInside v a h) g)
  /\ law (LInside s (LInside t a g) g) (LInside u a g).
Proof. exact inside_laws. Qed.
Print Assumptions c87_inside.

(** Operands that cross, overlap along edges and touch; [a - (a - b)] and [a & b]. *)
Definition halving : tree_shape := fun _ _ l => (length l / 2)%nat.
Definition frame : geometry := GContour [pt 0 0; pt 4 0; pt 4 4; pt 0 4].
Definition sticks : geometry := GMultisegment [sg 5 0 3 0; sg 2 (-1) 2 5; sg (-1) 3 2 3; sg 2 5 9 9].
Definition bar : geometry := GSegment (sg 0 0 0 8).
Example c87_hypotheses : lvalid (LSub halving (Lin frame) (LXor halving (Lin sticks) (Lin bar)))
  /\ lvalid (LClip halving (GMultipolygon [lower; upper]) (LInside halving (Lin sticks) (GPolygon lower))).
Proof.
  assert (F : linear_valid frame) by (split; [cbn; lia|apply non_crossing_literal; vm_compute; reflexivity]).
  assert (S : linear_valid sticks) by (split; [cbn; lia|apply non_crossing_literal; vm_compute; reflexivity]).
  assert (B : linear_valid bar) by (cbn; intros E; apply (f_equal (fun p => this (py p))) in E; vm_compute in E; discriminate).
  assert (L : valid_shaped (GPolygon lower)) by (destruct triangles_valid as [[_ V] _]; pose proof (vm_each _ V) as W; inversion W; auto).
  exact (conj (conj F (conj S B)) (conj (conj S L) (proj1 triangles_valid))).
Qed.
Example c87_results :
  let run o := match o with Some (Clips g) => g | _ => GEmpty end in
  run (linear_sub 3000 halving frame (run (linear_sub 3000 halving frame sticks))) = GSegment (sg 3 0 4 0)
  /\ run (linear_and 3000 halving frame sticks) = GSegment (sg 3 0 4 0)
  /\ length (parts (run (linear_xor 3000 halving frame (run (linear_or 3000 halving sticks bar))))) = 14%nat.
Proof. cbv zeta. repeat split; vm_compute; reflexivity. Qed.

(** ** C88 *)
(** When the results are Empty. *)
Theorem c88_empty_results : forall fuel shape a b, linear_valid a -> linear_valid b ->
  (enough (length (parts a) + length (parts b)) <= fuel)%nat ->
  (linear_and fuel shape a b = Some (Clips GEmpty)
     <-> ~ exists s t, In s (parts a) /\ In t (parts b) /\ share_continuum s t)
  /\ (linear_or fuel shape a b = Some (Clips GEmpty) <-> a = GEmpty /\ b = GEmpty)
  /\ (linear_sub fuel shape a b = Some (Clips GEmpty) <-> forall p, on_geometry a p -> on_geometry b p)
  /\ (linear_xor fuel shape a b = Some (Clips GEmpty) <-> forall p, on_geometry a p <-> on_geometry b p).
Proof.
  exact (fun fuel shape a b Va Vb F => conj (and_nothing fuel shape a b Va Vb F) (conj (or_nothing fuel shape a b Va Vb F)
    (conj (sub_nothing fuel shape a b Va Vb F) (xor_nothing fuel shape a b Va Vb F)))).
Qed.
Print Assumptions c88_empty_results.
(** [relate_to] agrees with the operators: two segments; a segment and a multisegment or a
    contour, in either order; two contours; and two contours or multisegments as in C68. *)
Theorem c88_segments : forall s t r, proper_seg s -> proper_seg t -> segment_relate_to_segment s t = Some r ->
  operations_agree r (GSegment s) (GSegment t).
Proof. exact segments_agree. Qed.
Print Assumptions c88_segments.
Theorem c88_segment_multisegment : forall s l r, proper_seg s -> non_crossing l -> (2 <= length l)%nat ->
  (segment_relate_to_multisegment s l = Some r -> operations_agree r (GSegment s) (GMultisegment l))
  /\ (multisegment_relate_to_segment l s = Some r -> operations_agree r (GMultisegment l) (GSegment s)).
Proof. exact segment_multisegment_agree. Qed.
Print Assumptions c88_segment_multisegment.
Theorem c88_segment_contour : forall s vs r, proper_seg s -> simple_contour vs ->
  (segment_relate_to_contour s vs = Some r -> operations_agree r (GSegment s) (GContour vs))
  /\ (contour_relate_to_segment vs s = Some r -> operations_agree r (GContour vs) (GSegment s)).
Proof. exact segment_contour_agree. Qed.
Print Assumptions c88_segment_contour.
Theorem c88_contours : forall vs vs', simple_contour vs -> simple_contour vs' ->
  forall fuel shape, (enough (length vs + length vs') <= fuel)%nat ->
  (exists r, linear_relate_to fuel shape (GContour vs) (GContour vs') = Relates r
     /\ operations_agree r (GContour vs) (GContour vs'))
  \/ (linear_relate_to fuel shape (GContour vs) (GContour vs') = RelateRaises
      /\ operations_agree DISJOINT (GContour vs) (GContour vs')).
Proof. exact contours_agree. Qed.
Print Assumptions c88_contours.
Theorem c88_several : forall first second, joined_operand first -> joined_operand second ->
  (forall s, In s (parts first) -> ~ same_points s (parts second)) ->
  (forall s, In s (parts second) -> ~ same_points s (parts first)) ->
  forall fuel shape, (enough (length (parts first) + length (parts second)) <= fuel)%nat ->
  (exists r, linear_relate_to fuel shape first second = Relates r /\ operations_agree r first second)
  \/ (linear_relate_to fuel shape first second = RelateRaises /\ operations_agree DISJOINT first second).
Proof. exact linear_agree. Qed.
Print Assumptions c88_several.
Example c88_example :
  segment_relate_to_contour (sg 1 0 3 0) [pt 0 0; pt 4 0; pt 4 4; pt 0 4] = Some COMPONENT
  /\ linear_sub 3000 halving (GSegment (sg 1 0 3 0)) frame = Some (Clips GEmpty)
  /\ linear_relate_to 3000 halving frame (GContour [pt 4 1; pt 8 1; pt 8 3; pt 4 3]) = Relates OVERLAP
  /\ linear_and 3000 halving frame (GContour [pt 4 1; pt 8 1; pt 8 3; pt 4 3]) = Some (Clips (GSegment (sg 4 1 4 3)))
  /\ linear_relate_to 3000 halving frame (GContour [pt 2 2; pt 6 2; pt 6 6; pt 2 6]) = Relates CROSS
  /\ linear_and 3000 halving frame (GContour [pt 2 2; pt 6 2; pt 6 6; pt 2 6]) = Some (Clips GEmpty).
Proof. repeat split; vm_compute; reflexivity. Qed.
