(** C03, C04, C05, C06, C20: boxes, the box filters of the clipping operations and
    bounding boxes. *)
From Coq Require Import QArith Qcanon Bool List ZArith.
From Verif Require Import QcTac Model_Base Model_Box Model_Geometry
  Model_Segment Spec_Base Spec_Segment Spec_Bounds Proof_Box Proof_Box2 Proof_Bounds.
Import ListNotations.
Local Open Scope Qc_scope.

(** ** C03 *)
Theorem c03_valid_iff_has_points : forall a,
  box_is_valid a = true <-> exists p, in_box a p.
Proof. exact is_valid_spec. Qed.
Print Assumptions c03_valid_iff_has_points.

Theorem c03_disjoint_with : forall a b, valid_box a -> valid_box b ->
  (box_disjoint_with a b = true <-> ~ exists p, in_box a p /\ in_box b p).
Proof. exact disjoint_with_spec. Qed.
Print Assumptions c03_disjoint_with.

Theorem c03_covers_within : forall a b, valid_box a -> valid_box b ->
  (box_covers a b = true <-> box_inner_subset b a)
  /\ (box_within a b = true <-> box_inner_subset a b).
Proof.
  intros a b Ha Hb. exact (conj (covers_spec a b Hb) (within_spec a b Ha)).
Qed.
Print Assumptions c03_covers_within.

Theorem c03_encloses_enclosed : forall a b, valid_box a -> valid_box b ->
  (box_encloses a b = true <->
     box_subset b a /\ ~ box_subset a b /\ ~ box_inner_subset b a)
  /\ (box_enclosed_by a b = true <->
     box_subset a b /\ ~ box_subset b a /\ ~ box_inner_subset a b).
Proof.
  intros a b Ha Hb. exact (conj (encloses_spec a b Ha Hb) (enclosed_by_spec a b Ha Hb)).
Qed.
Print Assumptions c03_encloses_enclosed.

Theorem c03_equals_to : forall a b, valid_box a -> valid_box b ->
  (box_equals_to a b = true <-> forall p, in_box a p <-> in_box b p)
  /\ (box_eq a b = true <-> a = b).
Proof. intros a b Ha Hb. exact (conj (equals_to_spec a b Ha Hb) (box_eq_spec a b)). Qed.
Print Assumptions c03_equals_to.

(** [touches] and [overlaps] speak of interiors, so the boxes must have some. *)
Theorem c03_touches_overlaps : forall a b, solid_box a -> solid_box b ->
  (box_touches a b = true <->
     (exists p, in_box a p /\ in_box b p)
     /\ ~ exists p, inside_box a p /\ inside_box b p)
  /\ (box_overlaps a b = true <->
     (exists p, inside_box a p /\ inside_box b p)
     /\ ~ box_subset a b /\ ~ box_subset b a).
Proof.
  intros a b Ha Hb. exact (conj (touches_spec a b Ha Hb) (overlaps_spec a b Ha Hb)).
Qed.
Print Assumptions c03_touches_overlaps.

(** ** C04 *)
Theorem c04_relate_iff_meaning : forall a b r, solid_box a -> solid_box b ->
  (box_relate_to a b = Some r <-> box_relation_spec r a b).
Proof. exact relate_spec. Qed.
Print Assumptions c04_relate_iff_meaning.

(** The asserts of [relate_to] never fail, not even for degenerate boxes ... *)
Theorem c04_relate_total : forall a b, valid_box a -> valid_box b ->
  box_relate_to a b <> None.
Proof. exact box_relate_total. Qed.
Print Assumptions c04_relate_total.

(** ... and exactly one of the predicates holds, the one named by [relate_to]. *)
Theorem c04_relate_iff_predicate : forall a b, solid_box a -> solid_box b ->
  (box_relate_to a b = Some EQUAL <-> box_equals_to a b = true)
  /\ (box_relate_to a b = Some DISJOINT <-> box_disjoint_with a b = true)
  /\ (box_relate_to a b = Some TOUCH <-> box_touches a b = true)
  /\ (box_relate_to a b = Some COVER <-> box_covers a b = true)
  /\ (box_relate_to a b = Some WITHIN <-> box_within a b = true)
  /\ (box_relate_to a b = Some ENCLOSES <-> box_encloses a b = true)
  /\ (box_relate_to a b = Some ENCLOSED <-> box_enclosed_by a b = true)
  /\ (box_relate_to a b = Some OVERLAP <-> box_overlaps a b = true).
Proof. exact relate_predicates. Qed.
Print Assumptions c04_relate_iff_predicate.

(** For degenerate boxes two predicates may hold at once (a point "touches"
    itself), so the restriction to solid boxes is necessary. *)
Theorem c04_exclusive_degenerate_refuted : exists a b,
  valid_box a /\ valid_box b
  /\ box_touches a b = true /\ box_equals_to a b = true.
Proof. exact degenerate_touch_equal. Qed.
Print Assumptions c04_exclusive_degenerate_refuted.

Example c04_example :
  let a := Box 0 (1 + 1) 0 (1 + 1) in let b := Box 1 (1 + 1) 0 1 in
  solid_box a /\ solid_box b /\ box_relate_to a b = Some ENCLOSES
  /\ box_relate_to a (Box 1 (1 + 1 + 1) 1 (1 + 1 + 1)) = Some OVERLAP
  /\ box_relate_to a (Box (1 + 1) (1 + 1 + 1) 1 (1 + 1 + 1)) = Some TOUCH.
Proof. vm_compute; repeat split. Qed.

(** ** C05 *)
Theorem c05_relate_complement : forall a b r, valid_box a -> valid_box b ->
  box_relate_to a b = Some r -> box_relate_to b a = Some (complement r).
Proof. exact box_relate_complement. Qed.
Print Assumptions c05_relate_complement.

(** ** C06 *)
Theorem c06_common_point_not_disjoint : forall g h p,
  constructed g -> constructed h -> on_outline g p -> on_outline h p ->
  box_disjoint_with (bounding_box g) (bounding_box h) = false.
Proof. exact boxes_not_disjoint. Qed.
Print Assumptions c06_common_point_not_disjoint.

Theorem c06_common_continuum_kept : forall g h p q,
  constructed g -> constructed h -> p <> q ->
  on_outline g p -> on_outline h p -> on_outline g q -> on_outline h q ->
  do_boxes_have_common_continuum (bounding_box g) (bounding_box h) = true.
Proof. exact boxes_common_continuum. Qed.
Print Assumptions c06_common_continuum_kept.

Theorem c06_filters_complementary : forall a b,
  do_boxes_have_no_common_area a b = negb (do_boxes_have_common_area a b)
  /\ do_boxes_have_no_common_continuum a b = negb (do_boxes_have_common_continuum a b).
Proof.
  intros a b. exact (conj (area_filters_complementary a b)
                          (continuum_filters_complementary a b)).
Qed.
Print Assumptions c06_filters_complementary.

Theorem c06_filters_exact : forall a b, solid_box a -> solid_box b ->
  (do_boxes_have_common_area a b = true <-> exists p, inside_box a p /\ inside_box b p)
  /\ (do_boxes_have_common_continuum a b = true <->
      exists p q, p <> q /\ in_box a p /\ in_box b p /\ in_box a q /\ in_box b q).
Proof.
  intros a b Ha Hb. exact (conj (area_filter_spec a b Ha Hb)
                                (continuum_filter_spec a b Ha Hb)).
Qed.
Print Assumptions c06_filters_exact.

Theorem c06_merge_is_least_cover : forall first rest,
  valid_box first -> Forall valid_box rest ->
  valid_box (merge_boxes first rest)
  /\ (forall b, In b (first :: rest) -> box_subset b (merge_boxes first rest))
  /\ (forall c, (forall b, In b (first :: rest) -> box_subset b c) ->
        box_subset (merge_boxes first rest) c).
Proof. exact merge_boxes_lub. Qed.
Print Assumptions c06_merge_is_least_cover.

(** ** C20 *)
Theorem c20_bounding_box_least : forall g, constructed g ->
  valid_box (bounding_box g)
  /\ (forall p, on_outline g p -> in_box (bounding_box g) p)
  /\ (forall c, (forall p, on_outline g p -> in_box c p) ->
        box_subset (bounding_box g) c).
Proof. exact bounding_box_least. Qed.
Print Assumptions c20_bounding_box_least.

Example c20_example :
  let g := GContour [Pt 0 1; Pt (1 + 1) 0; Pt 1 (1 + 1)] in
  constructed g /\ box_eq (bounding_box g) (Box 0 (1 + 1) 0 (1 + 1)) = true.
Proof. vm_compute. split; auto. Qed.
