(** The intersection of a linear and a shaped geometry: the drivers. *)
From Coq Require Import QArith Qcanon Bool List Arith Lia Permutation.
From Verif Require Import QcTac Model_Base Model_Utils Model_Box Model_Geometry Model_Contour Model_Linear Model_Mixed Model_Shaped Model_Multipolygon Model_MixedClip
  Spec_Base Spec_Segment Spec_Clip Spec_Contour Spec_Relate Spec_Bounds Spec_Sweep Spec_Shaped Spec_Multipolygon Spec_RelateShaped Spec_MixedClip
  Proof_Base Proof_Line Proof_SegOps Proof_Box2 Proof_Contour Proof_Edges Proof_Bounds Proof_Shrink Proof_Locate Proof_Locate3 Proof_Locate4 Proof_SegLoops Proof_Sweep4 Proof_Sweep6 Proof_Sweep17 Proof_Sweep18 Proof_Sweep19 Proof_Parity
  Proof_Corner Proof_Region Proof_Ray Proof_Orient Proof_Nested Proof_Nested2 Proof_Bridge Proof_Odd Proof_Clip Proof_Result2 Proof_Ready Proof_Polygons Proof_Multi Proof_Multi2 Proof_Multi3
  Proof_RelateShaped Proof_RelateMulti3 Proof_Mix1 Proof_Mix4 Proof_Mix5 Proof_Mix6.
Import ListNotations.
Local Open Scope Qc_scope.

Lemma q_max_comm a b : q_max a b = q_max b a.
Proof. destruct (q_max_spec a b) as [[-> ?]|[-> ?]], (q_max_spec b a) as [[-> ?]|[-> ?]]; auto; qlra. Qed.
Lemma q_min_comm a b : q_min a b = q_min b a.
Proof. destruct (q_min_spec a b) as [[-> ?]|[-> ?]], (q_min_spec b a) as [[-> ?]|[-> ?]]; auto; qlra. Qed.

(** What an intersection gives. *)
Definition intersects_to (sgs : list segment) (l : list polygon) (outcome : clip_outcome) : Prop :=
  exists g, outcome = Clips g /\ good_result g /\ forall q, on_geometry g q <-> on_piece_within sgs l q.
Lemma nothing_common sgs l : (forall q, ~ on_piece_within sgs l q) -> intersects_to sgs l (Clips GEmpty).
Proof.
  intros A. exists GEmpty. split; auto. split; [split; [split; constructor|exact I]|]. intros q. split; [intros (s & [] & _)|intros Q; destruct (A q Q)].
Qed.
Lemma FR_first m e : linear_shaped_intersection m e = Bool.eqb (is_left_event_from_first_operand (mo m) e) true && (m_other m e || m_over m e).
Proof. unfold linear_shaped_intersection, is_left_event_outside, m_other, m_over. destruct (is_left_event_from_first_operand (mo m) e), (flag (mo_other m) (left_event_to_position e)), (flag (mo_overlap m) (left_event_to_position e)); auto. Qed.
Lemma FR_second m e : shaped_linear_intersection m e = Bool.eqb (is_left_event_from_first_operand (mo m) e) false && (m_other m e || m_over m e).
Proof. unfold shaped_linear_intersection, is_left_event_outside, m_other, m_over. destruct (is_left_event_from_first_operand (mo m) e), (flag (mo_other m) (left_event_to_position e)), (flag (mo_overlap m) (left_event_to_position e)); auto. Qed.

Section Both.
Variables (sgs : list segment) (l : list polygon) (lb pb : box).
Hypothesis NS : non_crossing sgs.
Hypothesis V : valid_polygons l.
Hypothesis InL : forall s x, In s sgs -> on_seg s x -> in_box lb x.
Hypothesis InP : forall p x, In p l -> in_box (polygon_box p) x -> in_box pb x.
Variables (shape : tree_shape) (fuel : nat).
Hypothesis Fuel : (enough (length sgs + length (concat (flat_map rings l))) <= fuel)%nat.
Lemma apart_first : do_boxes_have_no_common_continuum lb pb = true -> intersects_to sgs l (Clips GEmpty).
Proof. intros N. apply nothing_common. destruct (corner _ _ N) as (z & Z). apply (no_boxes sgs l lb pb V InL InP z); auto. Qed.
Lemma apart_second : do_boxes_have_no_common_continuum pb lb = true -> intersects_to sgs l (Clips GEmpty).
Proof. intros N. apply nothing_common. destruct (corner _ _ N) as (z & Z). apply (no_boxes sgs l lb pb V InL InP z). intros x A B. apply Z; auto. Qed.

(** The polygons that are taken, with their abscissas. *)
Variable fp : polygon -> bool.
Hypothesis Fp : forall p, In p l -> fp p = false -> do_boxes_have_no_common_continuum (polygon_box p) lb = true.
Notation kp := (filter fp l).
Lemma none_taken : kp = [] -> intersects_to sgs l (Clips GEmpty).
Proof. intros E. apply nothing_common. apply (no_polygons sgs l lb V InL fp Fp E). Qed.
Variables low' high' : Qc.
Hypothesis Spread : spread kp low' high'.

(** One segment. *)
Section One.
Variable s : segment.
Hypothesis One : sgs = [s].
Notation low := (min_x (segment_bounding_box s)). Notation high := (max_x (segment_bounding_box s)).
Lemma one_range s' x : In s' (filter (fun _ => true) sgs) -> on_seg s' x -> low <= px x /\ px x <= high.
Proof. rewrite filter_all, One. intros [<-|[]] O. apply (segment_box_covers s x O). Qed.
Lemma one_first : intersects_to sgs l (collect_mixed (sweep_mixed linear_shaped_intersection true shape fuel false (q_min high high')
  (clip_mixed [s] (reaching (q_max low low') (q_min high high') (polygons_segments kp))) [])).
Proof.
  pose proof (clips_mixed sgs l lb NS V InL fp Fp (fun _ => true) (fun _ _ _ _ _ _ _ => eq_refl) low high low' high' one_range Spread true _ FR_first shape fuel Fuel) as C.
  cbv iota in C. rewrite filter_all in C. rewrite <- One. exact C.
Qed.
Lemma one_second : intersects_to sgs l (collect_mixed (sweep_mixed shaped_linear_intersection true shape fuel false (q_min high' high)
  (clip_mixed (reaching (q_max low' low) (q_min high' high) (polygons_segments kp)) [s]) [])).
Proof.
  pose proof (clips_mixed sgs l lb NS V InL fp Fp (fun _ => true) (fun _ _ _ _ _ _ _ => eq_refl) low high low' high' one_range Spread false _ FR_second shape fuel Fuel) as C.
  cbv iota in C. rewrite filter_all in C. rewrite (q_min_comm high' high), (q_max_comm low' low), <- One. exact C.
Qed.
End One.

(** Several segments. *)
Notation common := (with_common_continuum pb sgs).
Notation low := (min_x_of common). Notation high := (max_x_of common).
Definition meets (s : segment) : bool := do_boxes_have_common_continuum (segment_bounding_box s) pb.
Lemma met s t q : In s sgs -> seg_subset t s -> proper_seg t -> (forall x, on_seg t x -> x <> q -> in_some kp x) -> meets s = true.
Proof.
  intros Is Sb Pt A. destruct (three_points t q Pt) as (a & b & Ne & Oa & Ob & Na & Nb). unfold meets. apply continuum_filter_complete. exists a, b. split; auto.
  assert (Q : forall x, on_seg t x -> x <> q -> in_box pb x) by (intros x Ox Nx; apply (some_in_box l pb V InP); apply (in_some_filter fp); auto).
  repeat split; try apply (Q a Oa Na); try apply (Q b Ob Nb); apply (segment_box_covers s); auto.
Qed.
Lemma none_met : common = [] -> intersects_to sgs l (Clips GEmpty).
Proof.
  intros E. apply nothing_common. apply (no_segments sgs l lb V InL fp Fp meets); auto. intros s t q. apply met.
Qed.
Definition reached (s : segment) : bool := meets s && reach (q_max low low') (q_min high high') s.
Lemma reached_all s t q : In s sgs -> seg_subset t s -> proper_seg t -> (forall x, on_seg t x -> x <> q -> in_some kp x) -> reached s = true.
Proof.
  intros Is Sb Pt A. unfold reached. assert (M := met s t q Is Sb Pt A). rewrite M. cbn [andb].
  destruct (three_points t q Pt) as (a & _ & _ & Oa & _ & Na & _). destruct (A a Oa Na) as (p & Ip & Rp).
  assert (Vp : valid_polygon p) by (pose proof (vm_each _ (valid_filter fp l V)) as Vs; rewrite Forall_forall in Vs; auto).
  destruct (region_box p Vp a Rp) as [[B1 B2] _]. destruct (Spread p Ip) as [S1 S2].
  assert (Ic : In s common) by (apply filter_In; split; auto).
  assert (Ls := min_x_of_le common s a Ic (Sb a Oa)). assert (Hs := max_x_of_le common s a Ic (Sb a Oa)).
  assert (Bs := segment_box_covers s a (Sb a Oa)). destruct Bs as [[Bs1 Bs2] _].
  assert (Bx : px (lo s) <= px a /\ px a <= px (hi s)).
  { clear - Sb Oa. specialize (Sb a Oa). destruct Sb as (u & U0 & U1 & ->). unfold lerp. cbn [px]. pose proof (lo_le_hi s) as L. destruct (lo_hi s) as [[Q1 Q2]|[Q1 Q2]]; rewrite Q1, Q2 in *; split; qnra. }
  apply (proj2 (reach_true _ _ _)). change (polygon_box p) with (bounding_box (GPolygon p)) in *.
  split; [destruct (q_max_spec low low') as [[-> ?]|[-> ?]]|destruct (q_min_spec high high') as [[-> ?]|[-> ?]]]; qlra.
Qed.
Lemma reached_range s x : In s (filter reached sgs) -> on_seg s x -> low <= px x /\ px x <= high.
Proof.
  intros I O. apply filter_In in I. destruct I as [I R]. unfold reached in R. apply andb_true_iff in R. destruct R as [R _].
  assert (Ic : In s common) by (apply filter_In; split; auto). split; [apply (min_x_of_le common s); auto|apply (max_x_of_le common s); auto].
Qed.
Lemma reached_reaching : reaching (q_max low low') (q_min high high') common = filter reached sgs.
Proof. unfold reaching, with_common_continuum. rewrite filter_filter. reflexivity. Qed.
Lemma many_first : intersects_to sgs l (collect_mixed (sweep_mixed linear_shaped_intersection true shape fuel false (q_min high high')
  (clip_mixed (reaching (q_max low low') (q_min high high') common) (reaching (q_max low low') (q_min high high') (polygons_segments kp))) [])).
Proof.
  rewrite reached_reaching.
  exact (clips_mixed sgs l lb NS V InL fp Fp reached reached_all low high low' high' reached_range Spread true _ FR_first shape fuel Fuel).
Qed.
Lemma many_second : intersects_to sgs l (collect_mixed (sweep_mixed shaped_linear_intersection true shape fuel false (q_min high' high)
  (clip_mixed (reaching (q_max low' low) (q_min high' high) (polygons_segments kp)) (reaching (q_max low' low) (q_min high' high) common)) [])).
Proof.
  rewrite (q_min_comm high' high), (q_max_comm low' low), reached_reaching.
  exact (clips_mixed sgs l lb NS V InL fp Fp reached reached_all low high low' high' reached_range Spread false _ FR_second shape fuel Fuel).
Qed.
End Both.

(** The functions. *)
Section Functions.
Variables (shape : tree_shape) (fuel : nat).
Section Many.
Variable g : geometry.
Hypothesis M : multisegmental g.
Hypothesis N : non_crossing (parts g).
Notation lb := (bounding_box g).
Lemma in_many s x : In s (parts g) -> on_seg s x -> in_box lb x.
Proof. apply parts_in_box; auto. Qed.
Section Multi.
Variable l : list polygon.
Hypothesis V : valid_polygons l.
Hypothesis Fuel : (enough (length (parts g) + length (concat (flat_map rings l))) <= fuel)%nat.
Lemma dropped b p : In p l -> do_boxes_have_common_continuum (polygon_box p) b = false -> do_boxes_have_no_common_continuum (polygon_box p) b = true.
Proof. intros _ Q. rewrite continuum_filters_complementary, Q. auto. Qed.
Lemma many_multipolygon : intersects_to (parts g) l (intersect_multisegmental_with_multipolygon fuel shape g l).
Proof.
  unfold intersect_multisegmental_with_multipolygon. cbv zeta. rewrite (segments_parts g).
  destruct (do_boxes_have_no_common_continuum (bounding_box g) (multipolygon_box l)) eqn:E; [apply (apart_first (parts g) l lb (multipolygon_box l) V in_many (boxes_list l) E)|].
  destruct (with_common_continuum (multipolygon_box l) (parts g)) as [|s k] eqn:E1; [apply (none_met (parts g) l lb (multipolygon_box l) V in_many (boxes_list l) (fun _ => true)); auto; discriminate|].
  rewrite <- E1. destruct (sharing_continuum lb l) as [|p k'] eqn:E2; [apply (none_taken (parts g) l lb V in_many (fun p => do_boxes_have_common_continuum (polygon_box p) lb) (dropped lb) E2)|].
  rewrite <- E2.
  apply (many_first (parts g) l lb (multipolygon_box l) N V in_many (boxes_list l) shape fuel Fuel (fun p => do_boxes_have_common_continuum (polygon_box p) lb) (dropped lb)). apply spread_of.
Qed.
Lemma multipolygon_many : intersects_to (parts g) l (intersect_multipolygon_with_multisegmental fuel shape l g).
Proof.
  unfold intersect_multipolygon_with_multisegmental. cbv zeta. rewrite (segments_parts g).
  destruct (do_boxes_have_no_common_continuum (multipolygon_box l) (bounding_box g)) eqn:E; [apply (apart_second (parts g) l lb (multipolygon_box l) V in_many (boxes_list l) E)|].
  destruct (sharing_continuum lb l) as [|p k'] eqn:E2; [apply (none_taken (parts g) l lb V in_many (fun p => do_boxes_have_common_continuum (polygon_box p) lb) (dropped lb) E2)|].
  rewrite <- E2.
  destruct (with_common_continuum (multipolygon_box l) (parts g)) as [|s k] eqn:E1; [apply (none_met (parts g) l lb (multipolygon_box l) V in_many (boxes_list l) (fun _ => true)); auto; discriminate|].
  rewrite <- E1.
  apply (many_second (parts g) l lb (multipolygon_box l) N V in_many (boxes_list l) shape fuel Fuel (fun p => do_boxes_have_common_continuum (polygon_box p) lb) (dropped lb)). apply spread_of.
Qed.
End Multi.
Section Single.
Variable p : polygon.
Hypothesis V : valid_polygon p.
Hypothesis Fuel : (enough (length (parts g) + length (concat (flat_map rings [p]))) <= fuel)%nat.
Let Vl : valid_polygons [p] := valid_one p V.
Lemma kept_all : forall p', In p' [p] -> true = false -> do_boxes_have_no_common_continuum (polygon_box p') lb = true.
Proof. intros p' _ Q. discriminate Q. Qed.
Lemma many_polygon : intersects_to (parts g) [p] (intersect_multisegmental_with_polygon fuel shape g p).
Proof.
  unfold intersect_multisegmental_with_polygon. cbv zeta. rewrite (segments_parts g).
  destruct (do_boxes_have_no_common_continuum (bounding_box g) (polygon_box p)) eqn:E; [apply (apart_first (parts g) [p] lb (polygon_box p) Vl in_many (boxes_one p) E)|].
  destruct (with_common_continuum (polygon_box p) (parts g)) as [|s k] eqn:E1; [apply (none_met (parts g) [p] lb (polygon_box p) Vl in_many (boxes_one p) (fun _ => true)); auto; discriminate|].
  rewrite <- E1. rewrite <- segments_one.
  apply (many_first (parts g) [p] lb (polygon_box p) N Vl in_many (boxes_one p) shape fuel Fuel (fun _ => true) kept_all). apply spread_one.
Qed.
Lemma polygon_many : intersects_to (parts g) [p] (intersect_polygon_with_multisegmental fuel shape p g).
Proof.
  unfold intersect_polygon_with_multisegmental. cbv zeta. rewrite (segments_parts g).
  destruct (do_boxes_have_no_common_continuum (polygon_box p) (bounding_box g)) eqn:E; [apply (apart_second (parts g) [p] lb (polygon_box p) Vl in_many (boxes_one p) E)|].
  destruct (with_common_continuum (polygon_box p) (parts g)) as [|s k] eqn:E1; [apply (none_met (parts g) [p] lb (polygon_box p) Vl in_many (boxes_one p) (fun _ => true)); auto; discriminate|].
  rewrite <- E1. rewrite <- segments_one.
  apply (many_second (parts g) [p] lb (polygon_box p) N Vl in_many (boxes_one p) shape fuel Fuel (fun _ => true) kept_all). apply spread_one.
Qed.
End Single.
End Many.

Section Segment.
Variable s : segment.
Hypothesis Ps : proper_seg s.
Notation lb := (segment_bounding_box s).
Lemma one_nc : non_crossing [s]. Proof. split; [constructor; auto|]. apply FOP_cons; constructor. Qed.
Lemma in_single s' x : In s' [s] -> on_seg s' x -> in_box lb x.
Proof. intros [<-|[]]. apply segment_box_covers. Qed.
Section Multi.
Variable l : list polygon.
Hypothesis V : valid_polygons l.
Hypothesis Fuel : (enough (length [s] + length (concat (flat_map rings l))) <= fuel)%nat.
Lemma segment_multipolygon : intersects_to [s] l (intersect_segment_with_multipolygon fuel shape s l).
Proof.
  unfold intersect_segment_with_multipolygon. cbv zeta.
  destruct (do_boxes_have_no_common_continuum lb (multipolygon_box l)) eqn:E; [apply (apart_first [s] l lb (multipolygon_box l) V in_single (boxes_list l) E)|].
  destruct (sharing_continuum lb l) as [|p k'] eqn:E2; [apply (none_taken [s] l lb V in_single (fun p => do_boxes_have_common_continuum (polygon_box p) lb) (dropped l lb) E2)|].
  rewrite <- E2.
  apply (one_first [s] l lb one_nc V in_single shape fuel Fuel (fun p => do_boxes_have_common_continuum (polygon_box p) lb) (dropped l lb)); auto. apply spread_of.
Qed.
Lemma multipolygon_segment : intersects_to [s] l (intersect_multipolygon_with_segment fuel shape l s).
Proof.
  unfold intersect_multipolygon_with_segment. cbv zeta.
  destruct (do_boxes_have_no_common_continuum (multipolygon_box l) lb) eqn:E; [apply (apart_second [s] l lb (multipolygon_box l) V in_single (boxes_list l) E)|].
  destruct (sharing_continuum lb l) as [|p k'] eqn:E2; [apply (none_taken [s] l lb V in_single (fun p => do_boxes_have_common_continuum (polygon_box p) lb) (dropped l lb) E2)|].
  rewrite <- E2.
  apply (one_second [s] l lb one_nc V in_single shape fuel Fuel (fun p => do_boxes_have_common_continuum (polygon_box p) lb) (dropped l lb)); auto. apply spread_of.
Qed.
End Multi.
Section Single.
Variable p : polygon.
Hypothesis V : valid_polygon p.
Hypothesis Fuel : (enough (length [s] + length (concat (flat_map rings [p]))) <= fuel)%nat.
Let Vl : valid_polygons [p] := valid_one p V.
Lemma kept_one : forall p', In p' [p] -> true = false -> do_boxes_have_no_common_continuum (polygon_box p') lb = true.
Proof. intros p' _ Q. discriminate Q. Qed.
Lemma segment_polygon : intersects_to [s] [p] (intersect_segment_with_polygon fuel shape s p).
Proof.
  unfold intersect_segment_with_polygon. cbv zeta. change (bounding_box (GPolygon p)) with (polygon_box p).
  destruct (do_boxes_have_no_common_continuum lb (polygon_box p)) eqn:E; [apply (apart_first [s] [p] lb (polygon_box p) Vl in_single (boxes_one p) E)|].
  rewrite <- segments_one.
  exact (one_first [s] [p] lb one_nc Vl in_single shape fuel Fuel (fun _ => true) kept_one _ _ (spread_one p) s eq_refl).
Qed.
Lemma polygon_segment : intersects_to [s] [p] (intersect_polygon_with_segment fuel shape p s).
Proof.
  unfold intersect_polygon_with_segment. cbv zeta. change (bounding_box (GPolygon p)) with (polygon_box p).
  destruct (do_boxes_have_no_common_continuum (polygon_box p) lb) eqn:E; [apply (apart_second [s] [p] lb (polygon_box p) Vl in_single (boxes_one p) E)|].
  rewrite <- segments_one.
  exact (one_second [s] [p] lb one_nc Vl in_single shape fuel Fuel (fun _ => true) kept_one _ _ (spread_one p) s eq_refl).
Qed.
End Single.
End Segment.
End Functions.

(** The operator. *)
Theorem mixed_and_exact fuel shape a b : linear_input a -> valid_shaped b -> (enough (length (parts a) + shaped_size b) <= fuel)%nat ->
  (exists g, mixed_and fuel shape a b = Some (Clips g) /\ good_result g /\ forall q, on_geometry g q <-> on_piece_within (parts a) (polygons_of b) q)
  /\ (exists g, mixed_and fuel shape b a = Some (Clips g) /\ good_result g /\ forall q, on_geometry g q <-> on_piece_within (parts a) (polygons_of b) q).
Proof.
  intros La Vb Fu. unfold shaped_size in Fu.
  assert (W : forall sgs l o, intersects_to sgs l o -> exists g, Some o = Some (Clips g) /\ good_result g /\ forall q, on_geometry g q <-> on_piece_within sgs l q).
  { intros sgs l o (g & E & Q). exists g. rewrite E. auto. }
  destruct b as [| | | |p|l]; try contradiction.
  - cbn [valid_shaped] in Vb. assert (Fu' : (enough (length (parts a) + length (concat (flat_map rings [p]))) <= fuel)%nat) by (cbn [flat_map]; rewrite app_nil_r; exact Fu).
    destruct a as [|s|ss|vs| |]; try contradiction; cbn [mixed_and polygons_of]; split; apply W.
    + apply segment_polygon; auto.
    + apply polygon_segment; auto.
    + apply many_polygon; auto; apply La.
    + apply polygon_many; auto; apply La.
    + apply many_polygon; auto; apply La.
    + apply polygon_many; auto; apply La.
  - destruct Vb as [_ Vb].
    destruct a as [|s|ss|vs| |]; try contradiction; cbn [mixed_and polygons_of]; split; apply W.
    + apply segment_multipolygon; auto.
    + apply multipolygon_segment; auto.
    + apply many_multipolygon; auto; apply La.
    + apply multipolygon_many; auto; apply La.
    + apply many_multipolygon; auto; apply La.
    + apply multipolygon_many; auto; apply La.
Qed.
