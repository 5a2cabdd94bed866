(** The difference of a linear and a shaped geometry: from the sweep to the operator. *)
From Coq Require Import QArith Qcanon Bool List Arith Lia Permutation.
From Verif Require Import QcTac Model_Base Model_Utils Model_Box Model_Geometry Model_Contour Model_Linear Model_Mixed Model_Shaped Model_Multipolygon Model_MixedDiff
  Spec_Base Spec_Segment Spec_Clip Spec_Contour Spec_Relate Spec_Bounds Spec_Sweep Spec_Shaped Spec_Multipolygon Spec_RelateShaped Spec_MixedClip Spec_MixedDiff
  Proof_Base Proof_Line Proof_SegOps Proof_Box2 Proof_Contour Proof_Edges Proof_Bounds Proof_Shrink Proof_Locate Proof_Locate3 Proof_Locate4 Proof_SegLoops Proof_Sweep4 Proof_Sweep6 Proof_Sweep17 Proof_Sweep18 Proof_Sweep19 Proof_Parity
  Proof_Corner Proof_Region Proof_Ray Proof_Orient Proof_Nested Proof_Nested2 Proof_Bridge Proof_Odd Proof_Clip Proof_Result2 Proof_Ready Proof_Polygons Proof_Multi Proof_Multi2 Proof_Multi3
  Proof_RelShaped6 Proof_RelateShaped Proof_RelateMulti3 Proof_Mix1 Proof_Mix4 Proof_Mix5 Proof_Mix6 Proof_Mix7 Proof_Located Proof_Mix8 Proof_Mix9.
Import ListNotations.
Local Open Scope Qc_scope.

Lemma turned_on s q : on_seg (turned s) q <-> on_seg s q.
Proof. split; intros O; apply between_sym; exact O. Qed.
Lemma turned_list L q : on_segs (map turned L) q <-> on_segs L q.
Proof.
  split.
  - intros (s & I & O). apply in_map_iff in I. destruct I as (t & <- & I). exists t. split; auto. apply turned_on. auto.
  - intros (s & I & O). exists (turned s). split; [apply in_map; auto|apply turned_on; auto].
Qed.
Lemma on_perm l k q : Permutation l k -> on_segs l q -> on_segs k q.
Proof. intros P (s & I & O). exists s. split; auto. apply (Permutation_in _ P); auto. Qed.
Lemma area_outside b c x : do_boxes_have_no_common_area b c = true -> in_box b x -> inside_box c x -> False.
Proof.
  unfold do_boxes_have_no_common_area, box_disjoint_with, box_touches, in_box, inside_box. intros D ((B1 & B2) & (B3 & B4)) ((C1 & C2) & (C3 & C4)).
  repeat (rewrite ?orb_true_iff, ?andb_true_iff, ?qltb_true, ?qeqb_true, ?qleb_true in D).
  decompose [and or] D; try qlra.
Qed.
Lemma lerp_back q w u v : 0 < u -> u < 1 -> 0 <= v -> v <= 1 -> w = lerp q (lerp q w u) v -> q = w.
Proof.
  intros U0 U1 V0 V1 E. assert (K : 0 < 1 - v * u) by qnra.
  assert (Ex : (1 - v * u) * (px w - px q) = 0) by (transitivity (px w - px (lerp q (lerp q w u) v)); [unfold lerp; cbn [px py]; ring|rewrite <- E; ring]).
  assert (Ey : (1 - v * u) * (py w - py q) = 0) by (transitivity (py w - py (lerp q (lerp q w u) v)); [unfold lerp; cbn [px py]; ring|rewrite <- E; ring]).
  apply Qcmult_integral in Ex. apply Qcmult_integral in Ey. apply point_ext; destruct Ex, Ey; qlra.
Qed.
(** What a difference gives: [rest] are the segments that are not swept. *)
Definition subtracts_to (sgs : list segment) (l : list polygon) (outcome : clip_outcome) : Prop :=
  exists g L rest, outcome = Clips g /\ incl rest sgs /\ non_crossing L /\ Permutation (parts g) (L ++ map turned L ++ rest)
    /\ forall q, on_geometry g q <-> on_piece_without sgs l q.

Section Diff.
Variables (sgs : list segment) (l : list polygon) (lb pb : box).
Hypothesis NS : non_crossing sgs.
Hypothesis V : valid_polygons l.
Hypothesis InL : forall s x, In s sgs -> on_seg s x -> in_box lb x.
Hypothesis InP : forall p x, In p l -> in_box (polygon_box p) x -> in_box pb x.
Variable fp : polygon -> bool.
Hypothesis Fp : forall p, In p l -> fp p = false -> do_boxes_have_no_common_continuum (polygon_box p) lb = true.
Notation kp := (filter fp l).
Notation target := (on_piece_without sgs l).

Lemma proper_in s : In s sgs -> proper_seg s.
Proof. pose proof (proj1 NS) as F. rewrite Forall_forall in F. apply F. Qed.
(** Walking along a piece that has few points in the polygons. *)
Lemma walk_away s t q (D : list point) : In s sgs -> seg_subset t s -> proper_seg t -> on_seg t q ->
  (forall x, on_seg t x -> x <> seg_start t -> x <> seg_end t -> in_some l x -> In x D) -> target q.
Proof.
  intros Is Sb Pt Ot Dx. destruct (way_inside t q Pt Ot) as (a & Na & Oa & Ia). destruct (walk D q a) as (r & R1 & R2 & R3); [auto|].
  assert (Nq : q <> a) by auto. destruct (strictly_between_neq _ _ _ Nq R1) as [Nr _].
  assert (Or : on_seg t r) by (apply (between_trans _ _ q a r); auto; apply strictly_between_between; auto).
  exists s, r. split; auto. split; [auto|]. split; [auto|]. split; [auto|]. intros x Sx In_. assert (Sa := R2 x Sx). apply (R3 x); auto.
  assert (Ox : on_seg t x) by (apply (between_trans _ _ q a x); auto; apply strictly_between_between; auto).
  pose proof (Ia x Sa) as J. apply (strictly_between_iff _ _ x Pt) in J. apply Dx; auto; apply J.
Qed.
Lemma target_on q : target q -> on_segs sgs q.
Proof. intros (s & w & Is & O & _). exists s. auto. Qed.
Lemma dropped_points : exists D : list point, forall x, in_some (filter (fun p => negb (fp p)) l) x -> in_box lb x -> In x D.
Proof.
  apply taken_points. intros p I. apply filter_In in I. destruct I as [I Q]. apply negb_true_iff in Q. split; auto.
  pose proof (vm_each _ V) as Vs. rewrite Forall_forall in Vs. auto.
Qed.
Lemma split_some x : in_some l x -> in_some kp x \/ in_some (filter (fun p => negb (fp p)) l) x.
Proof.
  intros (p & I & R). destruct (fp p) eqn:E; [left|right]; exists p; (split; [apply filter_In; rewrite ?E; auto|auto]).
Qed.
(** No polygon is taken. *)
Lemma none_taken_sub q : kp = [] -> on_segs sgs q -> target q.
Proof.
  intros E (s & Is & O). destruct dropped_points as (D & Dx). apply (walk_away s s q D); auto; [intros x; auto|apply proper_in; auto|].
  intros x Ox _ _ Ix. apply Dx; [|apply (InL s); auto]. destruct (split_some x Ix) as [J|J]; auto. rewrite E in J. destruct J as (p & [] & _).
Qed.
(** The segments that are not taken. *)
Notation meets := (fun s => do_boxes_have_common_continuum (segment_bounding_box s) pb).
Notation lin := (with_common_continuum pb sgs). Notation rest := (without_common_continuum pb sgs).
Lemma rest_target s q : In s rest -> on_seg s q -> target q.
Proof.
  intros Is O. unfold without_common_continuum in Is. apply filter_In in Is. destruct Is as [Is Q]. apply negb_true_iff in Q.
  destruct (corner (segment_bounding_box s) pb) as (z & Z); [rewrite continuum_filters_complementary, Q; auto|].
  apply (walk_away s s q [z]); auto; [intros x; auto|apply proper_in; auto|].
  intros x Ox _ _ Ix. left. symmetry. apply Z; [apply segment_box_covers; auto|apply (some_in_box l pb V InP x Ix)].
Qed.
Lemma none_met_sub q : lin = [] -> on_segs sgs q -> target q.
Proof.
  intros E (s & Is & O). apply (rest_target s q); auto. unfold without_common_continuum. apply filter_In. split; auto.
  destruct (meets s) eqn:Q; [|auto]. exfalso. assert (J : In s lin) by (apply filter_In; auto). rewrite E in J. destruct J.
Qed.

Variables (shape : tree_shape) (fuel : nat).
Hypothesis Fuel : (enough (length sgs + length (concat (flat_map rings l))) <= fuel)%nat.
Notation low := (min_x_of lin). Notation high := (max_x_of lin).
Lemma FR_sub m e : linear_shaped_difference m e
  = Bool.eqb (is_left_event_from_first_operand (mo m) e) true && (negb (m_other m e) && negb (m_over m e)).
Proof.
  unfold linear_shaped_difference, is_left_event_outside, m_other, m_over. destruct (is_left_event_from_first_operand (mo m) e); reflexivity.
Qed.
Theorem swept_sub : subtracts_to sgs l
  match sweep_mixed linear_shaped_difference true shape fuel true high
          (clip_mixed lin (reaching low high (polygons_segments kp))) [] with
  | SweepsMixed m events => clip_of (collect_maybe_empty_segments (reduce_mixed m events ++ rest))
  | MixedFails => Raises
  | MixedRunsOut => RunsOut
  end.
Proof.
  assert (Vk : valid_polygons kp) by (apply valid_filter; auto). destruct (prepare_list kp Vk) as (r & Pr).
  assert (NL : non_crossing lin) by (apply non_crossing_filter; auto).
  assert (Range : forall s, In s lin -> low <= px (lo s) /\ px (hi s) <= high).
  { intros s I. destruct (lo_hi s) as [[Q1 Q2]|[Q1 Q2]]; rewrite Q1, Q2; (split; [apply (min_x_of_le lin s)|apply (max_x_of_le lin s)]; auto; try apply between_start; apply between_end). }
  assert (Cov : forall e g, In e (outlines r) -> In g lin -> px (lo e) <= px (hi g) -> px (lo g) <= px (hi e) -> reach low high e = true).
  { intros e g Ie Ig L1 L2. destruct (Range g Ig). apply (proj2 (reach_true _ _ _)). split; qlra. }
  assert (Lim : forall g, In g lin -> px (hi g) <= high) by (intros g I; apply Range; auto).
  assert (Eq : reaching low high (polygons_segments kp) = filter (reach low high) (outlines r)) by (rewrite (pl_segments _ _ Pr); reflexivity).
  assert (Fu : (enough (length (filter (if Bool.eqb true true then fun _ => true else reach low high) (if Bool.eqb true true then lin else outlines r)
     ++ filter (if Bool.eqb false true then fun _ => true else reach low high) (if Bool.eqb false true then lin else outlines r))) <= fuel)%nat).
  { eapply Nat.le_trans; [|exact Fuel]. apply enough_mono. rewrite app_length.
    pose proof (filter_len meets sgs). pose proof (filter_count fp l). pose proof (same_lengths _ _ (pl_same _ _ Pr)) as Ln. pose proof (outlines_length r) as Lo.
    pose proof (filter_len (reach low high) (outlines r)). pose proof (filter_len (fun _ : segment => true) lin).
    unfold with_common_continuum in *. cbn [Bool.eqb]. lia. }
  destruct (run_difference true lin r (reach low high) NL (pl_nc _ _ Pr) (pl_side _ _ Pr) Cov high Lim _ FR_sub shape fuel Fu)
    as (m & ev & L & Es & Pm & Nc & So & Co).
  cbn [Bool.eqb] in Es. rewrite filter_all in Es. rewrite Eq, Es.
  destruct (Proof_SegLoops.collect_maybe (reduce_mixed m ev ++ rest)) as (g & Eg & Pg & _). rewrite Eg.
  assert (Pg' : Permutation (parts g) (L ++ map turned L ++ rest)) by (rewrite Pg, app_assoc; apply Permutation_app_tail; auto).
  exists g, L, rest. split; [reflexivity|]. split; [intros s I; unfold without_common_continuum in I; apply filter_In in I; apply I|].
  split; auto. split; auto. intros q. unfold on_geometry. split.
  - intros O. apply (on_perm _ _ q Pg') in O. rewrite !on_segs_app, turned_list in O.
    assert (O' : on_segs L q \/ on_segs rest q) by tauto. clear O. destruct O' as [(t & It & Ot)|(s & Is & Os)]; [|apply (rest_target s); auto].
    destruct (So t It) as ((s & Is & Sb) & C). apply filter_In in Is. pose proof (proj1 Nc) as F. rewrite Forall_forall in F.
    destruct dropped_points as (D & Dx). apply (walk_away s t q D); auto; [apply Is|].
    intros x Ox N1 N2 Ix. destruct (split_some x Ix) as [J|J]; [|apply Dx; auto; apply (InL s); auto; apply Is].
    exfalso. apply (C x Ox N1 N2). apply (in_some_covered kp r); auto.
  - intros (s & w & Is & Os & Ow & Nw & A). apply (on_perm _ _ q (Permutation_sym Pg')). rewrite !on_segs_app, turned_list.
    destruct (meets s) eqn:Q.
    + left. set (z := lerp q w (/ (1 + 1))). assert (Z : strictly_between q w z) by (exists (/ (1 + 1)); split; [reflexivity|split; [reflexivity|auto]]).
      assert (Nq : q <> w) by auto. destruct (strictly_between_neq _ _ _ Nq Z) as [Z1 Z2].
      assert (Oz : on_seg s z) by (apply (between_trans _ _ q w z); auto; apply strictly_between_between; auto).
      apply (Co (Seg q z) s q); auto; [apply filter_In; auto| | |apply between_start|].
      * intros x Ox. apply (between_trans _ _ q z x); auto.
      * intros E. apply Z1. symmetry. exact E.
      * intros x Ox Nx Cx. apply (A x); [|apply (in_some_filter fp), (in_some_covered kp r); auto].
        apply (strictly_between_iff q w x Nq). split; [apply (between_trans q w q z x); [apply between_start|apply strictly_between_between; auto|auto]|].
        split; auto. intros ->. destruct Z as (u & U0 & U1 & ->). destruct Ox as (v & V0 & V1 & E). 
        apply Nq. apply (lerp_back q w u v); auto.
    + right. right. exists s. split; auto. unfold without_common_continuum. apply filter_In. rewrite Q. auto.
Qed.
End Diff.

(** The functions: the boxes are only compared, or a sweep. *)
Section Functions10.
Variables (shape : tree_shape) (fuel : nat).
Variable g : geometry.
Hypothesis M : multisegmental g.
Hypothesis N : non_crossing (parts g).
Notation lb := (bounding_box g).
Let in_box_of : forall s x, In s (parts g) -> on_seg s x -> in_box lb x := in_many g M.
Lemma unchanged l : (forall q, on_segs (parts g) q -> on_piece_without (parts g) l q) -> subtracts_to (parts g) l (Clips g).
Proof.
  intros A. exists g, [], (parts g). split; auto. split; [apply incl_refl|]. split; [split; constructor|]. split; [apply Permutation_refl|].
  intros q. split; [apply A|apply target_on].
Qed.
Definition sub_result (l : list polygon) (pb : box) (outcome : clip_outcome) : Prop :=
  (do_boxes_have_no_common_area lb pb = true /\ outcome = Clips g) \/ subtracts_to (parts g) l outcome.
Lemma multipolygon_sub l : valid_polygons l -> (enough (length (parts g) + length (concat (flat_map rings l))) <= fuel)%nat ->
  sub_result l (multipolygon_box l) (subtract_multipolygon_from_multisegmental fuel shape g l).
Proof.
  intros V Fuel. unfold subtract_multipolygon_from_multisegmental. cbv zeta. rewrite (segments_parts g).
  destruct (do_boxes_have_no_common_area (bounding_box g) (multipolygon_box l)) eqn:E; [left; auto|right].
  destruct (with_common_continuum (multipolygon_box l) (parts g)) as [|s k] eqn:E1;
    [apply unchanged; intros q; apply (none_met_sub (parts g) l (multipolygon_box l) N V (boxes_list l) q E1)|].
  rewrite <- E1. destruct (sharing_continuum lb l) as [|p k'] eqn:E2;
    [apply unchanged; intros q; apply (none_taken_sub (parts g) l lb N V in_box_of (fun p => do_boxes_have_common_continuum (polygon_box p) lb) (dropped l lb) q E2)|].
  rewrite <- E2.
  apply (swept_sub (parts g) l lb (multipolygon_box l) N V in_box_of (boxes_list l) (fun p => do_boxes_have_common_continuum (polygon_box p) lb) (dropped l lb) shape fuel Fuel).
Qed.
Lemma polygon_sub p : valid_polygon p -> (enough (length (parts g) + length (concat (flat_map rings [p]))) <= fuel)%nat ->
  sub_result [p] (polygon_box p) (subtract_polygon_from_multisegmental fuel shape g p).
Proof.
  intros V Fuel. pose proof (valid_one p V) as Vl. unfold subtract_polygon_from_multisegmental. cbv zeta. rewrite (segments_parts g).
  change (bounding_box (GPolygon p)) with (polygon_box p).
  destruct (do_boxes_have_no_common_area (bounding_box g) (polygon_box p)) eqn:E; [left; auto|right].
  destruct (with_common_continuum (polygon_box p) (parts g)) as [|s k] eqn:E1;
    [apply unchanged; intros q; apply (none_met_sub (parts g) [p] (polygon_box p) N Vl (boxes_one p) q E1)|].
  rewrite <- E1. rewrite <- segments_one.
  apply (swept_sub (parts g) [p] lb (polygon_box p) N Vl in_box_of (boxes_one p) (fun _ => true) (kept_all g p) shape fuel Fuel).
Qed.
End Functions10.

(** The operator. *)
Lemma mixed_sub_result fuel shape a b : several_input a -> valid_shaped b -> (enough (length (parts a) + shaped_size b) <= fuel)%nat ->
  exists outcome, mixed_sub fuel shape a b = Some outcome /\ sub_result a (polygons_of b) (bounding_box b) outcome.
Proof.
  intros [Ma Na] Vb Fu.
  destruct a as [| |ss|vs| |]; try contradiction; destruct b as [| | | |p|l]; try contradiction; cbn [mixed_sub polygons_of] in *; eexists; (split; [reflexivity|]).
  - apply (polygon_sub shape fuel (GMultisegment ss) Ma Na p Vb). cbn [flat_map]. rewrite app_nil_r. exact Fu.
  - apply (multipolygon_sub shape fuel (GMultisegment ss) Ma Na l (proj2 Vb)). exact Fu.
  - apply (polygon_sub shape fuel (GContour vs) Ma Na p Vb). cbn [flat_map]. rewrite app_nil_r. exact Fu.
  - apply (multipolygon_sub shape fuel (GContour vs) Ma Na l (proj2 Vb)). exact Fu.
Qed.
Lemma uncontained_piece a b q : valid_shaped b -> (on_uncontained_piece a b q <-> on_piece_without (parts a) (polygons_of b) q).
Proof.
  intros V. split; intros (s & w & Is & Os & Ow & Nw & A); exists s, w; repeat (split; auto).
  - intros r Sr J. pose proof (A r Sr) as Q. apply (shaped_contains b r V) in J. congruence.
  - intros r Sr. apply not_true_iff_false. intros J. apply (A r Sr). apply (shaped_contains b r V). auto.
Qed.
(** Points inside are strictly inside the box. *)
Lemma interior_box b q : valid_shaped b -> geometry_locate b q = INTERIOR -> inside_box (bounding_box b) q.
Proof.
  intros V L. apply (located b q V) in L. destruct b as [| | | |p|l]; try contradiction; cbn [polygons_of] in L.
  - destruct L as (p' & [<-|[]] & J). apply inside_polygon_box; auto.
  - apply (list_box l q L).
Qed.
Theorem mixed_sub_exact fuel shape a b : several_input a -> valid_shaped b -> (enough (length (parts a) + shaped_size b) <= fuel)%nat ->
  (exists x, in_box (bounding_box a) x /\ inside_box (bounding_box b) x) ->
  exists g, mixed_sub fuel shape a b = Some (Clips g) /\ forall q, on_geometry g q <-> on_uncontained_piece a b q.
Proof.
  intros Sa Vb Fu (x & X1 & X2). destruct (mixed_sub_result fuel shape a b Sa Vb Fu) as (o & E & [[D _]|(g & L & rest & Eo & _ & _ & _ & Q)]).
  - exfalso. apply (area_outside _ _ x D X1 X2).
  - exists g. rewrite E, Eo. split; auto. intros q. rewrite (uncontained_piece a b q Vb). apply Q.
Qed.
Lemma inside_near l q w : Forall valid_polygon l -> inside_some l q -> w <> q -> exists r, strictly_between q w r /\ in_some l r.
Proof.
  intros Vl J Nw. assert (Nq : q <> w) by auto.
  destruct (inside_walk l (Seg q w) q Vl J Nq (between_start _ _)) as (s & t & [<-|[]] & Sb & Pt & Ot & C).
  destruct (three_points t q Pt) as (a & b & Nab & Oa & Ob & Na & Nb).
  assert (Q : forall x, on_seg t x -> x <> q -> x <> w -> strictly_between q w x) by (intros x Ox N1 N2; apply (strictly_between_iff q w x Nq); split; auto; apply (Sb x Ox)).
  destruct (point_dec a w) as [->|Nw']; [exists b|exists a]; split; auto.
Qed.
Lemma outside_near b q s : valid_shaped b -> geometry_locate b q = EXTERIOR -> proper_seg s -> on_seg s q ->
  exists w, w <> q /\ on_seg s w /\ forall r, strictly_between q w r -> ~ in_some (polygons_of b) r.
Proof.
  intros V L Ps Os. assert (Out : ~ in_shaped b q) by (intros J; apply (in_shaped_located b q V) in J; auto). unfold in_shaped in Out.
  assert (Vl : Forall valid_polygon (polygons_of b)).
  { destruct b as [| | | |p|l]; try contradiction; cbn [polygons_of]; [apply Forall_cons; [exact V|apply Forall_nil]|destruct V as [_ V]; apply (vm_each _ V)]. }
  set (l := polygons_of b) in *. clearbody l. rewrite Forall_forall in Vl.
  set (B := outlines (flat_map rings l)). set (pts := ends_of (s :: B)). destruct (eps_exists pts) as (eps & Pe & Ri).
  assert (PB : Forall proper_seg B).
  { apply Forall_forall. intros e I. unfold B, outlines in I. apply in_flat_map in I. destruct I as (vs & I1 & I2). apply in_flat_map in I1. destruct I1 as (p & I1 & I3).
    pose proof (vp_edges _ (Vl p I1)) as F. pose proof (proj1 F) as F'. rewrite Forall_forall in F'. apply F'. unfold outlines. apply in_flat_map. exists vs. auto. }
  assert (Sd : Forall (sound_edge eps) (s :: B)) by (apply sound_all; [constructor; auto|intros v w Iv Iw; apply Ri; auto]).
  inversion Sd as [|? ? Ss So]; subst.
  assert (Bd : forall p x vs, In p l -> In vs (rings p) -> on_contour vs x -> on_segs B x).
  { intros p x vs Ip Iv Q. apply on_outlines. exists vs. split; [apply in_flat_map; exists p; auto|auto]. }
  assert (Off : ~ on_segs B q).
  { intros O. apply Out. apply on_outlines in O. destruct O as (vs & Iv & Q). apply in_flat_map in Iv. destruct Iv as (p & Ip & Iv).
    exists p. split; auto. right. apply on_outlines. exists vs. auto. }
  destruct (slide eps B [Xs eps q] s q Ss Os So Off) as (w & Ow & Nt & Of).
  assert (Nw : w <> q) by (intros E; apply Nt; left; rewrite E; auto).
  exists w. split; auto. split; auto. intros r Sr (p & Ip & R). assert (Or : on_seg (Seg q w) r) by (apply strictly_between_between; auto).
  destruct R as [J|J]; [|apply on_outlines in J; destruct J as (vs & Iv & Q); apply (Of r Or), (Bd p r vs); auto].
  apply Out. exists p. split; auto. left.
  assert (Sm : forall vs, In vs (rings p) -> region_location vs q = region_location vs r).
  { intros vs I. apply api_not_crossing. intros y O Q. apply (Of y); [apply (between_trans _ _ q r y); auto; apply between_start|apply (Bd p y vs); auto]. }
  unfold inside_polygon in *. destruct p as [bd hs]. destruct (api_polygon bd hs q) as (Qq & _). destruct (api_polygon bd hs r) as (Qr & _). apply Qq. apply Qr in J. destruct J as [J1 J2].
  split; [rewrite Sm; auto; left; auto|intros h I; rewrite Sm; auto; right; auto].
Qed.
Theorem mixed_sub_bounds fuel shape a b : several_input a -> valid_shaped b -> (enough (length (parts a) + shaped_size b) <= fuel)%nat ->
  exists g, mixed_sub fuel shape a b = Some (Clips g)
  /\ (forall q, on_geometry g q -> on_geometry a q /\ geometry_locate b q <> INTERIOR)
  /\ (forall q, on_geometry a q -> geometry_locate b q = EXTERIOR -> on_geometry g q).
Proof.
  intros Sa Vb Fu. destruct (mixed_sub_result fuel shape a b Sa Vb Fu) as (o & E & [[D Eo]|(g & L & rest & Eo & _ & _ & _ & Q)]).
  - exists a. rewrite E, Eo. split; auto. split; [|auto]. intros q O. split; auto. intros J.
    apply (area_outside _ _ q D); [|apply interior_box; auto]. destruct O as (s & Is & Os). apply (in_many a (proj1 Sa) s q); auto.
  - exists g. rewrite E, Eo. split; auto. split.
    + intros q O. apply Q in O. split; [apply (target_on _ (polygons_of b)); auto|]. intros J. apply (located b q Vb) in J.
      destruct O as (s & w & Is & Os & Ow & Nw & A).
      destruct (inside_near (polygons_of b) q w) as (r & R1 & R2); auto.
      * destruct b as [| | | |p|l]; try contradiction; cbn [polygons_of]; [apply Forall_cons; [exact Vb|apply Forall_nil]|destruct Vb as [_ Vb]; apply (vm_each _ Vb)].
      * apply (A r R1 R2).
    + intros q (s & Is & Os) J. apply Q.
      destruct (outside_near b q s Vb J) as (w & Nw & Ow & A); auto; [pose proof (proj1 (proj2 Sa)) as F; rewrite Forall_forall in F; auto|].
      exists s, w. auto.
Qed.
Theorem mixed_sub_doubled fuel shape a b : several_input a -> valid_shaped b -> (enough (length (parts a) + shaped_size b) <= fuel)%nat ->
  exists g L rest, mixed_sub fuel shape a b = Some (Clips g) /\ incl rest (parts a) /\ non_crossing L
    /\ Permutation (parts g) (L ++ map turned L ++ rest).
Proof.
  intros Sa Vb Fu. destruct (mixed_sub_result fuel shape a b Sa Vb Fu) as (o & E & [[D Eo]|(g & L & rest & Eo & Ir & Nc & P & _)]).
  - exists a, [], (parts a). rewrite E, Eo. split; auto. split; [apply incl_refl|]. split; [split; constructor|apply Permutation_refl].
  - exists g, L, rest. rewrite E, Eo. auto.
Qed.
