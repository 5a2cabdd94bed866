(** The four operations on two valid polygons. *)
From Coq Require Import QArith Qcanon Bool List Arith Lia Permutation.
From Verif Require Import QcTac Model_Base Model_Utils Model_Box Model_Geometry Model_Contour Model_Linear Model_Mixed Model_Shaped Spec_Base Spec_Segment Spec_Clip Spec_Contour
  Spec_Relate Spec_Bounds Spec_Sweep Spec_Shaped
  Proof_Base Proof_Line Proof_Contour Proof_Edges Proof_Bounds Proof_Shrink Proof_Locate Proof_Locate3 Proof_Locate4 Proof_Sweep4 Proof_Sweep6 Proof_Sweep18 Proof_Parity
  Proof_Corner Proof_Region Proof_Ray Proof_Orient Proof_Nested Proof_Nested2 Proof_Bridge Proof_Odd Proof_Clip Proof_Ready.
Import ListNotations.
Local Open Scope Qc_scope.

Lemma lo_le_hi e : px (lo e) <= px (hi e).
Proof.
  unfold lo, hi, sorted_pair, to_sorted_pair. destruct (point_lt (seg_start e) (seg_end e)) eqn:Q; cbn [fst snd].
  - apply point_lt_true in Q. destruct Q as [Q|[Q _]]; qlra.
  - destruct (lex_total (seg_start e) (seg_end e)) as [[L|L]|L]; [apply point_lt_true in L; congruence|rewrite L; apply Qcle_refl|].
    destruct L as [L|[L _]]; qlra.
Qed.
Definition reach (low high : Qc) (s : segment) : bool :=
  qleb low (q_max (px (seg_start s)) (px (seg_end s))) && qleb (q_min (px (seg_start s)) (px (seg_end s))) high.
Lemma reach_true low high e : reach low high e = true <-> low <= px (hi e) /\ px (lo e) <= high.
Proof.
  unfold reach. rewrite andb_true_iff, !qleb_true. pose proof (lo_le_hi e) as L.
  assert (E : q_max (px (seg_start e)) (px (seg_end e)) = px (hi e) /\ q_min (px (seg_start e)) (px (seg_end e)) = px (lo e)).
  { destruct (lo_hi e) as [[A B]|[A B]]; rewrite A, B in *; unfold q_max, q_min; repeat qcase; split; auto; apply Qcle_antisym; qlra. }
  destruct E as [-> ->]. tauto.
Qed.
Lemma filter_all {T} (l : list T) : filter (fun _ => true) l = l.
Proof. induction l; cbn; congruence. Qed.
Lemma filter_len {T} (f : T -> bool) l : (length (filter f l) <= length l)%nat.
Proof. induction l as [|x l IH]; cbn; auto. destruct (f x); cbn; lia. Qed.
Lemma outlines_length r : length (outlines r) = length (concat r).
Proof. induction r as [|vs r IH]; auto. unfold outlines in *. cbn [flat_map concat]. rewrite !app_length, IH, edges_length. auto. Qed.
Lemma same_lengths (l r : list (list point)) : Forall2 same_cycle l r -> length (concat l) = length (concat r).
Proof. induction 1 as [|x y l r S F IH]; auto. cbn [concat]. rewrite !app_length, IH, (same_cycle_length x y S). auto. Qed.

(** The selections of the operations. *)
Definition sel_intersection (first other : bool) (q : overlap_kind) : bool := (other && kind_is q NO_OVERLAP) || (negb first && kind_is q SAME_ORIENTATION).
Definition sel_union (first other : bool) (q : overlap_kind) : bool := (negb other && kind_is q NO_OVERLAP) || (negb first && kind_is q SAME_ORIENTATION).
Definition sel_difference (first other : bool) (q : overlap_kind) : bool :=
  if first then negb other && kind_is q NO_OVERLAP else (other && kind_is q NO_OVERLAP) || kind_is q DIFFERENT_ORIENTATION.
Definition sel_symmetric (first other : bool) (q : overlap_kind) : bool := negb (negb (kind_is q NO_OVERLAP)).
Lemma selects_intersection : selects andb sel_intersection.
Proof. constructor; [reflexivity|intros [] []; reflexivity|intros [] []; reflexivity|intros [] [] []; reflexivity|intros [] [] Q; try reflexivity; congruence]. Qed.
Lemma selects_union : selects orb sel_union.
Proof. constructor; [reflexivity|intros [] []; reflexivity|intros [] []; reflexivity|intros [] [] []; reflexivity|intros [] [] Q; try reflexivity; congruence]. Qed.
Lemma selects_difference : selects (fun a b => a && negb b) sel_difference.
Proof. constructor; [reflexivity|intros [] []; reflexivity|intros [] []; reflexivity|intros [] [] []; reflexivity|intros [] [] Q; try reflexivity; congruence]. Qed.
Lemma selects_symmetric : selects xorb sel_symmetric.
Proof. constructor; [reflexivity|intros [] []; reflexivity|intros [] []; reflexivity|intros [] [] []; reflexivity|intros [] [] Q; try reflexivity; congruence]. Qed.

Lemma collect_maybe l : exists g, collect_maybe_empty_polygons l = Some g /\ shaped g /\ geometry_rings g = flat_map rings l.
Proof.
  destruct l as [|p [|p' l]]; cbn [collect_maybe_empty_polygons collect_non_empty_polygons].
  - exists GEmpty. cbn. auto.
  - exists (GPolygon p). cbn [shaped geometry_rings flat_map]. rewrite app_nil_r. auto.
  - unfold new_multipolygon. exists (GMultipolygon (p :: p' :: l)). cbn [length Nat.ltb Nat.leb shaped]. split; auto. split; auto. lia.
Qed.
Lemma collect_non_empty l : l <> [] -> exists g, collect_non_empty_polygons l = Some g /\ shaped g /\ geometry_rings g = flat_map rings l.
Proof.
  intros Ne. destruct l as [|p [|p' l]]; [congruence| |]; cbn [collect_maybe_empty_polygons collect_non_empty_polygons].
  - exists (GPolygon p). cbn [shaped geometry_rings flat_map]. rewrite app_nil_r. auto.
  - unfold new_multipolygon. exists (GMultipolygon (p :: p' :: l)). cbn [length Nat.ltb Nat.leb shaped]. split; auto. split; auto. lia.
Qed.

(** What each operation gives. *)
Definition clips_to (op : Prop -> Prop -> Prop) (p p' : polygon) (outcome : clip_outcome) : Prop :=
  exists g, outcome = Clips g /\ shaped g /\ Forall nondegenerate (geometry_rings g)
    /\ (forall x, on_segs (outlines (geometry_rings g)) x -> on_segs (outlines (rings p)) x \/ on_segs (outlines (rings p')) x)
    /\ forall q, off_outlines (rings p) q -> off_outlines (rings p') q -> (inside_odd (geometry_rings g) q <-> op (inside_polygon p q) (inside_polygon p' q)).

Section Operands.
Variables p p' : polygon.
Hypothesis V : valid_polygon p.
Hypothesis V' : valid_polygon p'.
Variables r r' : list (list point).
Hypothesis P : prepared p r.
Hypothesis P' : prepared p' r'.
Notation A := (outlines r). Notation B := (outlines r').
Notation box := (bounding_box (GPolygon p)). Notation box' := (bounding_box (GPolygon p')).

Lemma range_of q s x e : valid_polygon q -> prepared q s -> In e (outlines s) -> In x [lo e; hi e] -> min_x (bounding_box (GPolygon q)) <= px x /\ px x <= max_x (bounding_box (GPolygon q)).
Proof.
  clear. intros Vq Pq I J. apply vertices_range; auto. assert (K : In x (ends_of (outlines s))).
  { unfold ends_of. apply in_flat_map. exists e. split; auto. cbn in J |- *. destruct (lo_hi e) as [[A1 A2]|[A1 A2]]; rewrite A1, A2 in J; tauto. }
  apply concat_ends in K. apply in_concat in K. destruct K as (vs & I1 & I2). pose proof (pr_same _ _ Pq) as F.
  apply in_concat. clear - F I1 I2. induction F as [|a b l m S F IH]; [destruct I1|]. destruct I1 as [->|I1].
  - exists a. split; [left; auto|]. apply (Permutation_in _ (Permutation_sym (same_cycle_permutation _ _ S))); auto.
  - destruct (IH I1) as (y & J1 & J2). exists y. split; auto. right; auto.
Qed.
Lemma range_A e : In e A -> min_x box <= px (lo e) /\ px (lo e) <= max_x box /\ min_x box <= px (hi e) /\ px (hi e) <= max_x box.
Proof. intros I. destruct (range_of p r (lo e) e V P I) as [A1 A2]; [cbn; auto|]. destruct (range_of p r (hi e) e V P I) as [A3 A4]; [cbn; auto|]. auto. Qed.
Lemma range_B e : In e B -> min_x box' <= px (lo e) /\ px (lo e) <= max_x box' /\ min_x box' <= px (hi e) /\ px (hi e) <= max_x box'.
Proof. intros I. destruct (range_of p' r' (lo e) e V' P' I) as [A1 A2]; [cbn; auto|]. destruct (range_of p' r' (hi e) e V' P' I) as [A3 A4]; [cbn; auto|]. auto. Qed.
Lemma sides (f : bool) eps : rising eps (ends_of (full A B f)) -> forall e q, In e (full A B f) -> on_seg e q ->
  (forall v, In v (ends_of (full A B f)) -> Xs eps v <> Xs eps q) -> xsum (below_seg eps q) (full A B f) = negb (segment_flag e).
Proof. destruct f; [apply (pr_side _ _ P)|apply (pr_side _ _ P')]. Qed.
Lemma on_same q : on_segs A q <-> on_segs (outlines (rings p)) q.
Proof.
  pose proof (off_same _ _ q (pr_same _ _ P)) as E. unfold off_outlines in E. split; intros O.
  - destruct (on_segs_dec (outlines (rings p)) q); auto. exfalso. tauto.
  - destruct (on_segs_dec A q); auto. exfalso. tauto.
Qed.
Lemma on_same' q : on_segs B q <-> on_segs (outlines (rings p')) q.
Proof.
  pose proof (off_same _ _ q (pr_same _ _ P')) as E. unfold off_outlines in E. split; intros O.
  - destruct (on_segs_dec (outlines (rings p')) q); auto. exfalso. tauto.
  - destruct (on_segs_dec B q); auto. exfalso. tauto.
Qed.
Lemma inside_r q : off_outlines (rings p) q -> inside_polygon p q <-> xsum (fun vs => insideb vs q) r = true.
Proof. intros Off. rewrite (polygon_odd p q V Off), odd_xsum, (Forall2_rings_inside _ _ q (pr_same _ _ P)). tauto. Qed.
Lemma inside_r' q : off_outlines (rings p') q -> inside_polygon p' q <-> xsum (fun vs => insideb vs q) r' = true.
Proof. intros Off. rewrite (polygon_odd p' q V' Off), odd_xsum, (Forall2_rings_inside _ _ q (pr_same _ _ P')). tauto. Qed.
Lemma count_sides kA kB fuel : (enough (vertices_count p + vertices_count p') <= fuel)%nat -> (enough (length (filter kA A ++ filter kB B)) <= fuel)%nat.
Proof.
  intros F. etransitivity; [|exact F]. apply enough_mono. rewrite app_length. unfold vertices_count.
  rewrite (same_lengths _ _ (pr_same _ _ P)), (same_lengths _ _ (pr_same _ _ P')), <- !outlines_length.
  pose proof (filter_len kA A). pose proof (filter_len kB B). lia.
Qed.

Variables (kA kB : segment -> bool).
Hypothesis Cov : forall (f : bool) e g, In e (full A B f) -> In g (full A B (negb f)) -> px (lo e) <= px (hi g) -> px (lo g) <= px (hi e) -> keep kA kB f e = true.
Variable op2 : bool -> bool -> bool.
Variable sel : bool -> bool -> overlap_kind -> bool.
Hypothesis Se : selects op2 sel.
Hypothesis Zero : forall f : bool, (forall e, In e (full A B f) -> keep kA kB f e = true) \/ (forall a, at2 op2 f a false = false).
Variable from_result : shaped_operation -> event -> bool.
Hypothesis FR : forall s e, from_result s e = sel (is_left_event_from_first_operand (so s) e) (other_flag s e) (kind_of s e).
Variable limit : option Qc.
Hypothesis Lim : match limit with None => True | Some m => exists f : bool,
  (forall a, (if f then op2 false a else op2 a false) = false) /\ forall e, In e (opf (filter kA A) (filter kB B) f) -> px (hi e) <= m end.
Variables (shape : tree_shape) (fuel : nat).
Hypothesis Fuel : (enough (vertices_count p + vertices_count p') <= fuel)%nat.
Variable op : Prop -> Prop -> Prop.
Hypothesis Op : forall a b : bool, op2 a b = true <-> op (a = true) (b = true).
Hypothesis OpM : forall a b c d : Prop, (a <-> b) -> (c <-> d) -> (op a c <-> op b d).
Variable collect : list polygon -> option geometry.
Hypothesis Collect : forall l, (l = [] -> op2 true true = false \/ op2 true false = false) -> exists g, collect l = Some g /\ shaped g /\ geometry_rings g = flat_map rings l.

Lemma polygons_clip : clips_to op p p' (clip_polygons from_result collect fuel shape limit (filter kA A) (filter kB B)).
Proof.
  destruct (run_all r r' kA kB (pr_nc _ _ P) (pr_nc _ _ P') sides Cov op2 sel Se Zero from_result FR limit Lim shape fuel (count_sides kA kB fuel Fuel))
    as (l & Er & Ng & Sub & Odd).
  destruct (Collect l) as (g & Cg & Sg & Rg).
  { intros ->. destruct (op2 true true) eqn:T1; auto. destruct (op2 true false) eqn:T2; auto. exfalso.
    destruct (inner_point r B (pr_nc _ _ P)) as (q & O1 & O2 & Q); [| | |].
    - intros E. pose proof (pr_same _ _ P) as F. rewrite E in F. unfold rings in F. inversion F.
    - intros I. pose proof (vp_simple _ V) as Sm. pose proof (pr_same _ _ P) as F. clear - I Sm F. induction F as [|a b l m S F IH]; [destruct I|].
      inversion Sm as [|? ? [[S1 _] _] S2]; subst. destruct I as [->|I]; auto. rewrite (same_cycle_length _ _ S) in S1. cbn in S1. lia.
    - apply (pr_nc _ _ P').
    - specialize (Odd q O1 O2). rewrite Q in Odd. cbn [flat_map xsum] in Odd. destruct (xsum _ r'); congruence. }
  exists g. split; [rewrite (run_clips _ collect _ _ _ _ _ l Er), Cg; auto|]. split; auto. rewrite Rg. split; auto. split.
  - intros x O. rewrite <- on_same, <- on_same'. auto.
  - intros q O1 O2. rewrite odd_xsum. rewrite Odd.
    + rewrite Op. apply OpM; symmetry; [apply inside_r|apply inside_r']; auto.
    + intros O. apply on_same in O. contradiction.
    + intros O. apply on_same' in O. contradiction.
Qed.
End Operands.

Section Drivers.
Variables p p' : polygon.
Hypothesis V : valid_polygon p.
Hypothesis V' : valid_polygon p'.
Variables (shape : tree_shape) (fuel : nat).
Hypothesis Fuel : (enough (vertices_count p + vertices_count p') <= fuel)%nat.
Notation box := (bounding_box (GPolygon p)). Notation box' := (bounding_box (GPolygon p')).

Lemma rings_nondegenerate q : valid_polygon q -> Forall nondegenerate (rings q).
Proof. intros Vq. eapply Forall_impl; [|exact (vp_simple _ Vq)]. intros vs S. apply S. Qed.

Theorem intersection_clips : clips_to and p p' (intersect_polygon_with_polygon fuel shape p p').
Proof.
  unfold intersect_polygon_with_polygon. destruct (do_boxes_have_no_common_area box box') eqn:Bx.
  - exists GEmpty. split; auto. split; [exact I|]. split; [constructor|]. split; [intros x (e & [] & _)|]. intros q O1 O2. cbn [geometry_rings]. rewrite odd_xsum.
    split; [discriminate|]. intros [I1 I2]. exfalso. apply (no_common_area_apart p p' q Bx); auto.
  - destruct (prepare p V) as (r & P), (prepare p' V') as (r' & P'). rewrite (pr_segments _ _ P), (pr_segments _ _ P').
    change (reaching ?l ?h ?s) with (filter (reach l h) s). set (m := q_max (min_x box) (min_x box')). set (M := q_min (max_x box) (max_x box')).
    apply (polygons_clip p p' V V' r r' P P') with (op2 := andb) (sel := sel_intersection); auto.
    + intros f e g I J L1 L2. assert (Q : reach m M e = true); [|destruct f; exact Q]. apply reach_true. unfold m, M, q_max, q_min. pose proof (lo_le_hi e).
      destruct f; cbn [full negb] in I, J; [destruct (range_A p V r P e I) as (? & ? & ? & ?), (range_B p' V' r' P' g J) as (? & ? & ? & ?)
        |destruct (range_B p' V' r' P' e I) as (? & ? & ? & ?), (range_A p V r P g J) as (? & ? & ? & ?)]; repeat qcase; split; qlra.
    + apply selects_intersection.
    + intros [] ; right; intros []; reflexivity.
    + unfold M, q_min. destruct (qltb_spec (max_x box') (max_x box)) as [L|L]; [exists false|exists true]; (split; [intros []; reflexivity|]); intros e I; cbn [opf] in I; apply filter_In in I; destruct I as [I _].
      * destruct (range_B p' V' r' P' e I) as (? & ? & ? & ?); auto.
      * destruct (range_A p V r P e I) as (? & ? & ? & ?); auto.
    + intros [] []; cbn; intuition discriminate.
    + intros a b c d; tauto.
    + intros l _. apply collect_maybe.
Qed.
Theorem union_clips : clips_to or p p' (unite_polygon_with_polygon fuel shape p p').
Proof.
  unfold unite_polygon_with_polygon. destruct (do_boxes_have_no_common_continuum box box') eqn:Bx.
  - exists (GMultipolygon [p; p']). split; auto. split; [cbn; lia|]. cbn [geometry_rings flat_map]. rewrite app_nil_r. split; [apply Forall_app; split; apply rings_nondegenerate; auto|].
    split; [intros x O; unfold outlines in O; rewrite flat_map_app in O; apply on_segs_app in O; exact O|]. intros q O1 O2. rewrite odd_xsum, xsum_app.
    rewrite (polygon_odd p q V O1), (polygon_odd p' q V' O2), !odd_xsum.
    pose proof (no_common_area_apart p p' q (no_common_continuum_area _ _ Bx)) as Ap. rewrite (polygon_odd p q V O1), (polygon_odd p' q V' O2), !odd_xsum in Ap.
    destruct (xsum _ (rings p)), (xsum _ (rings p')); cbn; intuition congruence.
  - destruct (prepare p V) as (r & P), (prepare p' V') as (r' & P'). rewrite (pr_segments _ _ P), (pr_segments _ _ P').
    rewrite <- (filter_all (outlines r)) at 1. rewrite <- (filter_all (outlines r')) at 1.
    apply (polygons_clip p p' V V' r r' P P') with (op2 := orb) (sel := sel_union); auto.
    + intros [] e g; auto.
    + apply selects_union.
    + intros []; left; auto.
    + intros [] []; cbn; intuition discriminate.
    + intros a b c d; tauto.
    + intros l Ne. apply collect_non_empty. intros E. destruct (Ne E); discriminate.
Qed.
Theorem difference_clips : clips_to (fun a b => a /\ ~ b) p p' (subtract_polygon_from_polygon fuel shape p p').
Proof.
  unfold subtract_polygon_from_polygon. destruct (do_boxes_have_no_common_area box box') eqn:Bx.
  - exists (GPolygon p). split; auto. split; [exact I|]. split; [apply rings_nondegenerate; auto|]. split; [auto|]. intros q O1 O2. cbn [geometry_rings].
    rewrite <- (polygon_odd p q V O1). pose proof (no_common_area_apart p p' q Bx). tauto.
  - destruct (prepare p V) as (r & P), (prepare p' V') as (r' & P'). rewrite (pr_segments _ _ P), (pr_segments _ _ P').
    change (reaching ?l ?h ?s) with (filter (reach l h) s). rewrite <- (filter_all (outlines r)) at 1.
    apply (polygons_clip p p' V V' r r' P P') with (op2 := fun a b => a && negb b) (sel := sel_difference); auto.
    + intros [] e g I J L1 L2; auto. cbn [keep]. apply reach_true. cbn [full negb] in I, J.
      destruct (range_B p' V' r' P' e I) as (? & ? & ? & ?), (range_A p V r P g J) as (? & ? & ? & ?). split; qlra.
    + apply selects_difference.
    + intros []; [left; auto|right; intros []; reflexivity].
    + exists true. split; [auto|]. intros e I. cbn [opf] in I. rewrite filter_all in I. destruct (range_A p V r P e I) as (? & ? & ? & ?); auto.
    + intros [] []; cbn; intuition discriminate.
    + intros a b c d; tauto.
    + intros l _. apply collect_maybe.
Qed.
Theorem symmetric_difference_clips : clips_to (fun a b => (a /\ ~ b) \/ (b /\ ~ a)) p p' (symmetric_subtract_polygon_from_polygon fuel shape p p').
Proof.
  unfold symmetric_subtract_polygon_from_polygon. destruct (do_boxes_have_no_common_continuum box box') eqn:Bx.
  - exists (GMultipolygon [p; p']). split; auto. split; [cbn; lia|]. cbn [geometry_rings flat_map]. rewrite app_nil_r. split; [apply Forall_app; split; apply rings_nondegenerate; auto|].
    split; [intros x O; unfold outlines in O; rewrite flat_map_app in O; apply on_segs_app in O; exact O|]. intros q O1 O2. rewrite odd_xsum, xsum_app.
    rewrite (polygon_odd p q V O1), (polygon_odd p' q V' O2), !odd_xsum.
    destruct (xsum _ (rings p)), (xsum _ (rings p')); cbn; intuition congruence.
  - destruct (prepare p V) as (r & P), (prepare p' V') as (r' & P'). rewrite (pr_segments _ _ P), (pr_segments _ _ P').
    rewrite <- (filter_all (outlines r)) at 1. rewrite <- (filter_all (outlines r')) at 1.
    apply (polygons_clip p p' V V' r r' P P') with (op2 := xorb) (sel := sel_symmetric); auto.
    + intros [] e g; auto.
    + apply selects_symmetric.
    + intros []; left; auto.
    + intros [] []; cbn; intuition congruence.
    + intros a b c d; tauto.
    + intros l _. apply collect_maybe.
Qed.
End Drivers.
