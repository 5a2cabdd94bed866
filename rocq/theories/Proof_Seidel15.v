(** The trapezoidation, part 15: the trapezoidation of a polygon. *)
From Coq Require Import QArith Qcanon Bool List Arith Lia NArith Permutation.
From Verif Require Import QcTac Model_Base Model_Utils Model_Box Model_Geometry Model_Contour Model_Linear Model_Mixed Model_Seidel Spec_Base Spec_Bounds Spec_Segment Spec_Contour
  Spec_Clip Spec_Shaped Spec_Relate Spec_RelateShaped Spec_Validity Spec_Seidel Proof_Base Proof_Utils Proof_Bounds Proof_Ray Proof_Ready
  Proof_Locate4 Proof_Sweep Proof_Sweep4 Proof_Seidel11 Proof_Seidel12 Proof_Seidel13 Proof_Seidel14.
Import ListNotations.
Local Open Scope Qc_scope.

Section Polygon.
Variables (p : polygon) (seed : N).
Hypothesis V : valid_polygon p.
Hypothesis M : meet_at_ends (outlines (rings p)).
Let es := permute (populate_from_contour (border p) COUNTERCLOCKWISE 0 ++ populate_from_holes (holes p) (length (border p))) seed.
Let eps := border p ++ concat (holes p).
Notation sides := (outlines (rings p)).

Lemma polygon_located_by (q : point) : exists t, from_polygon p seed = Some t /\
  (on_segs sides q -> trapezoidation_locate t q = Some BOUNDARY) /\
  (~ on_segs sides q -> exists d0, 0 < d0 /\ forall d, 0 < d -> d <= d0 ->
     (taken_for_interior p q d /\ trapezoidation_locate t q = Some INTERIOR) \/ (~ taken_for_interior p q d /\ trapezoidation_locate t q = Some EXTERIOR)).
Proof.
  destruct (Permutation_Forall2 (permute_permutation _ seed) (polygon_belongs p)) as (ss & Sp & Sf). fold es in Sf.
  destruct (prepare p V) as (r & P).
  set (ins := map (fun g => (eL es eps g, eR es eps g)) (seq 0 (length es)) ++ [(q, Pt (px q + 1) (py q))]).
  assert (Sd := side_facts p seed V ss Sp Sf r P). fold es eps in Sd.
  assert (Sb := side_between p seed V ss Sp Sf r P). fold es eps in Sb.
  assert (Ln : (0 < length es)%nat).
  { assert (Len := ss_length p seed ss Sf). fold es in Len. rewrite <- Len, <- (Permutation_length Sp). pose proof (vp_simple _ V) as F. inversion F as [|? ? [(L3 & _) _] _]; subst.
    unfold marks, rings. cbn [flat_map]. rewrite app_length. destruct (border p) as [|v l]; [cbn in L3; lia|]. cbn [ring_marks]. rewrite app_length. cbn [length]. lia. }
  set (b := bounding_box (GPolygon p)).
  set (corners := [Pt (min_x b - or_one (max_x b - min_x b)) (max_y b + or_one (max_y b - min_y b));
     Pt (max_x b + or_one (max_x b - min_x b)) (max_y b + or_one (max_y b - min_y b));
     Pt (min_x b - or_one (max_x b - min_x b)) (min_y b - or_one (max_y b - min_y b));
     Pt (max_x b + or_one (max_x b - min_x b)) (min_y b - or_one (max_y b - min_y b))]).
  assert (Corn : exists a1 a2 cl cr, corners = [a1; a2; cl; cr] /\ forall g, (g < length es)%nat -> px cl < px (eL es eps g) /\ px cl < px (eR es eps g) /\ px (eL es eps g) < px cr /\ px (eR es eps g) < px cr).
  { unfold corners. do 4 eexists. split; [reflexivity|]. intros g L. cbn [px]. destruct (Sd g L) as (I1 & I2 & _).
    assert (R1 : min_x b <= px (eL es eps g) /\ px (eL es eps g) <= max_x b) by (apply vertices_range; auto; apply nth_In; exact I1).
    assert (R2 : min_x b <= px (eR es eps g) /\ px (eR es eps g) <= max_x b) by (apply vertices_range; auto; apply nth_In; exact I2).
    destruct R1, R2. assert (0 < or_one (max_x b - min_x b)) by (apply or_one_pos; qlra). repeat split; qlra. }
  assert (Main : forall d, 0 < d ->
    (forall v w, In v (all_points ins) -> In w (all_points ins) -> lex_lt v w -> px v + d * py v < px w + d * py w) ->
    exists t, from_polygon p seed = Some t /\
      (on_segs sides q -> trapezoidation_locate t q = Some BOUNDARY) /\
      (~ on_segs sides q -> 
       (taken_for_interior p q d /\ trapezoidation_locate t q = Some INTERIOR) \/ (~ taken_for_interior p q d /\ trapezoidation_locate t q = Some EXTERIOR))).
  { intros d Dp Small. set (c := Ctx d (all_points ins) ins 0).
    assert (Gc : good c) by (apply (G p seed q V ss Sp Sf r P d Dp Small)).
    destruct (bounded (map (X c) (c_pts c) ++ map py (c_pts c))) as (A & PA & HA).
    destruct (concrete_found es eps corners q c A) as (nodes1 & nodes2 & Ad & Ad2 & Q1 & Q2).
    - intros g L. destruct (Sd g L) as (I1 & I2 & _). auto.
    - intros g L. apply Sd; auto.
    - exact (sides_meet p seed V M ss Sp Sf r P).
    - exact Corn.
    - exact Gc.
    - exact (ins_at p seed q d).
    - exact (ins_count p seed q d).
    - exact (q_in p seed q d).
    - intros x I. destruct (HA (X c x)) as [B1 B2]; [apply in_or_app; left; apply in_map; auto|].
      destruct (HA (py x)) as [B3 B4]; [apply in_or_app; right; apply in_map; auto|]. auto.
    - exact Ln.
    - unfold from_polygon, from_box, box_to_trapezoid. fold b es eps corners. rewrite Ad, Ad2. eexists. split; [reflexivity|].
      unfold trapezoidation_locate. cbn [tr_nodes tr_edges tr_endpoints].
      assert (OE : (exists g, (g < length es)%nat /\ between (eL es eps g) (eR es eps g) q) <-> on_segs sides q).
      { split.
        - intros (g & L & B). exists (side ss g). split; [apply (side_in p seed ss Sp Sf); auto|]. apply (Sb g q L). auto.
        - intros (s & I & B). apply (in_side p seed ss Sp Sf) in I as (g & L & <-). exists g. split; auto. apply (Sb g q L). auto. }
      rewrite OE in Q1, Q2. split; [exact Q1|]. intros Off. destruct (Q2 Off) as (bl & ab & Bl & Ab & Fr & Lo). rewrite Lo.
      set (ext := es ++ _) in *.
      assert (Eo : forall g, (g < length es)%nat -> edge_at ext g = edge_at es g) by (intros g L; unfold edge_at, ext; apply app_nth1; auto).
      set (fb := interior_to_left (edge_at ext bl)). set (fa := interior_to_left (edge_at ext ab)).
      destruct (answer p seed q V M ss Sp Sf r P d Dp Small Off bl ab fb fa) as [T1 T2].
      + destruct Bl as [->|(L & Pb & Lt)]; [left|right].
        * split; auto. unfold fb, edge_at, ext. rewrite app_nth2 by lia. replace (length es + 1 - length es)%nat with 1%nat by lia. reflexivity.
        * split; auto. split; auto. split; auto. unfold fb. rewrite Eo by auto. reflexivity.
      + destruct Ab as [->|(L & Pb & Lt)]; [left|right].
        * split; auto. unfold fa, edge_at, ext. rewrite app_nth2 by lia. rewrite Nat.sub_diag. reflexivity.
        * split; auto. split; auto. split; auto. unfold fa. rewrite Eo by auto. reflexivity.
      + exact Fr.
      + destruct (fb && negb fa); [left|right]; auto. }
  destruct (eps_exists (all_points ins)) as (e & Pe & Re).
  destruct (Main e Pe Re) as (t & Et & B1 & _). exists t. split; auto. split; auto. intros Off. exists e. split; auto.
  intros d Dp Le. destruct (Main d Dp (smaller_rising e d _ Dp Le Re)) as (t' & Et' & _ & B2). rewrite Et in Et'. injection Et' as <-. auto.
Qed.
End Polygon.

Lemma polygon_trapezoidation p seed : valid_polygon p -> meet_at_ends (outlines (rings p)) ->
  exists t, from_polygon p seed = Some t /\ forall q,
  (boundary p q -> trapezoidation_locate t q = Some BOUNDARY) /\
  (~ boundary p q -> exists d0, 0 < d0 /\ forall d, 0 < d -> d <= d0 ->
     (taken_for_interior p q d /\ trapezoidation_locate t q = Some INTERIOR) \/ (~ taken_for_interior p q d /\ trapezoidation_locate t q = Some EXTERIOR)).
Proof.
  intros V M. destruct (polygon_located_by p seed V M (Pt 0 0)) as (t & E & _). exists t. split; auto. intros q.
  destruct (polygon_located_by p seed V M q) as (t' & E' & Q). rewrite E in E'. injection E' as <-. exact Q.
Qed.
