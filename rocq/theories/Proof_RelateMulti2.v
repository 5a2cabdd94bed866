(** The relation of two lists of polygons, some of which are left out of the sweep. *)
From Coq Require Import QArith Qcanon Bool List Arith Lia Permutation.
From Verif Require Import QcTac Model_Base Model_Utils Model_Box Model_Geometry Model_Contour Model_Linear Model_Mixed Model_Shaped Model_Multipolygon Model_Relate Model_RelateLinear Model_RelateShaped
  Spec_Base Spec_Segment Spec_Clip Spec_Contour Spec_Relate Spec_Bounds Spec_Sweep Spec_Shaped Spec_Multipolygon Spec_RelateShaped
  Proof_Base Proof_Line Proof_Contour Proof_Edges Proof_Bounds Proof_Locate Proof_Locate3 Proof_Locate4 Proof_Sweep4 Proof_Sweep6 Proof_Sweep18 Proof_SegLoops Proof_Parity
  Proof_Corner Proof_Ray Proof_Orient Proof_Nested Proof_Nested2 Proof_Bridge
  Proof_RelateP Proof_Odd Proof_Clip Proof_Ready Proof_Polygons Proof_Multi Proof_Multi2 Proof_RelShaped3 Proof_RelShaped6 Proof_RelShaped7 Proof_RelShaped8 Proof_RelateShaped Proof_RelateMulti1.
Import ListNotations.
Local Open Scope Qc_scope.

Definition reduced (f : polygon -> bool) (b : box) (l : list polygon) : list polygon := map (fun p => kept p b) (filter f l).

Lemma nc_sub a a' c c' : non_crossing (a ++ c) -> non_crossing a' -> non_crossing c' -> (forall e, In e a' -> In e a) -> (forall e, In e c' -> In e c) -> non_crossing (a' ++ c').
Proof.
  intros [_ F] [P1 F1] [P2 F2] S1 S2. apply FOP_app_inv in F. destruct F as (_ & _ & F). split; [apply Forall_app; auto|]. apply FOP_app; auto.
Qed.
Lemma nc_right a c : non_crossing (a ++ c) -> non_crossing a /\ non_crossing c.
Proof. intros [P F]. apply Forall_app in P. apply FOP_app_inv in F. destruct P, F as (F1 & F2 & _). repeat split; auto. Qed.
Lemma reduced_rings f b l vs : In vs (flat_map rings (reduced f b l)) -> In vs (flat_map rings l).
Proof.
  intros I. apply in_flat_map in I. destruct I as (k & Ik & I). unfold reduced in Ik. apply in_map_iff in Ik. destruct Ik as (p & <- & Ip). apply filter_In in Ip.
  apply in_flat_map. exists p. split; [apply Ip|]. apply (kept_rings p b); auto.
Qed.
Lemma reduced_outlines f b l e : In e (outlines (flat_map rings (reduced f b l))) -> In e (outlines (flat_map rings l)).
Proof. unfold outlines. intros I. apply in_flat_map in I. destruct I as (vs & I & J). apply in_flat_map. exists vs. split; auto. apply (reduced_rings f b); auto. Qed.
Lemma ring_in r vs : In vs r -> forall e, In e (edges vs) -> In e (outlines r).
Proof. intros I e J. unfold outlines. apply in_flat_map. exists vs. auto. Qed.

Lemma reduced_valid f b l : valid_polygons l -> settled l -> (forall p, In p l -> f p = true -> exists x, in_box (polygon_box p) x /\ in_box b x) ->
  valid_polygons (reduced f b l).
Proof.
  induction l as [|p l IH]; intros V St Nb; [constructor; [constructor|split; constructor|constructor]|].
  pose proof (vm_edges _ V) as Ne. cbn [flat_map] in Ne. rewrite outlines_app in Ne.
  destruct (valid_tail _ _ V) as (Vp & Vl & Ap).
  assert (Vr : valid_polygons (reduced f b l)).
  { apply IH; auto. - intros q q' h Iq Iq' Ih. apply (St q q' h); [right; auto|right; auto|auto]. - intros q Iq. apply Nb. right; auto. }
  unfold reduced in *. cbn [filter]. destruct (f p) eqn:Fp; auto. cbn [map]. constructor.
  - constructor; [apply kept_valid; auto|apply Vr].
  - cbn [flat_map]. rewrite outlines_app. apply (nc_sub _ _ _ _ Ne); [apply (kept_valid p b Vp)|apply Vr| |intros e; apply (reduced_outlines f b)].
    intros e I. unfold outlines in *. apply in_flat_map in I. destruct I as (vs & I & J). apply in_flat_map. exists vs. split; auto. apply (kept_rings p b); auto.
  - constructor; [|apply Vr]. apply Forall_forall. intros k Ik. apply in_map_iff in Ik. destruct Ik as (p' & <- & Ip'). apply filter_In in Ip'. destruct Ip' as [Ip' Fp'].
    pose proof (vm_each _ Vl) as Vs. rewrite Forall_forall in Vs.
    intros x. apply kept_apart; auto.
    + rewrite outlines_app. apply (nc_sub _ _ _ _ Ne); auto; [apply Vp|apply (Vs p' Ip')|].
      intros e I. unfold outlines in *. apply in_flat_map in I. destruct I as (vs & I & J). apply in_flat_map. exists vs. split; auto. apply in_flat_map. exists p'. auto.
    + intros h Ih. apply (St p p' h); [left; auto|right; auto|auto].
    + intros h Ih. apply (St p' p h); [right; auto|left; auto|auto].
    + apply Nb; [left; auto|auto].
    + apply Nb; [right; auto|auto].
Qed.
Lemma boundary_list l x : on_segs (outlines (flat_map rings l)) x <-> boundary_some l x.
Proof.
  unfold boundary_some, boundary. rewrite on_outlines. split.
  - intros (vs & I & O). apply in_flat_map in I. destruct I as (p & Ip & I). exists p. split; auto. apply on_outlines. exists vs. auto.
  - intros (p & Ip & O). apply on_outlines in O. destruct O as (vs & I & O). exists vs. split; auto. apply in_flat_map. exists p. auto.
Qed.
Lemma pairs_apart l p p' x : valid_polygons l -> In p l -> In p' l -> inside_polygon p x -> boundary p' x -> False.
Proof.
  intros V Ip Ip' I O. pose proof (vm_each _ V) as Vs. rewrite Forall_forall in Vs. pose proof (inside_inn p x (Vs p Ip)) as [Q _]. destruct (Q I) as [Off Par].
  destruct (beside (rings p') (rings p) x true (vp_edges _ (Vs p' Ip')) (vp_edges _ (Vs p Ip)) O Off) as (z & O1 & O2 & P1 & P2).
  assert (I1 : inside_polygon p' z) by (apply inside_inn; [auto|split; auto]). assert (I2 : inside_polygon p z) by (apply inside_inn; [auto|split; auto; congruence]).
  destruct (ForallOrdPairs_In (vm_apart _ V) p p' Ip Ip') as [E|[R|R]]; [|apply (R z); auto|apply (R z); auto].
  subst p'. apply Off. exact O.
Qed.
Lemma inside_list_inn l x : valid_polygons l -> (inn (outlines (flat_map rings l)) x <-> inside_some l x).
Proof.
  intros V. assert (Eq : off_outlines (flat_map rings l) x -> (inside_some l x <-> parity (outlines (flat_map rings l)) x = true)).
  { intros O. change (inside_some l x) with (some_inside l x). rewrite (list_odd l x V O), (insideb_outlines _ _ O). tauto. }
  split.
  - intros [O P]. apply Eq; auto.
  - intros I. assert (O : off_outlines (flat_map rings l) x).
    { intros Q. apply boundary_list in Q. destruct Q as (p' & Ip' & Q). destruct I as (p & Ip & I). apply (pairs_apart l p p' x); auto. }
    split; auto. apply Eq; auto.
Qed.
Lemma oriented_segments p : oriented p -> polygon_to_correctly_oriented_segments p = outlines (rings p).
Proof.
  intros [Ob Oh]. unfold contour_orientation in *. unfold polygon_to_correctly_oriented_segments, outlines, rings. cbn [flat_map]. f_equal.
  - unfold to_oriented_segments. rewrite Ob. cbn. apply edges_to_contour.
  - induction (holes p) as [|h l IH]; auto. apply Forall_inv in Oh as O1. apply Forall_inv_tail in Oh. cbn [flat_map]. rewrite IH by auto. f_equal.
    unfold to_oriented_segments. rewrite O1. cbn. apply edges_to_contour.
Qed.

Lemma oriented_kept p b : oriented p -> oriented (kept p b).
Proof. intros [Ob Oh]. split; auto. cbn [kept holes]. rewrite Forall_forall in *. intros h I. apply filter_In in I. apply Oh, I. Qed.
Lemma reduced_oriented f b l : Forall oriented l -> Forall oriented (reduced f b l).
Proof. rewrite !Forall_forall. intros O k I. apply in_map_iff in I. destruct I as (p & <- & I). apply filter_In in I. apply oriented_kept, O, I. Qed.
Lemma segments_oriented l : Forall oriented l -> polygons_segments l = outlines (flat_map rings l).
Proof.
  intros O. rewrite outlines_rings. unfold polygons_segments. induction l as [|p l IH]; auto. apply Forall_inv in O as O1. apply Forall_inv_tail in O.
  cbn [flat_map]. rewrite IH, oriented_segments by auto. auto.
Qed.
Lemma oriented_side l : valid_polygons l -> Forall oriented l -> forall eps, rising eps (ends_of (outlines (flat_map rings l))) -> forall e q, In e (outlines (flat_map rings l)) -> on_seg e q ->
    (forall v, In v (ends_of (outlines (flat_map rings l))) -> Xs eps v <> Xs eps q) -> xsum (below_seg eps q) (outlines (flat_map rings l)) = negb (segment_flag e).
Proof.
  intros V O eps. destruct (prepare_list l V) as (r & P). pose proof (pl_segments _ _ P) as E. rewrite (segments_oriented l O) in E. rewrite E. apply (pl_side _ _ P).
Qed.
Lemma concat_filter_len {A} (f : list A -> bool) l : (length (concat (filter f l)) <= length (concat l))%nat.
Proof. induction l as [|a l IH]; auto. cbn [filter concat]. rewrite app_length. destruct (f a); cbn [concat]; rewrite ?app_length; lia. Qed.
Lemma reduced_count f b l : (length (outlines (flat_map rings (reduced f b l))) <= length (concat (flat_map rings l)))%nat.
Proof.
  rewrite outlines_length. unfold reduced. induction l as [|p l IH]; auto. cbn [filter flat_map]. rewrite concat_app, app_length. destruct (f p); [|lia].
  cbn [map flat_map]. rewrite concat_app, app_length. pose proof (concat_filter_len (near_box b) (holes p)). unfold rings at 1 3, kept at 1 2. cbn [border holes concat]. rewrite !app_length. lia.
Qed.
Lemma reduced_bound f b l m e : valid_polygons l -> (forall p, In p l -> f p = true -> max_x (polygon_box p) <= m) -> In e (outlines (flat_map rings (reduced f b l))) -> px (hi e) <= m.
Proof.
  intros V L I. pose proof (vm_each _ V) as Vs. rewrite Forall_forall in Vs.
  unfold outlines in I. apply in_flat_map in I. destruct I as (vs & I & J). apply in_flat_map in I. destruct I as (k & Ik & I). apply in_map_iff in Ik. destruct Ik as (p & <- & Ip).
  apply filter_In in Ip. destruct Ip as [Ip Fp]. assert (Bd : boundary p (hi e)).
  { apply on_outlines. exists vs. split; [apply (kept_rings p b); auto|]. exists e. split; auto. unfold on_seg. destruct (lo_hi e) as [[_ ->]|[_ ->]]; auto using between_start, between_end. }
  apply (boundary_box p (Vs p Ip)) in Bd. destruct Bd as ((_ & Q) & _). specialize (L p Ip Fp). unfold polygon_box in L. qlra.
Qed.
Lemma boundary_point p : valid_polygon p -> exists x, boundary p x.
Proof.
  intros V. pose proof (vp_simple _ V) as S. rewrite Forall_forall in S. destruct (S (border p) (or_introl eq_refl)) as [[Q _] _].
  destruct (border p) as [|v l] eqn:E; [cbn in Q; lia|]. destruct (vertex_edge (border p) v) as (e & Ie & Es); [rewrite E; left; auto|].
  exists v. apply on_outlines. exists (border p). split; [left; auto|]. exists e. split; auto. rewrite <- Es. apply between_start.
Qed.
Lemma filter_length {T} (f : T -> bool) l : (length (filter f l) =? length l)%nat = forallb f l.
Proof.
  assert (L : forall l, (length (filter f l) <= length l)%nat) by (intros k; induction k as [|a k IH]; cbn; auto; destruct (f a); cbn; lia).
  induction l as [|a l IH]; auto. cbn [filter forallb]. destruct (f a) eqn:E; cbn [andb length]; auto. apply Nat.eqb_neq. pose proof (L l). lia.
Qed.

(** One of the operands, seen from the other one. *)
Section Side.
Variables l l' : list polygon.
Hypothesis V : valid_polygons l.
Hypothesis V' : valid_polygons l'.
Hypothesis St : settled l.
Variables f f' : polygon -> bool.
Variables b b' : box.
Hypothesis Bx : forall p x, In p l -> in_box (polygon_box p) x -> in_box b x.
Hypothesis Bx' : forall p x, In p l' -> in_box (polygon_box p) x -> in_box b' x.
(** What is left out has no point in the boxes of the other operand; what is left reaches the box. *)
Hypothesis Out : forall p p' x, In p l -> f p = false -> In p' l' -> in_box (polygon_box p) x -> in_box (polygon_box p') x -> False.
Hypothesis Kept : forall p, In p l -> f p = true -> exists x, in_box (polygon_box p) x /\ in_box b' x.
Notation K := (reduced f b' l).
Notation K' := (reduced f' b l').
Lemma box_kept p c : polygon_box (kept p c) = polygon_box p. Proof. reflexivity. Qed.
Lemma some_box k x : Forall valid_polygon k -> inside_some k x \/ boundary_some k x -> exists p, In p k /\ region p x /\ in_box (polygon_box p) x.
Proof.
  rewrite Forall_forall. intros Vk [(p & I & Q)|(p & I & Q)]; exists p; (split; [auto|]); (split; [unfold region; auto|]); apply (region_box p (Vk p I)); unfold region; auto.
Qed.
Lemma others_box x : (inside_some K' x \/ boundary_some K' x) \/ (inside_some l' x \/ boundary_some l' x) -> exists p', In p' l' /\ in_box (polygon_box p') x.
Proof.
  intros [R|R].
  - apply some_box in R.
    + destruct R as (k & I & _ & Q). apply in_map_iff in I. destruct I as (p & <- & I). apply filter_In in I. exists p. split; [apply I|auto].
    + pose proof (vm_each _ V') as Vs. rewrite Forall_forall in *. intros k I. apply in_map_iff in I. destruct I as (p & <- & I). apply filter_In in I. apply kept_valid, Vs, I.
  - apply some_box in R; [|apply V']. destruct R as (p & I & _ & Q). exists p. auto.
Qed.
Lemma reduced_agree x : (exists p', In p' l' /\ in_box (polygon_box p') x) -> (inside_some K x <-> inside_some l x) /\ (boundary_some K x <-> boundary_some l x).
Proof.
  intros (p' & Ip' & Bp'). assert (Bb : in_box b' x) by (apply (Bx' p'); auto). pose proof (vm_each _ V) as Vs. rewrite Forall_forall in Vs.
  assert (Fp : forall p, In p l -> region p x -> f p = true).
  { intros p Ip R. destruct (f p) eqn:E; auto. exfalso. apply (Out p p' x); auto. apply region_box; auto. }
  assert (Ik : forall p, In p l -> f p = true -> In (kept p b') K) by (intros p Ip E; apply in_map_iff; exists p; split; auto; apply filter_In; auto).
  split; split; intros (p & Ip & Q).
  - apply in_map_iff in Ip. destruct Ip as (p0 & <- & Ip). apply filter_In in Ip. destruct Ip as [Ip E]. exists p0. split; auto. apply (kept_agree p0 b' x); auto.
  - exists (kept p b'). split; [apply Ik; auto; apply Fp; auto; left; auto|]. apply (kept_agree p b' x); auto.
  - apply in_map_iff in Ip. destruct Ip as (p0 & <- & Ip). apply filter_In in Ip. destruct Ip as [Ip E]. exists p0. split; auto. apply (kept_agree p0 b' x); auto.
  - exists (kept p b'). split; [apply Ik; auto; apply Fp; auto; right; auto|]. apply (kept_agree p b' x); auto.
Qed.
Lemma forallb_not {T} (g : T -> bool) k : forallb g k = false -> exists a, In a k /\ g a = false.
Proof. induction k as [|a k IH]; [discriminate|]. cbn [forallb]. destruct (g a) eqn:E; [|exists a; split; auto; left; auto]. intros Q. destruct (IH Q) as (c & I & J). exists c. split; auto. right; auto. Qed.
Lemma reduced_whole : (forallb f l = true /\ forall x, (inside_some K x <-> inside_some l x) /\ (boundary_some K x <-> boundary_some l x)) \/
  (~ (forallb f l = true /\ forall x, inside_some K x \/ boundary_some K x -> inside_some K' x \/ boundary_some K' x)
   /\ ~ forall x, inside_some l x \/ boundary_some l x -> inside_some l' x \/ boundary_some l' x).
Proof.
  pose proof (vm_each _ V) as Vs. rewrite Forall_forall in Vs.
  destruct (forallb f l) eqn:E.
  - rewrite forallb_forall in E. destruct (forallb (fun p => forallb (near_box b') (holes p)) l) eqn:H.
    + left. split; auto. assert (Eq : K = l).
      { unfold reduced. rewrite filter_every by auto. rewrite forallb_forall in H. rewrite <- (map_id l) at 2. apply map_ext_in. intros p Ip. unfold kept. rewrite filter_every; [destruct p; auto|].
        apply forallb_forall, H; auto. }
      rewrite Eq. tauto.
    + right. apply forallb_not in H. destruct H as (p & Ip & Hp). apply forallb_not in Hp. destruct Hp as (h & Ih & Nh).
      destruct (kept_whole p b' (Vs p Ip)) as [Q|[(x & X1 & X2) (y & Y1 & Y2)]].
      { exfalso. assert (J : In h (holes (kept p b'))) by (rewrite Q; auto). cbn [kept holes] in J. apply filter_In in J. destruct J. congruence. }
      split.
      * intros [_ Pt]. apply Y2. destruct (others_box y) as (p' & Ip' & Bp'); [left; apply Pt|apply (Bx' p'); auto].
        assert (Ik : In (kept p b') K) by (apply in_map_iff; exists p; split; auto; apply filter_In; auto).
        destruct Y1 as [Y1|Y1]; [left|right]; exists (kept p b'); auto.
      * intros Pt. apply X2. destruct (others_box x) as (p' & Ip' & Bp'); [right; apply Pt|apply (Bx' p'); auto]. destruct X1 as [X1|X1]; [left|right]; exists p; auto.
  - right. split; [intros [Q _]; congruence|]. intros Pt. apply forallb_not in E. destruct E as (p & Ip & Fp). destruct (boundary_point p (Vs p Ip)) as (x & Bd).
    destruct (others_box x) as (p' & Ip' & Bp'); [right; apply Pt; right; exists p; auto|]. apply (Out p p' x); auto. apply boundary_box; auto.
Qed.
End Side.

Section Core.
Variables l l' : list polygon.
Hypothesis V : valid_polygons l.
Hypothesis V' : valid_polygons l'.
Hypothesis Or : Forall oriented l.
Hypothesis Or' : Forall oriented l'.
Hypothesis St : settled l.
Hypothesis St' : settled l'.
Variables f f' : polygon -> bool.
Variables b b' : box.
Hypothesis Bx : forall p x, In p l -> in_box (polygon_box p) x -> in_box b x.
Hypothesis Bx' : forall p x, In p l' -> in_box (polygon_box p) x -> in_box b' x.
Hypothesis Out : forall p p' x, In p l -> f p = false -> In p' l' -> in_box (polygon_box p) x -> in_box (polygon_box p') x -> False.
Hypothesis Out' : forall p p' x, In p l' -> f' p = false -> In p' l -> in_box (polygon_box p) x -> in_box (polygon_box p') x -> False.
Hypothesis Kept : forall p, In p l -> f p = true -> exists x, in_box (polygon_box p) x /\ in_box b' x.
Hypothesis Kept' : forall p, In p l' -> f' p = true -> exists x, in_box (polygon_box p) x /\ in_box b x.
Variable m : Qc.
Hypothesis Bound : (forall p, In p l -> f p = true -> max_x (polygon_box p) <= m) \/ (forall p, In p l' -> f' p = true -> max_x (polygon_box p) <= m).
Hypothesis Some' : filter f' l' <> [].
Variables (shape : tree_shape) (fuel : nat).
Hypothesis Fuel : (enough (lists_count l l') <= fuel)%nat.
Theorem lists_related : exists r, match clip_shaped (flat_map (fun p => polygon_to_segments p b') (filter f l)) (flat_map (fun p => polygon_to_segments p b) (filter f' l')) with
  | None => RelateRaises
  | Some s => shaped_to_relation fuel shape s (length (filter f l) =? length l)%nat (length (filter f' l') =? length l')%nat m end = Relates r
  /\ lists_relation l l' r.
Proof.
  assert (Sg : forall (g : polygon -> bool) c k, flat_map (fun p => polygon_to_segments p c) (filter g k) = outlines (flat_map rings (reduced g c k))).
  { intros g c k. rewrite outlines_rings. unfold reduced. induction (filter g k) as [|p r IH]; auto. cbn [flat_map map]. rewrite IH, kept_segments. auto. }
  rewrite !Sg, !filter_length.
  assert (VK : valid_polygons (reduced f b' l)) by (apply reduced_valid; auto). assert (VK' : valid_polygons (reduced f' b l')) by (apply reduced_valid; auto).
  assert (Bd : exists d : bool, forall e, In e (opf (outlines (flat_map rings (reduced f b' l))) (outlines (flat_map rings (reduced f' b l'))) d) -> px (hi e) <= m).
  { destruct Bound as [B|B]; [exists true|exists false]; intros e I; cbn [opf] in I; [apply (reduced_bound f b' l)|apply (reduced_bound f' b l')]; auto. }
  destruct Bd as (d & Bd).
  assert (Nb : outlines (flat_map rings (reduced f' b l')) <> []).
  { destruct (filter f' l') as [|p r] eqn:E; [congruence|]. assert (Ip : In p (filter f' l')) by (rewrite E; left; auto). apply filter_In in Ip.
    pose proof (vm_each _ V') as Vs. rewrite Forall_forall in Vs. pose proof (vp_simple _ (Vs p (proj1 Ip))) as S. rewrite Forall_forall in S. destruct (S (border p) (or_introl eq_refl)) as [[Q _] _].
    unfold reduced. rewrite E. cbn [map flat_map]. intros En. apply (f_equal (@length _)) in En. rewrite outlines_length, concat_app, app_length in En. unfold rings at 1, kept at 1 in En. cbn [border holes concat length] in En. rewrite app_length in En. lia. }
  destruct (outlines_relation (flat_map rings (reduced f b' l)) (flat_map rings (reduced f' b l')) (vm_edges _ VK) (vm_edges _ VK')) with (shape := shape) (fuel := fuel) (m := m) (d := d)
    (init := fun g : bool => if g then forallb f l else forallb f' l') as (s & r & Es & Er & Rel); auto.
  - intros g eps Ri e q I O Gn. destruct g; cbn [full] in *; [apply (oriented_side (reduced f b' l))|apply (oriented_side (reduced f' b l'))]; auto using reduced_oriented.
  - etransitivity; [|exact Fuel]. apply enough_mono. rewrite app_length. unfold lists_count. pose proof (reduced_count f b' l). pose proof (reduced_count f' b l'). lia.
  - rewrite Es. exists r. split; auto. unfold lists_relation.
    assert (E1 := inside_list_inn (reduced f b' l)). assert (E2 := inside_list_inn (reduced f' b l')).
    assert (R1 : forall x, inn (outlines (flat_map rings (reduced f b' l))) x <-> inside_some (reduced f b' l) x) by (intros x; apply E1; auto).
    assert (R2 : forall x, inn (outlines (flat_map rings (reduced f' b l'))) x <-> inside_some (reduced f' b l') x) by (intros x; apply E2; auto).
    pose proof (boundary_list (reduced f b' l)) as R3. pose proof (boundary_list (reduced f' b l')) as R4.
    assert (Rf : forall x, (inn (outlines (flat_map rings (reduced f b' l))) x \/ on_segs (outlines (flat_map rings (reduced f b' l))) x) <-> inside_some (reduced f b' l) x \/ boundary_some (reduced f b' l) x) by (intros x; rewrite R1, R3; tauto).
    assert (Rf' : forall x, (inn (outlines (flat_map rings (reduced f' b l'))) x \/ on_segs (outlines (flat_map rings (reduced f' b l'))) x) <-> inside_some (reduced f' b l') x \/ boundary_some (reduced f' b l') x) by (intros x; rewrite R2, R4; tauto).
    apply (points_transfer (forallb f l = true) (forallb f' l' = true) _ _ _ _ _ _ _ _ r) with (5 := Rel).
    + intros x H. rewrite Rf' in H. rewrite R1, R3. apply (reduced_agree l l' V) with (b' := b'); auto. apply (others_box l' V' f' b x). auto.
    + intros x H. rewrite Rf in H. rewrite R2, R4. apply (reduced_agree l' l V') with (b' := b); auto. apply (others_box l V f b' x). auto.
    + destruct (reduced_whole l l' V V') with (f := f) (f' := f') (b := b) (b' := b') as [[Q1 Q2]|[Q1 Q2]]; auto.
      * left. split; auto. intros x. rewrite R1, R3. auto.
      * right. split; auto. intros [Q3 Q4]. apply Q1. split; auto. intros x. rewrite <- Rf, <- Rf'. auto.
    + destruct (reduced_whole l' l V' V) with (f := f') (f' := f) (b := b') (b' := b) as [[Q1 Q2]|[Q1 Q2]]; auto.
      * left. split; auto. intros x. rewrite R2, R4. auto.
      * right. split; auto. intros [Q3 Q4]. apply Q1. split; auto. intros x. rewrite <- Rf, <- Rf'. auto.
Qed.
End Core.

(** No two relations of lists hold at once. *)
Lemma lists_meet l l' : valid_polygons l -> valid_polygons l' -> l <> [] -> (forall x, inside_some l x \/ boundary_some l x -> inside_some l' x \/ boundary_some l' x) ->
  exists x, inside_some l x /\ inside_some l' x.
Proof.
  intros V V' N Pt. destruct l as [|p l]; [congruence|]. pose proof (vm_each _ V) as Vs. apply Forall_inv in Vs.
  destruct (inner_point (rings p) (outlines (flat_map rings l'))) as (z & O1 & O2 & I).
  - apply Vs.
  - discriminate.
  - intros Q. pose proof (vp_simple _ Vs) as S. rewrite Forall_forall in S. destruct (S [] Q) as [[L _] _]. cbn in L. lia.
  - apply (vm_edges _ V').
  - rewrite insideb_outlines in I by auto. assert (J : inside_polygon p z) by (apply inside_inn; auto; split; auto).
    assert (Is : inside_some (p :: l) z) by (exists p; split; auto; left; auto).
    exists z. split; auto. destruct (Pt z (or_introl Is)) as [K|K]; [auto|]. apply boundary_list in K. contradiction.
Qed.
Theorem lists_exclusive l l' r r' : valid_polygons l -> valid_polygons l' -> l <> [] -> l' <> [] -> lists_relation l l' r -> lists_relation l l' r' -> r = r'.
Proof.
  intros V V' N N'.
  assert (Nb : forall k, valid_polygons k -> k <> [] -> exists x, boundary_some k x).
  { intros [|p k] Vk Q; [congruence|]. pose proof (vm_each _ Vk) as Vs. apply Forall_inv in Vs. destruct (boundary_point p Vs) as (x & X). exists x, p. split; auto. left; auto. }
  assert (Of : forall k, valid_polygons k -> forall x, inside_some k x -> boundary_some k x -> False).
  { intros k Vk x (p & Ip & I) (p' & Ip' & B). apply (pairs_apart k p p' x); auto. }
  apply sets_exclusive; auto.
  - apply Of; auto.
  - apply Of; auto.
  - apply lists_meet; auto.
  - intros Q. destruct (lists_meet l' l V' V N' Q) as (x & A & B). exists x. auto.
Qed.
Lemma one_inside p x : inside_some [p] x <-> inside_polygon p x.
Proof. split; [intros (q & [<-|[]] & Q); auto|intros Q; exists p; split; auto; left; auto]. Qed.
Lemma one_boundary p x : boundary_some [p] x <-> boundary p x.
Proof. split; [intros (q & [<-|[]] & Q); auto|intros Q; exists p; split; auto; left; auto]. Qed.
Lemma sets_ext I O I' O' J P J' P' r : (forall x, I x <-> J x) -> (forall x, O x <-> P x) -> (forall x, I' x <-> J' x) -> (forall x, O' x <-> P' x) ->
  sets_relation I O I' O' r -> sets_relation J P J' P' r.
Proof.
  intros A B C D R. apply (points_transfer True True I O I' O' J P J' P'); auto.
  destruct r; cbn [points_relation sets_relation] in *; tauto.
Qed.
