(** The contours of a drawing: their edges, and the parity below them. *)
From Coq Require Import QArith Qcanon Bool List Arith Lia Permutation.
From Verif Require Import QcTac Model_Base Model_Utils Model_Geometry Model_Contour Model_Linear Model_Mixed Model_Shaped Spec_Base Spec_Segment Spec_Contour
  Proof_Base Proof_Line Proof_Contour Proof_Edges Proof_Shrink Proof_Parity Proof_Corner Proof_Locate Proof_Draw Proof_Reduce Proof_Reduce2 Proof_Ray Proof_Result.
Import ListNotations.
Local Open Scope nat_scope.

Lemma triple_nth (l : list point) a b c : triple_in l a b c -> exists i, S (S i) < length l /\ nth i l origin = a /\ nth (S i) l origin = b /\ nth (S (S i)) l origin = c.
Proof.
  intros (l1 & l2 & ->). exists (length l1). rewrite app_length. cbn [length]. split; [lia|].
  rewrite !app_nth2 by lia. replace (length l1 - length l1) with 0 by lia. replace (S (length l1) - length l1) with 1 by lia.
  replace (S (S (length l1)) - length l1) with 2 by lia. auto.
Qed.
Lemma strictly_between_intro a b p : between a b p -> p <> a -> p <> b -> strictly_between a b p.
Proof.
  intros (t & T0 & T1 & E) Na Nb. exists t. split; [|split; auto].
  - apply Qcle_lt_or_eq in T0. destruct T0 as [|Q]; auto. exfalso. apply Na. rewrite E, <- Q. apply point_ext; cbn; ring.
  - apply Qcle_lt_or_eq in T1. destruct T1 as [|Q]; auto. exfalso. apply Nb. rewrite E, Q. apply point_ext; cbn; ring.
Qed.

Section Contours.
Variables (eps : Qc) (hg : event -> Qc -> Qc) (sl : event -> Qc).
Variable s : shaped_operation.
Variables (L events : list event).
Hypothesis D : drawing eps hg sl s L events.
Notation o := (so s). Notation op := (to_opposite_event o). Notation at_ := (to_event_start o).
Notation lft := is_event_left. Notation X := (Xe eps).
Notation pairs := (pairs s). Notation cycle := (cycle eps s events).
Let eop := ev_op eps hg sl s L events D.
Let eopop := ev_op_op eps hg sl s L events D.
Definition stretch (x : event) : segment := Seg (at_ x) (at_ (op x)).

Lemma closed_nth l : cycle l -> forall j, j < length l -> nth (S j) (map at_ l ++ [at_ (nth 0 l 0)]) origin = at_ (op (nth j l 0)).
Proof.
  intros C j Lj. destruct (Nat.eq_dec (S j) (length l)) as [E|Ne].
  - rewrite app_nth2 by (rewrite map_length; lia). rewrite map_length. replace (S j - length l) with 0 by lia. cbn [nth].
    rewrite <- (cy_close _ _ _ _ C). do 3 f_equal. lia.
  - rewrite app_nth1 by (rewrite map_length; lia). rewrite (nth_indep _ origin (at_ 0)) by (rewrite map_length; lia). rewrite map_nth.
    apply (cy_step _ _ _ _ C). lia.
Qed.
Lemma open_nth l : forall j, j < length l -> nth j (map at_ l ++ [at_ (nth 0 l 0)]) origin = at_ (nth j l 0).
Proof.
  intros j Lj. rewrite app_nth1 by (rewrite map_length; lia). rewrite (nth_indep _ origin (at_ 0)) by (rewrite map_length; lia). apply map_nth.
Qed.
Lemma walk_stretch : forall l z, l <> [] -> (forall a, S a < length l -> at_ (nth (S a) l 0) = at_ (op (nth a l 0))) -> at_ (op (nth (length l - 1) l 0)) = z ->
  walk (at_ (hd 0 l)) (tl (map at_ l)) z = map stretch l.
Proof.
  induction l as [|x l IH]; intros z Ne St Cl; [congruence|]. cbn [hd map tl]. destruct l as [|y l].
  - cbn in Cl |- *. unfold stretch. rewrite Cl. auto.
  - cbn [map walk]. change (map stretch (x :: y :: l)) with (stretch x :: map stretch (y :: l)). f_equal.
    + unfold stretch. f_equal. apply (St 0). cbn; lia.
    + apply (IH z); [discriminate| |].
      * intros a La. apply (St (S a)). cbn in *. lia.
      * rewrite <- Cl. do 2 f_equal. cbn [length]. replace (S (S (length l)) - 1) with (S (length l)) by lia. replace (S (length l) - 1) with (length l) by lia. auto.
Qed.
Lemma cycle_edges l : cycle l -> edges (outline_of s l) = map stretch l.
Proof.
  intros C. pose proof (cy_ne _ _ _ _ C) as Ne. pose proof (walk_stretch l (at_ (hd 0 l)) Ne (cy_step _ _ _ _ C)) as Q.
  unfold outline_of. destruct l as [|x l]; [congruence|]. cbn [map]. rewrite edges_walk. cbn [hd map tl] in Q. apply Q.
  exact (cy_close _ _ _ _ C).
Qed.

(** The outlines do not turn back. *)
Lemma slope_L l : In l L -> (sl l * (X (at_ (op l)) - X (at_ l)) = py (at_ (op l)) - py (at_ l))%Qc.
Proof. intros I. rewrite <- (dr_aff _ _ _ _ _ _ D), (dr_A _ _ _ _ _ _ D l I), (dr_B _ _ _ _ _ _ D l I). auto. Qed.
Lemma slope_event x : In x events -> exists k l, In l L /\ k = sl l /\ (l = x \/ l = op x) /\ (k * (X (at_ (op x)) - X (at_ x)) = py (at_ (op x)) - py (at_ x))%Qc.
Proof.
  intros I. destruct (lft x) eqn:Q.
  - exists (sl x), x. pose proof (ev_left eps hg sl s L events D x I Q) as J. split; auto. split; auto. split; auto. apply slope_L; auto.
  - pose proof (ev_right eps hg sl s L events D x I Q) as J. exists (sl (op x)), (op x). split; auto. split; auto. split; auto.
    pose proof (slope_L _ J) as E. rewrite (eopop x I) in E.
    replace (X (at_ (op x)) - X (at_ x))%Qc with (- (X (at_ x) - X (at_ (op x))))%Qc by ring.
    replace (sl (op x) * - (X (at_ x) - X (at_ (op x))))%Qc with (- (sl (op x) * (X (at_ x) - X (at_ (op x)))))%Qc by ring. rewrite E. ring.
Qed.
Lemma straight_on x y : In x events -> In y events -> at_ y = at_ (op x) -> y <> op x -> area2 (at_ x) (at_ y) (at_ (op y)) = 0%Qc ->
  strictly_between (at_ x) (at_ (op y)) (at_ y).
Proof.
  intros Ix Iy Eq Ne Z.
  pose proof (ev_apart eps hg sl s L events D x Ix) as Ax. pose proof (ev_apart eps hg sl s L events D y Iy) as Ay.
  assert (Sl : forall l m k1 k2, In l L -> In m L -> l <> m -> k1 = sl l -> k2 = sl m -> (at_ l = at_ m \/ at_ (op l) = at_ (op m)) ->
    (k1 * (X (at_ y) - X (at_ x)) = py (at_ y) - py (at_ x))%Qc -> (k2 * (X (at_ (op y)) - X (at_ y)) = py (at_ (op y)) - py (at_ y))%Qc ->
    (X (at_ x) <> X (at_ y))%Qc -> (X (at_ (op y)) <> X (at_ y))%Qc -> False).
  { intros l m k1 k2 Il Im Nlm -> -> Sh E1 E2 N1 N2.
    assert (Q : ((sl l - sl m) * ((X (at_ y) - X (at_ x)) * (X (at_ (op y)) - X (at_ y))) = 0)%Qc).
    { replace ((sl l - sl m) * ((X (at_ y) - X (at_ x)) * (X (at_ (op y)) - X (at_ y))))%Qc
        with (sl l * (X (at_ y) - X (at_ x)) * (X (at_ (op y)) - X (at_ y)) - sl m * (X (at_ (op y)) - X (at_ y)) * (X (at_ y) - X (at_ x)))%Qc by ring.
      rewrite E1, E2. rewrite (area2_sheared eps) in Z. unfold Xs in Z. unfold Xe.
      etransitivity; [|apply (f_equal Qcopp Z)]. ring. }
    apply Qcmult_integral in Q. destruct Q as [Q|Q].
    - assert (sl l = sl m) by qlra. destruct Sh as [Sh|Sh].
      + apply (slopes_start L at_ (fun l => at_ (op l)) X hg sl (dr_lt _ _ _ _ _ _ D) (dr_aff _ _ _ _ _ _ D) (dr_A _ _ _ _ _ _ D) (dr_meet _ _ _ _ _ _ D) l m); auto.
      + apply (slopes_end L at_ (fun l => at_ (op l)) X hg sl (dr_lt _ _ _ _ _ _ D) (dr_aff _ _ _ _ _ _ D) (dr_B _ _ _ _ _ _ D) (dr_meet _ _ _ _ _ _ D) l m); auto.
    - apply Qcmult_integral in Q. destruct Q as [Q|Q]; [apply N1|apply N2]; qlra. }
  destruct (slope_event x Ix) as (k1 & l1 & I1 & K1 & W1 & E1). destruct (slope_event y Iy) as (k2 & l2 & I2 & K2 & W2 & E2). rewrite <- Eq in E1.
  assert (Ib : between (at_ x) (at_ (op y)) (at_ y)).
  { destruct (lft x) eqn:Lx, (lft y) eqn:Ly.
    - pose proof (dr_lt _ _ _ _ _ _ D x (ev_left eps hg sl s L events D x Ix Lx)) as Q1. pose proof (dr_lt _ _ _ _ _ _ D y (ev_left eps hg sl s L events D y Iy Ly)) as Q2.
      rewrite <- Eq in Q1. apply (sheared_between eps); auto. rewrite <- Z. replace (area2 (at_ x) (at_ y) (at_ (op y))) with (- area2 (at_ x) (at_ (op y)) (at_ y))%Qc by (unfold area2; ring).
      assert (Z' : area2 (at_ x) (at_ (op y)) (at_ y) = (- area2 (at_ x) (at_ y) (at_ (op y)))%Qc) by (unfold area2; ring). rewrite Z', Z. ring.
    - exfalso. assert (J1 : In x L) by (apply (ev_left eps hg sl s L events D); auto). assert (J2 : In (op y) L) by (apply (ev_right eps hg sl s L events D); auto).
      pose proof (dr_lt _ _ _ _ _ _ D x J1) as Q1. pose proof (dr_lt _ _ _ _ _ _ D _ J2) as Q2. rewrite eopop in Q2 by auto. rewrite <- Eq in Q1.
      assert (E1' := slope_L x J1). rewrite <- Eq in E1'. assert (E2' := slope_L _ J2). rewrite eopop in E2' by auto.
      apply (Sl x (op y) (sl x) (sl (op y))); auto.
      + intros Q. apply Ne. rewrite Q, eopop; auto.
      + right. rewrite eopop by auto. auto.
      + replace (sl (op y) * (X (at_ (op y)) - X (at_ y)))%Qc with (- (sl (op y) * (X (at_ y) - X (at_ (op y)))))%Qc by ring. rewrite E2'. ring.
      + intros Q. rewrite Q in Q1. qlra.
      + intros Q. rewrite Q in Q2. qlra.
    - exfalso. assert (J1 : In (op x) L) by (apply (ev_right eps hg sl s L events D); auto). assert (J2 : In y L) by (apply (ev_left eps hg sl s L events D); auto).
      pose proof (dr_lt _ _ _ _ _ _ D _ J1) as Q1. pose proof (dr_lt _ _ _ _ _ _ D _ J2) as Q2. rewrite eopop in Q1 by auto. rewrite <- Eq in Q1.
      assert (E1' := slope_L _ J1). rewrite eopop, <- Eq in E1' by auto. assert (E2' := slope_L _ J2).
      apply (Sl (op x) y (sl (op x)) (sl y)); auto.
      + replace (sl (op x) * (X (at_ y) - X (at_ x)))%Qc with (- (sl (op x) * (X (at_ x) - X (at_ y))))%Qc by ring. rewrite E1'. ring.
      + intros Q. rewrite Q in Q1. qlra.
      + intros Q. rewrite Q in Q2. qlra.
    - pose proof (dr_lt _ _ _ _ _ _ D _ (ev_right eps hg sl s L events D x Ix Lx)) as Q1. pose proof (dr_lt _ _ _ _ _ _ D _ (ev_right eps hg sl s L events D y Iy Ly)) as Q2.
      rewrite eopop in Q1, Q2 by auto. rewrite <- Eq in Q1. apply between_sym. apply (sheared_between eps); auto.
      rewrite <- Z. unfold area2. ring. }
  apply strictly_between_intro; auto. intros Q. apply Ax. rewrite <- Eq. auto.
Qed.
Lemma cycle_straight l : cycle l -> never_turns_back (map at_ l ++ [at_ (nth 0 l 0)]).
Proof.
  intros C a b c Tr. apply triple_nth in Tr. destruct Tr as (i & Li & <- & <- & <-). rewrite app_length, map_length in Li. cbn [length] in Li.
  rewrite (open_nth l i) by lia. rewrite (closed_nth l C (S i)) by lia. rewrite (open_nth l (S i)) by lia.
  assert (Ix : In (nth i l 0) l) by (apply nth_In; lia). assert (Iy : In (nth (S i) l 0) l) by (apply nth_In; lia).
  pose proof (cy_in _ _ _ _ C _ Ix) as Ex. pose proof (cy_in _ _ _ _ C _ Iy) as Ey.
  assert (Eq : at_ (nth (S i) l 0) = at_ (op (nth i l 0))) by (apply (cy_step _ _ _ _ C); lia).
  split; [rewrite Eq; apply (ev_apart eps hg sl s L events D); auto|]. split; [apply (ev_apart eps hg sl s L events D); auto|].
  intros Z. apply straight_on; auto. apply (cy_one_way _ _ _ _ C); auto.
Qed.
Lemma outline_on b l p : cycle l -> on_contour (final s b l) p <-> exists x, In x l /\ on_seg (stretch x) p.
Proof.
  intros C. assert (Q : on_contour (final s b l) p <-> on_contour (shrink_collinear_vertices (outline_of s l)) p).
  { unfold final. cbv zeta. destruct b; [|tauto]. symmetry. apply on_contour_cycle, rotate_same_cycle. }
  rewrite Q. pose proof (cycle_straight l C) as St. pose proof (cycle_edges l C) as Ed.
  assert (R : on_contour (outline_of s l) p <-> exists x, In x l /\ on_seg (stretch x) p).
  { unfold on_contour. rewrite Ed. split.
    - intros (e & I & O). apply in_map_iff in I. destruct I as (x & <- & I). eauto.
    - intros (x & I & O). exists (stretch x). split; auto. apply in_map; auto. }
  rewrite <- R. unfold outline_of in *. destruct l as [|x l]; [destruct (cy_ne _ _ _ _ C); auto|]. cbn [map] in *. apply shrink_outline. exact St.
Qed.

(** The parity below all of the contours. *)
Lemma final_below q b l : cycle l -> (forall x, In x events -> X (at_ x) <> Xs eps q) ->
  xsum (below_seg eps q) (edges (final s b l)) = xsum (fun x => below_seg eps q (stretch x)) l.
Proof.
  intros C Gn. transitivity (xsum (below_seg eps q) (edges (outline_of s l))).
  - transitivity (xsum (below_seg eps q) (edges (shrink_collinear_vertices (outline_of s l)))).
    + unfold final. cbv zeta. destruct b; auto. symmetry. apply below_same_cycle, rotate_same_cycle.
    + apply shrink_contour_below. intros v I. apply in_map_iff in I. destruct I as (x & <- & I). apply Gn, (cy_in _ _ _ _ C), I.
  - rewrite (cycle_edges l C), xsum_map. auto.
Qed.
Lemma NoDup_concat_pairs (cs : list (list event)) : NoDup (flat_map pairs cs) -> NoDup (concat cs).
Proof.
  assert (Q : flat_map pairs cs = pairs (concat cs)).
  { induction cs as [|l cs IH]; auto. cbn [flat_map concat]. rewrite IH. unfold Proof_Reduce.pairs. rewrite flat_map_app. auto. }
  rewrite Q. generalize (concat cs). intros l. induction l as [|x l IH]; intros Nd; [constructor|]. cbn [Proof_Reduce.pairs flat_map app] in Nd.
  inversion Nd as [|? ? N1 N2]; subst. inversion N2 as [|? ? N3 N4]; subst. constructor; auto. intros I. apply N1. right. apply in_flat_map. exists x. split; auto. left. auto.
Qed.
Lemma cycles_below q cs (turned : nat -> bool) : (forall l, In l cs -> cycle l) -> NoDup (flat_map pairs cs) ->
  (forall x, In x (flat_map pairs cs) <-> exists l, In l L /\ (x = l \/ x = op l)) -> (forall x, In x events -> X (at_ x) <> Xs eps q) ->
  xsum (fun vs => xsum (below_seg eps q) (edges vs)) (map (fun i => final s (turned i) (nth i cs [])) (seq 0 (length cs)))
  = xsum (fun l => below_seg eps q (stretch l)) L.
Proof.
  intros Cy Nd In_ Gn. rewrite xsum_map.
  assert (Q : xsum (fun i => xsum (below_seg eps q) (edges (final s (turned i) (nth i cs [])))) (seq 0 (length cs)) = xsum (fun x => below_seg eps q (stretch x)) (concat cs)).
  { transitivity (xsum (fun l => xsum (fun x => below_seg eps q (stretch x)) l) cs).
    - clear Nd In_. assert (G : forall a cs', (forall i, i < length cs' -> nth (a + i) cs [] = nth i cs' []) -> (forall l, In l cs' -> cycle l) ->
        xsum (fun i => xsum (below_seg eps q) (edges (final s (turned i) (nth i cs [])))) (seq a (length cs')) = xsum (fun l => xsum (fun x => below_seg eps q (stretch x)) l) cs').
      { intros a cs'. revert a. induction cs' as [|l cs' IH]; intros a E C'; auto. cbn [length seq xsum]. f_equal.
        - specialize (E 0 ltac:(cbn; lia)). rewrite Nat.add_0_r in E. rewrite E. cbn [nth]. apply final_below; auto. apply C'. left; auto.
        - apply IH; [|intros m I; apply C'; right; auto]. intros i Li. specialize (E (S i) ltac:(cbn; lia)). cbn [nth] in E. rewrite <- E. f_equal. lia. }
      apply G; auto.
    - clear. induction cs as [|l cs IH]; auto. cbn [xsum concat]. rewrite xsum_app, IH. auto. }
  rewrite Q. clear Q.
  assert (Ec : forall x, In x (concat cs) -> In x events).
  { intros x I. apply in_concat in I. destruct I as (l & I & J). apply (cy_in _ _ _ _ (Cy l I)); auto. }
  assert (Fl : flat_map pairs cs = pairs (concat cs)).
  { clear. induction cs as [|l cs IH]; auto. cbn [flat_map concat]. rewrite IH. unfold Proof_Reduce.pairs. rewrite flat_map_app. auto. }
  assert (Ev : forall x, In x events -> below_seg eps q (stretch (if lft x then x else op x)) = below_seg eps q (stretch x)).
  { intros x I. destruct (lft x) eqn:Q; auto. unfold stretch. rewrite eopop by auto. unfold below_seg. cbn [seg_start seg_end]. apply below_pair_sym. }
  apply (xsum_bij _ _ (fun x => if lft x then x else op x)).
  - apply NoDup_concat_pairs; auto.
  - apply (dr_nd _ _ _ _ _ _ D).
  - intros x I B. pose proof (Ec x I) as E. rewrite Ev by auto. split; auto. destruct (lft x) eqn:Lx; [apply (ev_left eps hg sl s L events D)|apply (ev_right eps hg sl s L events D)]; auto.
  - intros x y Ix Iy _ _ E. rewrite Fl in Nd. destruct (Nat.eq_dec x y) as [|Ne]; auto. exfalso.
    assert (Cl : forall x y, In x (concat cs) -> In y (concat cs) -> x <> y -> x = op y -> False).
    { clear - Nd. generalize dependent (concat cs). intros l Nd x y Ix Iy Ne ->. induction l as [|z l IH]; [destruct Ix|].
      cbn [Proof_Reduce.pairs flat_map app] in Nd. inversion Nd as [|? ? N1 N2]; subst. inversion N2 as [|? ? N3 N4]; subst.
      destruct Iy as [->|Iy].
      - destruct Ix as [Ix|Ix]; [congruence|]. apply N3. apply in_flat_map. exists (op y). split; auto. left; auto.
      - destruct Ix as [Ix|Ix]; [|auto]. subst z. apply N1. right. apply in_flat_map. exists y. split; auto. right; left; auto. }
    destruct (lft x) eqn:Lx, (lft y) eqn:Ly; auto.
    + apply (Cl x y); auto.
    + apply (Cl y x); auto.
    + apply Ne. rewrite <- (eopop x), <- (eopop y), E; auto.
  - intros z Iz B. assert (J : In z (flat_map pairs cs)) by (apply In_; exists z; auto). rewrite Fl in J. apply pairs_In in J. destruct J as (x & I & Q).
    exists x. pose proof (Ec x I) as E. split; auto. destruct (dr_op _ _ _ _ _ _ D z Iz) as (O1 & O2 & O3).
    assert (Z : (if lft x then x else op x) = z).
    { destruct Q as [-> |Q]; [rewrite O1; auto|]. assert (x = op z) as -> by (rewrite Q, eopop; auto). rewrite O2. auto. }
    split; auto. rewrite <- (Ev x E), Z. auto.
Qed.
End Contours.
