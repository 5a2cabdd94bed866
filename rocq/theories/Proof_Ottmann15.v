(** The Bentley-Ottmann sweep, part 15: [Contour.is_valid]. *)
From Coq Require Import QArith Qcanon Bool List Arith Lia Permutation.
From Verif Require Import QcTac Model_Base Model_Geometry Model_Utils Model_Contour Model_Linear Model_BentleyOttmann Spec_Base
  Spec_Segment Spec_Contour Spec_Relate Spec_Sweep Spec_Validity Proof_Base Proof_Bounds Proof_Contour Proof_Edges Proof_Valid
  Proof_Sweep Proof_Sweep2 Proof_Sweep3 Proof_Sweep4 Proof_Sweep5 Proof_Sweep6 Proof_Sweep12 Proof_Sweep14 Proof_Sweep15
  Proof_Ottmann8 Proof_Ottmann12 Proof_Ottmann13 Proof_Ottmann14.
Import ListNotations.
Local Open Scope Qc_scope.

(** ** The groups in terms of segments *)
Lemma halves i : is_event_left (2 * i)%nat = true /\ (2 * i / 2)%nat = i
  /\ is_event_left (S (2 * i))%nat = false /\ (S (2 * i) / 2)%nat = i.
Proof.
  split; [unfold is_event_left; rewrite Nat.even_mul; reflexivity|].
  split; [rewrite (Nat.mul_comm 2), Nat.div_mul; lia|].
  split; [unfold is_event_left; rewrite Nat.even_succ, Nat.odd_mul; reflexivity|].
  replace (S (2 * i))%nat with (1 + i * 2)%nat by lia. rewrite Nat.div_add by lia. reflexivity.
Qed.
Lemma input_endpoint segs eps i s p : nth_error segs i = Some s -> endpoint_of s p ->
  p = fst (input (the_ctx [] segs eps) i) \/ p = snd (input (the_ctx [] segs eps) i).
Proof.
  intros E [->| ->]; rewrite (input_the_ctx [] segs eps i s E); unfold sorted_pair, to_sorted_pair;
    destruct (point_lt _ _); cbn; auto.
Qed.
Lemma groups_by_segments {A} (visit : A -> intersection -> A + bool) fuel shape pick segs a :
  Forall proper_seg segs -> meet_at_ends segs -> segs <> [] -> (2 * length segs < fuel)%nat ->
  exists gs, NoDup (map fst gs)
  /\ (forall q ids, In (q, ids) gs -> NoDup ids
      /\ forall i, In i ids <-> exists s, nth_error segs i = Some s /\ endpoint_of s q)
  /\ (forall p, In p (map fst gs) <-> exists i s, nth_error segs i = Some s /\ endpoint_of s p)
  /\ sweep_intersections visit fuel shape pick (registry_from_segments segs) None a
     = visit_groups visit gs a.
Proof.
  intros P M Ne Lf. destruct (ctx_exists [] segs P) as (eps & _ & G).
  destruct (clean_visited segs eps G P visit fuel shape pick a M Ne Lf) as (groups & Nd & Bu & Al & Sw).
  set (c := the_ctx [] segs eps) in *. assert (Sn : length (c_ins c) = length segs) by apply start_n.
  exists (map (fun g => (fst g, map (fun e => (e / 2)%nat) (snd g))) groups).
  assert (Ids : forall q l i, bunch c q l -> In i (map (fun e => (e / 2)%nat) l) <->
    exists s, nth_error segs i = Some s /\ endpoint_of s q).
  { intros q l i [_ B]. rewrite in_map_iff. split.
    - intros (e & <- & I). apply B in I. destruct I as [L <-].
      assert (Lh : (e / 2 < length segs)%nat) by (apply Nat.div_lt_upper_bound; lia).
      apply nth_error_Some in Lh. destruct (nth_error segs (e / 2)) as [s|] eqn:Es; [|congruence].
      exists s. split; auto. pose proof (input_ends segs eps _ s Es) as [Q1 Q2]. fold c in Q1, Q2. unfold place. destruct (is_event_left e); auto.
    - intros (s & Es & Ep). assert (Li : (i < length segs)%nat) by (apply nth_error_Some; congruence).
      destruct (halves i) as (H1 & H2 & H3 & H4).
      destruct (input_endpoint segs eps i s q Es Ep) as [Q|Q]; [exists (2 * i)%nat|exists (S (2 * i))];
        (split; [auto|apply B; split; [lia|]]); unfold place; fold c in Q.
      + rewrite H1, H2. auto.
      + rewrite H3, H4. auto. }
  split; [|split; [|split; auto]].
  - rewrite map_map. exact Nd.
  - intros q ids I. apply in_map_iff in I. destruct I as ([q' l] & E & I). cbn [fst snd] in E.
    injection E as -> <-.
    destruct (Bu q l I) as [B _]. split; [|intros i; apply Ids; auto].
    destruct B as [D B]. apply (bunch_ids c G eq_refl q l); auto. intros e. apply B.
  - intros p. rewrite map_map. cbn [fst]. rewrite in_map_iff. split.
    + intros ([q l] & <- & I). destruct (Bu q l I) as [B N]. destruct l as [|e l]; [destruct (N eq_refl)|].
      exists (e / 2)%nat. apply (Ids q (e :: l)); auto. cbn. auto.
    + intros (i & s & Es & Ep). assert (Li : (i < length segs)%nat) by (apply nth_error_Some; congruence).
      apply in_map_iff. change (fun x : point * list event => fst x) with (@fst point (list event)).
      destruct (halves i) as (H1 & H2 & H3 & H4).
      destruct (input_endpoint segs eps i s p Es Ep) as [Q|Q]; fold c in Q.
      * replace p with (place c (2 * i)%nat); [apply Al; lia|]. unfold place. rewrite H1, H2. auto.
      * replace p with (place c (S (2 * i))%nat); [apply Al; lia|]. unfold place. rewrite H3, H4. auto.
Qed.

(** ** The answers of the consumer *)
Lemma never_returns {A} (visit : A -> intersection -> A + bool) b0 :
  (forall a i b, visit a i = inr b -> b = b0) ->
  forall fuel shape pick r g a b, sweep_intersections visit fuel shape pick r g a = Returned b -> b = b0.
Proof.
  intros NT. assert (V : forall r p pairs a b, visit_pairs visit r p pairs a = ReturnsEarly b -> b = b0).
  { intros r p pairs. induction pairs as [|[i j] l IH]; intros a b; cbn; [discriminate|].
    destruct (to_intersection r p i j); [|discriminate]. destruct (visit a i0) eqn:E; eauto.
    intros [= <-]. eauto. }
  induction fuel as [|fuel IH]; intros shape pick r g a b; cbn; [discriminate|].
  destruct (op_queue (rg_op r)).
  - destruct g as [[p ids]|]; [|discriminate]. destruct (visit_pairs visit r p (pairs_of ids) a) eqn:E; try discriminate.
    intros [= <-]. eauto.
  - destruct (registry_pop pick (tick (rg_op r))) as [[e' o']|]; [|discriminate].
    destruct (registry_process shape (set_op r o') e'); [|discriminate]. destruct g as [[p ids]|]; [|apply IH].
    destruct (point_eq _ p); [apply IH|].
    destruct (visit_pairs visit r0 p (pairs_of ids) a) eqn:E; try discriminate; [apply IH|].
    intros [= <-]. eauto.
Qed.
Lemma all_visited_pairs {A} (visit : A -> intersection -> A + bool) gs a x :
  visit_groups visit gs a = AllVisited x -> forall q ids i j, In (q, ids) gs -> In (i, j) (pairs_of ids) ->
  exists a1 a2, visit a1 (Intersection i j TOUCH q q) = inl a2.
Proof.
  revert a. induction gs as [|[p l] gs IH]; intros a V q ids i j I J; [destruct I|]. cbn [visit_groups] in V.
  destruct (visit_list visit p (pairs_of l) a) as [a'| |] eqn:E; try discriminate.
  destruct I as [I|I]; [|eapply IH; eauto]. assert (p = q) by congruence. assert (l = ids) by congruence. subst p l.
  clear V IH. revert a E. induction (pairs_of ids) as [|[u v] ps IHp]; intros a E; [destruct J|].
  cbn [visit_list] in E. destruct (visit a (Intersection u v TOUCH q q)) eqn:Ev; [|discriminate].
  destruct J as [J|J]; [|eapply IHp; eauto]. injection J as -> ->. eauto.
Qed.

(** ** The edges by their positions *)
Definition next_index (n i : nat) : nat := if (S i =? n)%nat then O else S i.
Lemma chain_nth l i a b : nth_error l i = Some a -> nth_error l (S i) = Some b -> nth_error (chain l) i = Some (Seg a b).
Proof.
  revert i. induction l as [|x l IH]; intros i; [destruct i; discriminate|]. destruct l as [|y l]; [destruct i as [|[|i]]; discriminate|].
  destruct i as [|i]; [cbn; congruence|]. rewrite chain_cons2. apply IH.
Qed.
Lemma edges_nth vs i : (i < length vs)%nat ->
  nth_error (edges vs) i = Some (Seg (nth i vs origin) (nth (next_index (length vs) i) vs origin)).
Proof.
  intros L. destruct vs as [|v l]; [cbn in L; lia|]. rewrite edges_chain. rewrite app_comm_cons.
  apply chain_nth.
  - rewrite nth_error_app1 by auto. apply nth_error_nth'; auto.
  - unfold next_index. destruct (Nat.eqb_spec (S i) (length (v :: l))) as [E|E].
    + rewrite E, nth_error_app2, Nat.sub_diag by lia. reflexivity.
    + rewrite nth_error_app1 by lia. apply nth_error_nth'. lia.
Qed.
Lemma edges_nth_error vs i s : nth_error (edges vs) i = Some s ->
  (i < length vs)%nat /\ s = Seg (nth i vs origin) (nth (next_index (length vs) i) vs origin).
Proof.
  intros E. assert (L : (i < length vs)%nat) by (rewrite <- edges_length; apply nth_error_Some; congruence).
  split; auto. rewrite (edges_nth vs i L) in E. congruence.
Qed.
Lemma chain_pair l s : In s (chain l) -> exists l1 l2, l = l1 ++ seg_start s :: seg_end s :: l2.
Proof.
  induction l as [|a l IH]; [intros []|]. destruct l as [|b l]; [intros []|]. rewrite chain_cons2.
  intros [<-|I]; [exists [], l; auto|]. destruct (IH I) as (l1 & l2 & ->). exists (a :: l1), l2. auto.
Qed.
Lemma edges_triple vs s : (2 <= length vs)%nat -> In s (edges vs) -> exists a, consecutive vs a (seg_start s) (seg_end s).
Proof.
  intros L I. assert (Q : exists r, rotation_of vs (seg_start s :: seg_end s :: r)).
  { destruct vs as [|v l]; [destruct I|]. rewrite edges_chain in I. apply chain_pair in I. destruct I as (l1 & l2 & E).
    destruct l2 as [|y l2] using rev_ind.
    - replace (l1 ++ [seg_start s; seg_end s]) with ((l1 ++ [seg_start s]) ++ [seg_end s]) in E by (rewrite <- app_assoc; auto).
      rewrite app_comm_cons in E. apply app_inj_tail in E. destruct E as [E F].
      destruct l1 as [|z l1]; [cbn in E; injection E as _ El; subst l; cbn in L; lia|].
      exists l1. exists (z :: l1), [seg_start s]. split; auto. cbn in E |- *. congruence.
    - clear IHl2. replace (l1 ++ seg_start s :: seg_end s :: l2 ++ [y]) with ((l1 ++ seg_start s :: seg_end s :: l2) ++ [y]) in E
        by (rewrite <- app_assoc; auto).
      rewrite app_comm_cons in E. apply app_inj_tail in E. destruct E as [E _].
      exists (l2 ++ l1), l1, (seg_start s :: seg_end s :: l2). auto. }
  destruct Q as [r Q]. exists (last (seg_end s :: r) (seg_end s)), r. auto.
Qed.
Lemma turning_proper vs : (2 <= length vs)%nat -> (forall a b c, consecutive vs a b c -> area2 a b c <> 0) ->
  Forall proper_seg (edges vs).
Proof.
  intros L T. apply Forall_forall. intros s I. destruct (edges_triple vs s L I) as [a Q]. apply T in Q.
  unfold proper_seg. intros E. apply Q. rewrite E. unfold area2. ring.
Qed.

Lemma next_lt n i : (i < n)%nat -> (next_index n i < n)%nat.
Proof. unfold next_index. intros. destruct (Nat.eqb_spec (S i) n); lia. Qed.
Lemma simple_meets vs : simple_contour vs -> meet_at_ends (edges vs).
Proof.
  intros ((L & D & _) & M) i j s t p N Es Et Ps Pt.
  apply (M s t p); auto; try (eapply nth_error_In; eauto). intros <-.
  apply edges_nth_error in Es. apply edges_nth_error in Et. destruct Es as [Li Es], Et as [Lj Et].
  apply N. apply (proj1 (NoDup_nth vs origin) D); auto. congruence.
Qed.
Lemma pair_of_two ids (a b : nat) : a <> b -> NoDup ids -> (forall i, In i ids <-> i = a \/ i = b) ->
  ids = [a; b] \/ ids = [b; a].
Proof.
  intros N D Q. assert (P : Permutation ids [a; b]).
  { apply NoDup_Permutation; auto; [|intros i; rewrite Q; cbn; intuition congruence].
    constructor; [cbn; intuition congruence|]. constructor; [cbn; tauto|constructor]. }
  apply Permutation_length_2_inv. symmetry. exact P.
Qed.

Lemma contour_valid_spec fuel shape pick vs : (3 <= length vs)%nat -> (2 * length vs < fuel)%nat ->
  (contour_is_valid fuel shape pick vs = Validity true <-> simple_contour vs).
Proof.
  intros L Lf. unfold contour_is_valid. rewrite edges_to_contour. cbv zeta.
  pose proof (non_degenerate_vertices vs L) as ND.
  rewrite edges_length. replace (length vs <? 3)%nat with false by (symmetry; apply Nat.ltb_ge; lia).
  assert (Rf : forall a i b, visit_neighbours (edges vs) a i = inr b -> b = false).
  { intros a i b. unfold visit_neighbours. destruct (neighbour_segments_vertices_touch _ _); congruence. }
  assert (VT : forall a i a', visit_neighbours (edges vs) a i = inl a' -> in_relation i = TOUCH).
  { intros a i a'. unfold visit_neighbours, neighbour_segments_vertices_touch.
    destruct (relation_is (in_relation i) TOUCH) eqn:E; [|discriminate].
    destruct (in_relation i); try discriminate. auto. }
  assert (Ne : edges vs <> []) by (intros E; pose proof (edges_length vs) as Q; rewrite E in Q; cbn in Q; lia).
  assert (Lf' : (2 * length (edges vs) < fuel)%nat) by (rewrite edges_length; auto).
  split.
  - destruct (are_contour_vertices_non_degenerate vs); [|discriminate].
    assert (T : forall a b c, consecutive vs a b c -> area2 a b c <> 0) by (apply ND; auto).
    assert (P : Forall proper_seg (edges vs)) by (apply turning_proper; auto; lia).
    destruct (sweep_intersections (visit_neighbours (edges vs)) fuel shape pick (registry_from_segments (edges vs)) None 0%nat)
      as [x|b| |] eqn:Sw; intros Q; try discriminate.
    2: { apply (never_returns _ false Rf) in Sw. subst b. discriminate. }
    destruct (ctx_exists [] (edges vs) P) as (eps & _ & G).
    assert (M : meet_at_ends (edges vs)).
    { apply (clean_meets (edges vs) eps G). apply (all_visited_clean (edges vs) eps G _ VT fuel shape pick _ x Sw). }
    destruct (groups_by_segments (visit_neighbours (edges vs)) fuel shape pick (edges vs) 0%nat P M Ne Lf')
      as (gs & _ & Gi & Gp & Eg). rewrite Eg in Sw.
    assert (Dv : NoDup vs).
    { apply (NoDup_nth vs origin). intros i j Li Lj Ev.
      destruct (Nat.eq_dec i j) as [|N]; auto. exfalso.
      assert (I : In (nth i vs origin) (map fst gs)).
      { apply Gp. exists i. eexists. split; [apply edges_nth; auto|]. left. auto. }
      apply in_map_iff in I. destruct I as ([q ids] & Eq & I). cbn in Eq. destruct (Gi q ids I) as [_ Gids].
      assert (Ii : In i ids) by (apply Gids; eexists; split; [apply edges_nth; auto|left; cbn; congruence]).
      assert (Ij : In j ids) by (apply Gids; eexists; split; [apply edges_nth; auto|left; cbn; congruence]).
      assert (Pr : forall m, (m < length vs)%nat -> nth m vs origin <> nth (next_index (length vs) m) vs origin).
      { intros m Lm. rewrite Forall_forall in P. apply (P (Seg (nth m vs origin) (nth (next_index (length vs) m) vs origin))).
        eapply nth_error_In. apply edges_nth; auto. }
      assert (F : forall i j, (i < length vs)%nat -> (j < length vs)%nat -> nth i vs origin = nth j vs origin -> In (i, j) (pairs_of ids) -> False).
      { clear i j Li Lj Ev N Ii Ij Eq. intros i j Li Lj Ev J. destruct (all_visited_pairs _ _ _ _ Sw q ids i j I J) as (a1 & a2 & V).
        unfold visit_neighbours in V. destruct (neighbour_segments_vertices_touch _ _) eqn:E; [|discriminate].
        unfold neighbour_segments_vertices_touch in E. cbn [in_first in_second in_relation in_start] in E.
        apply andb_true_iff in E. destruct E as [_ E]. rewrite edges_length in E.
        assert (Q2 : next_index (length vs) i = j \/ next_index (length vs) j = i).
        { unfold next_index. destruct (Nat.eqb_spec (S i) (length vs)), (Nat.eqb_spec (S j) (length vs));
            apply orb_true_iff in E; destruct E as [E|E]; [apply orb_true_iff in E; destruct E as [E|E]| |apply orb_true_iff in E; destruct E as [E|E]| |apply orb_true_iff in E; destruct E as [E|E]| |apply orb_true_iff in E; destruct E as [E|E]|];
            unfold absolute_difference in E; try apply andb_true_iff in E; rewrite ?Nat.eqb_eq in E; lia. }
        destruct Q2 as [Q2|Q2]; [apply (Pr i Li)|apply (Pr j Lj)]; congruence. }
      destruct (pairs_of_In (fun x : nat => x) ids i j Ii Ij N) as [J|J]; rewrite map_id in J.
      - apply (F i j); auto.
      - apply (F j i); auto. }
    split; [split; auto|]. intros s t p Is It N Ps Pt.
    apply In_nth_error in Is. apply In_nth_error in It. destruct Is as [i Es], It as [j Et].
    apply (M i j s t p); auto. intros ->. congruence.
  - intros Sc. pose proof (simple_meets vs Sc) as M. destruct Sc as ((_ & Dv & T) & _).
    rewrite (proj2 ND T).
    assert (P : Forall proper_seg (edges vs)) by (apply turning_proper; auto; lia).
    destruct (groups_by_segments (visit_neighbours (edges vs)) fuel shape pick (edges vs) 0%nat P M Ne Lf')
      as (gs & Dg & Gi & Gp & ->).
    assert (Len : length gs = length vs).
    { rewrite <- (map_length fst gs). apply Permutation_length. apply NoDup_Permutation; auto.
      intros p. rewrite Gp. split.
      - intros (i & s & Es & Ep). apply nth_error_In in Es. apply edges_endpoints in Es. destruct Ep as [->| ->]; tauto.
      - intros I. apply (In_nth _ _ origin) in I. destruct I as (m & Lm & <-). exists m. eexists.
        split; [apply edges_nth; auto|]. left. auto. }
    assert (One : forall q ids a, In (q, ids) gs -> visit_list (visit_neighbours (edges vs)) q (pairs_of ids) a = GoesOn (S a)).
    { intros q ids a I. destruct (Gi q ids I) as [Di Gids].
      assert (Iq : In q vs).
      { assert (J : In q (map fst gs)) by (apply in_map_iff; exists (q, ids); auto). apply Gp in J.
        destruct J as (i & s & Es & Ep). apply nth_error_In in Es. apply edges_endpoints in Es. destruct Ep as [->| ->]; tauto. }
      apply (In_nth _ _ origin) in Iq. destruct Iq as (m & Lm & Eq).
      set (pm := match m with O => (length vs - 1)%nat | S k => k end).
      assert (Lp : (pm < length vs)%nat) by (unfold pm; destruct m; lia).
      assert (Np : next_index (length vs) pm = m).
      { unfold next_index, pm. destruct m as [|k].
        - replace (S (length vs - 1)) with (length vs) by lia. rewrite Nat.eqb_refl. auto.
        - destruct (Nat.eqb_spec (S k) (length vs)); lia. }
      assert (Nq : m <> pm) by (unfold pm; destruct m; lia).
      assert (Set2 : forall i, In i ids <-> i = m \/ i = pm).
      { intros i. rewrite Gids. split.
        - intros (s & Es & Ep). apply edges_nth_error in Es. destruct Es as [Li ->].
          destruct Ep as [Ep|Ep]; cbn in Ep; rewrite <- Eq in Ep.
          + left. symmetry. apply (proj1 (NoDup_nth vs origin) Dv); auto.
          + right. assert (E2 : m = next_index (length vs) i).
            { apply (proj1 (NoDup_nth vs origin) Dv); auto. apply next_lt; auto. }
            unfold next_index in E2. destruct (Nat.eqb_spec (S i) (length vs)); unfold pm; destruct m; lia.
        - intros [->| ->]; (eexists; split; [apply edges_nth; auto|]).
          + left. auto.
          + right. cbn. rewrite Np. auto. }
      assert (Ok : forall i j, (i = m /\ j = pm) \/ (i = pm /\ j = m) ->
        neighbour_segments_vertices_touch (Intersection i j TOUCH q q) (edges vs) = true).
      { intros i j Q. unfold neighbour_segments_vertices_touch. cbn [in_first in_second in_relation in_start relation_is].
        assert (Nth : forall k, (k < length vs)%nat -> nth k (edges vs) (Seg origin origin)
          = Seg (nth k vs origin) (nth (next_index (length vs) k) vs origin)).
        { intros k Lk. apply nth_error_nth. apply edges_nth; auto. }
        assert (Touch : forall k, k = m \/ k = pm ->
          point_eq q (seg_start (nth k (edges vs) (Seg origin origin))) || point_eq q (seg_end (nth k (edges vs) (Seg origin origin))) = true).
        { intros k [->| ->]; rewrite Nth by auto; cbn [seg_start seg_end]; apply orb_true_iff; [left|right]; apply point_eq_true; rewrite ?Np; auto. }
        rewrite (Touch i), (Touch j) by tauto. cbn [andb]. rewrite edges_length.
        assert (Q2 : absolute_difference i j = 1%nat \/ (i = length vs - 1 /\ j = 0)%nat \/ (j = length vs - 1 /\ i = 0)%nat).
        { unfold absolute_difference, pm in *. destruct m; lia. }
        destruct Q2 as [-> |[[-> ->]|[-> ->]]]; auto; rewrite !Nat.eqb_refl; rewrite ?orb_true_r; auto. }
      assert (St : forall i j, (i = m /\ j = pm) \/ (i = pm /\ j = m) ->
        visit_list (visit_neighbours (edges vs)) q (pairs_of [i; j]) a = GoesOn (S a)).
      { intros i j Q. cbn [pairs_of map app visit_list]. unfold visit_neighbours. rewrite (Ok i j Q). reflexivity. }
      destruct (pair_of_two ids m pm Nq Di Set2) as [->| ->]; apply St; auto. }
    assert (All : forall gs' a, (forall g, In g gs' -> In g gs) ->
      visit_groups (visit_neighbours (edges vs)) gs' a = AllVisited (a + length gs')%nat).
    { induction gs' as [|[q ids] gs' IH]; intros a Sub; cbn [visit_groups length].
      - rewrite Nat.add_0_r. auto.
      - rewrite (One q ids a) by (apply Sub; left; auto). rewrite IH by (intros; apply Sub; right; auto).
        f_equal. lia. }
    rewrite (All gs 0%nat) by auto. cbn [Nat.add]. rewrite Len, Nat.eqb_refl. reflexivity.
Qed.

(** ** Termination *)
Lemma multisegment_validity_ends fuel shape pick segs : Forall proper_seg segs -> (enough (length segs) <= fuel)%nat ->
  multisegment_is_valid fuel shape pick segs <> ValidityRunsOut.
Proof.
  intros P Lf. pose proof (sweep_ends visit_touch fuel shape pick segs tt P Lf) as Q. unfold multisegment_is_valid.
  destruct (sweep_intersections _ _ _ _ _ _ _); congruence.
Qed.
Lemma contour_validity_ends fuel shape pick vs : (3 <= length vs)%nat -> (enough (length vs) <= fuel)%nat ->
  contour_is_valid fuel shape pick vs <> ValidityRunsOut.
Proof.
  intros L Lf. unfold contour_is_valid. rewrite edges_to_contour. cbv zeta.
  destruct (are_contour_vertices_non_degenerate vs) eqn:E; [|discriminate].
  assert (P : Forall proper_seg (edges vs)).
  { apply turning_proper; [lia|]. apply (non_degenerate_vertices vs L). exact E. }
  rewrite edges_length. destruct (length vs <? 3)%nat; [discriminate|].
  assert (Lf' : (enough (length (edges vs)) <= fuel)%nat) by (rewrite edges_length; auto).
  pose proof (sweep_ends (visit_neighbours (edges vs)) fuel shape pick (edges vs) 0%nat P Lf') as Q.
  destruct (sweep_intersections _ _ _ _ _ _ _); congruence.
Qed.
