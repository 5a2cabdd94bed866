(** The plane sweep, part 16: reduction of the recorded events. *)
From Coq Require Import QArith Qcanon Bool List Arith Lia.
From Verif Require Import QcTac Model_Base Model_Utils Model_Linear Spec_Base Spec_Segment Spec_Clip
  Spec_Sweep Proof_Base Proof_Line Proof_SegRel Proof_SegOps Proof_Sweep Proof_Sweep9 Proof_Sweep15.
Import ListNotations.
Local Open Scope Qc_scope.

Lemma same_endpoints_spec s t : same_endpoints s t = true <-> s = t.
Proof.
  unfold same_endpoints. rewrite andb_true_iff, !point_eq_true. destruct s, t; cbn. split.
  - intros [-> ->]; auto.
  - intros E. injection E as E1 E2. split; congruence.
Qed.
Lemma same_endpoints_refl s : same_endpoints s s = true.
Proof. apply same_endpoints_spec; auto. Qed.

(** Equal keys are contiguous. *)
Definition collated (o : operation) (ev : list event) : Prop :=
  forall l1 y l2 z l3, ev = l1 ++ y :: l2 ++ z :: l3 -> piece o y = piece o z ->
    forall u, In u l2 -> piece o u = piece o y.

Lemma collated_tail o y ev : collated o (y :: ev) -> collated o ev.
Proof. intros C l1 a l2 b l3 ->. apply (C (y :: l1) a l2 b l3). reflexivity. Qed.

Definition with_piece (o : operation) (s : segment) (ev : list event) : list event :=
  filter (fun y => same_endpoints (piece o y) s) ev.
Lemma with_piece_In o s ev y : In y (with_piece o s ev) <-> In y ev /\ piece o y = s.
Proof. unfold with_piece. rewrite filter_In, same_endpoints_spec. tauto. Qed.

Lemma groups_spec o : forall ev, collated o ev ->
  NoDup (map fst (group_events o ev))
  /\ (forall s g, In (s, g) (group_events o ev) <-> g = with_piece o s ev /\ g <> [])
  /\ match ev with [] => group_events o ev = [] | y :: _ => exists g r, group_events o ev = (piece o y, g) :: r end.
Proof.
  induction ev as [|y ev IH]; intros C.
  - cbn. split; [constructor|]. split; auto. intros s g. split; [intros []|intros [-> N]; congruence].
  - destruct (IH (collated_tail o y ev C)) as (ND & Sp & Hd). clear IH.
    cbn [group_events]. change (to_event_endpoints o y) with (piece o y).
    assert (Wy : forall s, with_piece o s (y :: ev)
      = if same_endpoints (piece o y) s then y :: with_piece o s ev else with_piece o s ev) by reflexivity.
    destruct ev as [|z ev'].
    + rewrite Hd. cbn [group_events map fst]. split; [constructor; [intros []|constructor]|].
      split; [|eauto]. intros s g. rewrite Wy. cbn [In with_piece filter].
      destruct (same_endpoints (piece o y) s) eqn:E.
      * apply same_endpoints_spec in E. subst s. split; [intros [Q|[]]|].
        -- assert (g = [y]) by congruence. subst. split; auto; discriminate.
        -- intros [-> _]. left; auto.
      * split; [intros [Q|[]]|intros [-> Q]; congruence].
        exfalso. assert (piece o y = s) by congruence. subst s. rewrite same_endpoints_refl in E. discriminate.
    + destruct Hd as (g & r & Eg). rewrite Eg in *.
      assert (Gz : g = with_piece o (piece o z) (z :: ev') /\ g <> []) by (apply Sp; left; auto).
      destruct (same_endpoints (piece o y) (piece o z)) eqn:E.
      * apply same_endpoints_spec in E. split; [cbn [map fst] in *; rewrite E; auto|].
        split; [|eauto]. intros s g'. rewrite Wy. cbn [In].
        assert (Sr : In (s, g') r -> s <> piece o y).
        { intros I ->. cbn [map fst] in ND. inversion ND as [|? ? NI _]; subst. apply NI.
          rewrite <- E. apply (in_map fst) in I. exact I. }
        destruct (same_endpoints (piece o y) s) eqn:E'.
        -- apply same_endpoints_spec in E'. subst s. split.
           ++ intros [Q|Q]; [|destruct (Sr Q); auto]. assert (g' = y :: g) by congruence. subst.
              rewrite E. destruct Gz as [<- _]. split; auto; discriminate.
           ++ intros [-> _]. left. rewrite E. destruct Gz as [<- _]. auto.
        -- assert (Ns : s <> piece o y) by (intros ->; rewrite same_endpoints_refl in E'; discriminate).
           rewrite <- Sp. cbn [In]. split.
           ++ intros [Q|Q]; [|auto]. destruct Ns. congruence.
           ++ intros [Q|Q]; [|auto]. destruct Ns. rewrite E. congruence.
      * assert (Ny : forall u, In u (z :: ev') -> piece o u <> piece o y).
        { intros u I Q. destruct I as [<-|I].
          - rewrite <- Q, same_endpoints_refl in E. discriminate.
          - apply in_split in I. destruct I as (l2 & l3 & ->).
            assert (Q' : piece o z = piece o y).
            { apply (C [] y (z :: l2) u l3); auto. left; auto. }
            rewrite <- Q', same_endpoints_refl in E. discriminate. }
        assert (W0 : with_piece o (piece o y) (z :: ev') = []).
        { destruct (with_piece o (piece o y) (z :: ev')) as [|u l] eqn:Q; auto. exfalso.
          assert (I : In u (with_piece o (piece o y) (z :: ev'))) by (rewrite Q; left; auto).
          apply with_piece_In in I. apply (Ny u); tauto. }
        split; [|split; [|eauto]].
        -- cbn [map fst] in *. constructor; auto. intros I.
           assert (J : In (piece o y) (map fst ((piece o z, g) :: r))) by exact I.
           apply in_map_iff in J. destruct J as ((k & g') & Ek & J). cbn in Ek. subst k.
           apply Sp in J. rewrite W0 in J. tauto.
        -- intros s g'. rewrite Wy. cbn [In]. destruct (same_endpoints (piece o y) s) eqn:E'.
           ++ apply same_endpoints_spec in E'. subst s. rewrite W0. split.
              ** intros [Q|Q]; [split; [congruence|intros ->; congruence]|].
                 exfalso. apply Sp in Q. rewrite W0 in Q. tauto.
              ** intros [-> _]. auto.
           ++ rewrite <- Sp. cbn [In]. split; [|auto]. intros [Q|Q]; auto. exfalso.
              assert (piece o y = s) by congruence. subst s. rewrite same_endpoints_refl in E'. discriminate.
Qed.

Lemma NoDup_map_filter {A B} (f : A -> B) (p : A -> bool) l : NoDup (map f l) -> NoDup (map f (filter p l)).
Proof.
  induction l as [|a l IH]; cbn; auto. intros ND. inversion ND as [|? ? NI ND']; subst.
  destruct (p a); cbn; auto. constructor; auto. intros I. apply NI.
  apply in_map_iff in I. destruct I as (x & E & I). apply filter_In in I. apply in_map_iff. exists x; tauto.
Qed.

Lemma reduce_spec keep o ev : collated o ev -> NoDup (reduce_groups keep o ev)
  /\ forall s, In s (reduce_groups keep o ev) <->
       (exists y, In y ev /\ piece o y = s) /\ keep (with_piece o s ev) = true.
Proof.
  intros C. destruct (groups_spec o ev C) as (ND & Sp & _). unfold reduce_groups. split.
  - apply NoDup_map_filter; auto.
  - intros s. rewrite in_map_iff. split.
    + intros ((k & g) & Ek & I). cbn in Ek. subst k. apply filter_In in I. cbn in I.
      destruct I as [I K]. apply Sp in I. destruct I as [-> Ne]. split; auto.
      destruct (with_piece o s ev) as [|y l] eqn:Q; [congruence|]. exists y.
      apply with_piece_In. rewrite Q. left; auto.
    + intros [(y & I & Ep) K]. exists (s, with_piece o s ev). split; auto. apply filter_In. cbn.
      split; auto. apply Sp. split; auto. intros Q. assert (J : In y (with_piece o s ev)) by (apply with_piece_In; auto).
      rewrite Q in J. destruct J.
Qed.

(** *** Contiguity of an arrangement *)
Lemma NoDup_split {A} (x : A) l1 l2 m1 m2 : NoDup (l1 ++ x :: l2) -> l1 ++ x :: l2 = m1 ++ x :: m2 ->
  l1 = m1 /\ l2 = m2.
Proof.
  revert m1. induction l1 as [|a l1 IH]; intros m1 ND E; destruct m1 as [|b m1]; cbn in *.
  - split; congruence.
  - exfalso. assert (x = b /\ l2 = m1 ++ x :: m2) by (split; congruence). destruct H as [<- ->].
    inversion ND as [|? ? NI _]; subst. apply NI, in_or_app. right; left; auto.
  - exfalso. assert (a = x /\ l1 ++ x :: l2 = m2) by (split; congruence). destruct H as [-> <-].
    inversion ND as [|? ? NI _]; subst. apply NI, in_or_app. right; left; auto.
  - inversion ND; subst. assert (Ea : a = b) by congruence.
    assert (Er : l1 ++ x :: l2 = m1 ++ x :: m2) by congruence.
    destruct (IH m1) as [-> ->]; auto. split; congruence.
Qed.
Lemma NoDup_suffix {A} (l1 l2 : list A) : NoDup (l1 ++ l2) -> NoDup l2.
Proof. induction l1; cbn; auto. intros ND; inversion ND; auto. Qed.
Lemma adj_only {A} (x y : A) l1 l2 l3 : NoDup (l1 ++ x :: l2 ++ y :: l3) ->
  adj (l1 ++ x :: l2 ++ y :: l3) x y \/ adj (l1 ++ x :: l2 ++ y :: l3) y x -> l2 = [].
Proof.
  intros ND [(m1 & m2 & E)|(m1 & m2 & E)].
  - destruct (NoDup_split x l1 (l2 ++ y :: l3) m1 (y :: m2) ND E) as [_ E'].
    apply NoDup_suffix in ND. inversion ND as [|? ? _ ND']; subst.
    apply (NoDup_split y l2 l3 [] m2 ND' E').
  - exfalso. assert (E1 : l1 ++ x :: l2 ++ y :: l3 = (m1 ++ [y]) ++ x :: m2) by (rewrite E, <- app_assoc; auto).
    destruct (NoDup_split x l1 (l2 ++ y :: l3) (m1 ++ [y]) m2 ND E1) as [-> _].
    rewrite <- app_assoc in ND. apply NoDup_suffix in ND. inversion ND as [|? ? NI _]; subst.
    apply NI. cbn. right. apply in_or_app. right; left; auto.
Qed.

Section Reduced.
Variables (first second : list segment) (limit : option Qc) (o : operation) (ev : list event).
Notation L := (entries o ev).
Hypothesis A : arranged first second limit L.
Hypothesis Fc : op_first_count o = length first.
Hypothesis Le : forall y, In y ev -> is_event_left y = true.

Lemma entries_In s i : In (s, i) L <-> exists y, In y ev /\ piece o y = s /\ sid o y = i.
Proof.
  unfold entries. rewrite in_map_iff. split.
  - intros (y & E & I). exists y. split; auto. split; congruence.
  - intros (y & I & <- & <-). exists y. auto.
Qed.
Lemma ev_NoDup : NoDup ev.
Proof. apply (NoDup_map_inv (fun y => (piece o y, sid o y))). apply (a_nodup _ _ _ _ A). Qed.
Lemma ev_inj y z : In y ev -> In z ev -> piece o y = piece o z -> sid o y = sid o z -> y = z.
Proof.
  intros Iy Iz E1 E2. destruct (Nat.eq_dec y z) as [|N]; auto. exfalso.
  pose proof (a_nodup _ _ _ _ A) as ND. unfold entries in ND.
  apply in_split in Iy. destruct Iy as (l1 & l2 & E). rewrite E in Iz, ND.
  rewrite map_app in ND. cbn [map] in ND. apply NoDup_remove_2 in ND. apply ND. rewrite <- map_app.
  apply in_map_iff. exists z. split; [congruence|].
  apply in_app_or in Iz. apply in_or_app. destruct Iz as [|[|]]; auto. congruence.
Qed.
Lemma arranged_collated : collated o ev.
Proof.
  intros l1 y l2 z l3 E Ep u I. exfalso.
  assert (Iy : In y ev) by (rewrite E; apply in_or_app; right; left; auto).
  assert (Iz : In z ev) by (rewrite E; apply in_or_app; right; right; apply in_or_app; right; left; auto).
  assert (Ns : sid o y <> sid o z).
  { intros Q. assert (y = z) by (apply ev_inj; auto). subst z. pose proof ev_NoDup as ND. rewrite E in ND.
    apply NoDup_remove_2 in ND. apply ND. apply in_or_app; right. apply in_or_app; right; left; auto. }
  pose proof (a_next _ _ _ _ A (piece o y) (sid o y) (sid o z)) as Q.
  pose proof (a_nodup _ _ _ _ A) as ND. unfold entries in *. rewrite E in *.
  rewrite map_app in *. cbn [map] in *. rewrite map_app in *. cbn [map] in *.
  rewrite <- Ep in *. apply adj_only in ND.
  - destruct l2; [destruct I|discriminate].
  - apply Q; auto.
    + apply in_or_app; right; left; auto.
    + apply in_or_app; right; right. apply in_or_app; right; left; auto.
Qed.
Lemma first_operand y : In y ev ->
  is_event_from_first_operand o y = (sid o y <? length first)%nat.
Proof.
  intros I. unfold is_event_from_first_operand, to_left_event. rewrite (Le y I).
  unfold is_left_event_from_first_operand. rewrite Fc. reflexivity.
Qed.

Lemma two_or_more {T} (l : list T) : NoDup l ->
  (has_two_or_more_elements l = true <-> exists x y, x <> y /\ In x l /\ In y l).
Proof.
  intros ND. destruct l as [|a [|b l]]; cbn; (split; [|auto]).
  - discriminate.
  - intros (x & y & _ & [] & _).
  - discriminate.
  - intros (x & y & N & [<-|[]] & [<-|[]]); congruence.
  - intros _. exists a, b. split; auto. inversion ND; subst. intros ->. apply H1. left; auto.
Qed.

Lemma union_In s : In s (reduce_union o ev) <-> exists i, In (s, i) L.
Proof.
  unfold reduce_union. rewrite (proj2 (reduce_spec _ o ev arranged_collated)). split.
  - intros [(y & I & E) _]. exists (sid o y). apply entries_In. exists y; auto.
  - intros (i & I). apply entries_In in I. destruct I as (y & I & E & _). split; eauto.
Qed.
Lemma pair_In s : (exists y z, y <> z /\ In y (with_piece o s ev) /\ In z (with_piece o s ev))
  <-> exists i j, i <> j /\ In (s, i) L /\ In (s, j) L.
Proof.
  split.
  - intros (y & z & N & Iy & Iz). apply with_piece_In in Iy. apply with_piece_In in Iz.
    destruct Iy as [Iy Ey], Iz as [Iz Ez]. exists (sid o y), (sid o z). split; [|split].
    + intros Q. apply N, ev_inj; auto. congruence.
    + apply entries_In. exists y; auto.
    + apply entries_In. exists z; auto.
  - intros (i & j & N & I & J). apply entries_In in I. apply entries_In in J.
    destruct I as (y & I & Ey & <-), J as (z & J & Ez & <-). exists y, z. split; [congruence|].
    split; apply with_piece_In; auto.
Qed.
Lemma group_NoDup s : NoDup (with_piece o s ev).
Proof. apply NoDup_filter, ev_NoDup. Qed.
Lemma intersection_In s : In s (reduce_intersection o ev) <->
  exists i j, i <> j /\ In (s, i) L /\ In (s, j) L.
Proof.
  unfold reduce_intersection. rewrite (proj2 (reduce_spec _ o ev arranged_collated)).
  rewrite two_or_more by apply group_NoDup. rewrite pair_In. split; [tauto|]. intros Q. split; auto.
  destruct Q as (i & j & _ & I & _). apply entries_In in I. destruct I as (y & I & E & _). eauto.
Qed.
Lemma difference_In s : In s (reduce_difference o ev) <->
  (exists i, In (s, i) L) /\ forall i, In (s, i) L -> (i < length first)%nat.
Proof.
  unfold reduce_difference. rewrite (proj2 (reduce_spec _ o ev arranged_collated)).
  rewrite forallb_forall. split.
  - intros [(y & I & E) F]. split; [exists (sid o y); apply entries_In; exists y; auto|].
    intros i J. apply entries_In in J. destruct J as (z & J & Ez & <-).
    apply Nat.ltb_lt. rewrite <- first_operand by auto. apply F. apply with_piece_In; auto.
  - intros [(i & I) F]. apply entries_In in I. destruct I as (y & I & E & Ei). split; [eauto|].
    intros z J. apply with_piece_In in J. destruct J as [J Ez]. rewrite first_operand by auto.
    apply Nat.ltb_lt, F, entries_In. exists z; auto.
Qed.
Lemma symmetric_difference_In s : In s (reduce_symmetric_difference o ev) <->
  exists i, In (s, i) L /\ forall j, In (s, j) L -> j = i.
Proof.
  unfold reduce_symmetric_difference. rewrite (proj2 (reduce_spec _ o ev arranged_collated)).
  rewrite negb_true_iff. split.
  - intros [(y & I & E) F]. assert (Iy : In (s, sid o y) L) by (apply entries_In; exists y; auto).
    exists (sid o y). split; auto. intros j J. destruct (Nat.eq_dec j (sid o y)) as [|N]; auto. exfalso.
    assert (T : has_two_or_more_elements (with_piece o s ev) = true).
    { apply two_or_more; [apply group_NoDup|]. apply pair_In. exists j, (sid o y). auto. }
    congruence.
  - intros (i & I & F). split.
    + apply entries_In in I. destruct I as (y & I & E & Ei). eauto.
    + destruct (has_two_or_more_elements (with_piece o s ev)) eqn:T; auto. exfalso.
      apply two_or_more in T; [|apply group_NoDup]. apply pair_In in T.
      destruct T as (a & b & N & I1 & I2). apply F in I1. apply F in I2. congruence.
Qed.
Lemma reduce_NoDup keep : NoDup (reduce_groups keep o ev).
Proof. apply (reduce_spec keep o ev arranged_collated). Qed.
Lemma reduce_from keep s : In s (reduce_groups keep o ev) -> exists i, In (s, i) L.
Proof.
  intros I. apply (reduce_spec keep o ev arranged_collated) in I. destruct I as [(y & I & E) _].
  exists (sid o y). apply entries_In. exists y; auto.
Qed.
End Reduced.
