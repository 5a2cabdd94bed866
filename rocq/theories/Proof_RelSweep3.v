(** Relating multisegments and contours, part 3: what is read off the events with one start. *)
From Coq Require Import QArith Qcanon Bool List Arith Lia.
From Verif Require Import QcTac Model_Base Model_Utils Model_Linear Model_Relate Model_RelateLinear Spec_Base
  Proof_Base Proof_Line Proof_Sweep9 Proof_Sweep13.
Import ListNotations.

Section Grouping.
Variable o : operation.
Notation ending := (to_event_end o).
Notation evfirst := (is_event_from_first_operand o).

Lemma gbe_head z L : exists g gs, group_by_end o (z :: L) = (z :: g) :: gs.
Proof.
  cbn. destruct (group_by_end o L) as [|[|x g] gs]; eauto.
  destruct (point_eq (ending z) (ending x)); eauto.
Qed.
Lemma gbe_alone x L : (forall z, In z L -> ending z <> ending x) ->
  group_by_end o (x :: L) = [x] :: group_by_end o L.
Proof.
  intros A. destruct L as [|z L]; auto. destruct (gbe_head z L) as (g & gs & E).
  change (group_by_end o (x :: z :: L)) with
    (match group_by_end o (z :: L) with
      | (y :: group) :: groups =>
          if point_eq (ending x) (ending y)
          then (x :: y :: group) :: groups
          else [x] :: (y :: group) :: groups
      | groups => [x] :: groups
      end). rewrite E.
  replace (point_eq (ending x) (ending z)) with false; auto.
  symmetry. apply point_eq_false. intros Q. apply (A z); [left; auto|congruence].
Qed.
Lemma gbe_pair x y L : ending x = ending y -> (forall z, In z L -> ending z <> ending y) ->
  group_by_end o (x :: y :: L) = [x; y] :: group_by_end o L.
Proof.
  intros E A. change (group_by_end o (x :: y :: L)) with
    (match group_by_end o (y :: L) with
      | (y :: group) :: groups =>
          if point_eq (ending x) (ending y)
          then (x :: y :: group) :: groups
          else [x] :: (y :: group) :: groups
      | groups => [x] :: groups
      end). rewrite (gbe_alone y L A).
  replace (point_eq (ending x) (ending y)) with true; auto. symmetry. apply point_eq_true. auto.
Qed.

(** [x] has a companion. *)
Definition paired (L : list event) (x : event) : Prop :=
  exists y, In y L /\ y <> x /\ ending y = ending x.
Record read_off (L : list event) (s s' : relation_state) : Prop := {
  ro_first : rs_first_is_subset s' = true <->
    rs_first_is_subset s = true /\ forall x, In x L -> evfirst x = true -> paired L x;
  ro_second : rs_second_is_subset s' = true <->
    rs_second_is_subset s = true /\ forall x, In x L -> evfirst x = false -> paired L x;
  ro_overlap : rs_has_overlap s' = true <-> rs_has_overlap s = true \/ exists x, In x L /\ paired L x;
  ro_crossing : rs_has_crossing s' = rs_has_crossing s;
  ro_intersection : rs_has_intersection s' = rs_has_intersection s }.

Lemma paired_cons x L z : (forall w, In w L -> ending w <> ending x) -> In z L ->
  (paired (x :: L) z <-> paired L z).
Proof.
  intros A I. split.
  - intros (y & [<-|Iy] & N & E); [exfalso; apply (A z I); auto|exists y; auto].
  - intros (y & Iy & Q). exists y. split; [right; auto|auto].
Qed.
Lemma alone_not x L : (forall w, In w L -> ending w <> ending x) -> ~ paired (x :: L) x.
Proof. intros A (y & [<-|Iy] & N & E); [apply N; auto|apply (A y Iy E)]. Qed.

Lemma detect_spec' : forall n L s, (length L <= n)%nat -> NoDup L ->
  (forall x y z, In x L -> In y L -> In z L -> x <> y -> x <> z -> y <> z ->
     ending x = ending y -> ending x = ending z -> False) ->
  (forall x y, In x L -> In y L -> x <> y -> ending x = ending y -> adj L x y \/ adj L y x) ->
  exists s', detect_touch_or_overlap o (group_by_end o L) s = Some s' /\ read_off L s s'.
Proof.
  induction n as [|n IH]; intros L s Len ND Th Ad.
  - destruct L; [|cbn in Len; lia]. exists s. split; auto. constructor; cbn; firstorder.
  - destruct L as [|x L]; [exists s; split; auto; constructor; cbn; firstorder|].
    inversion ND as [|? ? NI ND1]; subst.
    destruct (Exists_dec (fun y => ending y = ending x) L) as [Ex|NE].
    { intros y. destruct (point_eq (ending y) (ending x)) eqn:Q;
        [left; apply point_eq_true; auto|right; apply point_eq_false; auto]. }
    + apply Exists_exists in Ex. destruct Ex as (y & Iy & Ey).
      assert (Nxy : x <> y) by (intros ->; auto).
      destruct L as [|y0 L]; [destruct Iy|].
      assert (y = y0).
      { destruct (Ad x y) as [(l1 & l2 & Q)|(l1 & l2 & Q)]; try (left; auto; fail); try (right; auto; fail); auto.
        - destruct l1 as [|w l1]; cbn in Q; [congruence|]. injection Q as _ Q.
          exfalso. apply NI. rewrite Q. apply in_or_app; right; left; auto.
        - destruct l1 as [|w l1]; cbn in Q; [congruence|]. injection Q as _ Q.
          exfalso. apply NI. rewrite Q. apply in_or_app; right; right; left; auto. }
      subst y0. inversion ND1 as [|? ? NI1 ND2]; subst.
      assert (Alone : forall z, In z L -> ending z <> ending y).
      { intros z Iz E. assert (Q1 : x <> z) by (intros ->; apply NI; right; auto).
        assert (Q2 : y <> z) by (intros ->; auto).
        apply (Th x y z); cbn; auto; congruence. }
      assert (Alone' : forall z, In z L -> ending z <> ending x) by (intros z Iz; rewrite <- Ey; auto).
      rewrite (gbe_pair x y L (eq_sym Ey) Alone). cbn [detect_touch_or_overlap].
      destruct (IH L (RelationState (rs_first_is_subset s) (rs_second_is_subset s) (rs_has_crossing s)
           (rs_has_intersection s) true)) as (s' & D & [R1 R2 R3 R4 R5]); [cbn in Len; lia|auto| | |].
      * intros a b d Ia Ib Id. apply Th; cbn; auto.
      * intros a b Ia Ib Nab Eab.
        assert (Q : forall a b, In a L -> In b L -> adj (x :: y :: L) a b -> adj L a b).
        { clear - NI NI1. intros a b Ia Ib (l1 & l2 & Q). destruct l1 as [|w l1].
          - cbn in Q. injection Q as -> Q. exfalso. apply NI. right; auto.
          - injection Q as -> Q. destruct l1 as [|w' l1].
            + cbn in Q. injection Q as -> Q. exfalso. auto.
            + injection Q as -> Q. exists l1, l2. exact Q. }
        destruct (Ad a b) as [B|B]; cbn; auto.
      * exists s'. split; auto. cbn in R1, R2, R3, R4, R5.
        assert (Px : paired (x :: y :: L) x) by (exists y; cbn; auto).
        assert (Py : paired (x :: y :: L) y) by (exists x; cbn; auto).
        assert (Pz : forall z, In z L -> (paired (x :: y :: L) z <-> paired L z)).
        { intros z Iz. split.
          - intros (w & [<-|[<-|Iw]] & Nw & Ew).
            + exfalso. apply (Alone' z Iz). auto.
            + exfalso. apply (Alone z Iz). auto.
            + exists w; auto.
          - intros (w & Iw & Q). exists w. split; [right; right; auto|auto]. }
        constructor; auto.
        -- rewrite R1. split; intros [A B]; split; auto.
           ++ intros z [<-|[<-|Iz]] Fz; auto. apply Pz; auto.
           ++ intros z Iz Fz. apply Pz; auto. apply B; auto. right; right; auto.
        -- rewrite R2. split; intros [A B]; split; auto.
           ++ intros z [<-|[<-|Iz]] Fz; auto. apply Pz; auto.
           ++ intros z Iz Fz. apply Pz; auto. apply B; auto. right; right; auto.
        -- rewrite R3. split; auto. intros _. right. exists x. cbn; auto.
    + assert (Alone : forall z, In z L -> ending z <> ending x).
      { intros z Iz E. apply NE. apply Exists_exists. eauto. }
      rewrite (gbe_alone x L Alone). cbn [detect_touch_or_overlap].
      set (s0 := if evfirst x then drop_first s else drop_second s).
      destruct (IH L s0) as (s' & D & [R1 R2 R3 R4 R5]); [cbn in Len; lia|auto| | |].
      * intros a b d Ia Ib Id. apply Th; cbn; auto.
      * intros a b Ia Ib Nab Eab.
        assert (Q : forall a b, In a L -> adj (x :: L) a b -> adj L a b).
        { clear - NI. intros a b Ia (l1 & l2 & Q). destruct l1 as [|w l1].
          - cbn in Q. injection Q as -> Q. contradiction.
          - injection Q as -> Q. exists l1, l2. exact Q. }
        destruct (Ad a b) as [B|B]; cbn; auto.
      * exists s'. split; auto.
        assert (Pz : forall z, In z L -> (paired (x :: L) z <-> paired L z)) by (intros; apply paired_cons; auto).
        pose proof (alone_not x L Alone) as Nx.
        constructor.
        -- rewrite R1. unfold s0. split.
           ++ intros [A B]. destruct (evfirst x) eqn:Fx; [discriminate|]. split; auto.
              intros z [<-|Iz] Fz; [congruence|]. apply Pz; auto.
           ++ intros [A B]. destruct (evfirst x) eqn:Fx; [destruct (Nx (B x (or_introl eq_refl) Fx))|].
              split; auto. intros z Iz Fz. apply Pz; auto. apply B; auto. right; auto.
        -- rewrite R2. unfold s0. split.
           ++ intros [A B]. destruct (evfirst x) eqn:Fx; [|discriminate]. split; auto.
              intros z [<-|Iz] Fz; [congruence|]. apply Pz; auto.
           ++ intros [A B]. destruct (evfirst x) eqn:Fx; [|destruct (Nx (B x (or_introl eq_refl) Fx))].
              split; auto. intros z Iz Fz. apply Pz; auto. apply B; auto. right; auto.
        -- rewrite R3. replace (rs_has_overlap s0) with (rs_has_overlap s) by (unfold s0; destruct (evfirst x); auto).
           split; intros [A|(z & Iz & Pz')]; auto.
           ++ right. exists z. split; [right; auto|]. apply Pz; auto.
           ++ right. destruct Iz as [<-|Iz]; [contradiction|]. exists z. split; auto. apply Pz; auto.
        -- rewrite R4. unfold s0. destruct (evfirst x); auto.
        -- rewrite R5. unfold s0. destruct (evfirst x); auto.
Qed.

Lemma all_same_spec (l : list bool) : all_same l = true <-> forall x y, In x l -> In y l -> x = y.
Proof.
  destruct l as [|a l]; [cbn; split; [intros _ x y []|auto]|].
  cbn [all_same]. rewrite forallb_forall. split.
  - intros A. assert (B : forall x, In x (a :: l) -> x = a).
    { intros x [<-|I]; auto. symmetry. apply Bool.eqb_prop. auto. }
    intros x y Ix Iy. rewrite (B x Ix), (B y Iy). auto.
  - intros A x I. apply Bool.eqb_true_iff. apply A; cbn; auto.
Qed.
Lemma has_intersection_spec group : has_intersection o group = true <->
  exists x y, In x group /\ In y group /\ evfirst x = true /\ evfirst y = false.
Proof.
  unfold has_intersection. rewrite negb_true_iff. split.
  - intros A. destruct (existsb evfirst group) eqn:E1; destruct (existsb (fun e => negb (evfirst e)) group) eqn:E2.
    + apply existsb_exists in E1, E2. destruct E1 as (x & I1 & F1). destruct E2 as (y & I2 & F2).
      apply negb_true_iff in F2. exists x, y; auto.
    + exfalso. apply not_true_iff_false in A. apply A, all_same_spec. intros a b Ia Ib.
      apply in_map_iff in Ia, Ib. destruct Ia as (x & <- & I1). destruct Ib as (y & <- & I2).
      assert (Q : forall z, In z group -> evfirst z = true).
      { intros z I. destruct (evfirst z) eqn:F; auto. exfalso. apply not_true_iff_false in E2. apply E2.
        apply existsb_exists. exists z. rewrite F; auto. }
      rewrite !Q; auto.
    + exfalso. apply not_true_iff_false in A. apply A, all_same_spec. intros a b Ia Ib.
      apply in_map_iff in Ia, Ib. destruct Ia as (x & <- & I1). destruct Ib as (y & <- & I2).
      assert (Q : forall z, In z group -> evfirst z = false).
      { intros z I. destruct (evfirst z) eqn:F; auto. exfalso. apply not_true_iff_false in E1. apply E1.
        apply existsb_exists. exists z. auto. }
      rewrite !Q; auto.
    + destruct group as [|z group]; [cbn in A; discriminate|]. cbn [existsb] in E1, E2.
      apply orb_false_iff in E1, E2. destruct E1 as [E1 _], E2 as [E2 _]. rewrite E1 in E2. discriminate.
  - intros (x & y & Ix & Iy & Fx & Fy). apply not_true_iff_false. intros A.
    pose proof (proj1 (all_same_spec _) A (evfirst x) (evfirst y) (in_map _ _ _ Ix) (in_map _ _ _ Iy)). congruence.
Qed.
End Grouping.
