(** The vertices check of [Contour.is_valid]. *)
From Coq Require Import QArith Qcanon Bool List ZArith Lia.
From Verif Require Import QcTac Model_Base Model_Geometry Model_Utils Model_Contour
  Spec_Base Spec_Segment Spec_Contour Spec_Literals Proof_Base Proof_Contour Proof_Contour3.
Import ListNotations.
Local Open Scope Qc_scope.

Lemma not_collinear_triples l : consecutive_not_collinear l = true <->
  forall a b c, triple_in l a b c -> area2 a b c <> 0.
Proof.
  induction l as [|x l IH].
  - split; auto. intros _ a b c (l1 & l2 & E). destruct l1; discriminate.
  - destruct l as [|y [|z l]].
    + split; auto. intros _ a b c (l1 & l2 & E). destruct l1 as [|? [|? ?]]; discriminate.
    + split; auto. intros _ a b c (l1 & l2 & E). destruct l1 as [|? [|? [|? ?]]]; discriminate.
    + change (consecutive_not_collinear (x :: y :: z :: l)) with
        (negb (orientation_is (orient x y z) COLLINEAR) && consecutive_not_collinear (y :: z :: l)).
      rewrite andb_true_iff, IH, negb_true_iff. split.
      * intros (O & T) a b c (l1 & l2 & E). destruct l1 as [|w l1].
        -- cbn in E. assert (a = x /\ b = y /\ c = z) as (-> & -> & ->) by (split; [|split]; congruence).
           intros A. apply orient_col in A. rewrite A in O. discriminate.
        -- cbn in E. apply T. exists l1, l2. congruence.
      * intros T. split.
        -- destruct (orientation_is_spec (orient x y z) COLLINEAR) as [E|E]; auto. exfalso.
           apply (T x y z); [exists [], l; auto|]. apply orient_col. auto.
        -- intros a b c (l1 & l2 & E). apply T. exists (x :: l1), l2. cbn. congruence.
Qed.

Lemma consecutive_triple v w vs a b c : consecutive (v :: w :: vs) a b c <->
  triple_in (last vs w :: (v :: w :: vs) ++ [v]) a b c.
Proof.
  split.
  - intros (r & (p & q & E & F) & L).
    assert (Lq : last (q ++ p) c = a) by (rewrite <- F; destruct r; auto).
    destruct (list_eq_dec point_dec p []) as [->|Np].
    + rewrite app_nil_r in *. cbn in E. exists [], (r ++ [v]). subst q.
      assert (v = b /\ w = c /\ vs = r) as (-> & -> & ->) by (split; [|split]; congruence).
      cbn. rewrite last_cons in L. rewrite L. auto.
    + destruct (exists_last Np) as (p' & a' & ->).
      assert (a' = a).
      { rewrite app_assoc, last_last in Lq. auto. } subst a'.
      destruct q as [|b' q].
      * rewrite app_nil_r in E. cbn [app] in F. rewrite <- E in F.
        exists [], (r ++ [v]).
        assert (v = b /\ w = c /\ vs = r) as (-> & -> & ->) by (split; [|split]; congruence).
        cbn. f_equal. rewrite last_cons in L. auto.
      * cbn in F. assert (b' = b) by congruence. subst b'. destruct q as [|c' q].
        -- cbn in F. exists (last vs w :: p'), []. rewrite E. cbn [app].
           rewrite <- !app_assoc. cbn [app]. f_equal. f_equal.
           assert (c = v); [|subst; auto].
           destruct p' as [|z p']; cbn in E, F; congruence.
        -- cbn in F. assert (c' = c) by congruence. subst c'.
           exists (last vs w :: p'), (q ++ [v]). rewrite E. cbn [app]. rewrite <- !app_assoc. auto.
  - intros (l1 & l2 & E). destruct l1 as [|x l1].
    + cbn in E. assert (a = last vs w /\ b = v /\ c = w) as (-> & -> & ->) by (split; [|split]; congruence).
      exists vs. split; [exists [], (v :: w :: vs); rewrite app_nil_r; auto|]. apply last_cons.
    + cbn [app] in E. assert (E' : (v :: w :: vs) ++ [v] = l1 ++ a :: b :: c :: l2) by (cbn; congruence).
      clear E x. destruct l2 as [|y l2] using rev_ind.
      * replace (l1 ++ [a; b; c]) with ((l1 ++ [a; b]) ++ [c]) in E' by (rewrite <- app_assoc; auto).
        apply app_inj_tail in E'. destruct E' as (E & <-).
        destruct l1 as [|z l1].
        -- cbn in E. assert (v = a /\ w = b /\ vs = []) as (-> & -> & ->) by (split; [|split]; congruence).
           exists []. split; auto. exists [a], [b]. auto.
        -- exists (l1 ++ [a]). split.
           ++ exists (z :: l1 ++ [a]), [b]. split; [rewrite E; cbn; rewrite <- app_assoc; auto|].
              cbn in E |- *. congruence.
           ++ rewrite app_comm_cons, last_last. auto.
      * clear IHl2. replace (l1 ++ a :: b :: c :: l2 ++ [y]) with ((l1 ++ a :: b :: c :: l2) ++ [y]) in E'
          by (rewrite <- app_assoc; auto).
        apply app_inj_tail in E'. destruct E' as (E & _). rewrite E.
        exists (l2 ++ l1 ++ [a]). split.
        -- exists (l1 ++ [a]), (b :: c :: l2). rewrite <- app_assoc. auto.
        -- rewrite app_assoc, app_comm_cons, last_last. auto.
Qed.

Lemma non_degenerate_vertices vs : (3 <= length vs)%nat ->
  (are_contour_vertices_non_degenerate vs = true <->
   forall a b c, consecutive vs a b c -> area2 a b c <> 0).
Proof.
  intros L. destruct vs as [|v [|w vs]]; cbn in L; try lia.
  destruct (list_eq_dec point_dec vs []) as [->|Ne]; [cbn in L; lia|].
  destruct (exists_last Ne) as (us & z & ->).
  unfold are_contour_vertices_non_degenerate. rewrite andb_true_iff, not_collinear_triples.
  set (all := v :: w :: us ++ [z]).
  assert (Len : length all = (3 + length us)%nat) by (unfold all; cbn; rewrite app_length; cbn; lia).
  assert (I0 : item all 0 = v) by (apply (item_nat all 0 v); reflexivity).
  assert (I1 : item all 1 = w) by (apply (item_nat all 1 w); reflexivity).
  assert (Iz : item all (-1) = z).
  { replace (-1)%Z with (Z.of_nat (2 + length us) - Z.of_nat (length all))%Z by lia.
    apply item_neg. unfold all. cbn. rewrite nth_error_app2, Nat.sub_diag by lia. auto. }
  assert (Iy : item all (-2) = last us w).
  { replace (-2)%Z with (Z.of_nat (1 + length us) - Z.of_nat (length all))%Z by lia.
    apply item_neg. unfold all. clear. revert w. induction us as [|u us IH]; intros w; auto.
    rewrite last_cons. cbn [length plus nth_error app] in *. apply (IH u). }
  rewrite I0, I1, Iz, Iy, orb_true_iff, andb_true_iff, !negb_true_iff.
  assert (Tz : triple_in (z :: all ++ [v]) (last us w) z v).
  { destruct (list_eq_dec point_dec us []) as [->|Nu].
    - exists [z; v], []. auto.
    - destruct (exists_last Nu) as (us' & y & ->). rewrite last_last.
      exists (z :: v :: w :: us'), []. unfold all. cbn. rewrite <- !app_assoc. auto. }
  assert (Tv : triple_in (z :: all ++ [v]) z v w) by (exists [], (us ++ [z; v]); unfold all; cbn; rewrite <- app_assoc; auto).
  assert (Cons : forall a b c, consecutive all a b c <-> triple_in (z :: all ++ [v]) a b c).
  { intros a b c. unfold all. rewrite consecutive_triple, last_last. reflexivity. }
  assert (Split : forall a b c, triple_in (z :: all ++ [v]) a b c ->
    triple_in all a b c \/ (a = z /\ b = v /\ c = w) \/ (a = last us w /\ b = z /\ c = v)).
  { intros a b c (l1 & l2 & E). destruct l1 as [|x l1].
    - right. left. unfold all in E. cbn in E. split; [|split]; congruence.
    - cbn [app] in E. assert (E' : all ++ [v] = l1 ++ a :: b :: c :: l2) by congruence. clear E.
      destruct l2 as [|y l2] using rev_ind.
      + right. right. replace (l1 ++ [a; b; c]) with ((l1 ++ [a; b]) ++ [c]) in E' by (rewrite <- app_assoc; auto).
        apply app_inj_tail in E'. destruct E' as (E & <-).
        replace (l1 ++ [a; b]) with ((l1 ++ [a]) ++ [b]) in E by (rewrite <- app_assoc; auto).
        unfold all in E. change (v :: w :: us ++ [z]) with ((v :: w :: us) ++ [z]) in E.
        apply app_inj_tail in E. destruct E as (E & <-). split; [|auto].
        assert (X : last (v :: w :: us) v = last (l1 ++ [a]) v) by congruence.
        rewrite last_last, !last_cons in X. auto.
      + left. clear IHl2. replace (l1 ++ a :: b :: c :: l2 ++ [y]) with ((l1 ++ a :: b :: c :: l2) ++ [y]) in E'
          by (rewrite <- app_assoc; auto).
        apply app_inj_tail in E'. exists l1, l2. apply E'. }
  assert (Incl : forall a b c, triple_in all a b c -> triple_in (z :: all ++ [v]) a b c).
  { intros a b c (l1 & l2 & E). exists (z :: l1), (l2 ++ [v]). rewrite E. cbn. rewrite <- app_assoc. auto. }
  assert (Col : forall a b c, orientation_is (orient a b c) COLLINEAR = false <-> area2 a b c <> 0).
  { intros a b c. rewrite <- orient_col. destruct (orientation_is_spec (orient a b c) COLLINEAR); split; congruence. }
  rewrite !Col, Nat.leb_le. split.
  - intros (T & Sm) a b c C. apply Cons, Split in C. destruct C as [C|C]; [apply T; auto|].
    assert (X : area2 z v w <> 0 /\ area2 (last us w) z v <> 0).
    { destruct Sm as [Sm|Sm]; [|tauto]. assert (Z0 : (length us = 0)%nat) by lia. assert (us = []) as -> by (destruct us; [auto|discriminate]).
      assert (Y : area2 v w z <> 0) by (apply T; exists [], []; auto).
      cbn [last]. unfold area2 in *. split; intros Z; apply Y; rewrite <- Z; ring. }
    destruct C as [(-> & -> & ->)|(-> & -> & ->)]; tauto.
  - intros H. split; [intros a b c T; apply H, Cons, Incl; auto|]. right.
    split; apply H, Cons; auto.
Qed.
