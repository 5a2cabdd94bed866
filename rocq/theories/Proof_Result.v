(** The parity below the contours of a result, and where their points are. *)
From Coq Require Import QArith Qcanon Bool List Arith Lia Permutation.
From Verif Require Import QcTac Model_Base Model_Utils Model_Geometry Model_Contour Model_Linear Model_Mixed Model_Shaped Spec_Base Spec_Segment Spec_Contour
  Proof_Base Proof_Line Proof_Contour Proof_Edges Proof_Shrink Proof_Parity Proof_Corner Proof_Draw Proof_Reduce Proof_Reduce2 Proof_Ray.
Import ListNotations.
Local Open Scope Qc_scope.

Lemma lone_sign ua ub uc wa wb wc : (ub - ua) * (wc - wa) = (uc - ua) * (wb - wa) -> 0 < ub - ua -> 0 < uc - ua ->
  (0 < ua * wb - ub * wa <-> 0 < ua * wc - uc * wa).
Proof.
  intros E Pb Pc.
  assert (Q : (ua * wc - uc * wa) * (ub - ua) = (uc - ua) * (ua * wb - ub * wa)).
  { transitivity (ua * ((ub - ua) * (wc - wa)) - wa * (ub - ua) * (uc - ua)); [ring|]. rewrite E. ring. }
  set (x := ua * wc - uc * wa) in *. set (y := ua * wb - ub * wa) in *. set (d := ub - ua) in *. set (f := uc - ua) in *. clearbody x y d f. clear E.
  split; intros P; apply Qcnot_le_lt; intros R.
  - assert (0 < f * y) by qnra. assert (x * d <= 0) by qnra. qlra.
  - assert (f * y <= 0) by qnra. assert (0 < x * d) by qnra. qlra.
Qed.

Section Below.
Variable eps : Qc.
Notation X := (Xs eps).
Lemma below_collinear a b c p : area2 a b c = 0 -> X a <> X p -> X b <> X p -> X c <> X p ->
  below_pair eps a c p = xorb (below_pair eps a b p) (below_pair eps b c p).
Proof.
  intros Z Na Nb Nc. unfold below_pair, under1. rewrite !(area2_sheared eps).
  assert (E : (X b - X p - (X a - X p)) * (py c - py p - (py a - py p)) = (X c - X p - (X a - X p)) * (py b - py p - (py a - py p))).
  { rewrite (area2_sheared eps) in Z. assert (Q : (X b - X p - (X a - X p)) * (py c - py p - (py a - py p)) - (X c - X p - (X a - X p)) * (py b - py p - (py a - py p)) = 0).
    { etransitivity; [|exact Z]. ring. } qlra. }
  set (ua := X a - X p) in *. set (ub := X b - X p) in *. set (uc := X c - X p) in *.
  set (wa := py a - py p) in *. set (wb := py b - py p) in *. set (wc := py c - py p) in *.
  assert (Cs : forall v u, u = X v - X p -> X v <> X p -> (u < 0 /\ qltb (X v) (X p) = true /\ qltb (X p) (X v) = false)
    \/ (0 < u /\ qltb (X v) (X p) = false /\ qltb (X p) (X v) = true)).
  { intros v u -> Nv. destruct (Qc_dec (X v) (X p)) as [[L|L]|L]; [left|right|contradiction];
      (split; [qlra|]); split; first [apply qltb_yes|apply qltb_not]; qlra. }
  assert (Sg : forall x y z w : Qc, (0 < x * y - z * w <-> 0 < x * y - z * w)) by tauto.
  destruct (Cs a ua eq_refl Na) as [(Ua & -> & ->)|(Ua & -> & ->)];
  destruct (Cs b ub eq_refl Nb) as [(Ub & -> & ->)|(Ub & -> & ->)];
  destruct (Cs c uc eq_refl Nc) as [(Uc & -> & ->)|(Uc & -> & ->)]; cbn [andb orb]; rewrite ?orb_false_r, ?xorb_false_r, ?xorb_false_l, ?orb_false_l; auto;
  clearbody ua ub uc wa wb wc; clear Cs Sg Na Nb Nc Z.
  - (* c alone *) apply qltb_eq.
    assert (Q : (- ua - - uc) * (wb - wc) = (- ub - - uc) * (wa - wc)).
    { first [assert (R : (- ua - - uc) * (wb - wc) - (- ub - - uc) * (wa - wc) = (ub - ua) * (wc - wa) - (uc - ua) * (wb - wa)) by ring; rewrite E in R; qlra|assert (R : (- ua - - uc) * (wb - wc) - (- ub - - uc) * (wa - wc) = - ((ub - ua) * (wc - wa) - (uc - ua) * (wb - wa))) by ring; rewrite E in R; qlra]. }
    pose proof (lone_sign (- uc) (- ua) (- ub) wc wa wb Q ltac:(qlra) ltac:(qlra)) as R.
    replace (ua * wc - uc * wa) with (- uc * wa - - ua * wc) by ring. replace (ub * wc - uc * wb) with (- uc * wb - - ub * wc) by ring. tauto.
  - (* b alone *) assert (Q : qltb 0 (ua * wb - ub * wa) = qltb 0 (uc * wb - ub * wc)); [|rewrite Q; destruct (qltb 0 (uc * wb - ub * wc)); auto].
    apply qltb_eq.
    assert (Q : (- ua - - ub) * (wc - wb) = (- uc - - ub) * (wa - wb)).
    { first [assert (R : (- ua - - ub) * (wc - wb) - (- uc - - ub) * (wa - wb) = (ub - ua) * (wc - wa) - (uc - ua) * (wb - wa)) by ring; rewrite E in R; qlra|assert (R : (- ua - - ub) * (wc - wb) - (- uc - - ub) * (wa - wb) = - ((ub - ua) * (wc - wa) - (uc - ua) * (wb - wa))) by ring; rewrite E in R; qlra]. }
    pose proof (lone_sign (- ub) (- ua) (- uc) wb wa wc Q ltac:(qlra) ltac:(qlra)) as R.
    replace (ua * wb - ub * wa) with (- ub * wa - - ua * wb) by ring. replace (uc * wb - ub * wc) with (- ub * wc - - uc * wb) by ring. tauto.
  - (* a alone *) apply qltb_eq. pose proof (lone_sign ua ub uc wa wb wc E ltac:(qlra) ltac:(qlra)). tauto.
  - (* a alone *) apply qltb_eq.
    assert (Q : (- ub - - ua) * (wc - wa) = (- uc - - ua) * (wb - wa)).
    { first [assert (R : (- ub - - ua) * (wc - wa) - (- uc - - ua) * (wb - wa) = (ub - ua) * (wc - wa) - (uc - ua) * (wb - wa)) by ring; rewrite E in R; qlra|assert (R : (- ub - - ua) * (wc - wa) - (- uc - - ua) * (wb - wa) = - ((ub - ua) * (wc - wa) - (uc - ua) * (wb - wa))) by ring; rewrite E in R; qlra]. }
    pose proof (lone_sign (- ua) (- ub) (- uc) wa wb wc Q ltac:(qlra) ltac:(qlra)) as R.
    replace (uc * wa - ua * wc) with (- ua * wc - - uc * wa) by ring. replace (ub * wa - ua * wb) with (- ua * wb - - ub * wa) by ring. tauto.
  - (* b alone *) assert (Q : qltb 0 (ub * wa - ua * wb) = qltb 0 (ub * wc - uc * wb)); [|rewrite Q; destruct (qltb 0 (ub * wc - uc * wb)); auto].
    apply qltb_eq.
    assert (Q : (ua - ub) * (wc - wb) = (uc - ub) * (wa - wb)).
    { first [assert (R : (ua - ub) * (wc - wb) - (uc - ub) * (wa - wb) = (ub - ua) * (wc - wa) - (uc - ua) * (wb - wa)) by ring; rewrite E in R; qlra|assert (R : (ua - ub) * (wc - wb) - (uc - ub) * (wa - wb) = - ((ub - ua) * (wc - wa) - (uc - ua) * (wb - wa))) by ring; rewrite E in R; qlra]. }
    pose proof (lone_sign ub ua uc wb wa wc Q ltac:(qlra) ltac:(qlra)) as R. tauto.
  - (* c alone *) apply qltb_eq.
    assert (Q : (ua - uc) * (wb - wc) = (ub - uc) * (wa - wc)).
    { first [assert (R : (ua - uc) * (wb - wc) - (ub - uc) * (wa - wc) = (ub - ua) * (wc - wa) - (uc - ua) * (wb - wa)) by ring; rewrite E in R; qlra|assert (R : (ua - uc) * (wb - wc) - (ub - uc) * (wa - wc) = - ((ub - ua) * (wc - wa) - (uc - ua) * (wb - wa))) by ring; rewrite E in R; qlra]. }
    pose proof (lone_sign uc ua ub wc wa wb Q ltac:(qlra) ltac:(qlra)) as R. tauto.
Qed.

(** Leaving out collinear vertices. *)
Lemma shrink_below f q vs : forall l, X l <> X q -> X f <> X q -> (forall v, In v vs -> X v <> X q) ->
  xsum (below_seg eps q) (walk l (shrink_from f l vs) f) = xsum (below_seg eps q) (walk l vs f).
Proof.
  induction vs as [|v vs IH]; intros l Nl Nf Nv; auto.
  assert (Nv0 : X v <> X q) by (apply Nv; left; auto). assert (Nvs : forall w, In w vs -> X w <> X q) by (intros w I; apply Nv; right; auto).
  destruct vs as [|w vs]; cbn [shrink_from].
  - destruct (not_collinear_spec l v f) as [K|K]; auto. cbn [walk xsum]. rewrite !xorb_false_r. unfold below_seg. cbn [seg_start seg_end].
    apply below_collinear; auto. destruct (Qc_eq_dec (area2 l v f) 0); [auto|contradiction].
  - destruct (not_collinear_spec l v w) as [K|K].
    + cbn [walk xsum]. f_equal. apply IH; auto.
    + rewrite IH by auto. cbn [walk xsum]. rewrite <- xorb_assoc. f_equal. unfold below_seg. cbn [seg_start seg_end].
      apply below_collinear; auto; [destruct (Qc_eq_dec (area2 l v w) 0); [auto|contradiction]|apply Nvs; left; auto].
Qed.
Lemma shrink_contour_below q vs : (forall v, In v vs -> X v <> X q) ->
  xsum (below_seg eps q) (edges (shrink_collinear_vertices vs)) = xsum (below_seg eps q) (edges vs).
Proof.
  destruct vs as [|v vs]; auto. intros Nv. cbn [shrink_collinear_vertices]. rewrite !edges_walk.
  apply shrink_below; [apply Nv; left; auto|apply Nv; left; auto|intros w I; apply Nv; right; auto].
Qed.
(** Other representations of a contour. *)
Lemma below_same_multiset q l r : same_multiset same_segment l r -> xsum (below_seg eps q) l = xsum (below_seg eps q) r.
Proof.
  intros (m & P & F). rewrite <- (xsum_perm _ _ _ P). clear P. induction F as [|x y l m S F IH]; auto. cbn [xsum]. rewrite IH. f_equal.
  destruct S as [-> | ->]; auto. symmetry. apply below_reverse.
Qed.
Lemma below_same_cycle q l r : same_cycle l r -> xsum (below_seg eps q) (edges l) = xsum (below_seg eps q) (edges r).
Proof. intros S. apply below_same_multiset, same_cycle_edges, S. Qed.
Lemma rotate_same_cycle vs : same_cycle vs (rotate_sequence vs).
Proof.
  destruct vs as [|v vs]; [left; exists [], []; auto|]. right. unfold rotation_of, rotate_sequence. cbn [rev].
  exists (rev vs), [v]. auto.
Qed.
End Below.
