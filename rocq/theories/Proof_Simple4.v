(** Two contours of a reduction do not cross at a common vertex. *)
From Coq Require Import QArith Qcanon Bool List Arith Lia Permutation Sorted.
From Verif Require Import QcTac Model_Base Model_Utils Model_Linear Model_Geometry Model_Contour Model_Shaped Spec_Base Spec_Contour Proof_Base Proof_Mesh Proof_Parity
  Proof_Ring Proof_Loop Proof_Corner Proof_Corner2 Proof_Connect Proof_Draw Proof_Shrink Proof_Reduce Proof_Reduce2 Proof_Region Proof_Outline.
Import ListNotations.
Local Close Scope Qc_scope.
Local Open Scope nat_scope.

Lemma xsum_pair f (l : list nat) c d : NoDup l -> In c l -> In d l -> c <> d -> (forall y, In y l -> f y = true -> y = c \/ y = d) ->
  xsum f l = xorb (f c) (f d).
Proof.
  intros Nd Ic Id Ne A. apply Proof_Region.xsum_two; auto. intros y I Q1 Q2. destruct (f y) eqn:Q; auto. destruct (A y I Q); contradiction.
Qed.

Section Uncrossed.
Variables (eps : Qc) (hg : event -> Qc -> Qc) (sl : event -> Qc).
Variable s : shaped_operation.
Variables (L events : list event).
Hypothesis D : drawing eps hg sl s L events.
Notation o := (so s). Notation op := (to_opposite_event o). Notation at_ := (to_event_start o).
Notation lft := is_event_left. Notation ring := (ring s events).
Notation pairs := (pairs s). Notation cycle := (cycle eps s events).
Notation sd := (side at_ ring (lev eps hg s L)).

(** A contour goes on straight at a vertex. *)
Definition straight (l : list event) (a b : event) : Prop :=
  In a (pairs l) /\ In b (pairs l) /\ at_ a = at_ b /\ lft a = false /\ lft b = true /\ sl (op a) = sl b.
Definition uncrossed (l1 l2 : list event) : Prop :=
  forall a b c d, straight l1 a b -> straight l2 c d -> at_ a = at_ c -> False.

Definition next (l : list event) (i : nat) : nat := if S i =? length l then 0 else S i.
Lemma next_lt l i : i < length l -> next l i < length l.
Proof. intros Li. unfold next. destruct (Nat.eqb_spec (S i) (length l)); lia. Qed.
Lemma next_at l i : cycle l -> i < length l -> at_ (op (nth i l O)) = at_ (nth (next l i) l O).
Proof.
  intros C Li. unfold next. destruct (Nat.eqb_spec (S i) (length l)) as [E|E].
  - rewrite <- (cy_close _ _ _ _ C). do 3 f_equal. lia.
  - symmetry. apply (cy_step _ _ _ _ C). lia.
Qed.
Lemma starts_inj l x y : cycle l -> In x l -> In y l -> at_ x = at_ y -> x = y.
Proof. intros C Ix Iy E. apply (NoDup_map_inj at_ l); auto. apply (cy_nd _ _ _ _ C). Qed.
Lemma ends_inj l x y : cycle l -> In x l -> In y l -> at_ (op x) = at_ (op y) -> x = y.
Proof.
  intros C Ix Iy E. destruct (In_nth l x O Ix) as (i & Li & Ei). destruct (In_nth l y O Iy) as (j & Lj & Ej). subst x y.
  rewrite !next_at in E by auto. apply (starts_inj l) in E; auto; try (apply nth_In, next_lt; auto).
  pose proof (NoDup_map_inv _ _ (cy_nd _ _ _ _ C)) as Nd. rewrite NoDup_nth in Nd. apply (Nd _ _ (next_lt l i Li) (next_lt l j Lj)) in E.
  f_equal. unfold next in E. destruct (Nat.eqb_spec (S i) (length l)), (Nat.eqb_spec (S j) (length l)); lia.
Qed.
Lemma two_at l c d y : cycle l -> In c (pairs l) -> In d (pairs l) -> In y (pairs l) -> c <> d -> at_ d = at_ c -> at_ y = at_ c -> y = c \/ y = d.
Proof.
  intros C Ic Id Iy Ne Ed Ey. apply pairs_In in Ic. apply pairs_In in Id. apply pairs_In in Iy.
  destruct Ic as (c0 & Ic & Qc'), Id as (d0 & Id & Qd), Iy as (y0 & Iy & Qy).
  destruct Qc' as [-> | ->], Qd as [-> | ->], Qy as [-> | ->].
  - left. apply (starts_inj l); auto.
  - exfalso. apply Ne. apply (starts_inj l); auto.
  - left. apply (starts_inj l); auto.
  - right. f_equal. apply (ends_inj l); auto. congruence.
  - right. apply (starts_inj l); auto. congruence.
  - left. f_equal. apply (ends_inj l); auto.
  - exfalso. apply Ne. f_equal. apply (ends_inj l); auto.
  - left. f_equal. apply (ends_inj l); auto.
Qed.
Lemma pairs_events l x : cycle l -> In x (pairs l) -> In x events.
Proof.
  intros C I. apply pairs_In in I. destruct I as (y & I & [-> | ->]); [|apply (ev_op _ _ _ _ _ _ D)]; apply (cy_in _ _ _ _ C); auto.
Qed.
Lemma sides_uncrossed l1 l2 : cycle l1 -> cycle l2 -> (forall x y, In x l1 -> In y l1 -> sd (mem (pairs l2)) x = sd (mem (pairs l2)) y) ->
  (forall x, In x (pairs l1) -> ~ In x (pairs l2)) -> uncrossed l1 l2.
Proof.
  intros C1 C2 Sd Dj a b c d (Ia & Ib & Eab & La & Lb & Sab) (Ic & Id & Ecd & Lc & Ld & Scd) Eac.
  set (C := mem (pairs l2)) in *.
  assert (Cc : closed events op C) by (apply (pairs_closed eps hg sl s L events D); apply (cy_in _ _ _ _ C2)).
  assert (Ce : even ring C) by (apply (cy_even _ _ _ _ C2)).
  assert (Ci : inside events C) by (intros z M; apply mem_In in M; apply (pairs_events l2); auto).
  assert (N1 : forall x, In x (pairs l1) -> C x = false).
  { intros x I. destruct (C x) eqn:M; auto. apply mem_In in M. destruct (Dj x I M). }
  assert (Sx : forall x, In x l1 -> sd C (op x) = sd C x).
  { intros x I. rewrite (side_op _ _ _ _ _ _ D C Cc Ce Ci x) by (apply (cy_in _ _ _ _ C1); auto). rewrite N1 by (apply pairs_In; exists x; auto). apply xorb_false_r. }
  assert (Sp : sd C a = sd C b).
  { apply pairs_In in Ia. apply pairs_In in Ib. destruct Ia as (x & Ix & Qx), Ib as (y & Iy & Qy).
    destruct Qx as [-> | ->], Qy as [-> | ->]; rewrite ?Sx by auto; apply Sd; auto. }
  unfold side in Sp. rewrite <- Eab in Sp. apply (f_equal (xorb (lev eps hg s L C (at_ a)))) in Sp. rewrite <- !xorb_assoc, xorb_nilpotent, !xorb_false_l in Sp.
  set (w := at_ a) in *. pose proof (ring_nd _ _ _ _ _ _ D w) as Nr. pose proof (ring_sorted _ _ _ _ _ _ D w) as So.
  assert (Ev1 : forall x, In x (pairs l1) -> at_ x = w -> In x (ring w)) by (intros x I E; apply ring_in; split; auto; apply (pairs_events l1); auto).
  assert (Ev2 : forall x, In x (pairs l2) -> at_ x = w -> In x (ring w)) by (intros x I E; apply ring_in; split; auto; apply (pairs_events l2); auto).
  assert (Irr := goes_irrefl op lft sl). assert (Asy := goes_asym op lft sl).
  rewrite (pre_sorted (goes_before op lft sl) C (ring w) a Asy Irr Nr So (Ev1 a Ia eq_refl)) in Sp.
  rewrite (pre_sorted (goes_before op lft sl) C (ring w) b Asy Irr Nr So (Ev1 b Ib (eq_sym Eab))) in Sp.
  assert (Ncd : c <> d) by congruence.
  assert (At : forall (g : event -> bool) y, In y (ring w) -> C y && g y = true -> y = c \/ y = d).
  { intros g y I Q. apply andb_true_iff in Q. destruct Q as [M _]. apply mem_In in M. apply ring_in in I. apply (two_at l2); auto; unfold w in *; try congruence. destruct I; congruence. }
  assert (Icr : In c (ring w)) by (apply Ev2; auto). assert (Idr : In d (ring w)) by (apply Ev2; auto; congruence).
  assert (P : forall g : event -> bool, xsum (fun y => C y && g y) (ring w) = xorb (C c && g c) (C d && g d)).
  { intros g. apply (xsum_pair (fun y => C y && g y)); auto. intros y. apply At. }
  rewrite (P (fun y => goes_before op lft sl y a)), (P (fun y => goes_before op lft sl y b)) in Sp.
  assert (Mc : C c = true) by (apply mem_In; auto). assert (Md : C d = true) by (apply mem_In; auto).
  rewrite Mc, Md in Sp. cbn [andb] in Sp. unfold goes_before in Sp. rewrite La, Lb, Lc, Ld in Sp. cbn [orb andb] in Sp. rewrite Sab, Scd in Sp.
  destruct (qltb (sl b) (sl d)); discriminate.
Qed.
Lemma pairs_apart cs i j l1 l2 : NoDup (flat_map pairs cs) -> i < j -> nth_error cs i = Some l1 -> nth_error cs j = Some l2 ->
  forall x, In x (pairs l1) -> ~ In x (pairs l2).
Proof.
  intros Nd Lij E1 E2 x I1 I2.
    destruct (nth_error_split _ _ E1) as (p & q & -> & Lp). rewrite nth_error_app2 in E2 by lia.
    destruct (j - length p) as [|m] eqn:Em; [lia|]. cbn [nth_error] in E2. apply nth_error_In in E2.
    rewrite flat_map_app in Nd. clear - Nd I1 I2 E2. induction (flat_map pairs p) as [|z t IH]; [|cbn in Nd; inversion Nd; auto].
    cbn [flat_map app] in Nd. assert (J : In x (flat_map pairs q)) by (apply in_flat_map; exists l2; auto).
    clear - Nd I1 J. induction (pairs l1) as [|y l IH]; [destruct I1|]. cbn in Nd. inversion Nd; subst. destruct I1 as [-> | I1]; auto. apply H1, in_or_app; auto.
Qed.
(** The contours that the loop gives. *)
Lemma found_uncrossed r cs : state eps hg s L events r events cs -> forall i j l1 l2, i < j -> nth_error cs i = Some l1 -> nth_error cs j = Some l2 -> uncrossed l1 l2.
Proof.
  intros St i j l1 l2 Lij E1 E2. apply sides_uncrossed.
  - apply (st_cycles _ _ _ _ _ _ _ _ St). apply (nth_error_In _ _ E1).
  - apply (st_cycles _ _ _ _ _ _ _ _ St). apply (nth_error_In _ _ E2).
  - apply (st_apart _ _ _ _ _ _ _ _ St i j); auto.
  - apply (pairs_apart cs i j); auto. apply (st_nd _ _ _ _ _ _ _ _ St).
Qed.
End Uncrossed.
