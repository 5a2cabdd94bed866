(** The outline of the result of an operator is the boundary of the region of the operation. *)
From Coq Require Import QArith Qcanon Bool List Arith Lia Permutation.
From Verif Require Import QcTac Model_Base Model_Utils Model_Box Model_Geometry Model_Contour Model_Linear Model_Mixed Model_Shaped Model_Multipolygon Spec_Base Spec_Segment Spec_Clip Spec_Contour
  Spec_Relate Spec_Bounds Spec_Sweep Spec_Shaped Spec_Multipolygon Spec_RelateShaped Spec_Tight
  Proof_Base Proof_Line Proof_SegRel Proof_SegOps Proof_Relate6 Proof_SegLoops Proof_Contour Proof_Contour2 Proof_Edges Proof_Bounds Proof_Shrink Proof_Locate Proof_Locate3 Proof_Locate4 Proof_Sweep4 Proof_Sweep6 Proof_Sweep18 Proof_Parity
  Proof_Corner Proof_Region Proof_Ray Proof_Orient Proof_Nested Proof_Nested2 Proof_Bridge Proof_Odd Proof_Clip Proof_Ready Proof_RelShaped6 Proof_Polygons Proof_Multi Proof_Multi2 Proof_Multi3 Proof_Multi4
  Proof_Tight1 Proof_Tight3 Proof_Tight4 Proof_Tight5.
Import ListNotations.
Local Open Scope Qc_scope.

Lemma bound_of (a : Qc) : exists M, 0 <= M /\ - M <= a /\ a <= M.
Proof. destruct (Qclt_le_dec a 0); [exists (- a)|exists a]; repeat split; qlra. Qed.
Lemma square_nonneg (a : Qc) : 0 <= a * a.
Proof. destruct (Qclt_le_dec a 0); [replace (a * a) with ((- a) * (- a)) by ring|]; apply Qcmult_nonneg; qlra. Qed.
Lemma square_pos (a : Qc) : a <> 0 -> 0 < a * a.
Proof. intros N. destruct (Qc_dec a 0) as [[L|L]|E]; [replace (a * a) with ((- a) * (- a)) by ring; apply Qcmult_pos; qlra|apply Qcmult_pos; auto|contradiction]. Qed.
Lemma affine_gap a b c x : 0 < a * px x + b * py x + c -> exists d, 0 < d /\ forall y, close_to d x y -> 0 < a * px y + b * py y + c.
Proof.
  intros P. set (v := a * px x + b * py x + c) in *. destruct (bound_of a) as (M & M0 & M1 & M2), (bound_of b) as (N & N0 & N1 & N2).
  assert (Q : 0 < M + N + 1) by (assert (0 < 1) by (vm_compute; reflexivity); qlra).
  assert (D : M + N + 1 <> 0) by (intros E; qlra).
  assert (E : (M + N + 1) * (v / (M + N + 1)) = v) by (field; exact D). set (d := v / (M + N + 1)) in *.
  assert (Pd : 0 < d). { apply Qcnot_le_lt. intros L. assert ((M + N + 1) * d <= 0) by qnra. qlra. }
  exists d. split; auto. intros y (Y1 & Y2 & Y3 & Y4).
  assert (A : - (M * d) <= a * (px y - px x)).
  { assert (- d < px y - px x /\ px y - px x < d) by (split; qlra). clear - H M0 M1 M2 Pd. destruct H as [H1 H2]. set (t := px y - px x) in *. clearbody t.
    assert (0 <= (M - a) * (d + t)) by (apply Qcmult_nonneg; qlra). assert (0 <= (M + a) * (d - t)) by (apply Qcmult_nonneg; qlra).
    assert (Q1 : (M - a) * (d + t) = M * d + M * t - a * d - a * t) by ring. assert (Q2 : (M + a) * (d - t) = M * d - M * t + a * d - a * t) by ring.
    assert (0 <= (M - a) * (d - t)) by (apply Qcmult_nonneg; qlra). assert (0 <= (M + a) * (d + t)) by (apply Qcmult_nonneg; qlra).
    assert (Q3 : (M - a) * (d - t) = M * d - M * t - a * d + a * t) by ring. assert (Q4 : (M + a) * (d + t) = M * d + M * t + a * d + a * t) by ring. qlra. }
  assert (B : - (N * d) <= b * (py y - py x)).
  { assert (- d < py y - py x /\ py y - py x < d) by (split; qlra). clear - H N0 N1 N2 Pd. destruct H as [H1 H2]. set (t := py y - py x) in *. clearbody t.
    assert (0 <= (N - b) * (d - t)) by (apply Qcmult_nonneg; qlra). assert (0 <= (N + b) * (d + t)) by (apply Qcmult_nonneg; qlra).
    assert (Q3 : (N - b) * (d - t) = N * d - N * t - b * d + b * t) by ring. assert (Q4 : (N + b) * (d + t) = N * d + N * t + b * d + b * t) by ring. qlra. }
  replace (a * px y + b * py y + c) with (v + a * (px y - px x) + b * (py y - py x)) by (unfold v; ring).
  replace ((M + N + 1) * d) with (M * d + N * d + d) in E by ring. qlra.
Qed.
Lemma seg_gap e x : ~ on_seg e x -> exists d, 0 < d /\ forall y, close_to d x y -> ~ on_seg e y.
Proof.
  intros Off. destruct e as [[ax ay] [bx by_]]. unfold on_seg in *. cbn [seg_start seg_end] in *.
  assert (Use : forall a b c, 0 < a * px x + b * py x + c -> (forall y, between (Pt ax ay) (Pt bx by_) y -> a * px y + b * py y + c <= 0) ->
    exists d, 0 < d /\ forall y, close_to d x y -> ~ between (Pt ax ay) (Pt bx by_) y).
  { intros a b c P No. destruct (affine_gap a b c x P) as (d & D & Q). exists d. split; auto. intros y C O. specialize (Q y C). specialize (No y O). qlra. }
  set (dx := bx - ax) in *. set (dy := by_ - ay) in *.
  assert (Cross : forall y, between (Pt ax ay) (Pt bx by_) y -> dx * (py y - ay) - dy * (px y - ax) = 0).
  { intros y (t & T0 & T1 & ->). unfold lerp, dx, dy. cbn [px py]. ring. }
  destruct (Qclt_le_dec 0 (dx * (py x - ay) - dy * (px x - ax))) as [C|C].
  { apply (Use (- dy) dx (dy * ax - dx * ay)); [replace (- dy * px x + dx * py x + (dy * ax - dx * ay)) with (dx * (py x - ay) - dy * (px x - ax)) by ring; exact C|].
    intros y O. replace (- dy * px y + dx * py y + (dy * ax - dx * ay)) with (dx * (py y - ay) - dy * (px y - ax)) by ring. rewrite (Cross y O). apply Qcle_refl. }
  destruct (Qclt_le_dec (dx * (py x - ay) - dy * (px x - ax)) 0) as [C'|C'].
  { apply (Use dy (- dx) (- (dy * ax) + dx * ay)); [replace (dy * px x + - dx * py x + (- (dy * ax) + dx * ay)) with (- (dx * (py x - ay) - dy * (px x - ax))) by ring; qlra|].
    intros y O. replace (dy * px y + - dx * py y + (- (dy * ax) + dx * ay)) with (- (dx * (py y - ay) - dy * (px y - ax))) by ring. rewrite (Cross y O). apply Qcle_refl. }
  assert (Cr : dx * (py x - ay) - dy * (px x - ax) = 0) by (apply Qcle_antisym; auto). clear C C'.
  destruct (Qclt_le_dec (dx * (px x - ax) + dy * (py x - ay)) 0) as [C|C].
  { apply (Use (- dx) (- dy) (dx * ax + dy * ay)); [replace (- dx * px x + - dy * py x + (dx * ax + dy * ay)) with (- (dx * (px x - ax) + dy * (py x - ay))) by ring; qlra|].
    intros y (t & T0 & T1 & ->). unfold lerp. cbn [px py]. fold dx dy. replace (- dx * (ax + t * dx) + - dy * (ay + t * dy) + (dx * ax + dy * ay)) with (- (t * (dx * dx + dy * dy))) by ring.
    assert (0 <= dx * dx + dy * dy) by (pose proof (square_nonneg dx); pose proof (square_nonneg dy); qlra). assert (0 <= t * (dx * dx + dy * dy)) by (apply Qcmult_nonneg; auto). qlra. }
  destruct (Qclt_le_dec (dx * (bx - px x) + dy * (by_ - py x)) 0) as [C'|C'].
  { apply (Use dx dy (- (dx * bx) - dy * by_)); [replace (dx * px x + dy * py x + (- (dx * bx) - dy * by_)) with (- (dx * (bx - px x) + dy * (by_ - py x))) by ring; qlra|].
    intros y (t & T0 & T1 & ->). unfold lerp. cbn [px py]. fold dx dy. replace (dx * (ax + t * dx) + dy * (ay + t * dy) + (- (dx * bx) - dy * by_)) with (- ((1 - t) * (dx * dx + dy * dy))) by (unfold dx, dy; ring).
    assert (0 <= dx * dx + dy * dy) by (pose proof (square_nonneg dx); pose proof (square_nonneg dy); qlra). assert (0 <= (1 - t) * (dx * dx + dy * dy)) by (apply Qcmult_nonneg; auto; qlra). qlra. }
  set (len := dx * dx + dy * dy) in *. assert (L0 : 0 <= len) by (unfold len; pose proof (square_nonneg dx); pose proof (square_nonneg dy); qlra).
  destruct (Qc_eq_dec len 0) as [Z|Z].
  - assert (Zx : dx = 0) by (clear - Z; unfold len in Z; destruct (Qc_eq_dec dx 0) as [E|E]; auto; exfalso; pose proof (square_pos dx E); pose proof (square_nonneg dy); qlra).
    assert (Zy : dy = 0) by (clear - Z; unfold len in Z; destruct (Qc_eq_dec dy 0) as [E|E]; auto; exfalso; pose proof (square_pos dy E); pose proof (square_nonneg dx); qlra).
    assert (One : forall y, between (Pt ax ay) (Pt bx by_) y -> y = Pt ax ay). { intros y (t & _ & _ & ->). unfold lerp. cbn [px py]. fold dx dy. rewrite Zx, Zy. f_equal; ring. }
    assert (Ne : x <> Pt ax ay). { intros ->. apply Off. exists 0. split; [apply Qcle_refl|]. split; [vm_compute; discriminate|]. unfold lerp. cbn [px py]. f_equal; ring. }
    destruct x as [xx xy]. cbn [px py] in *.
    destruct (Qc_eq_dec xx ax) as [E|E].
    + destruct (Qc_dec xy ay) as [[G|G]|G]; [| |exfalso; apply Ne; congruence].
      * apply (Use 0 (- (1)) ay); [cbn [px py]; replace (0 * xx + (- (1)) * xy + ay) with (ay - xy) by ring; qlra|]. intros y O. rewrite (One y O). cbn [px py]. replace (0 * ax + (- (1)) * ay + ay) with 0 by ring. apply Qcle_refl.
      * apply (Use 0 1 (- ay)); [cbn [px py]; replace (0 * xx + 1 * xy + (- ay)) with (xy - ay) by ring; qlra|]. intros y O. rewrite (One y O). cbn [px py]. replace (0 * ax + 1 * ay + (- ay)) with 0 by ring. apply Qcle_refl.
    + destruct (Qc_dec xx ax) as [[G|G]|G]; [| |contradiction].
      * apply (Use (- (1)) 0 ax); [cbn [px py]; replace ((- (1)) * xx + 0 * xy + ax) with (ax - xx) by ring; qlra|]. intros y O. rewrite (One y O). cbn [px py]. replace ((- (1)) * ax + 0 * ay + ax) with 0 by ring. apply Qcle_refl.
      * apply (Use 1 0 (- ax)); [cbn [px py]; replace (1 * xx + 0 * xy + (- ax)) with (xx - ax) by ring; qlra|]. intros y O. rewrite (One y O). cbn [px py]. replace (1 * ax + 0 * ay + (- ax)) with 0 by ring. apply Qcle_refl.
  - exfalso. apply Off. set (t := (dx * (px x - ax) + dy * (py x - ay)) / len).
    assert (Tl : t * len = dx * (px x - ax) + dy * (py x - ay)) by (unfold t; field; exact Z).
    assert (Lp : 0 < len) by (apply Qcle_lt_or_eq in L0; destruct L0; auto; congruence).
    exists t. split; [|split].
    + apply Qcnot_lt_le. intros N. assert (t * len < 0) by (assert (0 < (- t) * len) by (apply Qcmult_pos; qlra); qlra). qlra.
    + apply Qcnot_lt_le. intros N. assert (0 < (t - 1) * len) by (apply Qcmult_pos; qlra).
      assert (Q : (t - 1) * len = - (dx * (bx - px x) + dy * (by_ - py x))) by (replace ((t - 1) * len) with (t * len - len) by ring; rewrite Tl; unfold len, dx, dy; ring). qlra.
    + destruct x as [xx xy]. unfold lerp. cbn [px py] in *. fold dx dy.
      assert (A : forall u w : Qc, (u - w) * len = 0 -> u = w) by (clear - Z; intros u w E; apply Qcmult_integral in E; destruct E; [qlra|contradiction]).
      f_equal; apply A.
      * replace ((xx - (ax + t * dx)) * len) with ((xx - ax) * len - dx * (t * len)) by ring. rewrite Tl. unfold len.
        replace ((xx - ax) * (dx * dx + dy * dy) - dx * (dx * (xx - ax) + dy * (xy - ay))) with (- (dy * (dx * (xy - ay) - dy * (xx - ax)))) by ring. rewrite Cr. ring.
      * replace ((xy - (ay + t * dy)) * len) with ((xy - ay) * len - dy * (t * len)) by ring. rewrite Tl. unfold len.
        replace ((xy - ay) * (dx * dx + dy * dy) - dy * (dx * (xx - ax) + dy * (xy - ay))) with (dx * (dx * (xy - ay) - dy * (xx - ax))) by ring. rewrite Cr. ring.
Qed.
