From Coq Require Import QArith Qcanon ZArith Bool.
From Verif Require Import QcTac Model_Base Spec_Base Spec_Circle Proof_Base.
Local Open Scope Qc_scope.

Definition circle_det (p a b c : point) : Qc :=
  ((px a - px p) * (px a - px p) + (py a - py p) * (py a - py p))
    * ((px b - px p) * (py c - py p) - (py b - py p) * (px c - px p))
  - ((px b - px p) * (px b - px p) + (py b - py p) * (py b - py p))
    * ((px a - px p) * (py c - py p) - (py a - py p) * (px c - px p))
  + ((px c - px p) * (px c - px p) + (py c - py p) * (py c - py p))
    * ((px a - px p) * (py b - py p) - (py a - py p) * (px b - px p)).
Lemma circle_det_area o p a b c : circumcentre o a b c ->
  circle_det p a b c = area2 a b c * (dist2 o a - dist2 o p).
Proof.
  intros [E1 E2]. unfold circle_det.
  assert (K : forall v, dist2 o v = dist2 o a ->
     (px v - px p) * (px v - px p) + (py v - py p) * (py v - py p)
     = (1 + 1) * ((px v - px p) * (px o - px p) + (py v - py p) * (py o - py p))
       + (dist2 o a - dist2 o p)).
  { intros v <-. unfold dist2. ring. }
  rewrite (K a), (K b), (K c) by auto. unfold area2. generalize (dist2 o a - dist2 o p). intros r. ring.
Qed.
Lemma circumcentre_exists a b c : area2 a b c <> 0 -> exists o, circumcentre o a b c.
Proof.
  intros N. set (d := area2 a b c) in *.
  set (B2 := (px b - px a) * (px b - px a) + (py b - py a) * (py b - py a)).
  set (D2 := (px c - px a) * (px c - px a) + (py c - py a) * (py c - py a)).
  assert (T : (1 + 1 : Qc) <> 0) by discriminate.
  exists (Pt (px a + ((py c - py a) * B2 - (py b - py a) * D2) / ((1 + 1) * d))
             (py a + ((px b - px a) * D2 - (px c - px a) * B2) / ((1 + 1) * d))).
  unfold circumcentre, dist2, B2, D2, d, area2 in *. cbn [px py].
  split; field; auto.
Qed.
Lemma circle_location o p a b c : 0 < area2 a b c -> circumcentre o a b c ->
  (locate_point_in_point_point_point_circle p a b c = INTERIOR <-> dist2 o p < dist2 o a)
  /\ (locate_point_in_point_point_point_circle p a b c = BOUNDARY <-> dist2 o p = dist2 o a)
  /\ (locate_point_in_point_point_point_circle p a b c = EXTERIOR <-> dist2 o a < dist2 o p).
Proof.
  intros A C. assert (E := circle_det_area o p a b c C).
  assert (L : locate_point_in_point_point_point_circle p a b c =
    (if (to_sign (circle_det p a b c) =? 0)%Z then BOUNDARY
     else if (0 <? to_sign (circle_det p a b c))%Z then INTERIOR else EXTERIOR)) by reflexivity.
  rewrite L, E. clear L E. revert A. generalize (area2 a b c) (dist2 o a) (dist2 o p).
  intros k r s A.
  assert (P : 0 < k * (r - s) <-> s < r) by (split; intros; qnra).
  assert (M : k * (r - s) < 0 <-> r < s) by (split; intros; qnra).
  destruct (to_sign_spec (k * (r - s))) as [[-> H]|[[-> H]|[-> H]]]; cbn.
  - apply P in H. repeat split; intros; auto; try discriminate; exfalso; qlra.
  - assert (r = s).
    { destruct (Qc_trichotomy r s) as [[Q|Q]|Q]; auto; exfalso.
      - apply M in Q. rewrite H in Q. qlra.
      - apply P in Q. rewrite H in Q. qlra. }
    repeat split; intros; auto; try discriminate; exfalso; qlra.
  - apply M in H. repeat split; intros; auto; try discriminate; exfalso; qlra.
Qed.
