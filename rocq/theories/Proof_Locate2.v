(** Point location in regions: crossing parity. *)
From Coq Require Import QArith Qcanon Bool List ZArith Lia Permutation.
From Verif Require Import QcTac Model_Base Model_Box Model_Geometry Model_Utils Model_Contour
  Spec_Base Spec_Segment Spec_Contour Proof_Base Proof_Line Proof_SegRel Proof_Bounds Proof_Utils Proof_Contour
  Proof_Contour2 Proof_Edges Proof_Locate.
Import ListNotations.
Local Open Scope Qc_scope.

(** [a], [b] are not on [pq], [p], [q] are not on [ab]. *)
Definition apart (p q a b : point) : Prop :=
  ~ between p q a /\ ~ between p q b /\ ~ between a b p /\ ~ between a b q.
Lemma apart_side a b c d x : a <> b -> ~ between a b c -> ~ between a b d ->
  ~ between c d a -> ~ between c d b -> between a b x -> between c d x -> area2 a b c <> 0.
Proof.
  intros Nab C D A B Hx Kx Z. assert (Xl := between_collinear _ _ _ Hx).
  destruct Kx as (t & T0 & T1 & ->). rewrite area2_lerp, Z in Xl.
  assert (E : t * area2 a b d = 0) by (rewrite <- Xl; ring). apply Qcmult_integral in E.
  destruct E as [-> | E].
  - apply C. rewrite lerp_0 in Hx. auto.
  - destruct (collinear_lerp a b c Nab Z) as (s & ->).
    destruct (collinear_lerp a b d Nab E) as (r & ->).
    assert (Ep : lerp (lerp a b s) (lerp a b r) t = lerp a b (s + t * (r - s)))
      by (unfold lerp; cbn [px py]; f_equal; ring).
    rewrite Ep in Hx. destruct Hx as (u & U0 & U1 & Eu).
    apply lerp_eq in Eu; auto.
    assert (Ns : s < 0 \/ 1 < s).
    { destruct (Qclt_le_dec s 0); auto. destruct (Qclt_le_dec 1 s); auto.
      exfalso. apply C. exists s; auto. }
    assert (Nr : r < 0 \/ 1 < r).
    { destruct (Qclt_le_dec r 0); auto. destruct (Qclt_le_dec 1 r); auto.
      exfalso. apply D. exists r; auto. }
    assert (K : (s < 0 /\ 1 < r) \/ (r < 0 /\ 1 < s)).
    { destruct Ns as [S|S], Nr as [R|R]; auto; exfalso.
      - assert (0 < (1 - t) * (0 - s) + t * (0 - r)); [|qlra].
        destruct (Qc_eq_dec t 0) as [->|]; [qlra|]. assert (0 < t) by (qne; qlra). qnra.
      - assert (0 < (1 - t) * (s - 1) + t * (r - 1)); [|qlra].
        destruct (Qc_eq_dec t 0) as [->|]; [qlra|]. assert (0 < t) by (qne; qlra). qnra. }
    assert (P : exists w, 0 <= w /\ w <= 1 /\ s + w * (r - s) = 0).
    { exists ((0 - s) / (r - s)). assert (r - s <> 0) by (intro; destruct K; qlra).
      assert (W : (0 - s) / (r - s) * (r - s) = 0 - s) by (field; auto).
      set (w := (0 - s) / (r - s)) in *.
      split; [destruct (Qclt_le_dec w 0); auto; exfalso; destruct K; qnra|].
      split; [destruct (Qclt_le_dec 1 w); auto; exfalso; destruct K; qnra|]. qlra. }
    destruct P as (w & W0 & W1 & W). apply A. exists w. split; auto. split; auto.
    assert (Ew : lerp (lerp a b s) (lerp a b r) w = lerp a b (s + w * (r - s)))
      by (unfold lerp; cbn [px py]; f_equal; ring).
    rewrite Ew, W, lerp_0. auto.
Qed.
Lemma proper_crossing p q a b : apart p q a b -> meet (Seg a b) (Seg p q) ->
  opposite (area2 p q a) (area2 p q b) /\ opposite (area2 a b p) (area2 a b q).
Proof.
  intros (Na & Nb & Np & Nq) (x & Hx & Kx). unfold on_seg in *; cbn [seg_start seg_end] in *.
  assert (a <> b) by (intros ->; apply between_same in Hx; subst; auto).
  assert (p <> q) by (intros ->; apply between_same in Kx; subst; auto).
  assert (A1 : area2 p q a <> 0) by (apply (apart_side p q a b x); auto).
  assert (A2 : area2 p q b <> 0).
  { apply (apart_side p q b a x); auto; [intro K; apply Np|intro K; apply Nq|]; apply between_sym; auto. }
  assert (A3 : area2 a b p <> 0) by (apply (apart_side a b p q x); auto).
  assert (A4 : area2 a b q <> 0).
  { apply (apart_side a b q p x); auto; [intro K; apply Na|intro K; apply Nb|]; apply between_sym; auto. }
  unfold opposite.
  destruct (Qc_neq _ _ A1), (Qc_neq _ _ A2), (Qc_neq _ _ A3), (Qc_neq _ _ A4); split; auto; exfalso;
    try (apply (same_side_disjoint p q a b x); auto; fail);
    try (apply (same_side_disjoint a b p q x); auto; fail).
Qed.
Lemma edge_crossing_up p q a b : py p < py q -> py a <= py b -> apart p q a b ->
  meet (Seg a b) (Seg p q) ->
  xorb (tog a b p) (tog a b q) = negb (xorb (side p q a) (side p q b)).
Proof.
  intros L W Ap M. destruct (proper_crossing p q a b Ap M) as [O1 O2].
  assert (R := cross_relation p q a b).
  assert (H : exists x, between a b x /\ between p q x) by (destruct M as (x & H & K); exists x; auto).
  destruct H as (x & Hx & Kx).
  destruct Ap as (Na & Nb & Np & Nq).
  assert (Yx : py p <= py x /\ py x <= py q)
    by (destruct Kx as (t & T0 & T1 & ->); unfold lerp; cbn [py]; split; qnra).
  assert (Zx : py a <= py x /\ py x <= py b)
    by (destruct Hx as (t & T0 & T1 & ->); unfold lerp; cbn [py]; split; qnra).
  assert (Xp : py x = py p -> False).
  { intros E. apply Np. replace p with x; auto. destruct Kx as (t & T0 & T1 & ->).
    unfold lerp in *; cbn [py] in *. assert (t = 0).
    { destruct (Qc_eq_dec t 0); auto. exfalso. qne. qnra. }
    subst t. apply point_ext; cbn [px py]; ring. }
  unfold tog.
  destruct (Qclt_le_dec (py p) (py a)) as [Ha|Ha].
  - rewrite (up_false_low a b p) by auto. rewrite (up_false_low b a p) by qlra.
    rewrite (up_false_high b a q) by qlra. rewrite (side_mid p q a) by (auto; qlra). rewrite orb_false_r.
    destruct (Qclt_le_dec (py q) (py b)) as [Hb|Hb].
    + rewrite (side_high p q b) by auto. rewrite up_true by (auto; qlra).
      destruct (qltb_spec 0 (area2 a b q)), (qltb_spec (area2 p q a) 0); auto; exfalso;
        destruct O1 as [[]|[]], O2 as [[]|[]]; qlra.
    + rewrite (side_mid p q b) by qlra. rewrite (up_false_high a b q) by auto.
      destruct (qltb_spec (area2 p q a) 0), (qltb_spec (area2 p q b) 0); auto; exfalso;
        destruct O1 as [[]|[]]; qlra.
  - rewrite (side_low p q a) by auto. rewrite (up_false_high b a p) by auto. rewrite (up_false_high b a q) by qlra.
    rewrite !orb_false_r.
    assert (Hb : py p < py b).
    { destruct (Qclt_le_dec (py p) (py b)); auto. exfalso. apply Xp. qlra. }
    rewrite (up_true a b p) by auto.
    destruct (Qclt_le_dec (py q) (py b)) as [Hb'|Hb'].
    + rewrite (side_high p q b) by auto. rewrite up_true by (auto; qlra).
      destruct (qltb_spec 0 (area2 a b p)), (qltb_spec 0 (area2 a b q)); auto; exfalso;
        destruct O2 as [[]|[]]; qlra.
    + rewrite (side_mid p q b) by auto. rewrite (up_false_high a b q) by auto.
      destruct (qltb_spec 0 (area2 a b p)), (qltb_spec (area2 p q b) 0); auto; exfalso;
        destruct O1 as [[]|[]], O2 as [[]|[]]; qlra.
Qed.
Lemma apart_rev p q a b : apart p q a b -> apart p q b a.
Proof.
  intros (Na & Nb & Np & Nq). split; [auto|]. split; [auto|].
  split; intros K; [apply Np|apply Nq]; apply between_sym; auto.
Qed.
Lemma meet_rev a b t : meet (Seg a b) t -> meet (Seg b a) t.
Proof. intros (x & H & K). exists x. split; auto. apply on_reverse_seg in H. exact H. Qed.
Lemma edge_crossing p q a b : py p < py q -> apart p q a b ->
  meet (Seg a b) (Seg p q) ->
  xorb (tog a b p) (tog a b q) = negb (xorb (side p q a) (side p q b)).
Proof.
  intros L A N. destruct (Qclt_le_dec (py b) (py a)) as [W|W].
  - rewrite (tog_sym a b p), (tog_sym a b q), (xorb_comm (side p q a)).
    apply edge_crossing_up; auto; [qlra|apply apart_rev; auto|apply meet_rev; auto].
  - apply edge_crossing_up; auto.
Qed.

(** Horizontal segments. *)
Lemma up_false_high_or a b p : py b <= py a -> up a b p = false.
Proof.
  intros H. destruct (Qclt_le_dec (py p) (py a)); [apply up_false_low; auto|apply up_false_high; qlra].
Qed.
Lemma level_parity_up p q a b : py p = py q -> py a <= py b -> ~ meet (Seg a b) (Seg p q) ->
  tog a b p = tog a b q.
Proof.
  intros L W N.
  assert (M : forall x, between a b x -> between p q x -> False)
    by (intros x H K; apply N; exists x; split; auto).
  unfold tog. rewrite (up_false_high_or b a p), (up_false_high_or b a q) by auto.
  rewrite !orb_false_r.
  destruct (Qclt_le_dec (py p) (py a)) as [Ha|Ha].
  { rewrite !up_false_low by qlra. auto. }
  destruct (Qclt_le_dec (py p) (py b)) as [Hb|Hb].
  2:{ rewrite !up_false_high by qlra. auto. }
  rewrite !up_true by qlra.
  assert (Ha' : py a <= py q) by qlra. assert (Hb' : py q < py b) by qlra.
  destruct (at_height a b p Ha Hb) as (x & Bx & Yx & P1 & P2 & _).
  destruct (at_height a b q Ha' Hb') as (z & Bz & Yz & R1 & R2 & _).
  assert (Exz : x = z).
  { apply point_ext; [|qlra]. destruct Bx as (t & _ & _ & ->), Bz as (u & _ & _ & ->).
    unfold lerp in *; cbn [px py] in *. assert (E : (t - u) * (py b - py a) = 0) by qlra.
    apply Qcmult_integral in E. destruct E; [|exfalso; qlra].
    assert (t = u) by qlra. subst. auto. }
  subst z.
  assert (Ln : forall c d, (px c < px x /\ px x <= px d) -> py c = py x -> py d = py x -> between c d x).
  { intros c d [K1 K2] Yc Yd. exists ((px x - px c) / (px d - px c)).
    assert (D : px d - px c <> 0) by (intro; qlra).
    assert (E : (px x - px c) / (px d - px c) * (px d - px c) = px x - px c) by (field; auto).
    set (t := (px x - px c) / (px d - px c)) in *.
    split; [destruct (Qclt_le_dec t 0); auto; exfalso; qnra|].
    split; [destruct (Qclt_le_dec 1 t); auto; exfalso; qnra|].
    apply point_ext; unfold lerp; cbn [px py]; [qlra|]. rewrite Yc, Yd. ring. }
  destruct (qltb_spec 0 (area2 a b p)) as [Q1|Q1]; destruct (qltb_spec 0 (area2 a b q)) as [Q2|Q2]; auto; exfalso.
  - apply P1 in Q1.
    assert (px x <= px q) by (destruct (Qclt_le_dec (px q) (px x)) as [K|K]; auto; apply R1 in K; contradiction).
    apply (M x); auto; apply Ln; auto; qlra.
  - apply R1 in Q2.
    assert (px x <= px p) by (destruct (Qclt_le_dec (px p) (px x)) as [K|K]; auto; apply P1 in K; contradiction).
    apply (M x); auto. apply between_sym. apply Ln; auto; qlra.
Qed.

Lemma level_parity p q a b : py p = py q -> ~ meet (Seg a b) (Seg p q) -> tog a b p = tog a b q.
Proof.
  intros L N. destruct (Qclt_le_dec (py b) (py a)) as [W|W].
  - rewrite (tog_sym a b p), (tog_sym a b q).
    apply level_parity_up; auto; [qlra|]. intros K; apply N, meet_rev, K.
  - apply level_parity_up; auto.
Qed.
Lemma level_crossing p q a b : py p = py q -> apart p q a b -> meet (Seg a b) (Seg p q) ->
  tog a b p = negb (tog a b q).
Proof.
  intros L Ap M. destruct (proper_crossing p q a b Ap M) as [O1 O2].
  unfold tog, up. rewrite <- L, !(area2_swap12 a b).
  assert (E1 : area2 p q a = - (py a - py p) * (px p - px q)) by (unfold area2; rewrite L; ring).
  assert (E2 : area2 p q b = - (py b - py p) * (px p - px q)) by (unfold area2; rewrite L; ring).
  assert (K : (py a < py p /\ py p < py b) \/ (py b < py p /\ py p < py a)).
  { rewrite E1, E2 in O1. destruct O1 as [[H1 H2]|[H1 H2]].
    - destruct (Qclt_le_dec (px p) (px q)).
      + right. split; qnra.
      + left. split; qnra.
    - destruct (Qclt_le_dec (px p) (px q)).
      + left. split; qnra.
      + right. split; qnra. }
  destruct O2 as [[]|[]]; repeat qcase; auto; exfalso; destruct K; qlra.
Qed.

(** ** Whole borders *)
Definition sides (f : point -> bool) (l : list segment) : bool :=
  fold_right (fun e acc => xorb (xorb (f (seg_start e)) (f (seg_end e))) acc) false l.
Lemma sides_edges_from f g l : l <> [] -> sides f (edges_from g l) = xorb (f (hd g l)) (f g).
Proof.
  induction l as [|v l IH]; [congruence|]. intros _. destruct l as [|w l].
  - cbn. rewrite xorb_false_r. auto.
  - change (edges_from g (v :: w :: l)) with (Seg v w :: edges_from g (w :: l)).
    cbn [sides fold_right]. fold (sides f (edges_from g (w :: l))). rewrite IH by discriminate.
    cbn. destruct (f v), (f w), (f g); auto.
Qed.
Lemma sides_edges f vs : sides f (edges vs) = false.
Proof.
  destruct vs as [|v vs]; auto. unfold edges. rewrite sides_edges_from by discriminate.
  cbn [hd]. apply xorb_nilpotent.
Qed.
Lemma counts_parity p q l n : py p < py q ->
  (forall e, In e l -> ~ on_seg e p /\ ~ on_seg e q) ->
  (forall e, In e l -> meet e (Seg p q) -> apart p q (seg_start e) (seg_end e)) ->
  counts (fun e => meet e (Seg p q)) l n ->
  xorb (parity l p) (parity l q) = xorb (Nat.odd n) (sides (side p q) l).
Proof.
  intros L N A C. induction C as [|e l n M C IH|e l n M C IH]; auto.
  - cbn [parity sides fold_right]. fold (parity l p) (parity l q) (sides (side p q) l).
    rewrite Nat.odd_succ, <- Nat.negb_odd.
    destruct (N e) as [Np Nq]; [cbn; auto|].
    rewrite !toggles_tog by auto. destruct e as [a b]; cbn [seg_start seg_end].
    assert (K := edge_crossing p q a b L (A _ (or_introl eq_refl) M) M).
    assert (IH' : xorb (parity l p) (parity l q) = xorb (Nat.odd n) (sides (side p q) l))
      by (apply IH; intros; [apply N|apply A]; cbn; auto).
    destruct (tog a b p), (tog a b q), (parity l p), (parity l q), (Nat.odd n), (side p q a), (side p q b),
      (sides (side p q) l); cbn in *; congruence.
  - cbn [parity sides fold_right]. fold (parity l p) (parity l q) (sides (side p q) l).
    destruct (N e) as [Np Nq]; [cbn; auto|].
    rewrite !toggles_tog by auto. destruct e as [a b]; cbn [seg_start seg_end].
    assert (K := edge_parity p q a b L M).
    assert (IH' : xorb (parity l p) (parity l q) = xorb (Nat.odd n) (sides (side p q) l))
      by (apply IH; intros; [apply N|apply A]; cbn; auto).
    destruct (tog a b p), (tog a b q), (parity l p), (parity l q), (Nat.odd n), (side p q a), (side p q b),
      (sides (side p q) l); cbn in *; congruence.
Qed.
Lemma counts_parity_level p q l n : py p = py q ->
  (forall e, In e l -> ~ on_seg e p /\ ~ on_seg e q) ->
  (forall e, In e l -> meet e (Seg p q) -> apart p q (seg_start e) (seg_end e)) ->
  counts (fun e => meet e (Seg p q)) l n ->
  xorb (parity l p) (parity l q) = Nat.odd n.
Proof.
  intros L N A C. induction C as [|e l n M C IH|e l n M C IH]; auto.
  - cbn [parity fold_right]. fold (parity l p) (parity l q).
    rewrite Nat.odd_succ, <- Nat.negb_odd.
    destruct (N e) as [Np Nq]; [cbn; auto|].
    rewrite !toggles_tog by auto. destruct e as [a b]; cbn [seg_start seg_end].
    rewrite (level_crossing p q a b L (A _ (or_introl eq_refl) M) M).
    assert (IH' : xorb (parity l p) (parity l q) = Nat.odd n)
      by (apply IH; intros; [apply N|apply A]; cbn; auto).
    destruct (tog a b q), (parity l p), (parity l q), (Nat.odd n); cbn in *; congruence.
  - cbn [parity fold_right]. fold (parity l p) (parity l q).
    destruct (N e) as [Np Nq]; [cbn; auto|].
    rewrite !toggles_tog by auto. destruct e as [a b]; cbn [seg_start seg_end].
    rewrite (level_parity p q a b L M).
    assert (IH' : xorb (parity l p) (parity l q) = Nat.odd n)
      by (apply IH; intros; [apply N|apply A]; cbn; auto).
    destruct (tog a b q), (parity l p), (parity l q), (Nat.odd n); cbn in *; congruence.
Qed.
Lemma counts_ext {A} (P Q : A -> Prop) l n : (forall x, In x l -> P x <-> Q x) ->
  counts P l n -> counts Q l n.
Proof.
  intros H C. induction C as [|x l n M C IH|x l n M C IH]; [constructor|apply counts_yes|apply counts_no];
    try (apply IH; intros; apply H; cbn; auto).
  - apply H; cbn; auto.
  - intros K; apply M, H; cbn; auto.
Qed.
Lemma meet_rev_r s p q : meet s (Seg p q) <-> meet s (Seg q p).
Proof.
  split; intros M; apply meet_sym, meet_rev, meet_sym, M.
Qed.
Lemma apart_rev2 p q a b : apart p q a b -> apart q p a b.
Proof.
  intros (Na & Nb & Np & Nq). split; [intro K; apply Na, between_sym, K|].
  split; [intro K; apply Nb, between_sym, K|]. auto.
Qed.
Lemma counts_edges p q vs n : ~ on_contour vs p -> ~ on_contour vs q ->
  (forall e, In e (edges vs) -> meet e (Seg p q) -> apart p q (seg_start e) (seg_end e)) ->
  counts (fun e => meet e (Seg p q)) (edges vs) n ->
  xorb (parity (edges vs) p) (parity (edges vs) q) = Nat.odd n.
Proof.
  intros Np Nq A C.
  assert (N : forall e, In e (edges vs) -> ~ on_seg e p /\ ~ on_seg e q).
  { intros e I; split; intros O; [apply Np|apply Nq]; exists e; auto. }
  destruct (Qc_trichotomy (py p) (py q)) as [[L|L]|L].
  - rewrite (counts_parity p q _ n L N A C), sides_edges, xorb_false_r. auto.
  - apply counts_parity_level; auto.
  - rewrite xorb_comm.
    rewrite (counts_parity q p _ n L), sides_edges, xorb_false_r; auto.
    + intros e I. destruct (N e I). auto.
    + intros e I M. apply apart_rev2, A; auto. apply meet_rev_r; auto.
    + revert C. apply counts_ext. intros; apply meet_rev_r.
Qed.
