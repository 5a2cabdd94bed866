(** Relating polygons, part 6: moving points along edges and off them. *)
From Coq Require Import QArith Qcanon Bool List Arith Lia.
From Verif Require Import QcTac Model_Base Model_Utils Model_Geometry Model_Contour Model_Linear Model_Mixed Spec_Base Spec_Segment Spec_Clip Spec_Contour
  Spec_Relate Spec_Shaped
  Proof_Base Proof_Line Proof_Edges Proof_Locate Proof_Locate3 Proof_Locate4 Proof_Sweep4 Proof_Sweep6 Proof_Parity Proof_Corner Proof_Ray Proof_Orient Proof_Nested Proof_Nested2
  Proof_RelateP Proof_Odd Proof_Clip Proof_Ready.
Import ListNotations.
Local Open Scope Qc_scope.

Lemma stays_off g0 g1 : g0 <> 0 -> exists d, 0 < d /\ forall s, 0 <= s -> s <= d -> g0 + s * g1 <> 0.
Proof.
  intros N. assert (P : forall a b, 0 < a -> exists d, 0 < d /\ forall s, 0 <= s -> s <= d -> 0 < a + s * b).
  { clear. intros a b A. destruct (Qclt_le_dec b 0) as [L|L].
    - assert (Nb : - b <> 0) by (intros E; qlra). assert (E : a / - b * - b = a) by (field; auto). set (u := a / - b) in *. clearbody u.
      assert (Pu : 0 < u). { apply Qcnot_le_lt. intros Q. assert (0 <= (- u) * (- b)) by (apply Qcmult_nonneg; qlra). replace (- u * - b) with (- (u * - b)) in * by ring. qlra. }
      destruct (qmid 0 u Pu) as (d & D1 & D2). exists d. split; auto. intros s S0 S1. assert (0 < (u - s) * (- b)) by (apply Qcmult_pos; qlra).
      replace ((u - s) * - b) with (u * - b + s * b) in * by ring. qlra.
    - exists 1. split; [reflexivity|]. intros s S0 _. assert (0 <= s * b) by (apply Qcmult_nonneg; auto). qlra. }
  destruct (Qc_dec g0 0) as [[L|L]|L]; [| |congruence].
  - destruct (P (- g0) (- g1)) as (d & D & Q); [qlra|]. exists d. split; auto. intros s S0 S1 E. specialize (Q s S0 S1).
    replace (- g0 + s * - g1) with (- (g0 + s * g1)) in Q by ring. rewrite E in Q. qlra.
  - destruct (P g0 g1 L) as (d & D & Q). exists d. split; auto. intros s S0 S1 E. specialize (Q s S0 S1). rewrite E in Q. qlra.
Qed.
Lemma stays_less a b a' b' : a < b -> exists d, 0 < d /\ forall s, 0 <= s -> s <= d -> a + s * a' < b + s * b'.
Proof.
  intros L. destruct (stays_off (b - a) (b' - a')) as (d & D & Q); [intros E; qlra|]. exists d. split; auto. intros s S0 S1.
  apply Qcnot_le_lt. intros C.
  set (m := b - a) in *. set (k := b' - a') in *. assert (Em : b + s * b' - (a + s * a') = m + s * k) by (unfold m, k; ring).
  assert (C1 : m + s * k <= 0) by qlra. assert (M : 0 < m) by (unfold m; qlra). clearbody m k. clear Em C.
  assert (Nk : k < 0). { apply Qcnot_le_lt. intros K0. assert (0 <= s * k) by (apply Qcmult_nonneg; auto). qlra. }
  assert (Nz : k <> 0) by (intros ->; qlra).
  apply (Q (m / - k)); [|  |field; intros E; apply Nz; qlra].
  - apply Qcnot_lt_le. intros B. assert (E : m / - k * - k = m) by (field; intros E; apply Nz; qlra). set (u := m / - k) in *. clearbody u.
    assert (0 < (- u) * (- k)) by (apply Qcmult_pos; qlra). replace (- u * - k) with (- (u * - k)) in * by ring. qlra.
  - apply Qcnot_lt_le. intros B. assert (E : m / - k * - k = m) by (field; intros E; apply Nz; qlra). set (u := m / - k) in *. clearbody u.
    assert (s < u) by qlra. assert (0 < (u - s) * (- k)) by (apply Qcmult_pos; qlra). replace ((u - s) * - k) with (u * - k + s * k) in * by ring. qlra.
Qed.

Section Creep.
Variable eps : Qc.
Notation X := (Xs eps).
Lemma X_lerp x w s : X (lerp x w s) = X x + s * (X w - X x).
Proof. unfold Xs, lerp. cbn. ring. Qed.
Lemma height_lerp e t t' : sound_edge eps e -> height eps e t' = height eps e t + (t' - t) * ((py (hi e) - py (lo e)) / (X (hi e) - X (lo e))).
Proof. intros S. unfold height, line_at. unfold sound_edge in S. field. intros E. qlra. Qed.
Lemma miss_lerp e q w : sound_edge eps e -> ~ on_seg e q -> exists d, 0 < d /\ forall s, 0 <= s -> s <= d -> ~ on_seg e (lerp q w s).
Proof.
  intros Sd Off. destruct (Qclt_le_dec (X q) (X (lo e))) as [L|L].
  { destruct (stays_less (X q) (X (lo e)) (X w - X q) 0 L) as (d & D & Q). exists d. split; auto. intros s S0 S1 O. apply on_between with (eps := eps) in O; auto.
    specialize (Q s S0 S1). rewrite X_lerp in O. qlra. }
  destruct (Qclt_le_dec (X (hi e)) (X q)) as [L'|L'].
  { destruct (stays_less (X (hi e)) (X q) 0 (X w - X q) L') as (d & D & Q). exists d. split; auto. intros s S0 S1 O. apply on_between with (eps := eps) in O; auto.
    specialize (Q s S0 S1). rewrite X_lerp in O. qlra. }
  assert (N : py q - height eps e (X q) <> 0). { intros E. apply Off. apply between_on with (eps := eps); auto. qlra. }
  set (K := (py (hi e) - py (lo e)) / (X (hi e) - X (lo e))).
  destruct (stays_off _ (py w - py q - (X w - X q) * K) N) as (d & D & Q). exists d. split; auto. intros s S0 S1 O. apply on_height with (eps := eps) in O; auto.
  apply (Q s S0 S1). rewrite (height_lerp e (X q)) in O by auto. fold K in O. rewrite X_lerp in O. unfold lerp in O; cbn [py] in O.
  set (hq := height eps e (X q)) in *. clearbody hq K. replace (py q - hq + s * (py w - py q - (X w - X q) * K)) with (py q + s * (py w - py q) - (hq + (X q + s * (X w - X q) - X q) * K)) by ring.
  rewrite O. ring.
Qed.
Lemma miss_lerps l q w : Forall (sound_edge eps) l -> ~ on_segs l q -> exists d, 0 < d /\ forall s, 0 <= s -> s <= d -> ~ on_segs l (lerp q w s).
Proof.
  induction l as [|e l IH]; intros Sd Off; [exists 1; split; [reflexivity|]; intros s _ _ (e & [] & _)|].
  inversion Sd as [|? ? S1 S2]; subst.
  destruct (miss_lerp e q w) as (d & D & Q); auto; [intros O; apply Off; exists e; split; [left|]; auto|].
  destruct (IH S2) as (d' & D' & Q'); [intros (x & I & O); apply Off; exists x; split; [right|]; auto|].
  exists (if qltb d d' then d else d'). destruct (qltb_spec d d') as [L|L]; (split; [auto|]); intros s A B (x & [<-|I] & O);
    [apply (Q s); auto|apply (Q' s); [auto|qlra|exists x; auto]|apply Qcnot_lt_le in L; apply (Q s); [auto|qlra|auto]|apply (Q' s); auto; exists x; auto].
Qed.
(** A short way from [x] towards [w] that stays off [l] and ends in a column not in [T]. *)
Lemma creep l (T : list Qc) x w : Forall (sound_edge eps) l -> ~ on_segs l x -> X w <> X x ->
  exists s, 0 < s /\ s <= 1 /\ ~ In (X (lerp x w s)) T /\ forall y, on_seg (Seg x (lerp x w s)) y -> ~ on_segs l y.
Proof.
  intros Sd Off Nw. destruct (miss_lerps l x w Sd Off) as (d & D & Q).
  destruct (column_above (map (fun t => (t - X x) / (X w - X x)) T) 0) as (u & U & Bu).
  assert (Mn : exists s, 0 < s /\ s <= 1 /\ s <= d /\ s <= u).
  { assert (Min : forall a b : Qc, 0 < a -> 0 < b -> exists m, 0 < m /\ m <= a /\ m <= b).
    { intros a b A B. destruct (Qclt_le_dec a b); [exists a|exists b]; repeat split; auto; qlra. }
    destruct (Min d u D U) as (m & M1 & M2 & M3). destruct (Min m 1) as (m' & M4 & M5 & M6); auto; [reflexivity|]. exists m'. repeat split; auto; qlra. }
  destruct Mn as (s & S0 & S1 & S2 & S3). exists s. split; auto. split; auto. split.
  - intros I. rewrite X_lerp in I. assert (I' : In s (map (fun t => (t - X x) / (X w - X x)) T)).
    { apply in_map_iff. eexists. split; [|exact I]. field. intros E. apply Nw. qlra. }
    specialize (Bu s I' S0). qlra.
  - intros y (t & T0 & T1 & ->) O. cbn [seg_start seg_end] in O. apply (Q (t * s)).
    + apply Qcmult_nonneg; qlra.
    + assert (0 <= (1 - t) * s) by (apply Qcmult_nonneg; qlra). replace ((1 - t) * s) with (s - t * s) in * by ring. qlra.
    + replace (lerp x w (t * s)) with (lerp x (lerp x w s) t); auto. unfold lerp. apply point_ext; cbn [px py]; ring.
Qed.
(** The same along an edge. *)
Lemma slide l (T : list Qc) e x : sound_edge eps e -> on_seg e x -> Forall (sound_edge eps) l -> ~ on_segs l x ->
  exists x', on_seg e x' /\ ~ In (X x') T /\ forall y, on_seg (Seg x x') y -> ~ on_segs l y.
Proof.
  intros Se Oe Sd Off. destruct (on_between eps e x Se Oe) as [B1 B2].
  assert (Ww : exists w, (w = lo e \/ w = hi e) /\ X w <> X x).
  { unfold sound_edge in Se. destruct (Qc_eq_dec (X (hi e)) (X x)) as [E|E]; [exists (lo e)|exists (hi e)]; split; auto. intros Q. qlra. }
  destruct Ww as (w & W & Nw). destruct (creep l T x w Sd Off Nw) as (s & S0 & S1 & Nt & Of). exists (lerp x w s). split; auto.
  assert (Ow : on_seg e w).
  { unfold on_seg. destruct W as [-> | ->], (lo_hi e) as [[Q1 Q2]|[Q1 Q2]]; rewrite ?Q1, ?Q2; auto using between_start, between_end. }
  pose proof (on_height eps e x Se Oe) as Hx. pose proof (on_height eps e w Se Ow) as Hw. destruct (on_between eps e w Se Ow) as [W1 W2].
  apply between_on with (eps := eps); auto; rewrite ?X_lerp.
  - assert (0 <= s * (X w - X (lo e))) by (apply Qcmult_nonneg; qlra). assert (0 <= (1 - s) * (X x - X (lo e))) by (apply Qcmult_nonneg; qlra).
    replace (X x + s * (X w - X x)) with (X (lo e) + s * (X w - X (lo e)) + (1 - s) * (X x - X (lo e))) by ring. qlra.
  - assert (0 <= s * (X (hi e) - X w)) by (apply Qcmult_nonneg; qlra). assert (0 <= (1 - s) * (X (hi e) - X x)) by (apply Qcmult_nonneg; qlra).
    replace (X x + s * (X w - X x)) with (X (hi e) - s * (X (hi e) - X w) - (1 - s) * (X (hi e) - X x)) by ring. qlra.
  - unfold lerp; cbn [py]. rewrite (height_lerp e (X x) (X x + s * (X w - X x))) by auto. rewrite (height_lerp e (X x) (X w)) in Hw by auto. rewrite <- Hx in *.
    set (k := (py (hi e) - py (lo e)) / (X (hi e) - X (lo e))) in *. clearbody k. rewrite Hw. ring.
Qed.

(** Either side of an edge. *)
Lemma sides R l e x : non_crossing R -> In e R -> Forall (sound_edge eps) (R ++ l) -> on_seg e x -> ~ on_segs l x ->
  (forall v, In v (ends_of (R ++ l)) -> X v <> X x) ->
  forall v : bool, exists z, X z = X x /\ ~ on_segs (R ++ l) z /\ xsum (below_seg eps z) R = v /\ xsum (below_seg eps z) l = xsum (below_seg eps x) l.
Proof.
  intros Nc Ie Sd Oq Off Gn v.
  assert (Gs : forall y, In y (R ++ l) -> X (seg_start y) <> X x /\ X (seg_end y) <> X x).
  { intros y I. split; apply Gn; unfold ends_of; apply in_flat_map; exists y; cbn; auto. }
  destruct (nudge eps (R ++ l) x Sd) as (up & down & Xu & Xd & Ou & Od & Bl).
  { intros y I. destruct (Gs y I), (lo_hi y) as [[-> ->]|[-> ->]]; auto. }
  assert (Bb : forall z, z = up \/ z = down -> xsum (below_seg eps z) l = xsum (below_seg eps x) l).
  { intros z Z. apply xsum_ext. intros y I. destruct (Bl y) as [_ By]; [apply in_or_app; auto|]. destruct By as [Y1 Y2]; [intros O; apply Off; exists y; auto|].
    destruct Z as [-> | ->]; auto. }
  apply in_split in Ie. destruct Ie as (R1 & R2 & ->).
  assert (Al : forall y, In y (R1 ++ R2) -> ~ on_seg y x) by (apply (alone eps R1 e R2 x); auto; intros y I; apply Gs, in_or_app; auto).
  destruct (Bl e) as [Be _]; [apply in_or_app; left; apply in_or_app; right; left; auto|]. destruct (Be Oq) as (_ & Bu & Bdn).
  assert (Q1 : xsum (below_seg eps up) R1 = xsum (below_seg eps down) R1).
  { apply xsum_ext. intros y I. destruct (Bl y) as [_ Bx]; [apply in_or_app; left; apply in_or_app; auto|]. destruct Bx as [-> ->]; auto. apply Al, in_or_app; auto. }
  assert (Q2 : xsum (below_seg eps up) R2 = xsum (below_seg eps down) R2).
  { apply xsum_ext. intros y I. destruct (Bl y) as [_ Bx]; [apply in_or_app; left; apply in_or_app; right; right; auto|]. destruct Bx as [-> ->]; auto. apply Al, in_or_app; auto. }
  destruct (Bool.bool_dec (xsum (below_seg eps down) (R1 ++ e :: R2)) v) as [E|E]; [exists down; split; [auto|split; [auto|split; [auto|apply Bb; auto]]]|].
  exists up. split; [auto|]. split; [auto|]. split; [|apply Bb; auto].
  rewrite xsum_app in *. cbn [xsum] in *. rewrite Bu, Q1, Q2. rewrite Bdn in E. revert E. destruct v, (xsum (below_seg eps down) R1), (xsum (below_seg eps down) R2); cbn; congruence.
Qed.
End Creep.

(** The parity is the same all along a way off the outlines. *)
Lemma parity_way r x y : (forall z, on_seg (Seg x y) z -> ~ on_segs (outlines r) z) -> parity (outlines r) x = parity (outlines r) y.
Proof.
  intros Off. rewrite <- !insideb_outlines.
  - apply xsum_ext. intros vs I. unfold insideb. rewrite (api_not_crossing vs x y); auto. intros z O S. apply (Off z S). apply on_outlines. exists vs. auto.
  - apply Off. apply between_end.
  - apply Off. apply between_start.
Qed.
