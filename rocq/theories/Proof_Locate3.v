(** Point location: consequences of the crossing parity; polygons and multipolygons. *)
From Coq Require Import QArith Qcanon Bool List ZArith Lia Permutation.
From Verif Require Import QcTac Model_Base Model_Box Model_Geometry Model_Utils Model_Contour
  Spec_Base Spec_Segment Spec_Bounds Spec_Contour Spec_Literals Proof_Base Proof_Line Proof_SegRel Proof_Bounds Proof_Utils Proof_Contour
  Proof_Contour2 Proof_Edges Proof_Locate Proof_Locate2.
Import ListNotations.
Local Open Scope Qc_scope.

Lemma counts_none {A} (P : A -> Prop) l : (forall x, In x l -> ~ P x) -> counts P l 0.
Proof.
  induction l as [|x l IH]; intros H; [constructor|]. apply counts_no; [apply H; cbn; auto|].
  apply IH. intros; apply H; cbn; auto.
Qed.
Lemma region_not_crossing vs p q : (forall x, on_contour vs x -> ~ on_seg (Seg p q) x) ->
  locate_point_in_region vs p = locate_point_in_region vs q.
Proof.
  intros H.
  assert (Np : ~ on_contour vs p) by (intros O; apply (H p O), between_start).
  assert (Nq : ~ on_contour vs q) by (intros O; apply (H q O), between_end).
  destruct (locate_region vs p) as [_ I], (locate_region vs q) as [_ I'].
  rewrite I, I' by auto.
  assert (NM : forall e, In e (edges vs) -> ~ meet e (Seg p q)).
  { intros e J (x & X1 & X2). apply (H x); auto. exists e; auto. }
  assert (E := counts_edges p q vs 0 Np Nq (fun e J M => False_ind _ (NM e J M)) (counts_none _ _ NM)).
  cbn in E. apply xorb_eq in E. rewrite E. auto.
Qed.

(** ** Far away points *)
Lemma parity_false l p : (forall e, In e l -> edge_toggles e p = false) -> parity l p = false.
Proof.
  induction l as [|e l IH]; intros H; auto. cbn [parity fold_right]. fold (parity l p).
  rewrite (H e), IH; cbn; auto. intros; apply H; cbn; auto.
Qed.
Lemma parity_sides f l p : (forall e, In e l -> edge_toggles e p = xorb (f (seg_start e)) (f (seg_end e))) ->
  parity l p = sides f l.
Proof.
  induction l as [|e l IH]; intros H; auto. cbn [parity sides fold_right]. fold (parity l p) (sides f l).
  rewrite (H e), IH; cbn; auto. intros; apply H; cbn; auto.
Qed.
Lemma region_outside vs p b : (forall v, In v vs -> in_box b v) -> ~ in_box b p ->
  locate_point_in_region vs p = EXTERIOR.
Proof.
  intros V N.
  assert (E : forall e, In e (edges vs) -> in_box b (seg_start e) /\ in_box b (seg_end e)).
  { intros e I. apply edges_In in I. destruct I. auto. }
  assert (O : ~ on_contour vs p).
  { intros (e & I & O). apply N. destruct (E e I). apply (in_box_on_seg b e); auto. }
  destruct (locate_region vs p) as [_ I]. rewrite I by auto.
  assert (T : forall e, In e (edges vs) -> edge_toggles e p = tog (seg_start e) (seg_end e) p).
  { intros e J. apply toggles_tog. intros K; apply O; exists e; auto. }
  assert (Q : parity (edges vs) p = false); [|rewrite Q; auto].
  destruct (Qclt_le_dec (py p) (min_y b)) as [H|H].
  { apply parity_false. intros e J. rewrite T by auto. destruct (E e J) as [[_ [A1 _]] [_ [A2 _]]].
    unfold tog. rewrite !up_false_low by qlra. auto. }
  destruct (Qclt_le_dec (max_y b) (py p)) as [H'|H'].
  { apply parity_false. intros e J. rewrite T by auto. destruct (E e J) as [[_ [_ A1]] [_ [_ A2]]].
    unfold tog. rewrite !up_false_high by qlra. auto. }
  assert (Up : forall u v, in_box b u -> in_box b v -> py u <= py p -> py p < py v ->
     exists x, min_x b <= px x /\ px x <= max_x b /\ (0 < area2 u v p <-> px p < px x)).
  { intros u v Hu Hv L1 L2. destruct (at_height u v p L1 L2) as (x & Bx & Yx & P1 & _).
    exists x. destruct (in_box_between b u v x Hu Hv Bx) as [[? ?] _]. auto. }
  destruct (Qclt_le_dec (max_x b) (px p)) as [R|R].
  { apply parity_false. intros e J. rewrite T by auto. destruct (E e J) as [A1 A2].
    assert (K : forall u v, in_box b u -> in_box b v -> up u v p = false).
    { intros u v Hu Hv. destruct (Qclt_le_dec (py p) (py u)); [apply up_false_low; auto|].
      destruct (Qclt_le_dec (py p) (py v)); [|apply up_false_high; auto].
      rewrite up_true by auto. destruct (Up u v Hu Hv) as (x & X1 & X2 & X3); auto.
      apply qltb_false. destruct (Qclt_le_dec 0 (area2 u v p)) as [Z|Z]; auto.
      apply X3 in Z. exfalso. qlra. }
    unfold tog. rewrite !K by auto. auto. }
  destruct (Qclt_le_dec (px p) (min_x b)) as [R'|R'].
  { rewrite (parity_sides (fun v => qltb (py p) (py v))); [apply sides_edges|].
    intros e J. rewrite T by auto. destruct (E e J) as [A1 A2].
    assert (K : forall u v, in_box b u -> in_box b v -> py u <= py p -> py p < py v -> up u v p = true).
    { intros u v Hu Hv L1 L2. rewrite up_true by auto. destruct (Up u v Hu Hv) as (x & X1 & X2 & X3); auto.
      apply qltb_true, X3. qlra. }
    unfold tog.
    destruct (qltb_spec (py p) (py (seg_start e))) as [Z1|Z1], (qltb_spec (py p) (py (seg_end e))) as [Z2|Z2].
    - rewrite !up_false_low by auto. auto.
    - rewrite (K (seg_end e) (seg_start e)), orb_true_r; auto. qlra.
    - rewrite (K (seg_start e) (seg_end e)); auto. qlra.
    - rewrite !up_false_high by qlra. auto. }
  exfalso. apply N. repeat split; auto.
Qed.
Lemma contour_box_in vs v : In v vs -> in_box (bounding_box (GContour vs)) v.
Proof.
  destruct vs as [|w vs]; [intros []|]. intros I. destruct (contour_box_hull w vs) as (_ & H & _).
  apply H; auto.
Qed.
Lemma region_outside_box vs p : ~ in_box (bounding_box (GContour vs)) p ->
  locate_point_in_region vs p = EXTERIOR.
Proof. intros N. apply (region_outside vs p (bounding_box (GContour vs))); auto. apply contour_box_in. Qed.

(** [q] is outside of the box of the border and no vertex is on [pq]. *)
Lemma region_parity vs p q n : ~ on_contour vs p -> ~ in_box (bounding_box (GContour vs)) q ->
  (forall v, In v vs -> ~ on_seg (Seg p q) v) ->
  counts (fun e => meet e (Seg p q)) (edges vs) n ->
  locate_point_in_region vs p = if Nat.odd n then INTERIOR else EXTERIOR.
Proof.
  intros Np Bq V C.
  assert (Nq : ~ on_contour vs q).
  { intros (e & I & O). apply Bq. destruct (edges_In _ _ I).
    apply (in_box_on_seg _ e); auto; apply contour_box_in; auto. }
  destruct (locate_region vs p) as [_ I]. rewrite I by auto.
  assert (Pq : parity (edges vs) q = false).
  { destruct (locate_region vs q) as [_ J]. specialize (J Nq).
    rewrite (region_outside_box vs q Bq) in J. destruct (parity (edges vs) q); congruence. }
  assert (E := counts_edges p q vs n Np Nq).
  rewrite Pq, xorb_false_r in E. rewrite E; auto.
  intros e J _. destruct (edges_In _ _ J) as [S1 S2]. split; [exact (V _ S1)|]. split; [exact (V _ S2)|].
  split; intros O; [apply Np|apply Nq]; exists e; auto.
Qed.
(** Such a point exists. *)
Lemma avoid_slopes (p : point) (vs : list point) : exists m : Qc, 0 < m /\
  forall v, In v vs -> v <> p -> (px v - px p) * m <> py v - py p.
Proof.
  assert (H : exists M : Qc, 0 < M /\ forall m, M <= m -> forall v, In v vs -> v <> p -> (px v - px p) * m <> py v - py p).
  { induction vs as [|v vs (M & M0 & IH)]; [exists 1; split; [reflexivity|intros ? ? ? []]|].
    destruct (Qc_eq_dec (px v) (px p)) as [E|E].
    - exists M. split; auto. intros m Hm w [<-|I] N; [|apply IH; auto].
      intros K. apply N. apply point_ext; auto. rewrite E in K. qlra.
    - set (s := (py v - py p) / (px v - px p)).
      assert (D : px v - px p <> 0) by (intro; apply E; qlra).
      assert (Es : (px v - px p) * s = py v - py p) by (unfold s; field; auto). clearbody s.
      assert (Ex : exists N, M <= N /\ s < N)
        by (destruct (qltb_spec s M); [exists M|exists (s + 1)]; split; qlra).
      destruct Ex as (N & N1 & N2). exists N. split; [qlra|].
      intros m Hm w [<-|I] NN.
      + intros K. assert (K' : (px v - px p) * (m - s) = 0) by qlra.
        apply Qcmult_integral in K'. destruct K' as [K'|K']; [contradiction|]. qlra.
      + apply IH; auto. qlra. }
  destruct H as (M & M0 & H). exists M. split; auto. apply H, Qcle_refl.
Qed.
Lemma far_point vs p : ~ In p vs -> exists q, ~ in_box (bounding_box (GContour vs)) q
  /\ forall v, In v vs -> ~ on_seg (Seg p q) v.
Proof.
  intros N. destruct (avoid_slopes p vs) as (m & M0 & H).
  set (b := bounding_box (GContour vs)).
  set (K := (if qltb (px p) (max_x b) then max_x b - px p else 0) + 1).
  assert (K0 : 0 < K /\ max_x b < px p + K) by (unfold K; destruct (qltb_spec (px p) (max_x b)); split; qlra).
  exists (Pt (px p + K) (py p + K * m)). split.
  - destruct K0 as [_ K1]. intros [[_ X] _]. cbn [px py] in X. fold b in X. clearbody K b. qlra.
  - intros v I (t & T0 & T1 & E). cbn [seg_start seg_end] in E.
    apply (H v I); [intros ->; auto|]. rewrite E. unfold lerp; cbn [px py]. ring.
Qed.
Lemma meet_dec s t : {meet s t} + {~ meet s t}.
Proof.
  destruct s as [a b], t as [p q].
  destruct (between_dec p q a) as [H|Na]; [left; exists a; split; [apply between_start|exact H]|].
  destruct (between_dec p q b) as [H|Nb]; [left; exists b; split; [apply between_end|exact H]|].
  destruct (between_dec a b p) as [H|Np]; [left; exists p; split; [exact H|apply between_start]|].
  destruct (between_dec a b q) as [H|Nq]; [left; exists q; split; [exact H|apply between_end]|].
  assert (Ap : apart p q a b) by (unfold apart; auto).
  destruct (on_opposite_sides_spec' p q a b) as [O1|O1];
    [|right; intros M; apply O1, (proper_crossing p q a b Ap M)].
  destruct (on_opposite_sides_spec' a b p q) as [O2|O2];
    [|right; intros M; apply O2, (proper_crossing p q a b Ap M)].
  left. destruct (crossing_point a b p q O2 O1) as [X Y].
  eexists. split; apply strictly_between_between; [exact X|exact Y].
Qed.
Lemma counts_total {A} (P : A -> Prop) (D : forall x, {P x} + {~ P x}) l : exists n, counts P l n.
Proof.
  induction l as [|x l (n & IH)]; [exists O; constructor|].
  destruct (D x); [exists (S n); constructor; auto|exists n; apply counts_no; auto].
Qed.
Lemma vertex_on_contour vs v : In v vs -> on_contour vs v.
Proof.
  intros I. rewrite <- (edges_starts vs) in I. apply in_map_iff in I. destruct I as (e & <- & I).
  exists e. split; auto. apply between_start.
Qed.
Lemma far_ray vs p : ~ on_contour vs p -> exists q n,
  ~ in_box (bounding_box (GContour vs)) q /\ (forall v, In v vs -> ~ on_seg (Seg p q) v)
  /\ counts (fun e => meet e (Seg p q)) (edges vs) n.
Proof.
  intros N. destruct (far_point vs p) as (q & B & V); [intros I; apply N, vertex_on_contour, I|].
  destruct (counts_total (fun e => meet e (Seg p q)) (fun e => meet_dec e (Seg p q)) (edges vs)) as (n & C).
  exists q, n. auto.
Qed.

(** ** Triangles *)
Lemma bary_between (a b c p : point) : 0 < area2 a b c -> area2 a b p = 0 ->
  0 <= area2 b c p -> 0 <= area2 c a p -> between a b p.
Proof.
  intros S A B C.
  assert (E : area2 a b p + area2 b c p + area2 c a p = area2 a b c) by (unfold area2; ring).
  exists (area2 c a p / area2 a b c).
  assert (N : area2 a b c <> 0) by qlra.
  assert (X : area2 a b c * px p = area2 b c p * px a + area2 c a p * px b + area2 a b p * px c) by (unfold area2; ring).
  assert (Y : area2 a b c * py p = area2 b c p * py a + area2 c a p * py b + area2 a b p * py c) by (unfold area2; ring).
  set (D := area2 a b c) in *. set (u := area2 c a p) in *. set (v := area2 b c p) in *. rewrite A in *.
  clearbody D u v. clear A.
  assert (T : D * (u / D) = u) by (field; auto). set (t := u / D) in *. clearbody t.
  assert (I : D * (/ D) = 1) by (field; auto).
  split; [|split].
  - apply Qcnot_lt_le. intros L. qnra.
  - apply Qcnot_lt_le. intros L. qnra.
  - assert (V : v = D - u) by qlra. subst v. subst u.
    unfold lerp. apply point_ext; cbn [px py].
    + assert (Z : D * (px p - (px a + t * (px b - px a))) = 0).
      { transitivity (D * px p - (D * px a + D * t * px b - D * t * px a)); [ring|]. rewrite X. ring. }
      apply Qcmult_integral in Z. destruct Z; [contradiction|qlra].
    + assert (Z : D * (py p - (py a + t * (py b - py a))) = 0).
      { transitivity (D * py p - (D * py a + D * t * py b - D * t * py a)); [ring|]. rewrite Y. ring. }
      apply Qcmult_integral in Z. destruct Z; [contradiction|qlra].
Qed.
Lemma triangle_parity a b c p : 0 < area2 a b c -> ~ on_contour [a; b; c] p ->
  (parity (edges [a; b; c]) p = true <-> 0 < area2 a b p /\ 0 < area2 b c p /\ 0 < area2 c a p).
Proof.
  intros S N.
  assert (Nab : ~ between a b p) by (intros H; apply N; exists (Seg a b); split; [cbn; auto|exact H]).
  assert (Nbc : ~ between b c p) by (intros H; apply N; exists (Seg b c); split; [cbn; auto|exact H]).
  assert (Nca : ~ between c a p) by (intros H; apply N; exists (Seg c a); split; [cbn; auto|exact H]).
  assert (Ba : ~ (area2 a b p = 0 /\ 0 <= area2 b c p /\ 0 <= area2 c a p))
    by (intros (? & ? & ?); apply Nab, (bary_between a b c p); auto).
  assert (Bb : ~ (area2 b c p = 0 /\ 0 <= area2 c a p /\ 0 <= area2 a b p))
    by (intros (? & ? & ?); apply Nbc, (bary_between b c a p); auto; rewrite area2_rot; auto).
  assert (Bc : ~ (area2 c a p = 0 /\ 0 <= area2 a b p /\ 0 <= area2 b c p))
    by (intros (? & ? & ?); apply Nca, (bary_between c a b p); auto; rewrite <- area2_rot; auto).
  cbn [parity edges edges_from fold_right]. rewrite xorb_false_r. rewrite !toggles_tog by auto.
  cbn [seg_start seg_end]. unfold tog, up. rewrite (area2_swap12 a b), (area2_swap12 b c), (area2_swap12 c a).
  assert (E : area2 a b p + area2 b c p + area2 c a p = area2 a b c) by (unfold area2; ring).
  assert (F : area2 b c p * (py a - py p) + area2 c a p * (py b - py p) + area2 a b p * (py c - py p) = 0)
    by (unfold area2; ring).
  assert (Z : forall u v w : point, ~ between u v p -> py u <= py p -> py p < py v -> area2 u v p <> 0).
  { intros u v w M L1 L2 Zr. apply M. apply height_between; auto; qlra. }
  assert (Z' : forall u v : point, ~ between u v p -> py v <= py p -> py p < py u -> area2 u v p <> 0).
  { intros u v M L1 L2 Zr. apply M, between_sym. apply height_between; auto; try qlra.
    rewrite area2_swap12. qlra. }
  assert (Z1 := Z a b a Nab). assert (Z2 := Z b c a Nbc). assert (Z3 := Z c a a Nca).
  assert (Y1 := Z' a b Nab). assert (Y2 := Z' b c Nbc). assert (Y3 := Z' c a Nca). clear Z Z'.
  set (A := area2 a b p) in *. set (B := area2 b c p) in *. set (C := area2 c a p) in *.
  assert (Hu : py a = py p + (py a - py p)) by ring. assert (Hv : py b = py p + (py b - py p)) by ring.
  assert (Hw : py c = py p + (py c - py p)) by ring.
  set (u := py a - py p) in *. set (v := py b - py p) in *. set (w := py c - py p) in *.
  assert (G : ~ (u = 0 /\ v = 0 /\ w = 0)).
  { intros (G1 & G2 & G3). assert (py a = py b) by qlra. assert (py b = py c) by qlra.
    unfold area2 in S. rewrite H, H0 in S. qlra. }
  clearbody A B C u v w. clear N Nab Nbc Nca.
  assert (Ra : qleb (py a) (py p) = qleb u 0 /\ qltb (py p) (py a) = negb (qleb u 0)).
  { rewrite Hu. destruct (qleb_spec (py p + u) (py p)), (qltb_spec (py p) (py p + u)), (qleb_spec u 0); split; auto; exfalso; qlra. }
  assert (Rb : qleb (py b) (py p) = qleb v 0 /\ qltb (py p) (py b) = negb (qleb v 0)).
  { rewrite Hv. destruct (qleb_spec (py p + v) (py p)), (qltb_spec (py p) (py p + v)), (qleb_spec v 0); split; auto; exfalso; qlra. }
  assert (Rc : qleb (py c) (py p) = qleb w 0 /\ qltb (py p) (py c) = negb (qleb w 0)).
  { rewrite Hw. destruct (qleb_spec (py p + w) (py p)), (qltb_spec (py p) (py p + w)), (qleb_spec w 0); split; auto; exfalso; qlra. }
  destruct Ra as [-> ->], Rb as [-> ->], Rc as [-> ->].
  rewrite Hu, Hv in Z1, Y1. rewrite Hv, Hw in Z2, Y2. rewrite Hw, Hu in Z3, Y3.
  set (y := py p) in *. clearbody y. clear Hu Hv Hw. set (T := area2 a b c) in *. clearbody T.
  assert (K1 : forall r s, 0 <= r -> 0 <= s -> 0 <= r * s) by (intros; qnra).
  assert (Sg : forall q, (q < 0 /\ qltb 0 q = false /\ qltb 0 (- q) = true)
    \/ (q = 0 /\ qltb 0 q = false /\ qltb 0 (- q) = false) \/ (0 < q /\ qltb 0 q = true /\ qltb 0 (- q) = false)).
  { intros q. destruct (qltb_spec q 0); [left|right; destruct (qltb_spec 0 q); [right|left]];
      (split; [try qlra|]); destruct (qltb_spec 0 q), (qltb_spec 0 (- q)); split; auto; exfalso; qlra. }
  destruct (Sg A) as [(a0 & -> & ->)|[(a0 & -> & ->)|(a0 & -> & ->)]],
    (Sg B) as [(b0 & -> & ->)|[(b0 & -> & ->)|(b0 & -> & ->)]],
    (Sg C) as [(c0 & -> & ->)|[(c0 & -> & ->)|(c0 & -> & ->)]];
  try (exfalso; qlra);
  destruct (qleb_spec u 0) as [u0|u0], (qleb_spec v 0) as [v0|v0], (qleb_spec w 0) as [w0|w0]; cbn [negb andb orb xorb];
  (split; [intros Hb; try discriminate Hb|intros (H1 & H2 & H3); try reflexivity]);
  try (exfalso; qlra); try (repeat split; assumption).
  all: exfalso.
  all: first [apply Ba; repeat split; solve [auto|qlra] | apply Bb; repeat split; solve [auto|qlra]
    | apply Bc; repeat split; solve [auto|qlra]
    | apply Z1; solve [qlra|auto] | apply Z2; solve [qlra|auto] | apply Z3; solve [qlra|auto]
    | apply Y1; solve [qlra|auto] | apply Y2; solve [qlra|auto] | apply Y3; solve [qlra|auto]
    | idtac].
  all: clear Ba Bb Bc Z1 Z2 Z3 Y1 Y2 Y3 Sg K1.
  all: try solve [clear G; qnra].
  apply G.
  assert (U : 0 <= B * (- u)) by qnra. assert (V : 0 <= C * (- v)) by qnra. assert (W : 0 <= A * (- w)) by qnra.
  assert (Z0 : forall r s, 0 < r -> r * s = 0 -> s = 0).
  { intros r s R Q. apply Qcmult_integral in Q. destruct Q; auto. subst r. exfalso. revert R. apply Qcle_not_lt, Qcle_refl. }
  repeat split; [apply (Z0 B)|apply (Z0 C)|apply (Z0 A)]; auto; qlra.
Qed.
Lemma region_triangle a b c p : area2 a b c <> 0 ->
  (locate_point_in_region [a; b; c] p = INTERIOR
   <-> (0 < area2 a b p /\ 0 < area2 b c p /\ 0 < area2 c a p)
       \/ (area2 a b p < 0 /\ area2 b c p < 0 /\ area2 c a p < 0)).
Proof.
  assert (P : forall a b c, 0 < area2 a b c ->
    (locate_point_in_region [a; b; c] p = INTERIOR
     <-> 0 < area2 a b p /\ 0 < area2 b c p /\ 0 < area2 c a p)).
  { clear. intros a b c S. destruct (locate_region [a; b; c] p) as [B I].
    destruct (on_segs_dec (edges [a; b; c]) p) as [O|O].
    - rewrite (B O). split; [discriminate|]. intros (A1 & A2 & A3). exfalso.
      destruct O as (e & J & K). cbn in J.
      destruct J as [<-|[<-|[<-|[]]]]; apply between_collinear in K; cbn [seg_start seg_end] in K; qlra.
    - rewrite (I O), <- triangle_parity by auto. destruct (parity _ _); split; congruence. }
  intros N. destruct (qltb_spec 0 (area2 a b c)) as [S|S].
  - rewrite P by auto. split; auto. intros [H|(A & B & C)]; auto. exfalso.
    assert (area2 a b p + area2 b c p + area2 c a p = area2 a b c) by (unfold area2; ring). qlra.
  - assert (S' : 0 < area2 c b a).
    { replace (area2 c b a) with (- area2 a b c) by (unfold area2; ring).
      assert (area2 a b c < 0) by (apply Qcle_lt_or_eq in S || idtac; destruct (Qclt_le_dec (area2 a b c) 0); auto; exfalso; apply N; qlra). qlra. }
    assert (R : locate_point_in_region [c; b; a] p = locate_point_in_region [a; b; c] p).
    { apply region_representation. right. exists [], [a; b; c]. auto. }
    rewrite <- R, P by auto.
    rewrite (area2_swap12 b c), (area2_swap12 a b), (area2_swap12 c a).
    split; [intros (A & B & C); right; repeat split; qlra|intros [(A & B & C)|(A & B & C)]; [exfalso|repeat split; qlra]].
    assert (area2 a b p + area2 b c p + area2 c a p = area2 a b c) by (unfold area2; ring). qlra.
Qed.
