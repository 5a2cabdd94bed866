(** Edges of different contours of a drawing do not cross. *)
From Coq Require Import QArith Qcanon Bool List Arith Lia Permutation.
From Verif Require Import QcTac Model_Base Model_Utils Model_Geometry Model_Contour Model_Linear Model_Mixed Model_Shaped Spec_Base Spec_Segment Spec_Clip Spec_Contour Spec_Relate Spec_Shaped
  Proof_Base Proof_Line Proof_Contour Proof_Edges Proof_Shrink Proof_SegRel Proof_SegOps Proof_Parity Proof_Corner Proof_Locate Proof_Draw Proof_Reduce Proof_Reduce2 Proof_Simple4 Proof_Ray Proof_Result Proof_Result2
  Proof_RelateP Proof_Simple1 Proof_Simple2 Proof_SegLoops Proof_Ottmann15 Proof_Sweep17.
Import ListNotations.
Local Open Scope nat_scope.

Lemma inside_convex u p q m : on_seg u p -> on_seg u q -> p <> q -> strictly_between p q m -> inside_seg u m.
Proof.
  intros (a & A0 & A1 & ->) (b & B0 & B1 & ->) N (w & W0 & W1 & ->). rewrite lerp_lerp.
  assert (Ne : a <> b) by congruence. exists (a + w * (b - a))%Qc.
  destruct (Qclt_le_dec a b) as [Lt|Le].
  - split; [|split; [|reflexivity]]; qnra.
  - assert (b < a)%Qc by (destruct (Qcle_lt_or_eq _ _ Le); congruence). split; [|split; [|reflexivity]]; qnra.
Qed.
Lemma on_seg_collinear u p q r : on_seg u p -> on_seg u q -> on_seg u r -> area2 p q r = 0%Qc.
Proof. intros (a & _ & _ & ->) (b & _ & _ & ->) (c & _ & _ & ->). unfold area2, lerp; cbn [px py]. ring. Qed.
(** Segments each common point of which is an endpoint of one of them. *)
Lemma meet_end_tod u t : proper_seg u -> proper_seg t ->
  (forall p, on_seg u p -> on_seg t p -> endpoint_of u p \/ endpoint_of t p) -> touch_or_disjoint u t.
Proof.
  intros Pu Pt M. assert (NS : ~ share_continuum u t).
  { intros (p & q & N & A & B & C & D).
    set (m := lerp p q (/ (1 + 1))). assert (Sm : strictly_between p q m).
    { exists (/ (1 + 1))%Qc. split; [reflexivity|]. split; reflexivity. }
    assert (Ou : on_seg u m) by (apply (on_seg_convex u p q m); auto).
    assert (Ot : on_seg t m) by (apply (on_seg_convex t p q m); auto).
    destruct (M m Ou Ot) as [E|E].
    - apply (endpoint_not_inside u m); auto. apply (inside_convex u p q m); auto.
    - apply (endpoint_not_inside t m); auto. apply (inside_convex t p q m); auto. }
  destruct (not_share_cases u t Pu Pt NS) as [(p & (A & B & _) & I & J)|[T|Dj]].
  - exfalso. destruct (M p A B) as [E|E]; [apply (endpoint_not_inside u p)|apply (endpoint_not_inside t p)]; auto.
  - left; auto.
  - right; auto.
Qed.
(** A vertex that is removed is on a straight run of edges. *)
Lemma removed_straight v vs p : NoDup (v :: vs) -> never_turns_back (v :: vs ++ [v]) -> In p (v :: vs) -> ~ In p (shrink_collinear_vertices (v :: vs)) ->
  exists e e', In e (edges (v :: vs)) /\ In e' (edges (v :: vs)) /\ seg_end e = p /\ seg_start e' = p /\ area2 (seg_start e) p (seg_end e') = 0%Qc.
Proof.
  intros N H I Ni. cbn [shrink_collinear_vertices] in Ni. rewrite edges_walk.
  destruct (shrink_from_chains v vs v v [] (or_introl eq_refl) H) as (cs & E1 & E2 & E3).
  { intros x. unfold chain. cbn [fst snd seg_start seg_end Proof_Shrink.walk]. rewrite on_segs_cons. split; auto. intros [Q|(y & [] & _)]. auto. }
  cbn [app] in E3. rewrite Forall_forall in E2.
  assert (W : exists e', In e' (Proof_Shrink.walk v vs v) /\ seg_start e' = p).
  { rewrite <- (walk_starts vs v v) in I. apply in_map_iff in I. destruct I as (e' & <- & I). eauto. }
  destruct W as (e' & Ie & <-). pose proof Ie as Ie'. rewrite <- E3 in Ie. apply in_flat_map in Ie. destruct Ie as (c & Ic & Ie).
  assert (St : In (seg_start (fst c)) (v :: shrink_from v v vs)).
  { rewrite <- (walk_starts (shrink_from v v vs) v v), <- E1. apply in_map, in_map; auto. }
  assert (Im : In (seg_start e') (snd c)).
  { assert (Q : In (seg_start e') (map seg_start (chain c))) by (apply in_map; auto). unfold chain in Q. rewrite walk_starts in Q. destruct Q as [Q|Q]; auto.
    exfalso. apply Ni. rewrite <- Q. exact St. }
  apply in_split in Im. destruct Im as (m1 & m2 & Em).
  assert (Pe : exists e, In e (chain c) /\ seg_end e = seg_start e').
  { unfold chain. rewrite Em, walk_app. clear. generalize (seg_start (fst c)) (seg_start e'). induction m1 as [|x m1 IH]; intros a b.
    - exists (Seg a b). split; [left; auto|auto].
    - destruct (IH x b) as (e & I & Q). exists e. split; auto. cbn [Proof_Shrink.walk]. apply in_app_or in I. apply in_or_app. destruct I as [I|I]; auto. left. right. auto. }
  destruct Pe as (e & Ie1 & Q). exists e, e'. split; [rewrite <- E3; apply in_flat_map; eauto|]. split; auto. split; auto. split; auto.
  assert (On : forall g x, In g (chain c) -> on_seg g x -> on_seg (fst c) x) by (intros g x Ig O; apply (E2 c Ic); exists g; auto).
  apply (on_seg_collinear (fst c)).
  - apply (On e); auto. apply between_start.
  - apply (On e'); auto. apply between_start.
  - apply (On e'); auto. apply between_end.
Qed.

Lemma endpoint_dec u p : endpoint_of u p \/ ~ endpoint_of u p.
Proof.
  unfold endpoint_of. destruct (point_dec p (seg_start u)); auto. destruct (point_dec p (seg_end u)); auto. right. intros [Q|Q]; auto.
Qed.
Lemma simple_corner vs t p : simple_contour vs -> In t (edges vs) -> on_seg t p -> In p vs -> endpoint_of t p.
Proof.
  intros [_ M] I O Ip. rewrite <- (edges_starts vs) in Ip. apply in_map_iff in Ip. destruct Ip as (e & Q & Ie).
  destruct (point_dec (seg_start t) p) as [E|E]; [left; auto|].
  assert (Ne : t <> e) by congruence. apply (M t e p I Ie Ne O). rewrite <- Q. apply between_start.
Qed.
Section Contours.
Variables (eps : Qc) (hg : event -> Qc -> Qc) (sl : event -> Qc).
Variable s : shaped_operation.
Variables (L events : list event).
Hypothesis D : drawing eps hg sl s L events.
Notation o := (so s). Notation op := (to_opposite_event o). Notation at_ := (to_event_start o).
Notation lft := is_event_left. Notation X := (Xe eps).
Notation cycle := (cycle eps s events). Notation stretch := (stretch s). Notation pairs := (pairs s).
Hypothesis Meet : forall i j x, In i L -> In j L -> i <> j -> on_seg (stretch i) x -> on_seg (stretch j) x ->
  endpoint_of (stretch i) x /\ endpoint_of (stretch j) x.

Lemma slopes_same m m' : In m L -> In m' L -> at_ (op m) = at_ m' -> area2 (at_ m) (at_ m') (at_ (op m')) = 0%Qc -> sl m = sl m'.
Proof.
  intros Im In' E Z. pose proof (slope_L _ _ _ _ _ _ D m Im) as S1. pose proof (slope_L _ _ _ _ _ _ D m' In') as S2.
  pose proof (dr_lt _ _ _ _ _ _ D m Im) as L1. pose proof (dr_lt _ _ _ _ _ _ D m' In') as L2. rewrite E in S1, L1.
  assert (Q : ((X (at_ m') - X (at_ m)) * (X (at_ (op m')) - X (at_ m')) * (sl m' - sl m) = 0)%Qc).
  { replace ((X (at_ m') - X (at_ m)) * (X (at_ (op m')) - X (at_ m')) * (sl m' - sl m))%Qc
      with ((X (at_ m') - X (at_ m)) * (sl m' * (X (at_ (op m')) - X (at_ m'))) - (sl m * (X (at_ m') - X (at_ m))) * (X (at_ (op m')) - X (at_ m')))%Qc by ring.
    rewrite S1, S2. rewrite <- Z. unfold Xe, area2. ring. }
  apply Qcmult_integral in Q. destruct Q as [Q|Q]; [|qlra]. apply Qcmult_integral in Q. destruct Q as [Q|Q]; exfalso; qlra.
Qed.
Lemma inner_straight b l t p : cycle l -> In t (edges (final s b l)) -> on_seg t p -> ~ endpoint_of t p -> In p (map at_ l) ->
  exists x y, straight sl s l x y /\ at_ x = p.
Proof.
  intros C It Ot Ne Ip. pose proof (final_simple _ _ _ _ _ _ D Meet b l C) as Sim.
  assert (Nf : ~ In p (final s b l)) by (intros I; apply Ne; apply (simple_corner (final s b l)); auto).
  assert (Ns : ~ In p (shrink_collinear_vertices (outline_of s l))).
  { intros I. apply Nf. unfold final. cbv zeta. destruct b; auto. apply (Permutation_in _ (same_cycle_permutation _ _ (rotate_same_cycle _))). exact I. }
  pose proof (cycle_straight _ _ _ _ _ _ D l C) as St. pose proof (cycle_edges _ _ _ l C) as Ed. pose proof (cy_nd _ _ _ _ C) as N.
  assert (R : exists e e', In e (edges (outline_of s l)) /\ In e' (edges (outline_of s l)) /\ seg_end e = p /\ seg_start e' = p /\ area2 (seg_start e) p (seg_end e') = 0%Qc).
  { unfold outline_of in *. destruct l as [|x l]; [destruct (cy_ne _ _ _ _ C); auto|]. cbn [map nth] in *. apply removed_straight; auto. }
  destruct R as (e & e' & Ie & Ie' & E1 & E2 & Z). rewrite Ed in Ie, Ie'. apply in_map_iff in Ie, Ie'. destruct Ie as (x & <- & Ix), Ie' as (y & <- & Iy).
  unfold Proof_Result2.stretch in E1, E2, Z. cbn [seg_start seg_end] in E1, E2, Z.
  pose proof (cy_in _ _ _ _ C x Ix) as Ex. pose proof (cy_in _ _ _ _ C y Iy) as Ey.
  assert (Eq : at_ y = at_ (op x)) by congruence.
  rewrite <- E2 in Z.
  pose proof (straight_on _ _ _ _ _ _ D x y Ex Ey Eq (cy_one_way _ _ _ _ C y x Iy Ix) Z) as (w & W0 & W1 & Ew).
  assert (Xw : X (at_ y) = (X (at_ x) + w * (X (at_ (op y)) - X (at_ x)))%Qc) by (rewrite Ew; unfold Xe, lerp; cbn [px py]; ring).
  pose proof (ev_op_op _ _ _ _ _ _ D x Ex) as Oox. pose proof (ev_op_op _ _ _ _ _ _ D y Ey) as Ooy.
  assert (Px : forall z, In z l -> In z (pairs l) /\ In (op z) (pairs l)) by (intros z I; split; apply pairs_In; exists z; auto).
  destruct (lft x) eqn:Lx, (lft y) eqn:Ly.
  - pose proof (ev_left _ _ _ _ _ _ D x Ex Lx) as Jx. pose proof (ev_left _ _ _ _ _ _ D y Ey Ly) as Jy.
    exists (op x), y. split; [|congruence]. split; [apply Px; auto|]. split; [apply Px; auto|]. split; [congruence|]. split; [apply (dr_op _ _ _ _ _ _ D x Jx)|]. split; [auto|].
    rewrite Oox. apply slopes_same; auto.
  - exfalso. pose proof (ev_left _ _ _ _ _ _ D x Ex Lx) as Jx. pose proof (ev_right _ _ _ _ _ _ D y Ey Ly) as Jy.
    pose proof (dr_lt _ _ _ _ _ _ D _ Jx) as L1. pose proof (dr_lt _ _ _ _ _ _ D _ Jy) as L2. rewrite Ooy in L2. rewrite <- Eq in L1. qnra.
  - exfalso. pose proof (ev_right _ _ _ _ _ _ D x Ex Lx) as Jx. pose proof (ev_left _ _ _ _ _ _ D y Ey Ly) as Jy.
    pose proof (dr_lt _ _ _ _ _ _ D _ Jx) as L1. pose proof (dr_lt _ _ _ _ _ _ D _ Jy) as L2. rewrite Oox in L1. rewrite <- Eq in L1. qnra.
  - pose proof (ev_right _ _ _ _ _ _ D x Ex Lx) as Jx. pose proof (ev_right _ _ _ _ _ _ D y Ey Ly) as Jy.
    exists y, (op x). split; [|congruence]. split; [apply Px; auto|]. split; [apply Px; auto|]. split; [auto|]. split; [auto|]. split; [apply (dr_op _ _ _ _ _ _ D _ Jx)|].
    apply slopes_same; auto; [congruence|]. rewrite Oox, <- Eq. transitivity (- area2 (at_ x) (at_ y) (at_ (op y)))%Qc; [unfold area2; ring|]. rewrite Z. ring.
Qed.
(** The edges of two contours that do not cross at vertices. *)
Lemma finals_apart b1 b2 l1 l2 u t : cycle l1 -> cycle l2 -> uncrossed sl s l1 l2 -> (forall x, In x (pairs l1) -> ~ In x (pairs l2)) ->
  In u (edges (final s b1 l1)) -> In t (edges (final s b2 l2)) -> proper_seg u -> proper_seg t -> touch_or_disjoint u t.
Proof.
  intros C1 C2 U Dj Iu It Pu Pt. apply meet_end_tod; auto. intros p Ou Ot.
  assert (O1 : on_contour (final s b1 l1) p) by (exists u; auto). assert (O2 : on_contour (final s b2 l2) p) by (exists t; auto).
  apply (outline_on _ _ _ _ _ _ D) in O1; auto. apply (outline_on _ _ _ _ _ _ D) in O2; auto.
  destruct O1 as (x & Ix & Ox), O2 as (y & Iy & Oy).
  assert (Q : endpoint_of (stretch x) p /\ endpoint_of (stretch y) p).
  { apply (meet_events _ _ _ _ _ _ D Meet); auto.
    - apply (cy_in _ _ _ _ C1); auto.
    - apply (cy_in _ _ _ _ C2); auto.
    - intros ->. apply (Dj y); apply pairs_In; exists y; auto.
    - intros E. apply (Dj x); apply pairs_In; [exists x|exists y]; auto. }
  assert (V : forall l z, cycle l -> In z l -> endpoint_of (stretch z) p -> In p (map at_ l)).
  { intros l z C Iz [E|E]; rewrite E; unfold Proof_Result2.stretch; cbn [seg_start seg_end]; [apply in_map; auto|].
    destruct (In_nth l z O Iz) as (i & Li & <-). rewrite (next_at eps s events l i C Li). apply in_map, nth_In, next_lt; auto. }
  destruct Q as [Q1 Q2]. apply (V l1 x C1 Ix) in Q1. apply (V l2 y C2 Iy) in Q2.
  destruct (endpoint_dec u p) as [|Nu]; auto. destruct (endpoint_dec t p) as [|Nt]; auto. exfalso.
  destruct (inner_straight b1 l1 u p C1 Iu Ou Nu Q1) as (x1 & y1 & S1 & E1). destruct (inner_straight b2 l2 t p C2 It Ot Nt Q2) as (x2 & y2 & S2 & E2).
  apply (U x1 y1 x2 y2 S1 S2). congruence.
Qed.
End Contours.

(** Together: the outlines of contours that are simple and apart. *)
Lemma map_proper {A} (g : A -> segment) l : NoDup l -> (forall x, In x l -> proper_seg (g x)) ->
  (forall x y, In x l -> In y l -> x <> y -> touch_or_disjoint (g x) (g y)) -> non_crossing (map g l).
Proof.
  intros Nd Pr Ap. split.
  - apply Forall_forall. intros s I. apply in_map_iff in I. destruct I as (x & <- & I). auto.
  - clear Pr. induction l as [|x l IH]; [constructor|]. inversion Nd as [|? ? Nx Nl]; subst. cbn [map]. constructor.
    + apply Forall_forall. intros y I. apply in_map_iff in I. destruct I as (z & <- & I). apply Ap; [left; auto|right; auto|intros ->; contradiction].
    + apply IH; auto. intros a b Ia Ib. apply Ap; right; auto.
Qed.
Lemma simple_edges_proper vs : simple_contour vs -> Forall proper_seg (edges vs).
Proof. intros [(L & N & T) _]. apply turning_proper; auto; lia. Qed.
Lemma simple_non_crossing vs : simple_contour vs -> non_crossing (edges vs).
Proof.
  intros S. pose proof (simple_edges_proper vs S) as P. rewrite Forall_forall in P. rewrite <- (map_id (edges vs)). apply map_proper.
  - apply (NoDup_map_inv seg_start). rewrite edges_starts. apply S.
  - auto.
  - intros x y Ix Iy Ne. apply meet_ends_tod; auto. intros p. apply S; auto.
Qed.
Definition edges_apart (vs ws : list point) : Prop := forall u t, In u (edges vs) -> In t (edges ws) -> touch_or_disjoint u t.
Lemma edges_apart_sym vs ws : edges_apart vs ws -> edges_apart ws vs.
Proof. intros A u t I J. apply touch_or_disjoint_sym, A; auto. Qed.
Lemma FOP_seq {T} (R : T -> T -> Prop) (f : nat -> T) k : forall a, (forall i j, i < j -> j < a + k -> R (f i) (f j)) -> ForallOrdPairs R (map f (seq a k)).
Proof.
  induction k as [|k IH]; intros a A; cbn [seq map]; constructor.
  - apply Forall_forall. intros y I. apply in_map_iff in I. destruct I as (j & <- & I). apply in_seq in I. apply A; lia.
  - apply IH. intros i j Q1 Q2. apply A; lia.
Qed.
Lemma rings_crossing : forall l, Forall simple_contour l -> ForallOrdPairs edges_apart l -> non_crossing (outlines l).
Proof.
  induction l as [|vs l IH]; intros F O; [split; constructor|]. inversion F as [|? ? Si F']; subst. destruct (simple_non_crossing vs Si) as [P Q]. inversion O as [|? ? O1 O2]; subst.
  destruct (IH F' O2) as [P2 Q2]. unfold outlines in *. cbn [flat_map]. split; [apply Forall_app; auto|].
  apply FOP_app; auto. intros u t I J. apply in_flat_map in J. destruct J as (ws & Iw & J). rewrite Forall_forall in O1. apply (O1 ws Iw); auto.
Qed.
