(** The trapezoidation, part 2: the plane it lives in, given by abscissas of the vertices
    and by heights of the edges; the order of edges over one another. *)
From Coq Require Import QArith Qcanon Bool List Arith Lia.
From Verif Require Import QcTac.
Import ListNotations.
Local Open Scope Qc_scope.

(** [real] edges are the given ones, [top] and [bot] are those of the box, [cl] and [cr]
    its corners. *)
Record world := World {
  xp : nat -> Qc; yp : nat -> Qc;
  lp : nat -> nat; rp : nat -> nat;
  h : nat -> Qc -> Qc; lo : nat -> Qc; hi : nat -> Qc;
  real : nat -> Prop; top : nat; bot : nat; cl : nat; cr : nat;
  w_aff : forall g, exists a b, forall t, h g t = a * t + b;
  w_real : forall g, real g -> lo g = xp (lp g) /\ hi g = xp (rp g) /\ lo g < hi g
    /\ h g (lo g) = yp (lp g) /\ h g (hi g) = yp (rp g);
  w_box : lo top = xp cl /\ lo bot = xp cl /\ hi top = xp cr /\ hi bot = xp cr /\ xp cl < xp cr
    /\ top <> bot /\ ~ real top /\ ~ real bot;
  w_in : forall g, real g -> xp cl < lo g /\ hi g < xp cr;
  w_flat : forall t, h bot t < h top t;
  w_between : forall g t, real g -> lo g <= t -> t <= hi g -> h bot t < h g t /\ h g t < h top t;
  w_apart : forall g g' t, real g -> real g' -> g <> g' -> lo g < t -> t < hi g -> lo g' < t -> t < hi g' ->
    h g t <> h g' t;
  w_vertex : forall g g' k, real g -> real g' -> k = lp g' \/ k = rp g' -> lo g < xp k -> xp k < hi g ->
    yp k <> h g (xp k);
  w_same : forall g g' k k', real g -> real g' -> k = lp g \/ k = rp g -> k' = lp g' \/ k' = rp g' ->
    xp k = xp k' -> yp k = yp k';
  w_close : forall a b, a < b -> exists t, a < t /\ t < b /\
    forall g k, real g -> k = lp g \/ k = rp g -> a < xp k -> t < xp k }.

Section World.
Variable w : world.
Definition anedge (g : nat) : Prop := real w g \/ g = top w \/ g = bot w.
Definition generic (t : Qc) : Prop := forall g k, real w g -> k = lp w g \/ k = rp w g -> t <> xp w k.
Definition spans (g : nat) (t : Qc) : Prop := lo w g < t /\ t < hi w g.

Lemma w_dense : forall a b, a < b -> exists t, a < t /\ t < b /\ forall g k, real w g -> k = lp w g \/ k = rp w g -> t <> xp w k.
Proof.
  intros a b L. destruct (w_close w a b L) as (t & T1 & T2 & C). exists t. repeat split; auto.
  intros g k Rg K Q. specialize (C g k Rg K). rewrite <- Q in C. specialize (C T1). qlra.
Qed.
Lemma anedge_lt g : anedge g -> lo w g < hi w g.
Proof.
  destruct (w_box w) as (B1 & B2 & B3 & B4 & B5 & _).
  intros [R|[ -> | -> ]]; [apply (w_real w g R)|rewrite B1, B3; auto|rewrite B2, B4; auto].
Qed.
Lemma span_in g t : anedge g -> spans g t -> xp w (cl w) < t /\ t < xp w (cr w).
Proof.
  destruct (w_box w) as (B1 & B2 & B3 & B4 & B5 & _). intros E [S1 S2].
  destruct E as [R|[ -> | -> ]].
  - destruct (w_in w g R). split; qlra.
  - rewrite B1 in S1. rewrite B3 in S2. auto.
  - rewrite B2 in S1. rewrite B4 in S2. auto.
Qed.

Lemma apart g g' t : anedge g -> anedge g' -> g <> g' -> spans g t -> spans g' t -> h w g t <> h w g' t.
Proof.
  intros E E' N [S1 S2] [S1' S2'].
  assert (Fl := w_flat w t).
  destruct E as [R|[ -> | -> ]], E' as [R'|[ -> | -> ]]; try congruence.
  - apply (w_apart w g g' t); auto.
  - intros Q. destruct (w_between w g t R) as [Q1 Q2]; qlra.
  - intros Q. destruct (w_between w g t R) as [Q1 Q2]; qlra.
  - intros Q. destruct (w_between w g' t R') as [Q1 Q2]; qlra.
  - intros Q. qlra.
  - intros Q. destruct (w_between w g' t R') as [Q1 Q2]; qlra.
  - intros Q. qlra.
Qed.

(** Affine functions. *)
Lemma affine_zero a b t u : a * t + b < 0 -> 0 < a * u + b ->
  exists v, a * v + b = 0 /\ ((t < v /\ v < u) \/ (u < v /\ v < t)).
Proof.
  intros A B. assert (N : a <> 0) by (intros ->; qlra). exists (- b / a).
  assert (E : a * (- b / a) + b = 0) by (field; auto). split; auto.
  generalize dependent (- b / a). intros v E.
  destruct (Qc_dec 0 a) as [[P|P]|P]; [left|right|congruence].
  - split; apply Qcnot_le_lt; intros Q; assert (0 < a * v - a * t) by qlra; assert (0 < a * u - a * v) by qlra; qnra.
  - split; apply Qcnot_le_lt; intros Q; assert (0 < a * v - a * t) by qlra; assert (0 < a * u - a * v) by qlra; qnra.
Qed.
Lemma affine_near a b x : 0 < a * x + b -> exists d, 0 < d /\ forall t, x - d < t -> t < x + d -> 0 < a * t + b.
Proof.
  intros P. set (n := (if Qclt_le_dec a 0 then - a else a) + 1).
  assert (N1 : 0 < n) by (unfold n; destruct (Qclt_le_dec a 0); qlra).
  assert (N2 : a <= n /\ - a <= n) by (unfold n; destruct (Qclt_le_dec a 0); split; qlra).
  clearbody n. exists ((a * x + b) / n).
  assert (E : (a * x + b) / n * n = a * x + b) by (field; intros ->; qlra).
  assert (D : 0 < (a * x + b) / n) by (apply Qcnot_le_lt; intros Q; qnra).
  generalize dependent ((a * x + b) / n). intros d E D. split; auto. intros t T1 T2. destruct N2 as [N2 N3].
  destruct (Qclt_le_dec t x) as [Q|Q].
  - assert (0 <= (n - a) * (x - t)) by qnra. assert (n * (x - t) < d * n) by qnra. qlra.
  - assert (0 <= (n + a) * (t - x)) by qnra. assert (n * (t - x) < d * n) by qnra. qlra.
Qed.
Lemma affine_between a b u v t : 0 <= a * u + b -> 0 <= a * v + b -> 0 < a * u + b \/ 0 < a * v + b ->
  u < t -> t < v -> 0 < a * t + b.
Proof.
  intros U V Q T1 T2. assert (E : (a * t + b) * (v - u) = (a * u + b) * (v - t) + (a * v + b) * (t - u)) by ring.
  set (f := a * t + b) in *. set (g := a * u + b) in *. set (k := a * v + b) in *. clearbody f g k.
  apply Qcnot_le_lt. intros L. destruct Q; qnra.
Qed.
Lemma affine_closed a b u v t : u < t -> t < v -> 0 < a * t + b -> (forall s, u < s -> s < v -> a * s + b <> 0) ->
  0 <= a * u + b /\ 0 <= a * v + b.
Proof.
  intros T1 T2 P Z. split; apply Qcnot_lt_le; intros L;
    destruct (affine_zero a b _ t L P) as (s & E & [[Q1 Q2]|[Q1 Q2]]); try (apply (Z s); auto; qlra); qlra.
Qed.
Lemma diff_affine g g' : exists a b, forall t, h w g' t - h w g t = a * t + b.
Proof.
  destruct (w_aff w g) as (a & b & A), (w_aff w g') as (a' & b' & A'). exists (a' - a), (b' - b).
  intros t. rewrite A, A'. ring.
Qed.

(** ** The order of two edges is the same over all abscissas *)
Lemma order_same g g' t u : anedge g -> anedge g' -> spans g t -> spans g' t -> spans g u -> spans g' u ->
  h w g t < h w g' t -> h w g u < h w g' u.
Proof.
  intros E E' [S1 S2] [S3 S4] [U1 U2] [U3 U4] L. destruct (Nat.eq_dec g g') as [->|N]; [qlra|].
  destruct (diff_affine g g') as (a & b & A). apply Qcnot_le_lt. intros Q.
  destruct (Qc_eq_dec (h w g u) (h w g' u)) as [Eq|Ne].
  - apply (apart g g' u E E' N); auto; split; auto.
  - destruct (affine_zero a b u t) as (v & Z & R); [rewrite <- A; qne; qlra|rewrite <- A; qlra|].
    apply (apart g g' v E E' N); try (split; qlra || (destruct R as [[]|[]]; qlra)).
    rewrite <- A in Z. qlra.
Qed.
Lemma order_closed g g' a b t : anedge g -> anedge g' -> a < t -> t < b ->
  lo w g <= a -> b <= hi w g -> lo w g' <= a -> b <= hi w g' -> h w g t < h w g' t ->
  h w g a <= h w g' a /\ h w g b <= h w g' b.
Proof.
  intros E E' T1 T2 G1 G2 G3 G4 L. destruct (Nat.eq_dec g g') as [->|N]; [split; qlra|].
  destruct (diff_affine g g') as (c & d & A).
  destruct (affine_closed c d a b t T1 T2) as [Q1 Q2].
  - rewrite <- A. qlra.
  - intros s S1 S2 Z. rewrite <- A in Z. apply (apart g g' s E E' N); try (split; qlra). qlra.
  - rewrite <- A in Q1, Q2. split; qlra.
Qed.
Lemma order_near g g' x : h w g x < h w g' x ->
  exists d, 0 < d /\ forall t, x - d < t -> t < x + d -> h w g t < h w g' t.
Proof.
  intros L. destruct (diff_affine g g') as (a & b & A). destruct (affine_near a b x) as (d & D & N).
  - rewrite <- A. qlra.
  - exists d. split; auto. intros t T1 T2. specialize (N t T1 T2). rewrite <- A in N. qlra.
Qed.
(** Two edges through one point are in the same order on one side of it. *)
Lemma order_between g g' u v t : h w g u <= h w g' u -> h w g v <= h w g' v ->
  h w g u < h w g' u \/ h w g v < h w g' v -> u < t -> t < v -> h w g t < h w g' t.
Proof.
  intros U V Q T1 T2. destruct (diff_affine g g') as (a & b & A).
  assert (R : 0 < a * t + b); [|rewrite <- A in R; qlra].
  apply (affine_between a b u v); auto; rewrite <- !A; try qlra. destruct Q; [left|right]; qlra.
Qed.
End World.
