(** The plane sweep, part 3: the detection of intersections. *)
From Coq Require Import QArith Qcanon Bool List Arith Lia.
From Verif Require Import QcTac Model_Base Model_Utils Model_Linear Spec_Base
  Proof_Base Proof_Line Proof_Sweep Proof_Sweep2.
Import ListNotations.
Local Open Scope Qc_scope.

Lemma sgn_pos v : 0 < v -> sgn v = COUNTERCLOCKWISE.
Proof. intros L. unfold sgn. destruct (qltb_spec 0 v); auto; contradiction. Qed.
Lemma sgn_zero v : v = 0 -> sgn v = COLLINEAR.
Proof. intros ->. reflexivity. Qed.
Lemma sgn_neg v : v < 0 -> sgn v = CLOCKWISE.
Proof.
  intros L. unfold sgn. destruct (qltb_spec 0 v); [exfalso; qlra|].
  destruct (qeqb_spec v 0); auto. exfalso; qlra.
Qed.

(** Same-side and root lemmas for an affine [d]. *)
Section Affine.
Variables (d : Qc -> Qc) (s : Qc).
Hypothesis A : forall x y, d x - d y = s * (x - y).
Lemma aff_root_unique x y : s <> 0 -> d x = 0 -> d y = 0 -> x = y.
Proof.
  intros N Hx Hy. pose proof (A x y) as E. rewrite Hx, Hy in E.
  assert (E' : s * (x - y) = 0) by (rewrite <- E; ring).
  apply Qcmult_integral in E'. destruct E'; [contradiction|qlra].
Qed.
Lemma aff_pos x y t : 0 < d x -> 0 < d y -> x <= t -> t <= y -> 0 < d t.
Proof.
  intros Hx Hy L1 L2. pose proof (A t x) as E1. pose proof (A y t) as E2.
  destruct (Qclt_le_dec s 0); [assert (0 <= - s * (y - t)) by (assert (0 <= - s) by qlra; assert (0 <= y - t) by qlra; qnra); qlra|].
  assert (0 <= s * (t - x)) by (assert (0 <= t - x) by qlra; qnra). qlra.
Qed.
Lemma aff_nonneg x y t : 0 <= d x -> 0 <= d y -> x <= t -> t <= y -> 0 <= d t.
Proof.
  intros Hx Hy L1 L2. pose proof (A t x) as E1. pose proof (A y t) as E2.
  destruct (Qclt_le_dec s 0); [assert (0 <= - s * (y - t)) by (assert (0 <= - s) by qlra; assert (0 <= y - t) by qlra; qnra); qlra|].
  assert (0 <= s * (t - x)) by (assert (0 <= t - x) by qlra; qnra). qlra.
Qed.
Lemma aff_const x : s = 0 -> d x = 0 -> forall y, d y = 0.
Proof. intros -> Hx y. pose proof (A y x) as E. rewrite Hx in E. qlra. Qed.
End Affine.
Lemma aff_opp (d : Qc -> Qc) s : (forall x y, d x - d y = s * (x - y)) ->
  forall x y, (fun t => - d t) x - (fun t => - d t) y = (- s) * (x - y).
Proof. intros A x y. pose proof (A x y). cbn. qlra. Qed.

(** The height of the second piece above the first, and its slope. *)
Definition dd (c : ctx) (o : operation) (Y Z : event) (t : Qc) : Qc :=
  hh c o Z t - hh c o Y t.
Definition ds (c : ctx) (o : operation) (Y Z : event) : Qc := kk c o Z - kk c o Y.

Section Detect.
Variable c : ctx.
Hypothesis G : good c.
Notation S' := (SX c). Notation E' := (EX c). Notation h := (hh c). Notation k := (kk c).

Lemma sub_affine o Y Z x y :
  (h o Z x - h o Y x) - (h o Z y - h o Y y) = (k o Z - k o Y) * (x - y).
Proof.
  pose proof (h_affine c o Z x y). pose proof (h_affine c o Y x y). qlra.
Qed.

Lemma strictly_between_X a b i p : py a = H c i (X c a) -> py b = H c i (X c b) ->
  X c a < X c b -> strictly_between a b p ->
  X c a < X c p /\ X c p < X c b /\ py p = H c i (X c p).
Proof.
  intros Ha Hb L B. pose proof (proj1 (between_X c a b i p Ha Hb L) (strictly_between_between _ _ _ B))
    as (_ & _ & E). destruct B as (t & T0 & T1 & ->).
  assert (E1 : X c (lerp a b t) = X c a + t * (X c b - X c a)) by (unfold X, lerp; cbn [px py]; ring).
  split; [|split]; auto; rewrite E1; qnra.
Qed.

(** A division at a cut. *)
Lemma cut_divide o l m mid : wf c o -> left_of o l -> cut c o l m mid ->
  exists o1, divide_event_by_midpoint o l mid = Some o1 /\ divided o l mid o1 /\ wf c o1.
Proof.
  intros W L C. destruct (divide_divided o l mid (w_linked c o W) L) as (o1 & E & D).
  exists o1. split; auto. split; auto. destruct C.
  apply (wf_divided c o o1 l mid W L D); auto.
Qed.

Definition outcome (o : operation) (Y Z : event) (r : option operation) : Prop :=
  match r with
  | Some o' => cuts c Y Z o o' /\ (apart c o' Y Z \/ coincide c o' Y Z)
  | None => from_first o Y = from_first o Z /\ k o Y = k o Z
            /\ h o Y (S' o Z) = h o Z (S' o Z)
            /\ E' o Z <> S' o Y /\ S' o Z <> E' o Y
  end.

Section Two.
Variables (o : operation) (Y Z : event).
Hypothesis W : wf c o.
Hypothesis LY : left_of o Y.
Hypothesis LZ : left_of o Z.
Hypothesis NYZ : Y <> Z.

Lemma one_cut l m mid : (l = Y /\ m = Z) \/ (l = Z /\ m = Y) -> cut c o l m mid ->
  (forall o1, divided o l mid o1 -> wf c o1 -> apart c o1 Y Z \/ coincide c o1 Y Z) ->
  outcome o Y Z (divide_event_by_midpoint o l mid).
Proof.
  intros P C F. assert (L : left_of o l) by (destruct P as [[-> _]|[-> _]]; auto).
  destruct (cut_divide o l m mid W L C) as (o1 & -> & D & W1). cbn. split; [|eauto].
  apply (cuts_cons c Y Z o l m mid o1 o1); auto. constructor.
Qed.
Lemma two_cuts l m mid l' m' mid' :
  (l = Y /\ m = Z) \/ (l = Z /\ m = Y) -> cut c o l m mid ->
  (l' = Y /\ m' = Z) \/ (l' = Z /\ m' = Y) ->
  (forall o1, divided o l mid o1 -> wf c o1 -> cut c o1 l' m' mid' /\
     forall o2, divided o1 l' mid' o2 -> wf c o2 -> apart c o2 Y Z \/ coincide c o2 Y Z) ->
  outcome o Y Z (then_divide (divide_event_by_midpoint o l mid) l' mid').
Proof.
  intros P C P' F. assert (L : left_of o l) by (destruct P as [[-> _]|[-> _]]; auto).
  destruct (cut_divide o l m mid W L C) as (o1 & -> & D & W1). cbn.
  destruct (F o1 D W1) as [C' F'].
  assert (L' : left_of o1 l').
  { apply (div_left_old c o o1 l mid); auto. destruct P' as [[-> _]|[-> _]]; auto. }
  destruct (cut_divide o1 l' m' mid' W1 L' C') as (o2 & -> & D' & W2). cbn. split; [|eauto].
  apply (cuts_cons c Y Z o l m mid o1 o2); auto.
  apply (cuts_cons c Y Z o1 l' m' mid' o2 o2); auto. constructor.
Qed.

Notation a := (S' o Y). Notation b := (E' o Y). Notation u := (S' o Z). Notation v := (E' o Z).
Notation d := (dd c o Y Z).
Notation s := (ds c o Y Z).
Let Aff : forall x y, d x - d y = s * (x - y).
Proof. intros x y. exact (sub_affine o Y Z x y). Qed.

Lemma nothing : apart c o Y Z \/ coincide c o Y Z -> outcome o Y Z (Some o).
Proof. intros F. split; auto. constructor. Qed.

(** [apart] after dividing: in numbers. *)
Definition apartN (a b u v : Qc) : Prop :=
  forall t, a <= t -> t <= b -> u <= t -> t <= v -> d t = 0 -> (t = a \/ t = b) /\ (t = u \/ t = v).
Lemma apart_N : apartN a b u v -> apart c o Y Z.
Proof. intros N t A1 A2 A3 A4 E. apply N; auto. unfold dd; rewrite E; ring. Qed.
Lemma apart_Y mid o1 : divided o Y mid o1 -> apartN a (X c mid) u v -> apart c o1 Y Z.
Proof.
  intros D N t. pose proof (div_S c o o1 Y mid D) as HS.
  rewrite !HS, (div_E_same c o o1 Y mid W LY D), (div_E_other c o o1 Y mid W LY D Z) by auto.
  rewrite !(div_h c o o1 Y mid D) by auto.
  intros A1 A2 A3 A4 E. apply N; auto. unfold dd; rewrite E; ring.
Qed.
Lemma apart_Z mid o1 : divided o Z mid o1 -> apartN a b u (X c mid) -> apart c o1 Y Z.
Proof.
  intros D N t. pose proof (div_S c o o1 Z mid D) as HS.
  rewrite !HS, (div_E_same c o o1 Z mid W LZ D), (div_E_other c o o1 Z mid W LZ D Y) by auto.
  rewrite !(div_h c o o1 Z mid D) by auto.
  intros A1 A2 A3 A4 E. apply N; auto. unfold dd; rewrite E; ring.
Qed.
Lemma apartN_root a b u v t0 : s <> 0 -> d t0 = 0 ->
  (a <= t0 -> t0 <= b -> u <= t0 -> t0 <= v -> (t0 = a \/ t0 = b) /\ (t0 = u \/ t0 = v)) ->
  apartN a b u v.
Proof.
  intros N Z0 F t A1 A2 A3 A4 E. rewrite (aff_root_unique d s Aff t t0 N E Z0) in *. auto.
Qed.
Lemma apartN_sideZ a b u v : (0 < d u /\ 0 < d v) \/ (d u < 0 /\ d v < 0) -> apartN a b u v.
Proof.
  intros F t A1 A2 A3 A4 E. exfalso. destruct F as [[F1 F2]|[F1 F2]].
  - pose proof (aff_pos d s Aff u v t F1 F2 A3 A4). qlra.
  - assert (P : 0 < - d t).
    { apply (aff_pos (fun t => - d t) (- s) (aff_opp d s Aff) u v t); auto; qlra. }
    qlra.
Qed.
Lemma apartN_sideY a b u v : (0 < d a /\ 0 < d b) \/ (d a < 0 /\ d b < 0) -> apartN a b u v.
Proof.
  intros F t A1 A2 A3 A4 E. exfalso. destruct F as [[F1 F2]|[F1 F2]].
  - pose proof (aff_pos d s Aff a b t F1 F2 A1 A2). qlra.
  - assert (P : 0 < - d t).
    { apply (aff_pos (fun t => - d t) (- s) (aff_opp d s Aff) a b t); auto; qlra. }
    qlra.
Qed.

Hypothesis Y1 : py (pt o Y) = h o Y a.
Hypothesis Y2 : py (pt o (opp o Y)) = h o Y b.
Hypothesis Z1 : py (pt o Z) = h o Z u.
Hypothesis Z2 : py (pt o (opp o Z)) = h o Z v.
Let I1 : In (pt o Y) (c_pts c). Proof. exact (w_ptS c o W Y LY). Qed.
Let I2 : In (pt o (opp o Y)) (c_pts c). Proof. exact (w_ptE c o W Y LY). Qed.
Let I3 : In (pt o Z) (c_pts c). Proof. exact (w_ptS c o W Z LZ). Qed.
Let I4 : In (pt o (opp o Z)) (c_pts c). Proof. exact (w_ptE c o W Z LZ). Qed.
Let LtY : a < b. Proof. exact (w_lt c o W Y LY). Qed.
Let LtZ : u < v. Proof. exact (w_lt c o W Z LZ). Qed.
Let Root0 : forall t, d t = 0 -> h o Y t = h o Z t.
Proof. intros t E. unfold dd in E. qlra. Qed.

(** Cutting at an endpoint of the other piece when the lines differ. *)
Lemma touch_Zstart : s <> 0 -> d u = 0 ->
  outcome o Y Z (if qltb a u && qltb u b then divide_event_by_midpoint o Y (pt o Z) else Some o).
Proof.
  intros N Du. destruct (qltb_spec a u) as [A|A]; cbn [andb].
  1: destruct (qltb_spec u b) as [B|B]; cbn [andb].
  - apply (one_cut Y Z); auto.
    + constructor; auto; fold u; change (X c (pt o Z)) with u; auto.
      * rewrite Root0; auto.
      * apply Qcle_refl.
      * qlra.
    + intros o1 D _. left. apply (apart_Y (pt o Z) o1 D). change (X c (pt o Z)) with u.
      apply (apartN_root a u u v u); auto.
  - apply nothing; left. apply apart_N, (apartN_root a b u v u); auto. intros. split; auto.
    right. qlra.
  - apply nothing; left. apply apart_N, (apartN_root a b u v u); auto. intros. split; auto.
    left. qlra.
Qed.
Lemma touch_Zend : s <> 0 -> d v = 0 ->
  outcome o Y Z (if qltb a v && qltb v b then divide_event_by_midpoint o Y (pt o (opp o Z)) else Some o).
Proof.
  intros N Du. destruct (qltb_spec a v) as [A|A]; cbn [andb].
  1: destruct (qltb_spec v b) as [B|B]; cbn [andb].
  - apply (one_cut Y Z); auto.
    + constructor; auto; change (X c (pt o (opp o Z))) with v; auto.
      * rewrite Root0; auto.
      * qlra.
      * apply Qcle_refl.
    + intros o1 D _. left. apply (apart_Y _ o1 D). change (X c (pt o (opp o Z))) with v.
      apply (apartN_root a v u v v); auto.
  - apply nothing; left. apply apart_N, (apartN_root a b u v v); auto. intros. split; auto.
    right. qlra.
  - apply nothing; left. apply apart_N, (apartN_root a b u v v); auto. intros. split; auto.
    left. qlra.
Qed.
Lemma touch_Ystart : s <> 0 -> d a = 0 ->
  outcome o Y Z (if qltb u a && qltb a v then divide_event_by_midpoint o Z (pt o Y) else Some o).
Proof.
  intros N Du. destruct (qltb_spec u a) as [A|A]; cbn [andb].
  1: destruct (qltb_spec a v) as [B|B]; cbn [andb].
  - apply (one_cut Z Y); auto.
    + constructor; auto; change (X c (pt o Y)) with a; auto.
      * rewrite <- Root0; auto.
      * apply Qcle_refl.
      * qlra.
    + intros o1 D _. left. apply (apart_Z _ o1 D). change (X c (pt o Y)) with a.
      apply (apartN_root a b u a a); auto.
  - apply nothing; left. apply apart_N, (apartN_root a b u v a); auto. intros. split; auto.
    right. qlra.
  - apply nothing; left. apply apart_N, (apartN_root a b u v a); auto. intros. split; auto.
    left. qlra.
Qed.
Lemma touch_Yend : s <> 0 -> d b = 0 ->
  outcome o Y Z (if qltb u b && qltb b v then divide_event_by_midpoint o Z (pt o (opp o Y)) else Some o).
Proof.
  intros N Du. destruct (qltb_spec u b) as [A|A]; cbn [andb].
  1: destruct (qltb_spec b v) as [B|B]; cbn [andb].
  - apply (one_cut Z Y); auto.
    + constructor; auto; change (X c (pt o (opp o Y))) with b; auto.
      * rewrite <- Root0; auto.
      * qlra.
      * apply Qcle_refl.
    + intros o1 D _. left. apply (apart_Z _ o1 D). change (X c (pt o (opp o Y))) with b.
      apply (apartN_root a b u b b); auto.
  - apply nothing; left. apply apart_N, (apartN_root a b u v b); auto. intros. split; auto.
    right. qlra.
  - apply nothing; left. apply apart_N, (apartN_root a b u v b); auto. intros. split; auto.
    left. qlra.
Qed.

Lemma detect_cross : (d u < 0 /\ 0 < d v) \/ (0 < d u /\ d v < 0) ->
  (d a < 0 /\ 0 < d b) \/ (0 < d a /\ d b < 0) ->
  let x := to_segments_intersection (pt o Z) (pt o (opp o Z)) (pt o Y) (pt o (opp o Y)) in
  outcome o Y Z
    (if point_lt (pt o Z) x && point_lt x (pt o (opp o Z))
        && point_lt (pt o Y) x && point_lt x (pt o (opp o Y))
     then then_divide (divide_event_by_midpoint o Y x) Z x else None).
Proof.
  intros HZ HY x.
  pose proof (area2_H c (sid o Y) (pt o Y) (pt o (opp o Y)) (pt o Z) Y1 Y2) as A1.
  pose proof (area2_H c (sid o Y) (pt o Y) (pt o (opp o Y)) (pt o (opp o Z)) Y1 Y2) as A2.
  pose proof (area2_H c (sid o Z) (pt o Z) (pt o (opp o Z)) (pt o Y) Z1 Z2) as A3.
  pose proof (area2_H c (sid o Z) (pt o Z) (pt o (opp o Z)) (pt o (opp o Y)) Z1 Z2) as A4.
  change (X c (pt o Y)) with a in *. change (X c (pt o (opp o Y))) with b in *.
  change (X c (pt o Z)) with u in *. change (X c (pt o (opp o Z))) with v in *.
  rewrite Z1 in A1. rewrite Z2 in A2. rewrite Y1 in A3. rewrite Y2 in A4.
  change (h o Z u - H c (sid o Y) u) with (d u) in A1.
  change (h o Z v - H c (sid o Y) v) with (d v) in A2.
  change (H c (sid o Z) a) with (h o Z a) in A3. change (H c (sid o Z) b) with (h o Z b) in A4.
  replace (h o Y a - h o Z a) with (- d a) in A3 by (unfold dd; ring).
  replace (h o Y b - h o Z b) with (- d b) in A4 by (unfold dd; ring).
  assert (O1 : opposite (area2 (pt o Y) (pt o (opp o Y)) (pt o Z)) (area2 (pt o Y) (pt o (opp o Y)) (pt o (opp o Z)))).
  { rewrite A1, A2. unfold opposite. clear A1 A2 A3 A4. 
    generalize dependent (d u); generalize dependent (d v). intros.
    destruct HZ as [[]|[]]; [right|left]; split; qnra. }
  assert (O2 : opposite (area2 (pt o Z) (pt o (opp o Z)) (pt o Y)) (area2 (pt o Z) (pt o (opp o Z)) (pt o (opp o Y)))).
  { rewrite A3, A4. unfold opposite. clear A1 A2 A3 A4 O1.
    generalize dependent (d a); generalize dependent (d b). intros.
    destruct HY as [[]|[]]; [left|right]; split; qnra. }
  destruct (crossing_point _ _ _ _ O2 O1) as [B1 B2]. fold x in B1, B2.
  destruct (strictly_between_X _ _ (sid o Z) x Z1 Z2 LtZ B1) as (P1 & P2 & P3).
  destruct (strictly_between_X _ _ (sid o Y) x Y1 Y2 LtY B2) as (Q1 & Q2 & Q3).
  change (X c (pt o Y)) with a in *. change (X c (pt o (opp o Y))) with b in *.
  change (X c (pt o Z)) with u in *. change (X c (pt o (opp o Z))) with v in *.
  change (H c (sid o Z) (X c x)) with (h o Z (X c x)) in *.
  change (H c (sid o Y) (X c x)) with (h o Y (X c x)) in *.
  assert (N : s <> 0).
  { intros E. pose proof (Aff u v) as E1. rewrite E in E1. destruct HZ; qlra. }
  assert (NK : k o Y <> k o Z) by (intros E; apply N; unfold ds; rewrite E; ring).
  assert (Rx : d (X c x) = 0) by (unfold dd; rewrite <- P3, <- Q3; ring).
  assert (Ix : In x (c_pts c)).
  { destruct (g_cross c G (sid o Y) (sid o Z) (X c x)) as (f & If & Ef & Ff).
    - apply (w_sid c o W); auto.
    - apply (w_sid c o W); auto.
    - exact NK.
    - apply Root0; auto.
    - change (H c (sid o Y) (X c x)) with (h o Y (X c x)) in Ff. rewrite <- Q3 in Ff.
      assert (f = x) as <-; auto. apply point_ext; auto.
      unfold X in Ef. rewrite Ff in Ef. qlra. }
  rewrite !point_lt_X with (c := c) by auto.
  change (X c (pt o Y)) with a. change (X c (pt o (opp o Y))) with b.
  change (X c (pt o Z)) with u. change (X c (pt o (opp o Z))) with v.
  rewrite (proj2 (qltb_true _ _) P1), (proj2 (qltb_true _ _) P2),
          (proj2 (qltb_true _ _) Q1), (proj2 (qltb_true _ _) Q2). cbn [andb].
  apply (two_cuts Y Z x Z Y x); auto.
  - constructor; auto; try qlra.
  - intros o1 D W1. split.
    + constructor; auto; rewrite ?(div_h c o o1 Y x D), ?(div_S c o o1 Y x D),
        ?(div_E_same c o o1 Y x W LY D), ?(div_E_other c o o1 Y x W LY D Z),
        ?(div_k c o o1 Y x D) by auto; auto; try qlra.
    + intros o2 D2 W2. left. intros t.
      assert (LZ1 : left_of o1 Z) by (apply (div_left_old c o o1 Y x); auto).
      assert (LY1 : left_of o1 Y) by (apply (div_left_old c o o1 Y x); auto).
      rewrite !(div_h c o1 o2 Z x D2), !(div_S c o1 o2 Z x D2),
        (div_E_same c o1 o2 Z x W1 LZ1 D2), (div_E_other c o1 o2 Z x W1 LZ1 D2 Y) by auto.
      rewrite !(div_h c o o1 Y x D), !(div_S c o o1 Y x D),
        (div_E_same c o o1 Y x W LY D) by auto.
      intros T1 T2 T3 T4 E.
      assert (t = X c x) as ->; auto.
      apply (aff_root_unique d s Aff); auto. unfold dd; rewrite E; ring.
Qed.

Lemma detect_opposite : (d u < 0 /\ 0 < d v) \/ (0 < d u /\ d v < 0) ->
  let x := to_segments_intersection (pt o Z) (pt o (opp o Z)) (pt o Y) (pt o (opp o Y)) in
  outcome o Y Z
  (if orientation_is (sgn (- d a)) COLLINEAR
   then if negb (orientation_is (sgn (- d b)) COLLINEAR)
        then if qltb u a && qltb a v then divide_event_by_midpoint o Z (pt o Y) else Some o
        else None
   else if orientation_is (sgn (- d b)) COLLINEAR
   then if qltb u b && qltb b v then divide_event_by_midpoint o Z (pt o (opp o Y)) else Some o
   else if negb (orientation_is (sgn (- d a)) (sgn (- d b)))
   then if point_lt (pt o Z) x && point_lt x (pt o (opp o Z))
        && point_lt (pt o Y) x && point_lt x (pt o (opp o Y))
        then then_divide (divide_event_by_midpoint o Y x) Z x else None
   else Some o).
Proof.
  intros HZ x.
  assert (N : s <> 0).
  { intros E. pose proof (Aff u v) as E1. rewrite E in E1. destruct HZ; qlra. }
  destruct (Qc_trichotomy (d a) 0) as [[Da|Da]|Da], (Qc_trichotomy (d b) 0) as [[Db|Db]|Db];
    try rewrite (sgn_pos (- d a)) by qlra; try rewrite (sgn_zero (- d a)) by qlra;
    try rewrite (sgn_neg (- d a)) by qlra; try rewrite (sgn_pos (- d b)) by qlra;
    try rewrite (sgn_zero (- d b)) by qlra;
    try rewrite (sgn_neg (- d b)) by qlra; cbn [orientation_is negb].
  - apply nothing; left. apply apart_N, apartN_sideY; auto.
  - apply touch_Yend; auto.
  - apply detect_cross; auto.
  - apply touch_Ystart; auto.
  - exfalso. apply N, (aff_slope0 d s a b); auto. intro E. rewrite E in LtY.  qlra.
  - apply touch_Ystart; auto.
  - apply detect_cross; auto.
  - apply touch_Yend; auto.
  - apply nothing; left. apply apart_N, apartN_sideY; auto.
Qed.

Section Collinear.
Hypothesis Zero : forall t, d t = 0.
Hypothesis Ks : k o Y = k o Z.
Let HE t : h o Y t = h o Z t.
Proof. apply Root0, Zero. Qed.

Lemma same_start_cut : u = a -> v <> b ->
  outcome o Y Z
    (let '(max_end_event, min_end_event) := if qltb v b then (Y, Z) else (Z, Y) in
     divide_event_by_midpoint o max_end_event (to_event_end o min_end_event)).
Proof.
  intros Eu Nv. destruct (qltb_spec v b) as [B|B]; cbn beta iota; unfold to_event_end.
  - apply (one_cut Y Z); auto.
    + constructor; auto; change (X c (pt o (opp o Z))) with v; auto.
      * rewrite HE; auto.
      * rewrite <- Eu; auto.
      * qlra.
      * apply Qcle_refl.
    + intros o1 D _. right. unfold coincide.
      rewrite !(div_S c o o1 Y _ D), (div_E_same c o o1 Y _ W LY D),
        (div_E_other c o o1 Y _ W LY D Z), !(div_k c o o1 Y _ D), !(div_h c o o1 Y _ D) by auto.
      repeat split; auto. rewrite HE, Eu; auto.
  - assert (B' : b < v) by (qne; qlra). apply (one_cut Z Y); auto.
    + constructor; auto; change (X c (pt o (opp o Y))) with b; auto.
      * rewrite <- HE; auto.
      * rewrite Eu; auto.
      * qlra.
      * apply Qcle_refl.
    + intros o1 D _. right. unfold coincide.
      rewrite !(div_S c o o1 Z _ D), (div_E_same c o o1 Z _ W LZ D),
        (div_E_other c o o1 Z _ W LZ D Y), !(div_k c o o1 Z _ D), !(div_h c o o1 Z _ D) by auto.
      repeat split; auto. rewrite HE, Eu; auto.
Qed.

Lemma same_end_cut : u <> a -> v = b ->
  outcome o Y Z
    (let '(max_start_event, min_start_event) := if qltb u a then (Y, Z) else (Z, Y) in
     divide_event_by_midpoint o min_start_event (pt o max_start_event)).
Proof.
  intros Nu Ev. destruct (qltb_spec u a) as [B|B]; cbn beta iota.
  - apply (one_cut Z Y); auto.
    + constructor; auto; change (X c (pt o Y)) with a; auto.
      * rewrite <- HE; auto.
      * rewrite Ev; auto.
      * apply Qcle_refl.
      * qlra.
    + intros o1 D _. left. apply (apart_Z _ o1 D). change (X c (pt o Y)) with a.
      intros t T1 T2 T3 T4 _. assert (t = a) by qlra. auto.
  - assert (B' : a < u) by (qne; qlra). apply (one_cut Y Z); auto.
    + constructor; auto; change (X c (pt o Z)) with u; auto.
      * rewrite HE; auto.
      * rewrite <- Ev; auto.
      * apply Qcle_refl.
      * qlra.
    + intros o1 D _. left. apply (apart_Y _ o1 D). change (X c (pt o Z)) with u.
      intros t T1 T2 T3 T4 _. assert (t = u) by qlra. auto.
Qed.

(** Dividing [l] at the place [x], the first piece then being [q1] to [x]. *)
Lemma two_same l m x y : (l = Y /\ m = Z) \/ (l = Z /\ m = Y) ->
  In x (c_pts c) -> In y (c_pts c) -> py x = h o Y (X c x) -> py y = h o Y (X c y) ->
  X c x = E' o m -> X c y = S' o m -> S' o l < X c y -> X c x < E' o l ->
  outcome o Y Z (then_divide (divide_event_by_midpoint o l x) l y).
Proof.
  intros P Ix Iy Lx Ly Ex Ey By Bx.
  assert (L : left_of o l /\ left_of o m /\ l <> m) by (destruct P as [[-> ->]|[-> ->]]; auto).
  destruct L as (Ll & Lm & Nlm).
  assert (HH : forall t, h o l t = h o Y t /\ h o m t = h o Y t).
  { intros t. destruct P as [[-> ->]|[-> ->]]; rewrite ?HE; auto. }
  pose proof (w_lt c o W m Lm) as Ltm.
  apply (two_cuts l m x l m y); auto.
  - constructor; auto; try (rewrite (proj1 (HH _)) || rewrite (proj2 (HH _))); auto; try qlra.
  - intros o1 D W1. split.
    + constructor; auto; rewrite ?(div_h c o o1 l x D), ?(div_S c o o1 l x D),
        ?(div_E_same c o o1 l x W Ll D), ?(div_E_other c o o1 l x W Ll D m),
        ?(div_k c o o1 l x D) by auto;
        try (rewrite (proj1 (HH _)) || rewrite (proj2 (HH _))); auto; try qlra.
    + intros o2 D2 W2. left.
      assert (Ll1 : left_of o1 l) by (apply (div_left_old c o o1 l x); auto).
      assert (Lm1 : left_of o1 m) by (apply (div_left_old c o o1 l x); auto).
      assert (F : forall t, S' o2 l <= t -> t <= E' o2 l -> S' o2 m <= t -> t <= E' o2 m ->
        (t = S' o2 l \/ t = E' o2 l) /\ (t = S' o2 m \/ t = E' o2 m)).
      { intros t. rewrite !(div_S c o1 o2 l y D2), (div_E_same c o1 o2 l y W1 Ll1 D2),
          (div_E_other c o1 o2 l y W1 Ll1 D2 m) by auto.
        rewrite !(div_S c o o1 l x D), (div_E_other c o o1 l x W Ll D m) by auto.
        intros T1 T2 T3 T4. assert (t = X c y) as -> by qlra. auto. }
      intros t T1 T2 T3 T4 _. destruct P as [[-> ->]|[-> ->]]; [apply F; auto|].
      apply and_comm. apply F; auto.
Qed.
(** Dividing the later one [m] at the end of the earlier one, then the earlier one
    [l] at the start of the later one. *)
Lemma two_over l m x y : (l = Y /\ m = Z) \/ (l = Z /\ m = Y) ->
  In x (c_pts c) -> In y (c_pts c) -> py x = h o Y (X c x) -> py y = h o Y (X c y) ->
  X c x = E' o l -> X c y = S' o m -> S' o l < X c y -> X c y < E' o l -> X c x < E' o m ->
  outcome o Y Z (then_divide (divide_event_by_midpoint o m x) l y).
Proof.
  intros P Ix Iy Lx Ly Ex Ey By1 By2 Bx.
  assert (L : left_of o l /\ left_of o m /\ l <> m) by (destruct P as [[-> ->]|[-> ->]]; auto).
  destruct L as (Ll & Lm & Nlm).
  assert (HH : forall t, h o l t = h o Y t /\ h o m t = h o Y t).
  { intros t. destruct P as [[-> ->]|[-> ->]]; rewrite ?HE; auto. }
  pose proof (w_lt c o W m Lm) as Ltm.
  apply (two_cuts m l x l m y); auto; [tauto| |].
  - constructor; auto; try (rewrite (proj1 (HH _)) || rewrite (proj2 (HH _))); auto; try qlra.
  - intros o1 D W1. split.
    + constructor; auto; rewrite ?(div_h c o o1 m x D), ?(div_S c o o1 m x D),
        ?(div_E_same c o o1 m x W Lm D), ?(div_E_other c o o1 m x W Lm D l),
        ?(div_k c o o1 m x D) by auto;
        try (rewrite (proj1 (HH _)) || rewrite (proj2 (HH _))); auto; try qlra.
    + intros o2 D2 W2. left.
      assert (Ll1 : left_of o1 l) by (apply (div_left_old c o o1 m x); auto).
      assert (Lm1 : left_of o1 m) by (apply (div_left_old c o o1 m x); auto).
      assert (F : forall t, S' o2 l <= t -> t <= E' o2 l -> S' o2 m <= t -> t <= E' o2 m ->
        (t = S' o2 l \/ t = E' o2 l) /\ (t = S' o2 m \/ t = E' o2 m)).
      { intros t. rewrite !(div_S c o1 o2 l y D2), (div_E_same c o1 o2 l y W1 Ll1 D2),
          (div_E_other c o1 o2 l y W1 Ll1 D2 m) by auto.
        rewrite !(div_S c o o1 m x D), (div_E_same c o o1 m x W Lm D) by auto.
        intros T1 T2 T3 T4. assert (t = X c y) as -> by qlra. auto. }
      intros t T1 T2 T3 T4 _. destruct P as [[-> ->]|[-> ->]]; [apply F; auto|].
      apply and_comm. apply F; auto.
Qed.
End Collinear.

Lemma detect_ok : outcome o Y Z (detect_intersection o Y Z).
Proof.
  unfold detect_intersection, to_event_end.
  rewrite !(orient_swap12 (pt o Y) (pt o (opp o Y))).
  rewrite !(orient_sgn c (sid o Y) (pt o Y) (pt o (opp o Y))) by auto.
  rewrite !(orient_sgn c (sid o Z) (pt o Z) (pt o (opp o Z))) by auto.
  rewrite Y1, Y2, Z1, Z2.
  change (X c (pt o Y)) with a. change (X c (pt o (opp o Y))) with b.
  change (X c (pt o Z)) with u. change (X c (pt o (opp o Z))) with v.
  change (h o Z u - H c (sid o Y) u) with (d u).
  change (h o Z v - H c (sid o Y) v) with (d v).
  change (H c (sid o Z) a) with (h o Z a). change (H c (sid o Z) b) with (h o Z b).
  replace (h o Y a - h o Z a) with (- d a) by (unfold dd; ring).
  replace (h o Y b - h o Z b) with (- d b) by (unfold dd; ring).
  pose proof detect_opposite as DO. cbn zeta in DO.
  rewrite !(point_eq_X c G (pt o (opp o Z)) (pt o Y)),
    !(point_eq_X c G (pt o Z) (pt o (opp o Y))), !(point_eq_X c G (pt o Z) (pt o Y)),
    !(point_eq_X c G (pt o (opp o Z)) (pt o (opp o Y))) by auto.
  rewrite !(point_lt_X c G (pt o (opp o Z)) (pt o (opp o Y))),
    !(point_lt_X c G (pt o Z) (pt o Y)), !(point_lt_X c G (pt o Y) (pt o Z)),
    !(point_lt_X c G (pt o Z) (pt o (opp o Y))), !(point_lt_X c G (pt o (opp o Y)) (pt o (opp o Z))),
    !(point_lt_X c G (pt o Y) (pt o (opp o Z))) by auto.
  change (X c (pt o Y)) with a. change (X c (pt o (opp o Y))) with b.
  change (X c (pt o Z)) with u. change (X c (pt o (opp o Z))) with v.
  assert (NsA : forall p q, d p = 0 -> d q <> 0 -> s <> 0).
  { intros p q Ep Nq E. apply Nq. apply (aff_const d s Aff p); auto. }
  destruct (Qc_trichotomy (d u) 0) as [[Du|Du]|Du], (Qc_trichotomy (d v) 0) as [[Dv|Dv]|Dv];
    rewrite ?(sgn_pos (d u)), ?(sgn_zero (d u)), ?(sgn_neg (d u)),
            ?(sgn_pos (d v)), ?(sgn_zero (d v)), ?(sgn_neg (d v)) by assumption;
    cbn [opposite_orientation orientation_is].
  - apply nothing; left. apply apart_N, apartN_sideZ; auto.
  - apply touch_Zend; auto. apply (NsA v u); auto. intro E; rewrite E in Du; qlra.
  - apply DO; auto.
  - apply touch_Zstart; auto. apply (NsA u v); auto. intro E; rewrite E in Dv; qlra.
  - assert (Ks : k o Y = k o Z).
    { assert (E : s = 0) by (apply (aff_slope0 d s u v); auto; intro E; rewrite E in LtZ; qlra).
      unfold ds in E. qlra. }
    assert (Zero : forall t, d t = 0).
    { apply (aff_const d s Aff u); auto. unfold ds; rewrite Ks; ring. }
    assert (HE : forall t, h o Y t = h o Z t) by (intros; apply Root0, Zero).
    destruct (negb (Bool.eqb (is_left_event_from_first_operand o Y)
                      (is_left_event_from_first_operand o Z)) || qeqb v a || qeqb u b) eqn:Ea.
    2:{ apply orb_false_elim in Ea. destruct Ea as [Ea E3]. apply orb_false_elim in Ea.
        destruct Ea as [E1 E2]. qb. apply negb_false_iff, eqb_prop in E1.
        cbn. repeat split; auto. }
    destruct (qeqb_spec u a) as [Eu|Nu].
    { destruct (qeqb_spec v b) as [Ev|Nv]; cbn [negb].
      - apply nothing. right. unfold coincide. rewrite Eu, Ev, HE. auto.
      - pose proof (same_start_cut Zero Ks Eu Nv) as R. unfold to_event_end in R. exact R. }
    destruct (qeqb_spec v b) as [Ev|Nv].
    { exact (same_end_cut Zero Ks Nu Ev). }
    destruct (qltb_spec a u) as [B1|B1]; [destruct (qltb_spec u b) as [B2|B2]|]; cbn [andb].
    + destruct (qltb_spec v b) as [B3|B3].
      * apply (two_same Zero Ks Y Z); auto; change (X c (pt o (opp o Z))) with v;
          change (X c (pt o Z)) with u; rewrite ?HE; auto.
      * assert (b < v) by (qne; qlra).
        apply (two_over Zero Ks Y Z); auto; change (X c (pt o (opp o Y))) with b;
          change (X c (pt o Z)) with u; rewrite ?HE; auto.
    + destruct (qltb_spec u a); cbn [andb]; [exfalso; qlra|].
      apply nothing; left; apply apart_N. intros t T1 T2 T3 T4 _.
      assert (t = u) by qlra. assert (t = b) by qlra. auto.
    + assert (B1' : u < a) by (qne; qlra).
      destruct (qltb_spec u a); cbn [andb]; [|contradiction].
      destruct (qltb_spec a v) as [B2|B2].
      * destruct (qltb_spec b v) as [B3|B3].
        -- apply (two_same Zero Ks Z Y); auto.
        -- assert (v < b) by (qne; qlra).
           apply (two_over Zero Ks Z Y); auto; change (X c (pt o (opp o Z))) with v; rewrite ?HE; auto.
      * apply nothing; left; apply apart_N. intros t T1 T2 T3 T4 _.
        assert (t = a) by qlra. assert (t = v) by qlra. auto.
  - apply touch_Zstart; auto. apply (NsA u v); auto. intro E; rewrite E in Dv; qlra.
  - apply DO; auto.
  - apply touch_Zend; auto. apply (NsA v u); auto. intro E; rewrite E in Du; qlra.
  - apply nothing; left. apply apart_N, apartN_sideZ; auto.
Qed.
End Two.

Lemma detect_spec o Y Z : wf c o -> left_of o Y -> left_of o Z -> Y <> Z ->
  outcome o Y Z (detect_intersection o Y Z).
Proof.
  intros W LY LZ N. apply detect_ok; auto.
  - apply (w_S c o W Y LY). - apply (w_E c o W Y LY).
  - apply (w_S c o W Z LZ). - apply (w_E c o W Z LZ).
Qed.
End Detect.
