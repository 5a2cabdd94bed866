(** The Bentley-Ottmann sweep, part 2: detection of intersections. *)
From Coq Require Import QArith Qcanon Bool List Arith Lia.
From Verif Require Import QcTac Model_Base Model_Utils Model_Linear Model_BentleyOttmann Spec_Base
  Spec_Sweep Proof_Base Proof_Line Proof_Sweep Proof_Sweep2 Proof_Sweep3 Proof_Sweep5 Proof_Sweep7
  Proof_Sweep8 Proof_Ottmann.
Import ListNotations.
Local Open Scope Qc_scope.

Section Detection.
Variable c : ctx.
Hypothesis G : good c.
Hypothesis C0 : c_first c = O.
Variable R : Qc.
Hypothesis NB : calm c R.
Notation S' := (SX c). Notation E' := (EX c). Notation h := (hh c). Notation k := (kk c).

Section Two.
Variables (shape : tree_shape) (index : nat) (r : registry) (Y Z : event).
Notation o := (rg_op r).
Hypothesis B : base c o.
Hypothesis LY : left_of o Y.
Hypothesis LZ : left_of o Z.
Notation a := (S' o Y). Notation b := (E' o Y). Notation u := (S' o Z). Notation v := (E' o Z).
Notation d := (dd c o Y Z).
Notation s := (ds c o Y Z).
Let W : wf c o. Proof. exact (proj1 B). Qed.
Let Aff : forall x y, d x - d y = s * (x - y).
Proof. intros x y. exact (sub_affine c o Y Z x y). Qed.
Let LtY : a < b. Proof. exact (w_lt c o W Y LY). Qed.
Let LtZ : u < v. Proof. exact (w_lt c o W Z LZ). Qed.

Lemma sgn_is_col x : orientation_is (sgn x) COLLINEAR = true -> x = 0.
Proof. destruct (sgn_cases x) as [[E _]|[[E ?]|[E _]]]; rewrite E; cbn; auto; discriminate. Qed.

Lemma same_start_goes r' : Y <> Z -> (forall t, d t = 0) -> u = a -> v <> b ->
  (let '(max_end_event, min_end_event) := if qltb v b then (Y, Z) else (Z, Y) in
      match registry_remove shape index o max_end_event with
      | None => None
      | Some o =>
          match divide o max_end_event (to_event_end o min_end_event) with
          | None => None
          | Some (o, _, to_end) =>
              Some (merge_equal_segment_events (set_op r (push o to_end)) Z Y)
          end
      end) = Some r' -> goes c R o (rg_op r').
Proof.
  intros N Zero E1 E2.
  assert (F : forall l m, (l = Y /\ m = Z) \/ (l = Z /\ m = Y) -> E' o m < E' o l ->
    match registry_remove shape index o l with
      | None => None
      | Some o =>
          match divide o l (to_event_end o m) with
          | None => None
          | Some (o, _, to_end) =>
              Some (merge_equal_segment_events (set_op r (push o to_end)) Z Y)
          end
      end = Some r' -> goes c R o (rg_op r')).
  { intros l m P Lt.
    destruct (registry_remove shape index o l) as [o1|] eqn:Rm; [|discriminate].
    apply registry_remove_line in Rm; [|apply (base_first c C0); auto].
    destruct Rm as (line & -> & I). pose proof (goes_set_line c C0 R _ _ B I) as Gl.
    set (o1 := set_line o line) in *.
    destruct (divide o1 l (to_event_end o1 m)) as [[[o2 ts] te]|] eqn:Q; [|discriminate].
    intros [= <-]. cbn [rg_op merge_equal_segment_events set_op].
    assert (L : left_of o l /\ left_of o m /\ l <> m) by (destruct P as [[-> ->]|[-> ->]]; auto).
    destruct L as (Ll & Lm & Nlm).
    pose proof (w_lt c o W m Lm) as Ltm.
    assert (Sl : S' o l = S' o m) by (destruct P as [[-> ->]|[-> ->]]; auto).
    eapply (goes_trans c C0 R); [exact Gl|].
    apply (cut_goes c C0 R NB o1 l m (to_event_end o1 m) o2 ts te); auto.
    - apply Gl.
    - apply cut_set_line. apply (cut_at c r Y Z B LY LZ); auto.
      + change (X c (to_event_end o m)) with (E' o m). rewrite Sl. auto. }
  destruct (qltb_spec v b) as [L|L]; intros Q.
  - apply (F Y Z); auto.
  - apply (F Z Y); auto. qne; qlra.
Qed.

Lemma collinear_goes r' : Y <> Z -> (forall t, d t = 0) -> collinear_numbers c shape index r Y Z = Some r' ->
  goes c R o (rg_op r').
Proof.
  intros N Zero. unfold collinear_numbers.
  destruct (qeqb_spec u a) as [Eu|Nu].
  { destruct (qeqb_spec v b) as [Ev|Nv]; [discriminate|]. apply same_start_goes; auto. }
  destruct (qeqb_spec v b) as [Ev|Nv].
  { assert (F : forall l m, (l = Y /\ m = Z) \/ (l = Z /\ m = Y) -> S' o l < S' o m -> E' o l = E' o m ->
      divide_and_merge r l (pt o m) m = Some r' -> goes c R o (rg_op r')).
    { intros l m P Lt El Q.
      assert (L : left_of o l /\ left_of o m /\ l <> m) by (destruct P as [[-> ->]|[-> ->]]; auto).
      destruct L as (Ll & Lm & Nlm). pose proof (w_lt c o W m Lm) as Ltm.
      apply (divide_and_merge_goes c C0 R NB r l m (pt o m) m r'); auto.
      apply (cut_at c r Y Z B LY LZ); auto. change (X c (pt o m)) with (S' o m). rewrite El; auto. }
    destruct (qltb_spec u a) as [L|L]; intros Q.
    - apply (F Z Y); auto.
    - apply (F Y Z); auto. qne; qlra. }
  destruct (qltb_spec a u) as [B1|B1]; [destruct (qltb_spec u b) as [B2|B2]|]; cbn [andb].
  - destruct (qltb_spec v b) as [B3|B3].
    + apply (mid_segment_goes c C0 R NB r r' Y Z); auto.
    + apply (overlapping_goes c C0 R NB r r' Y Z); auto. qne; qlra.
  - destruct (qltb_spec u a); cbn [andb]; [exfalso; qlra|]. intros [= <-]. apply (goes_refl c C0 R); auto.
  - assert (B1' : u < a) by (qne; qlra).
    destruct (qltb_spec u a); cbn [andb]; [|contradiction].
    destruct (qltb_spec a v) as [B2|B2].
    + destruct (qltb_spec b v) as [B3|B3].
      * apply (mid_segment_goes c C0 R NB r r' Y Z); auto.
      * apply (overlapping_goes c C0 R NB r r' Y Z); auto. qne; qlra.
    + intros [= <-]. apply (goes_refl c C0 R); auto.
Qed.

Lemma cross_signs : orientation_is (sgn (d u)) (sgn (d v)) = false ->
  orientation_is (sgn (d u)) COLLINEAR = false -> orientation_is (sgn (d v)) COLLINEAR = false ->
  (d u < 0 /\ 0 < d v) \/ (0 < d u /\ d v < 0).
Proof.
  intros Q1 Q2 Q3.
  destruct (sgn_cases (d u)) as [[E1 F1]|[[E1 F1]|[E1 F1]]], (sgn_cases (d v)) as [[E2 F2]|[[E2 F2]|[E2 F2]]];
      rewrite E1 in *; rewrite E2 in *; cbn in *; try discriminate; auto.
Qed.
Lemma cross_signs' : orientation_is (sgn (d a)) (sgn (d b)) = false ->
  orientation_is (sgn (d a)) COLLINEAR = false -> orientation_is (sgn (d b)) COLLINEAR = false ->
  (d a < 0 /\ 0 < d b) \/ (0 < d a /\ d b < 0).
Proof.
  intros Q1 Q2 Q3.
  destruct (sgn_cases (d a)) as [[E1 F1]|[[E1 F1]|[E1 F1]]], (sgn_cases (d b)) as [[E2 F2]|[[E2 F2]|[E2 F2]]];
      rewrite E1 in *; rewrite E2 in *; cbn in *; try discriminate; auto.
Qed.

(** After the first division at a crossing the second is due. *)
Lemma cross_again r1 x : Y <> Z -> In x (c_pts c) -> u < X c x -> X c x < v -> a < X c x -> X c x < b ->
  k o Y <> k o Z -> py x = h o Y (X c x) -> py x = h o Z (X c x) ->
  cut c o Y Z x /\ (goes c R o (rg_op r1) -> numbers c o (rg_op r1) Y x -> cut c (rg_op r1) Z Y x).
Proof.
  intros N Ix A1 A2 A3 A4 NK P1 P2. split.
  - constructor; auto; qlra.
  - intros _ Nu.
    destruct (numbers_at c _ _ _ _ Y Nu LY) as (l1 & l2 & l3 & l4).
    destruct (numbers_at c _ _ _ _ Z Nu LZ) as (m1 & m2 & m3 & m4).
    rewrite Nat.eqb_refl in l4. rewrite (proj2 (Nat.eqb_neq Z Y)) in m4 by auto.
    constructor; rewrite ?l1, ?l2, ?l3, ?l4, ?m1, ?m2, ?m3, ?m4; auto; try qlra.
Qed.

Lemma detect_goes r' : registry_detect shape index r Y Z = Some r' -> goes c R o (rg_op r').
Proof.
  destruct (Nat.eq_dec Y Z) as [->|N].
  { rewrite (registry_detect_self c shape index r Z); auto; discriminate. }
  rewrite (detect_in_numbers c G shape index r Y Z); auto. unfold detect_numbers. cbv zeta.
  destruct (orientation_is (sgn (d u)) (sgn (d v))) eqn:Q1.
  { destruct (orientation_is (sgn (d u)) COLLINEAR) eqn:Q2.
    2: { intros [= <-]. apply (goes_refl c C0 R); auto. }
    apply collinear_goes; auto. apply sgn_is_col in Q2.
    assert (d v = 0).
    { apply sgn_is_col. rewrite (sgn_zero (d u) Q2) in Q1. destruct (sgn (d v)); auto. }
    intros t. apply (aff_zero d s u v); auto. intro E. rewrite E in LtZ. qlra. }
  destruct (orientation_is (sgn (d u)) COLLINEAR) eqn:Q2.
  { apply sgn_is_col in Q2. destruct (qltb_spec a u) as [A|A]; cbn [andb].
    1: destruct (qltb_spec u b) as [A'|A']; cbn [andb].
    1: { intros Q. apply (divide_goes c C0 R NB r Y Z (pt o Z) r'); auto. apply (cut_at c r Y Z B LY LZ); auto. }
    all: intros [= <-]; apply (goes_refl c C0 R); auto. }
  destruct (orientation_is (sgn (d v)) COLLINEAR) eqn:Q3.
  { apply sgn_is_col in Q3. destruct (qltb_spec a v) as [A|A]; cbn [andb].
    1: destruct (qltb_spec v b) as [A'|A']; cbn [andb].
    1: { intros Q. apply (divide_goes c C0 R NB r Y Z (pt o (opp o Z)) r'); auto. apply (cut_at c r Y Z B LY LZ); auto. }
    all: intros [= <-]; apply (goes_refl c C0 R); auto. }
  destruct (orientation_is (sgn (d a)) COLLINEAR) eqn:Q4.
  { apply sgn_is_col in Q4. destruct (orientation_is (sgn (d b)) COLLINEAR); [discriminate|].
    destruct (qltb_spec u a) as [A|A]; cbn [andb].
    1: destruct (qltb_spec a v) as [A'|A']; cbn [andb].
    1: { intros Q. apply (checking_goes c C0 R NB shape index r Z Y (pt o Y) r'); auto.
         apply (cut_at c r Y Z B LY LZ); auto. }
    all: intros [= <-]; apply (goes_refl c C0 R); auto. }
  destruct (orientation_is (sgn (d b)) COLLINEAR) eqn:Q5.
  { apply sgn_is_col in Q5.
    destruct (qltb_spec u b) as [A|A]; cbn [andb].
    1: destruct (qltb_spec b v) as [A'|A']; cbn [andb].
    1: { intros Q. apply (checking_goes c C0 R NB shape index r Z Y (pt o (opp o Y)) r'); auto.
         apply (cut_at c r Y Z B LY LZ); auto. }
    all: intros [= <-]; apply (goes_refl c C0 R); auto. }
  destruct (orientation_is (sgn (d a)) (sgn (d b))) eqn:Q6; cbn [negb].
  { intros [= <-]; apply (goes_refl c C0 R); auto. }
  set (x := to_segments_intersection _ _ _ _).
  destruct (crossing_facts c G r Y Z B LY LZ (cross_signs Q1 Q2 Q3) (cross_signs' Q6 Q4 Q5))
    as (Ix & A1 & A2 & A3 & A4 & NK & P1 & P2). fold x in Ix, A1, A2, A3, A4, P1, P2.
  destruct (registry_divide r Y x) as [r1|] eqn:D; [|discriminate].
  destruct (cross_again r1 x) as [C1 C2]; auto.
  destruct (divide_goes c C0 R NB r Y Z x r1) as [G1 N1]; auto. intros Q.
  specialize (C2 G1 N1). eapply (goes_trans c C0 R); [exact G1|].
  pose proof G1 as (B1 & La & _).
  apply (checking_goes c C0 R NB shape index r1 Z Y x r'); auto; apply (later_left c C0 R o (rg_op r1)); auto.
Qed.

(** When the pieces do not overlap and no other piece of the line continues the
    second one, the detection is the one of the clipping sweep. *)
Hypothesis NO : (forall t, d t = 0) -> u < b -> a < v -> False.
Hypothesis NA : forall x, In x (op_line o) -> pt o x = pt o Z -> x <> Z -> k o x <> k o Z.

Lemma checking_plain r1 mid : Y <> Z -> (r1 = r \/ goes c R o (rg_op r1) /\ numbers c o (rg_op r1) Y mid) ->
  op_line (rg_op r1) = op_line o -> py mid = h o Z (X c mid) -> u < X c mid -> X c mid < v ->
  divide_checking_above shape index r1 Z mid = registry_divide r1 Z mid.
Proof.
  intros N H1 El M0 M1 M2. unfold divide_checking_above.
  destruct (registry_above shape index (rg_op r1) Z) as [x|] eqn:Ab; auto.
  destruct (_ && _) eqn:Q; auto. exfalso. apply andb_prop in Q. destruct Q as [Q1 Q2].
  apply point_eq_true in Q1. apply point_eq_true in Q2.
  assert (B1 : base c (rg_op r1)) by (destruct H1 as [->|[[H1 _] _]]; auto).
  apply registry_above_In in Ab; [|apply (base_first c C0); auto]. rewrite El in Ab.
  assert (Lx : left_of o x) by (destruct B as (_ & _ & B'); auto).
  assert (Lx1 : left_of (rg_op r1) x) by (destruct H1 as [->|[[_ [H1 _]] _]]; auto; apply (later_left c C0 R o (rg_op r1)); auto).
  assert (Num : S' (rg_op r1) x = S' o x /\ (forall t, h (rg_op r1) x t = h o x t)
     /\ pt (rg_op r1) x = pt o x /\ pt (rg_op r1) Z = pt o Z /\ (x = Z -> E' (rg_op r1) x = v)).
  { destruct H1 as [->|[[_ [H1 _]] H2]].
    - split; [reflexivity|split; [reflexivity|split; [reflexivity|split; [reflexivity|intros ->; reflexivity]]]].
    - destruct (numbers_at c _ _ _ _ x H2 Lx) as (m1 & m2 & m3 & m4).
      split; auto. split; auto. split; [apply (la_pt _ _ _ _ H1), Lx|].
      split; [apply (la_pt _ _ _ _ H1), LZ|]. intros ->. rewrite m4.
      rewrite (proj2 (Nat.eqb_neq Z Y)) by auto. auto. }
  destruct Num as (n1 & n2 & n3 & n4 & n5).
  pose proof (w_E c (rg_op r1) (proj1 B1) x Lx1) as Ey. unfold EX in Ey.
  fold (to_event_end (rg_op r1) x) in Ey. rewrite Q2 in Ey.
  assert (Ex' : E' (rg_op r1) x = X c mid) by (unfold EX; fold (to_event_end (rg_op r1) x); rewrite Q2; auto).
  destruct (Nat.eq_dec x Z) as [->|Nx].
  { rewrite (n5 eq_refl) in Ex'. qlra. }
  rewrite n3, n4 in Q1. apply (NA x Ab Q1 Nx).
  assert (Su : S' o x = u) by (unfold SX; rewrite Q1; auto).
  rewrite n2 in Ey.
  pose proof (w_S c o W x Lx) as Sx. pose proof (w_S c o W Z LZ) as Sz. rewrite Q1, Su in Sx.
  destruct (col_two c o x Z u (X c mid)) as [C1 _]; auto; try congruence.
  intro E. rewrite E in M1. qlra.
Qed.

Lemma divide_ok r1 l m mid : base c (rg_op r1) -> left_of (rg_op r1) l -> left_of (rg_op r1) m ->
  l <> m -> cut c (rg_op r1) l m mid -> exists o', registry_divide r1 l mid = Some (set_op r1 o')
  /\ divided (rg_op r1) l mid o' /\ goes c R (rg_op r1) o' /\ numbers c (rg_op r1) o' l mid.
Proof.
  intros B1 Ll Lm Nlm Cu. rewrite registry_divide_eq.
  destruct (divide_divided (rg_op r1) l mid (w_linked c _ (proj1 B1)) Ll) as (o' & E & D).
  exists o'. rewrite E. split; auto. split; auto.
  apply (divide_goes c C0 R NB r1 l m mid (set_op r1 o')); auto. rewrite registry_divide_eq, E. reflexivity.
Qed.

Lemma from_outcome q leaf : s <> 0 -> outcome c o Y Z q -> leaf = option_map (set_op r) q ->
  exists o', leaf = Some (set_op r o') /\ cuts c Y Z o o' /\ apart c o' Y Z.
Proof.
  intros Ns O ->. destruct q as [o'|]; cbn in O.
  - exists o'. destruct O as (O1 & O2). split; auto. split; auto. destruct O2 as [|O2]; auto.
    exfalso. destruct O2 as (_ & _ & Q & _). apply Ns.
    assert (Kq : k o' Y = k o Y /\ k o' Z = k o Z).
    { clear - B LY LZ O1 W. assert (F : forall o1 o2, cuts c Y Z o1 o2 -> wf c o1 -> left_of o1 Y -> left_of o1 Z ->
        k o2 Y = k o1 Y /\ k o2 Z = k o1 Z).
      { intros o1 o2 C; induction C as [o1|o1 l m mid o2 o3 P Cu D C IH]; intros W1 L1 L2; auto.
        assert (Ll : left_of o1 l) by (destruct P as [[-> ->]|[-> ->]]; auto).
        assert (W2 : wf c o2).
        { destruct Cu. apply (wf_divided c o1 o2 l mid W1 Ll D); auto. }
        destruct IH as [E1 E2]; auto; try (apply (div_left_old c o1 o2 l mid); auto).
        rewrite E1, E2. rewrite !(div_k c o1 o2 l mid D) by auto. auto. }
      apply F; auto. }
    destruct Kq as [K1 K2]. unfold ds. rewrite <- K1, <- K2, Q. ring.
  - exfalso. destruct O as (_ & Q & _). apply Ns. unfold ds. rewrite Q. ring.
Qed.

Lemma detect_ok_noncol : Y <> Z -> ~ (d u = 0 /\ d v = 0) ->
  exists o', registry_detect shape index r Y Z = Some (set_op r o')
  /\ cuts c Y Z o o' /\ apart c o' Y Z.
Proof.
  intros N Nc. rewrite (detect_in_numbers c G shape index r Y Z); auto. unfold detect_numbers. cbv zeta.
  assert (SetR : set_op r o = r) by (destruct r; reflexivity).
  assert (Y1 : py (pt o Y) = h o Y a) by exact (w_S c o W Y LY).
  assert (Y2 : py (pt o (opp o Y)) = h o Y b) by exact (w_E c o W Y LY).
  assert (Z1 : py (pt o Z) = h o Z u) by exact (w_S c o W Z LZ).
  assert (Z2 : py (pt o (opp o Z)) = h o Z v) by exact (w_E c o W Z LZ).
  assert (None_ : forall q, apart c o Y Z -> q = Some r -> exists o', q = Some (set_op r o')
     /\ cuts c Y Z o o' /\ apart c o' Y Z).
  { intros q Ap ->. exists o. rewrite SetR. split; auto. split; auto. constructor. }
  destruct (orientation_is (sgn (d u)) (sgn (d v))) eqn:Q1.
  { destruct (orientation_is (sgn (d u)) COLLINEAR) eqn:Q2.
    { exfalso. apply Nc. apply sgn_is_col in Q2. split; auto. apply sgn_is_col.
      rewrite (sgn_zero (d u) Q2) in Q1. destruct (sgn (d v)); auto. }
    apply None_; auto. apply (apart_N c o Y Z), (apartN_sideZ c o Y Z).
    destruct (sgn_cases (d u)) as [[E1 F1]|[[E1 F1]|[E1 F1]]], (sgn_cases (d v)) as [[E2 F2]|[[E2 F2]|[E2 F2]]];
      rewrite E1 in *; rewrite E2 in *; cbn in *; try discriminate; auto. }
  assert (Ns : s <> 0).
  { intros E. pose proof (Aff u v) as A. rewrite E in A. assert (d u = d v) as E2 by qlra.
    rewrite E2 in Q1. destruct (sgn (d v)); discriminate. }
  destruct (orientation_is (sgn (d u)) COLLINEAR) eqn:Q2.
  { apply sgn_is_col in Q2. eapply from_outcome; auto.
    - apply (touch_Zstart c o Y Z); auto.
    - destruct (qltb a u && qltb u b); [apply registry_divide_eq|rewrite <- SetR at 1; reflexivity]. }
  destruct (orientation_is (sgn (d v)) COLLINEAR) eqn:Q3.
  { apply sgn_is_col in Q3. eapply from_outcome; auto.
    - apply (touch_Zend c o Y Z); auto.
    - destruct (qltb a v && qltb v b); [apply registry_divide_eq|rewrite <- SetR at 1; reflexivity]. }
  destruct (orientation_is (sgn (d a)) COLLINEAR) eqn:Q4.
  { apply sgn_is_col in Q4. destruct (orientation_is (sgn (d b)) COLLINEAR) eqn:Q5.
    { exfalso. apply sgn_is_col in Q5. apply Ns, (aff_slope0 d s a b); auto. intro E. rewrite E in LtY. qlra. }
    eapply from_outcome; auto.
    - apply (touch_Ystart c o Y Z); auto.
    - destruct (qltb_spec u a) as [A1|A1]; cbn [andb]; [destruct (qltb_spec a v) as [A2|A2]|];
        try (rewrite <- SetR at 1; reflexivity).
      rewrite checking_plain; auto; [apply registry_divide_eq|].
      rewrite Y1. change (X c (pt o Y)) with a. unfold dd in Q4. qlra. }
  destruct (orientation_is (sgn (d b)) COLLINEAR) eqn:Q5.
  { apply sgn_is_col in Q5. eapply from_outcome; auto.
    - apply (touch_Yend c o Y Z); auto.
    - destruct (qltb_spec u b) as [A1|A1]; cbn [andb]; [destruct (qltb_spec b v) as [A2|A2]|];
        try (rewrite <- SetR at 1; reflexivity).
      rewrite checking_plain; auto; [apply registry_divide_eq|].
      rewrite Y2. change (X c (pt o (opp o Y))) with b. unfold dd in Q5. qlra. }
  destruct (orientation_is (sgn (d a)) (sgn (d b))) eqn:Q6; cbn [negb].
  { apply None_; auto. apply (apart_N c o Y Z), (apartN_sideY c o Y Z).
    destruct (sgn_cases (d a)) as [[E1 F1]|[[E1 F1]|[E1 F1]]], (sgn_cases (d b)) as [[E2 F2]|[[E2 F2]|[E2 F2]]];
      rewrite E1 in *; rewrite E2 in *; cbn in *; try discriminate; auto. }
  set (x := to_segments_intersection _ _ _ _).
  destruct (crossing_facts c G r Y Z B LY LZ (cross_signs Q1 Q2 Q3) (cross_signs' Q6 Q4 Q5))
    as (Ix & A1 & A2 & A3 & A4 & NK & P1 & P2). fold x in Ix, A1, A2, A3, A4, P1, P2.
  destruct (cross_again r x) as [C1 _]; auto.
  destruct (divide_ok r Y Z x B LY LZ N C1) as (o1 & E1 & D1 & G1 & N1).
  pose proof (detect_cross c G o Y Z W LY LZ N Y1 Y2 Z1 Z2 (cross_signs Q1 Q2 Q3) (cross_signs' Q6 Q4 Q5)) as O.
  cbv zeta in O. fold x in O. eapply from_outcome; [auto|exact O|].
  rewrite !(point_lt_X c G); auto; try exact (w_ptS c o W Y LY); try exact (w_ptE c o W Y LY); try exact (w_ptS c o W Z LZ); try exact (w_ptE c o W Z LZ).
  change (X c (pt o Y)) with a. change (X c (pt o (opp o Y))) with b.
  change (X c (pt o Z)) with u. change (X c (pt o (opp o Z))) with v.
  rewrite (proj2 (qltb_true _ _) A1), (proj2 (qltb_true _ _) A2),
            (proj2 (qltb_true _ _) A3), (proj2 (qltb_true _ _) A4). cbn [andb].
  rewrite E1. rewrite registry_divide_eq in E1.
  destruct (divide_event_by_midpoint o Y x) as [o1'|]; [|discriminate].
  cbn in E1. assert (o1' = o1) as -> by (injection E1; auto). cbn [then_divide].
  rewrite checking_plain; auto.
  - rewrite registry_divide_eq. cbn [rg_op set_op]. destruct (divide_event_by_midpoint o1 Z x); reflexivity.
  - exact (d_line _ _ _ _ D1).
Qed.

Lemma detect_strong : Y <> Z -> exists o', registry_detect shape index r Y Z = Some (set_op r o')
  /\ cuts c Y Z o o' /\ apart c o' Y Z.
Proof.
  intros N.
  assert (Ncol : (forall t, d t = 0) -> b <= u \/ v <= a).
  { intros Zero. destruct (Qclt_le_dec u b); [|left; auto]. destruct (Qclt_le_dec a v); [|right; auto].
    exfalso; auto. }
  assert (SetR : set_op r o = r) by (destruct r; reflexivity).
  destruct (Qc_eq_dec (d u) 0) as [Du|Du]; [destruct (Qc_eq_dec (d v) 0) as [Dv|Dv]|].
  - assert (Zero : forall t, d t = 0).
    { intros t. apply (aff_zero d s u v); auto. intro E. rewrite E in LtZ. qlra. }
    exists o. rewrite SetR. split; [|split; [constructor|]].
    + rewrite (detect_in_numbers c G shape index r Y Z); auto. unfold detect_numbers. cbv zeta.
      rewrite (sgn_zero (d u)), (sgn_zero (d v)) by auto. cbn [orientation_is]. unfold collinear_numbers.
      destruct (qeqb_spec u a) as [E|_]; [exfalso; destruct (Ncol Zero); rewrite E in *; qlra|].
      destruct (qeqb_spec v b) as [E|_]; [exfalso; destruct (Ncol Zero); rewrite E in *; qlra|].
      destruct (qltb_spec a u); cbn [andb].
      * destruct (qltb_spec u b); cbn [andb]; [exfalso; destruct (Ncol Zero); qlra|].
        destruct (qltb_spec u a); cbn [andb]; auto. exfalso; qlra.
      * destruct (qltb_spec u a); cbn [andb]; auto. destruct (qltb_spec a v); auto.
        exfalso; destruct (Ncol Zero); qlra.
    + intros t T1 T2 T3 T4 _. destruct (Ncol Zero); split; [right|left|left|right]; qlra.
  - apply detect_ok_noncol; auto. intros []; auto.
  - apply detect_ok_noncol; auto. intros []; auto.
Qed.
End Two.
End Detection.
