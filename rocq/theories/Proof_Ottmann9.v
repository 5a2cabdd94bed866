(** The Bentley-Ottmann sweep, part 9: comparisons of collinear pieces, detections
    between pieces of different lines. *)
From Coq Require Import QArith Qcanon Bool List Arith Lia.
From Verif Require Import QcTac Model_Base Model_Utils Model_Linear Model_BentleyOttmann Spec_Base
  Spec_Sweep Proof_Base Proof_Line Proof_Sweep Proof_Sweep2 Proof_Sweep3 Proof_Sweep5 Proof_Sweep7
  Proof_Sweep8 Proof_Sweep9 Proof_Sweep10 Proof_Sweep11 Proof_Sweep12 Proof_Ottmann Proof_Ottmann2
  Proof_Ottmann3 Proof_Ottmann4 Proof_Ottmann5 Proof_Ottmann6 Proof_Ottmann7 Proof_Ottmann8.
Import ListNotations.
Local Open Scope Qc_scope.

Lemma qeqb_sym x y : qeqb x y = qeqb y x.
Proof. destruct (qeqb_spec x y), (qeqb_spec y x); auto; congruence. Qed.

Section Nine.
Variable c : ctx.
Hypothesis G : good c.
Hypothesis C0 : c_first c = O.
Notation S' := (SX c). Notation E' := (EX c). Notation h := (hh c). Notation k := (kk c).
Notation EV := (EVX c).

(** ** Comparisons of collinear pieces *)
Definition tail_lt (p q p' q' : point) : bool :=
  if qeqb (py p) (py p')
  then if negb (qeqb (px p) (px p')) then qltb (px p) (px p')
       else if negb (qeqb (py q) (py q')) then qltb (py q) (py q') else qltb (px q) (px q')
  else qltb (py p) (py p').

Lemma line_key_col o Y Z : wf c o -> left_of o Y -> left_of o Z -> (forall t, h o Y t = h o Z t) ->
  line_key_lt o Y Z = tail_lt (pt o Y) (to_event_end o Y) (pt o Z) (to_event_end o Z).
Proof.
  intros W LY LZ E. unfold line_key_lt. rewrite (orient_start c o Y Z W LY LZ), (orient_end c o Y Z W LY LZ).
  assert (D : forall t, dd c o Y Z t = 0) by (intros t; unfold dd; rewrite E; ring).
  rewrite !D. change (sgn 0) with COLLINEAR. cbn [orientation_is negb].
  rewrite (no_first c C0 o Y W), (no_first c C0 o Z W). cbn [Bool.eqb negb]. unfold tail_lt.
  destruct (qeqb (py (pt o Y)) (py (pt o Z))); reflexivity.
Qed.

Lemma tail_starts p q p' q' q1 q1' : p <> p' -> tail_lt p q p' q' = tail_lt p q1 p' q1'.
Proof.
  intros N. unfold tail_lt. destruct (qeqb_spec (py p) (py p')) as [E1|E1]; auto.
  destruct (qeqb_spec (px p) (px p')) as [E2|E2]; auto. destruct N. apply point_ext; auto.
Qed.
Lemma tail_asym p q p' q' : tail_lt p q p' q' = true -> tail_lt p' q' p q = false.
Proof.
  unfold tail_lt. rewrite (qeqb_sym (py p') (py p)), (qeqb_sym (px p') (px p)), (qeqb_sym (py q') (py q)).
  destruct (qeqb (py p) (py p')); [destruct (qeqb (px p) (px p')); cbn [negb]; [destruct (qeqb (py q) (py q')); cbn [negb]|]|];
    rewrite qltb_true; intros L; apply qltb_false; qlra.
Qed.
Lemma tail_cases p q p' q' : tail_lt p q p' q' = true \/ tail_lt p' q' p q = true \/ (p = p' /\ q = q').
Proof.
  unfold tail_lt. rewrite (qeqb_sym (py p') (py p)), (qeqb_sym (px p') (px p)), (qeqb_sym (py q') (py q)).
  assert (F : forall x y : Qc, x <> y -> qltb x y = true \/ qltb y x = true).
  { intros x y N. destruct (Qc_dec x y) as [[L|L]|L]; [left|right|contradiction]; apply qltb_true; auto. }
  destruct (qeqb_spec (py p) (py p')) as [E1|E1]; [|destruct (F _ _ E1); auto].
  destruct (qeqb_spec (px p) (px p')) as [E2|E2]; cbn [negb]; [|destruct (F _ _ E2); auto].
  destruct (qeqb_spec (py q) (py q')) as [E3|E3]; cbn [negb]; [|destruct (F _ _ E3); auto].
  destruct (Qc_eq_dec (px q) (px q')) as [E4|E4]; [|destruct (F _ _ E4); auto].
  right; right. split; apply point_ext; auto.
Qed.

Lemma key_same_start o Y Z : wf c o -> left_of o Y -> left_of o Z -> (forall t, h o Y t = h o Z t) ->
  k o Y = k o Z -> pt o Y = pt o Z ->
  line_key_lt o Y Z = if qltb (k o Y) 0 then qltb (E' o Z) (E' o Y) else qltb (E' o Y) (E' o Z).
Proof.
  intros W LY LZ E Ek P. rewrite line_key_col by auto. unfold tail_lt. rewrite P.
  rewrite !(proj2 (qeqb_true _ _) eq_refl). cbn [negb].
  pose proof (w_E c o W Y LY) as Y1. pose proof (w_E c o W Z LZ) as Z1. unfold to_event_end.
  assert (Df : py (pt o (opp o Y)) - py (pt o (opp o Z)) = k o Y * (E' o Y - E' o Z)).
  { rewrite Y1, Z1, <- E. apply h_affine. }
  unfold EX in *. set (q := pt o (opp o Y)) in *. set (q' := pt o (opp o Z)) in *. set (m := k o Y) in *.
  assert (Px : forall p, px p = X c p - c_eps c * py p) by (intros p; unfold X; ring).
  destruct (qltb_spec m 0) as [K|K].
  - destruct (qeqb_spec (py q) (py q')) as [E1|E1]; cbn [negb].
    + assert (Z0 : m * (X c q - X c q') = 0) by (rewrite <- Df, E1; ring).
      apply Qcmult_integral in Z0. destruct Z0 as [Z0|Z0]; [exfalso; rewrite Z0 in K; qlra|].
      rewrite !Px, E1. replace (X c q) with (X c q') by qlra.
      transitivity false; [|symmetry]; apply qltb_false; qlra.
    + destruct (qltb_spec (X c q') (X c q)) as [L|L].
      * apply qltb_true. assert (0 < (- m) * (X c q - X c q')) by (apply Qcmult_lt_0_compat_pos || (assert (0 < - m) by qlra; assert (0 < X c q - X c q') by qlra; qnra)). qlra.
      * apply qltb_false. assert (0 <= (- m) * (X c q' - X c q)) by (assert (0 < - m) by qlra; assert (0 <= X c q' - X c q) by qlra; qnra). qlra.
  - assert (K' : 0 <= m) by (apply Qcnot_lt_le; auto).
    destruct (qeqb_spec (py q) (py q')) as [E1|E1]; cbn [negb].
    + rewrite !Px, E1. destruct (qltb_spec (X c q) (X c q')) as [L|L]; [apply qltb_true|apply qltb_false]; qlra.
    + destruct (qltb_spec (X c q) (X c q')) as [L|L].
      * apply qltb_true. assert (0 <= m * (X c q' - X c q)) by (assert (0 <= X c q' - X c q) by qlra; qnra). qne; qlra.
      * apply qltb_false. assert (0 <= m * (X c q - X c q')) by (assert (0 <= X c q - X c q') by qlra; qnra). qlra.
Qed.

(** ** Detections between pieces of different lines *)
Variable R : Qc.
Hypothesis NB : calm c R.
Notation n := (length (c_ins c)).

(** What remains of the pieces of [o]. *)
Record places (o : operation) (Y Z : event) (o' : operation) : Prop := {
  pl_goes : goes c R o o';
  pl_line : op_line o' = op_line o;
  pl_S : forall x, left_of o x -> S' o' x = S' o x;
  pl_h : forall x t, left_of o x -> h o' x t = h o x t;
  pl_k : forall x, left_of o x -> k o' x = k o x;
  pl_E : forall x, left_of o x -> x <> Y -> x <> Z -> E' o' x = E' o x;
  pl_EY : E' o' Y = E' o Y \/ R <= E' o' Y;
  pl_EZ : E' o' Z = E' o Z \/ R <= E' o' Z }.

Lemma places_refl o Y Z : base c o -> places o Y Z o.
Proof. intros B. constructor; auto. apply (goes_refl c C0 R); auto. Qed.
Lemma places_trans o Y Z o1 o2 : places o Y Z o1 -> places o1 Y Z o2 -> places o Y Z o2.
Proof.
  intros [A1 A2 A3 A4 A5 A6 A7 A8] [B1 B2 B3 B4 B5 B6 B7 B8].
  assert (L : forall x, left_of o x -> left_of o1 x) by (intros x; apply (later_left c C0 R); apply A1).
  constructor.
  - apply (goes_trans c C0 R o o1); auto.
  - congruence.
  - intros x Lx. rewrite B3, A3; auto.
  - intros x t Lx. rewrite B4, A4; auto.
  - intros x Lx. rewrite B5, A5; auto.
  - intros x Lx N1 N2. rewrite B6, A6; auto.
  - destruct B7 as [->|]; auto.
  - destruct B8 as [->|]; auto.
Qed.
Lemma places_divide Y Z r r1 l m mid : base c (rg_op r) -> left_of (rg_op r) Y -> left_of (rg_op r) Z -> Y <> Z ->
  (l = Y /\ m = Z) \/ (l = Z /\ m = Y) -> cut c (rg_op r) l m mid ->
  registry_divide r l mid = Some r1 ->
  places (rg_op r) Y Z (rg_op r1) /\ E' (rg_op r1) l = X c mid /\ E' (rg_op r1) m = E' (rg_op r) m.
Proof.
  intros B LY LZ N P Cu D. pose proof (proj1 B) as W.
  assert (L : left_of (rg_op r) l /\ left_of (rg_op r) m /\ l <> m) by (destruct P as [[-> ->]|[-> ->]]; auto).
  destruct L as (Ll & Lm & Nlm).
  pose proof (cut_late c R NB _ l m mid W Ll Lm Nlm Cu) as Lr.
  destruct (divide_goes c C0 R NB r l m mid r1 B Ll Lm Nlm Cu D) as [G1 N1].
  assert (F : forall x, left_of (rg_op r) x -> S' (rg_op r1) x = S' (rg_op r) x /\ (forall t, h (rg_op r1) x t = h (rg_op r) x t)
     /\ k (rg_op r1) x = k (rg_op r) x /\ E' (rg_op r1) x = if (x =? l)%nat then X c mid else E' (rg_op r) x).
  { intros x. apply (numbers_at c); auto. }
  assert (El : E' (rg_op r1) l = X c mid) by (destruct (F l Ll) as (_ & _ & _ & ->); rewrite Nat.eqb_refl; auto).
  assert (Eo : forall x, left_of (rg_op r) x -> x <> l -> E' (rg_op r1) x = E' (rg_op r) x).
  { intros x Lx Nx. destruct (F x Lx) as (_ & _ & _ & ->). rewrite (proj2 (Nat.eqb_neq x l)); auto. }
  split; [|split; auto]. constructor; auto.
  - revert D. rewrite registry_divide_eq.
    destruct (divide_divided (rg_op r) l mid (w_linked c _ W) Ll) as (o' & Q & D). rewrite Q. intros [= <-]. apply (d_line _ _ _ _ D).
  - intros x Lx. apply F; auto.
  - intros x t Lx. apply F; auto.
  - intros x Lx. apply F; auto.
  - intros x Lx N1' N2'. apply Eo; auto. destruct P as [[-> ->]|[-> ->]]; auto.
  - destruct P as [[-> ->]|[-> ->]]; [right; rewrite El; auto|left; auto].
  - destruct P as [[-> ->]|[-> ->]]; [left; auto|right; rewrite El; auto].
Qed.

(** A checked division that merges nothing. *)
Definition unmerged (shape : tree_shape) (index : nat) (o1 : operation) (Z : event) (mid : point) : Prop :=
  forall z, registry_above shape index o1 Z = Some z -> pt o1 z = pt o1 Z -> to_event_end o1 z <> mid.
Definition fused (r r' : registry) : Prop :=
  exists i j, i <> j /\ (i < n)%nat /\ (j < n)%nat /\ mins r' = merged (mins r) i j.

Lemma checking_result shape index r r' Y Z mid : base c (rg_op r) -> left_of (rg_op r) Y -> left_of (rg_op r) Z -> Y <> Z ->
  cut c (rg_op r) Z Y mid -> divide_checking_above shape index r Z mid = Some r' ->
  fused r r' \/ (places (rg_op r) Y Z (rg_op r') /\ E' (rg_op r') Z = X c mid /\ unmerged shape index (rg_op r) Z mid).
Proof.
  intros B LY LZ N Cu Q.
  pose proof (proj1 B) as W. pose proof (w_linked c _ W) as Kk.
  assert (Ln : forall x, In x (op_line (rg_op r)) -> left_of (rg_op r) x) by (destruct B as (_ & _ & ?); auto).
  unfold divide_checking_above in Q. unfold unmerged.
  destruct (registry_above shape index (rg_op r) Z) as [x|] eqn:Ab.
  2: { right. destruct (places_divide Y Z r r' Z Y mid) as (P1 & P2 & P3); auto. split; auto. split; auto. discriminate. }
  destruct (_ && _) eqn:Cd.
  2: { right. destruct (places_divide Y Z r r' Z Y mid) as (P1 & P2 & P3); auto. split; auto. split; auto.
       intros z [= <-] Pz Ez. rewrite Pz, Ez in Cd. rewrite !(proj2 (point_eq_true _ _) eq_refl) in Cd. discriminate. }
  destruct (registry_remove shape (S index) (rg_op r) x) as [o1|] eqn:Rm; [|discriminate].
  pose proof (base_first c C0 _ B) as F0.
  apply registry_remove_line in Rm; auto. destruct Rm as (line & -> & I).
  destruct (registry_divide (set_op r (set_line (rg_op r) line)) Z mid) as [r1|] eqn:Q1; [|discriminate].
  injection Q as <-. apply registry_above_In in Ab; auto.
  apply divide_twin in Q1; [|apply (linked_line _ _ Kk)|exact LZ]. destruct Q1 as (A & _ & Cc). left.
  exists (sid (rg_op r) Z), (sid (rg_op r) x). pose proof (Ln x Ab) as Lx.
  apply andb_true_iff in Cd. destruct Cd as [Q1 Q2]. apply point_eq_true in Q1. apply point_eq_true in Q2.
  assert (ES : S' (rg_op r) x = S' (rg_op r) Z) by (unfold SX; congruence).
  assert (EE : E' (rg_op r) x = X c mid) by (unfold EX, to_event_end in *; congruence).
  destruct Cu as [Ci Cl _ CS CE _ _ _].
  split; [|split; [apply (w_sid c _ W); auto|split; [apply (w_sid c _ W); auto|]]].
  - intros Es. assert (Nx : Z <> x) by (intros E; rewrite <- E in EE; rewrite EE in CE; qlra).
    destruct (w_disj c _ W Z x LZ Lx Nx Es) as [D|D]; qlra.
  - rewrite merge_merged, A. cbn [rg_op set_op] in Cc. rewrite !Cc; auto.
Qed.

Lemma cross_result shape index r r' Y Z : base c (rg_op r) -> left_of (rg_op r) Y -> left_of (rg_op r) Z -> Y <> Z ->
  (exists t, dd c (rg_op r) Y Z t <> 0) -> registry_detect shape index r Y Z = Some r' ->
  fused r r' \/ (places (rg_op r) Y Z (rg_op r') /\
    (E' (rg_op r') Z = E' (rg_op r) Z \/ exists mid r1, cut c (rg_op r) Z Y mid /\ E' (rg_op r') Z = X c mid
       /\ places (rg_op r) Y Z (rg_op r1) /\ E' (rg_op r1) Z = E' (rg_op r) Z
       /\ unmerged shape index (rg_op r1) Z mid)).
Proof.
  intros B LY LZ N (t0 & Nt). pose proof (proj1 B) as W.
  pose proof (w_lt c _ W Y LY) as LtY. pose proof (w_lt c _ W Z LZ) as LtZ.
  rewrite (detect_in_numbers c G shape index r Y Z); auto. unfold detect_numbers. cbv zeta.
  set (o := rg_op r) in *. set (d := dd c o Y Z) in *. set (s := ds c o Y Z).
  set (a := S' o Y) in *. set (b := E' o Y) in *. set (u := S' o Z) in *. set (v := E' o Z) in *.
  assert (Triv : Some r = Some r' -> fused r r' \/ (places o Y Z (rg_op r') /\
    (E' (rg_op r') Z = v \/ exists mid r1, cut c o Z Y mid /\ E' (rg_op r') Z = X c mid
       /\ places o Y Z (rg_op r1) /\ E' (rg_op r1) Z = v /\ unmerged shape index (rg_op r1) Z mid))).
  { intros [= <-]. right. split; auto. apply places_refl; auto. }
  assert (Chk : forall mid, cut c o Z Y mid -> divide_checking_above shape index r Z mid = Some r' ->
    fused r r' \/ (places o Y Z (rg_op r') /\
    (E' (rg_op r') Z = v \/ exists mid r1, cut c o Z Y mid /\ E' (rg_op r') Z = X c mid
       /\ places o Y Z (rg_op r1) /\ E' (rg_op r1) Z = v /\ unmerged shape index (rg_op r1) Z mid))).
  { intros mid Cu Q. destruct (checking_result shape index r r' Y Z mid) as [F|(P1 & P2 & P3)]; auto. right. split; auto.
    right. exists mid, r. split; auto. split; auto. split; [apply places_refl; auto|]. auto. }
  assert (Div : forall mid, cut c o Y Z mid -> registry_divide r Y mid = Some r' ->
    fused r r' \/ (places o Y Z (rg_op r') /\
    (E' (rg_op r') Z = v \/ exists mid r1, cut c o Z Y mid /\ E' (rg_op r') Z = X c mid
       /\ places o Y Z (rg_op r1) /\ E' (rg_op r1) Z = v /\ unmerged shape index (rg_op r1) Z mid))).
  { intros mid Cu Q. destruct (places_divide Y Z r r' Y Z mid) as (P1 & P2 & P3); auto. }
  destruct (orientation_is (sgn (d u)) (sgn (d v))) eqn:Q1.
  { destruct (orientation_is (sgn (d u)) COLLINEAR) eqn:Q2; auto.
    exfalso. apply Nt. apply sgn_is_col in Q2.
    assert (d v = 0).
    { apply sgn_is_col. rewrite (sgn_zero (d u) Q2) in Q1. destruct (sgn (d v)); auto. }
    apply (aff_zero d s u v); auto; [|intro E; rewrite E in LtZ; qlra].
    intros x y. exact (sub_affine c o Y Z x y). }
  destruct (orientation_is (sgn (d u)) COLLINEAR) eqn:Q2.
  { apply sgn_is_col in Q2. destruct (qltb_spec a u) as [A|A]; cbn [andb]; auto.
    destruct (qltb_spec u b) as [A'|A']; auto. apply Div. apply (cut_at c r Y Z B LY LZ); auto. }
  destruct (orientation_is (sgn (d v)) COLLINEAR) eqn:Q3.
  { apply sgn_is_col in Q3. destruct (qltb_spec a v) as [A|A]; cbn [andb]; auto.
    destruct (qltb_spec v b) as [A'|A']; auto. apply Div. apply (cut_at c r Y Z B LY LZ); auto. }
  destruct (orientation_is (sgn (d a)) COLLINEAR) eqn:Q4.
  { apply sgn_is_col in Q4. destruct (orientation_is (sgn (d b)) COLLINEAR); [discriminate|].
    destruct (qltb_spec u a) as [A|A]; cbn [andb]; auto.
    destruct (qltb_spec a v) as [A'|A']; auto. apply Chk. apply (cut_at c r Y Z B LY LZ); auto. }
  destruct (orientation_is (sgn (d b)) COLLINEAR) eqn:Q5.
  { apply sgn_is_col in Q5. destruct (qltb_spec u b) as [A|A]; cbn [andb]; auto.
    destruct (qltb_spec b v) as [A'|A']; auto. apply Chk. apply (cut_at c r Y Z B LY LZ); auto. }
  destruct (orientation_is (sgn (d a)) (sgn (d b))) eqn:Q6; cbn [negb]; auto.
  set (x := to_segments_intersection _ _ _ _).
  destruct (crossing_facts c G r Y Z B LY LZ (cross_signs c r Y Z Q1 Q2 Q3) (cross_signs' c r Y Z Q6 Q4 Q5))
    as (Ix & A1 & A2 & A3 & A4 & NK & P1 & P2). fold o in Ix, A1, A2, A3, A4, P1, P2. fold x in Ix, A1, A2, A3, A4, P1, P2.
  destruct (registry_divide r Y x) as [r1|] eqn:D; [|discriminate].
  destruct (cross_again c R r Y Z B LY LZ r1 x) as [C1 C2]; auto.
  destruct (divide_goes c C0 R NB r Y Z x r1) as [G1 N1]; auto. intros Q.
  specialize (C2 G1 N1). pose proof G1 as (B1 & La & Il).
  destruct (divide_twin r Y x r1 (w_linked c _ W) LY D) as (M1 & _ & _).
  destruct (places_divide Y Z r r1 Y Z x) as (T1 & T2 & T3); auto.
  assert (LY1 : left_of (rg_op r1) Y) by (apply (later_left c C0 R o); auto).
  assert (LZ1 : left_of (rg_op r1) Z) by (apply (later_left c C0 R o); auto).
  destruct (checking_result shape index r1 r' Y Z x) as [F|(U1 & U2 & U3)]; auto.
  - left. unfold fused. rewrite <- M1. exact F.
  - right. split; [apply (places_trans o Y Z (rg_op r1)); auto|]. right. exists x, r1. split; [constructor; auto; qlra|].
    split; auto.
Qed.
End Nine.
