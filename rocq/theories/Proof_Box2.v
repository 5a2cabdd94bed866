From Coq Require Import QArith Qcanon Bool List ZArith Lia.
From Verif Require Import QcTac Model_Base Model_Box Spec_Base Proof_Box.
Import ListNotations.
Local Open Scope Qc_scope.

Lemma overlaps_spec a b : solid_box a -> solid_box b ->
  box_overlaps a b = true <-> box_relation_spec OVERLAP a b.
Proof.
  intros Ha Hb.
  assert (Va : valid_box a) by (box_destr; split; qlra).
  assert (Vb : valid_box b) by (box_destr; split; qlra).
  unfold box_relation_spec. spec_bounds.
  clear Va Vb. unfold box_overlaps. box_destr.
  repeat match goal with
  | |- context [qltb ?a ?b] => destruct (qltb_spec a b); try (exfalso; qlra)
  end; cbn;
  (split; [intros; try discriminate; repeat split; qlra
          | intros (? & K & L); try reflexivity; exfalso;
            first [qlra | apply K; repeat split; qlra
                  |apply L; repeat split; qlra]]).
Qed.

(** Filters. *)
Lemma area_filters_complementary a b :
  do_boxes_have_no_common_area a b = negb (do_boxes_have_common_area a b).
Proof.
  unfold do_boxes_have_no_common_area, do_boxes_have_common_area.
  destruct (box_disjoint_with a b), (box_touches a b); reflexivity.
Qed.

Lemma continuum_filters_complementary a b :
  do_boxes_have_no_common_continuum a b
  = negb (do_boxes_have_common_continuum a b).
Proof.
  unfold do_boxes_have_no_common_continuum, do_boxes_have_common_continuum.
  destruct (box_disjoint_with a b), (box_touches a b),
    (qeqb (min_y a) (max_y b)), (qeqb (min_y b) (max_y a)),
    (qeqb (min_x a) (max_x b)), (qeqb (min_x b) (max_x a)); reflexivity.
Qed.

Lemma area_filter_spec a b : solid_box a -> solid_box b ->
  do_boxes_have_common_area a b = true <->
  exists p, inside_box a p /\ inside_box b p.
Proof.
  intros Ha Hb.
  assert (Va : valid_box a) by (box_destr; split; qlra).
  assert (Vb : valid_box b) by (box_destr; split; qlra).
  unfold do_boxes_have_common_area.
  pose proof (disjoint_with_spec a b Va Vb) as D.
  pose proof (touches_spec a b Ha Hb) as T.
  rewrite andb_true_iff, !negb_true_iff, <- !not_true_iff_false, D, T.
  rewrite common_iff, common_inside_iff by auto. split.
  - intros [K L].
    destruct (Qclt_le_dec (min_x a) (max_x b)),
      (Qclt_le_dec (min_x b) (max_x a)), (Qclt_le_dec (min_y a) (max_y b)),
      (Qclt_le_dec (min_y b) (max_y a)); try tauto;
    exfalso; apply K; intros K'; apply L; split; auto; intro; qlra.
  - intros M. split; [|tauto]. intros K. apply K. repeat split; qlra.
Qed.

(** Two boxes that share two different points pass the continuum filter. *)
Lemma continuum_filter_complete a b :
  (exists p q, p <> q /\ in_box a p /\ in_box b p /\ in_box a q /\ in_box b q) ->
  do_boxes_have_common_continuum a b = true.
Proof.
  intros ([x y] & [x' y'] & N & K). box_destr.
  assert (x <> x' \/ y <> y') as M.
  { destruct (Qc_eq_dec x x'); [right|left]; auto. intros ->; subst; auto. }
  unfold do_boxes_have_common_continuum, box_disjoint_with, box_touches.
  cbn [min_x max_x min_y max_y].
  repeat match goal with
  | |- context [qltb ?a ?b] => destruct (qltb_spec a b); [exfalso; qlra|]
  end. cbn [orb negb andb].
  rewrite orb_true_iff, orb_true_iff, !andb_true_iff, !negb_true_iff, !qeqb_false.
  destruct M as [M|M]; apply Qc_neq in M; [right|left; right];
    (split; intro; destruct M; qlra).
Qed.

Lemma continuum_filter_spec a b : solid_box a -> solid_box b ->
  do_boxes_have_common_continuum a b = true <->
  exists p q, p <> q /\ in_box a p /\ in_box b p /\ in_box a q /\ in_box b q.
Proof.
  intros Ha Hb.
  assert (Va : valid_box a) by (box_destr; split; qlra).
  assert (Vb : valid_box b) by (box_destr; split; qlra).
  split; [|apply continuum_filter_complete].
  intros K.
  assert (C : exists p, in_box a p /\ in_box b p).
  { rewrite common_iff by auto.
    unfold do_boxes_have_common_continuum in K.
    apply andb_true_iff in K as [K _]. apply negb_true_iff in K.
    unfold box_disjoint_with in K. rewrite !orb_false_iff in K.
    destruct K as [[[]]]; qb; repeat split; auto. }
  rewrite common_iff in C by auto.
  assert ((min_x a < max_x b /\ min_x b < max_x a) \/
          (min_y a < max_y b /\ min_y b < max_y a)) as M.
  { unfold do_boxes_have_common_continuum in K.
    apply andb_true_iff in K as [_ K].
    rewrite !orb_true_iff, !andb_true_iff, !negb_true_iff, !qeqb_false in K.
    destruct K as [[K|[]]|[]].
    - destruct (Qclt_le_dec (min_x a) (max_x b)), (Qclt_le_dec (min_x b) (max_x a)); auto;
      exfalso; rewrite <- not_true_iff_false in K; apply K;
      unfold box_touches;
      rewrite !orb_true_iff, !andb_true_iff, !orb_true_iff, !qleb_true, !qeqb_true;
      left; (split; [|tauto]); unfold solid_box in *; first [left; qlra|right; qlra].
    - qne; right; split; qlra.
    - qne; left; split; qlra. }
  destruct C as [C1 C2]. box_destr.
  destruct (max_le u3 u u4 u0) as (x & ?); try qlra.
  destruct (max_le u5 u1 u6 u2) as (y & ?); try qlra.
  destruct M as [M|M].
  - destruct (max_lt u3 u u4 u0) as (x1 & ?); try qlra.
    destruct (max_lt u3 u x1 x1) as (x2 & ?); try qlra.
    exists (Pt x1 y), (Pt x2 y). split; [intros [=]; qlra|cbn; repeat split; qlra].
  - destruct (max_lt u5 u1 u6 u2) as (x1 & ?); try qlra.
    destruct (max_lt u5 u1 x1 x1) as (x2 & ?); try qlra.
    exists (Pt x x1), (Pt x x2). split; [intros [=]; qlra|cbn; repeat split; qlra].
Qed.

(** Merging and bounding boxes. *)
Lemma merge_step_lub acc b :
  box_subset acc (merge_step acc b) /\ box_subset b (merge_step acc b)
  /\ forall c, valid_box acc -> valid_box b ->
       box_subset acc c -> box_subset b c -> box_subset (merge_step acc b) c.
Proof.
  split; [|split].
  - intros [x y]; unfold merge_step; box_destr; intros.
    repeat qcase; repeat split; qlra.
  - intros [x y]; unfold merge_step; box_destr; intros.
    repeat qcase; repeat split; qlra.
  - intros c Ha Hb K L. apply subset_iff in K, L; auto.
    intros [x y]; unfold merge_step; box_destr.
    repeat qcase; intros; repeat split; qlra.
Qed.

Lemma merge_step_valid acc b : valid_box acc -> valid_box b ->
  valid_box (merge_step acc b).
Proof. unfold merge_step; box_destr; intros; repeat qcase; split; qlra. Qed.

Lemma merge_boxes_lub first rest :
  valid_box first -> Forall valid_box rest ->
  valid_box (merge_boxes first rest)
  /\ (forall b, In b (first :: rest) -> box_subset b (merge_boxes first rest))
  /\ (forall c, (forall b, In b (first :: rest) -> box_subset b c) ->
        box_subset (merge_boxes first rest) c).
Proof.
  unfold merge_boxes. revert first. induction rest as [|b rest IH]; intros first Hf Hr.
  - cbn. split; [|split]; auto. intros b [->|[]] p; auto.
  - inversion Hr; subst. cbn.
    destruct (merge_step_lub first b) as (A & B & C).
    destruct (IH (merge_step first b)) as (D & E & F); auto using merge_step_valid.
    split; [|split]; auto.
    + intros b' [->|[->|I]] p Hp.
      * apply (E (merge_step b' b)); [left; auto|]. apply A, Hp.
      * apply (E (merge_step first b')); [left; auto|]. apply B, Hp.
      * apply (E b'); [right; auto|auto].
    + intros c K. apply F. intros b' [<-|I]; [apply C; auto|]; apply K; cbn; auto.
Qed.
