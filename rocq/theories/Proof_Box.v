From Coq Require Import QArith Qcanon Bool List ZArith Lia.
From Verif Require Import QcTac Model_Base Model_Box Spec_Base.
Import ListNotations.
Local Open Scope Qc_scope.

Ltac box_destr :=
  repeat match goal with b : box |- _ =>
    let n := fresh "u" in let x := fresh "u" in
    let m := fresh "u" in let y := fresh "u" in destruct b as [n x m y] end;
  unfold valid_box, solid_box, in_box, inside_box in *;
  cbn [min_x max_x min_y max_y px py] in *.

(** Split on the condition at the head of [t], pruning impossible branches. *)
Ltac qhead t :=
  lazymatch t with
  | (if qltb ?a ?b then _ else _) => destruct (qltb_spec a b)
  | (if qleb ?a ?b then _ else _) => destruct (qleb_spec a b)
  | (if qeqb ?a ?b then _ else _) =>
      let H := fresh in destruct (qeqb_spec a b) as [|H];
      [|apply Qc_neq in H; destruct H]
  end; try (exfalso; qlra).

Lemma box_relate_total a b :
  valid_box a -> valid_box b -> box_relate_to a b <> None.
Proof.
  box_destr. intros. unfold box_relate_to. cbn [min_x max_x min_y max_y].
  repeat match goal with |- ?t <> _ => qhead t end; try discriminate.
Qed.

Lemma box_relate_complement a b r :
  valid_box a -> valid_box b ->
  box_relate_to a b = Some r -> box_relate_to b a = Some (complement r).
Proof.
  box_destr. intros Ha Hb. unfold box_relate_to. cbn [min_x max_x min_y max_y].
  repeat match goal with |- ?t = _ -> _ => qhead t end;
    intros [= <-]; cbn -[qltb qeqb qleb];
    repeat match goal with |- ?t = _ => qhead t end; reflexivity.
Qed.

Definition mid (a b : Qc) : Qc := (a + b) * (1 / (1 + 1)).
Lemma half_eq : 1 / (1 + 1) + 1 / (1 + 1) = 1.
Proof. apply Qc_is_canon; reflexivity. Qed.
Lemma mid_lt a b : a < b -> a < mid a b /\ mid a b < b.
Proof.
  unfold mid. generalize half_eq. generalize (1 / (1 + 1)). intros h Hh H.
  split; qnra.
Qed.
Lemma lt_mid a b : a < b -> exists m, a < m /\ m < b.
Proof. exists (mid a b). apply mid_lt, H. Qed.

Lemma max_lt a b c d : a < c -> a < d -> b < c -> b < d ->
  exists m, (a < m /\ b < m) /\ (m < c /\ m < d).
Proof.
  intros. destruct (Qclt_le_dec a b); destruct (Qclt_le_dec c d);
  [destruct (lt_mid b c) as [m []]|destruct (lt_mid b d) as [m []]
  |destruct (lt_mid a c) as [m []]|destruct (lt_mid a d) as [m []]];
  auto; exists m; repeat split; qlra.
Qed.

Lemma max_le a b c d : a <= c -> a <= d -> b <= c -> b <= d ->
  exists m, (a <= m /\ b <= m) /\ (m <= c /\ m <= d).
Proof.
  intros. destruct (Qclt_le_dec a b); [exists b|exists a]; repeat split; qlra.
Qed.

(** Bounds-level readings of the point-level notions. *)
Lemma common_iff a b : valid_box a -> valid_box b ->
  (exists p, in_box a p /\ in_box b p) <->
  ((min_x a <= max_x b /\ min_x b <= max_x a)
   /\ (min_y a <= max_y b /\ min_y b <= max_y a)).
Proof.
  box_destr. intros. split.
  - intros ([x y] & ? & ?); cbn in *. repeat split; qlra.
  - intros. destruct (max_le u3 u u4 u0) as (x & ?); try qlra.
    destruct (max_le u5 u1 u6 u2) as (y & ?); try qlra.
    exists (Pt x y); cbn; repeat split; qlra.
Qed.

Lemma common_inside_iff a b : solid_box a -> solid_box b ->
  (exists p, inside_box a p /\ inside_box b p) <->
  ((min_x a < max_x b /\ min_x b < max_x a)
   /\ (min_y a < max_y b /\ min_y b < max_y a)).
Proof.
  box_destr. intros. split.
  - intros ([x y] & ? & ?); cbn in *. repeat split; qlra.
  - intros. destruct (max_lt u3 u u4 u0) as (x & ?); try qlra.
    destruct (max_lt u5 u1 u6 u2) as (y & ?); try qlra.
    exists (Pt x y); cbn; repeat split; qlra.
Qed.

Lemma subset_iff a b : valid_box a ->
  box_subset a b <->
  ((min_x b <= min_x a /\ max_x a <= max_x b)
   /\ (min_y b <= min_y a /\ max_y a <= max_y b)).
Proof.
  unfold box_subset; box_destr. intros. split.
  - intros K. pose proof (K (Pt u3 u5)) as K1. pose proof (K (Pt u4 u6)) as K2.
    cbn in *. destruct K1 as [[][]]; [repeat split; qlra|].
    destruct K2 as [[][]]; [repeat split; qlra|]. repeat split; qlra.
  - intros ? [x y]; cbn. intros. repeat split; qlra.
Qed.

Lemma inner_subset_iff a b : valid_box a ->
  box_inner_subset a b <->
  ((min_x b < min_x a /\ max_x a < max_x b)
   /\ (min_y b < min_y a /\ max_y a < max_y b)).
Proof.
  unfold box_inner_subset; box_destr. intros. split.
  - intros K. pose proof (K (Pt u3 u5)) as K1. pose proof (K (Pt u4 u6)) as K2.
    cbn in *. destruct K1 as [[][]]; [repeat split; qlra|].
    destruct K2 as [[][]]; [repeat split; qlra|]. repeat split; qlra.
  - intros ? [x y]; cbn. intros. repeat split; qlra.
Qed.

Lemma same_iff a b : valid_box a -> valid_box b ->
  (forall p, in_box a p <-> in_box b p) <-> a = b.
Proof.
  intros Ha Hb. split; [|intros ->; tauto].
  intros K.
  assert (K1 : box_subset a b) by (intros p; apply K).
  assert (K2 : box_subset b a) by (intros p; apply K).
  apply subset_iff in K1; auto. apply subset_iff in K2; auto.
  box_destr. f_equal; qlra.
Qed.

(** Predicate methods in terms of bounds. *)
Ltac predicate_bounds :=
  box_destr; cbn [min_x max_x min_y max_y];
  repeat match goal with
  | |- context [qltb ?a ?b] => destruct (qltb_spec a b)
  | |- context [qleb ?a ?b] => destruct (qleb_spec a b)
  | |- context [qeqb ?a ?b] =>
      let H := fresh in destruct (qeqb_spec a b) as [|H];
      [|apply Qc_neq in H; destruct H]
  end; cbn;
  first [ split; [intros; try discriminate; repeat split; qlra
                 | intros; try reflexivity; exfalso; qlra ] ].

Lemma disjoint_with_spec a b : valid_box a -> valid_box b ->
  box_disjoint_with a b = true <-> ~ exists p, in_box a p /\ in_box b p.
Proof.
  intros Ha Hb. rewrite common_iff by auto.
  unfold box_disjoint_with. rewrite !orb_true_iff, !qltb_true. split.
  - intros K L. destruct K as [[[K|K]|K]|K]; qlra.
  - intros K.
    destruct (Qclt_le_dec (max_x a) (min_x b)); auto.
    destruct (Qclt_le_dec (max_y a) (min_y b)); auto.
    destruct (Qclt_le_dec (max_x b) (min_x a)); auto.
    destruct (Qclt_le_dec (max_y b) (min_y a)); auto.
    exfalso; apply K; auto.
Qed.

Lemma covers_spec a b : valid_box b ->
  box_covers a b = true <-> box_inner_subset b a.
Proof.
  intros Hb. rewrite inner_subset_iff by auto.
  unfold box_covers. rewrite !andb_true_iff, !qltb_true. intuition.
Qed.

Lemma within_spec a b : valid_box a ->
  box_within a b = true <-> box_inner_subset a b.
Proof.
  intros Hb. rewrite inner_subset_iff by auto.
  unfold box_within. rewrite !andb_true_iff, !qltb_true. intuition.
Qed.

Lemma equals_to_spec a b : valid_box a -> valid_box b ->
  box_equals_to a b = true <-> forall p, in_box a p <-> in_box b p.
Proof.
  intros Ha Hb. rewrite same_iff by auto.
  unfold box_equals_to. rewrite !andb_true_iff, !qeqb_true.
  destruct a, b; cbn; split; [intros [[[]]]; congruence|intros [= ]; auto].
Qed.

Lemma box_eq_spec a b : box_eq a b = true <-> a = b.
Proof.
  unfold box_eq. rewrite !andb_true_iff, !qeqb_true.
  destruct a, b; cbn; split; [intros [[[]]]; congruence|intros [= ]; auto].
Qed.

Lemma is_valid_spec a : box_is_valid a = true <-> exists p, in_box a p.
Proof.
  unfold box_is_valid. rewrite andb_true_iff, !qleb_true. split.
  - intros []. exists (Pt (min_x a) (min_y a)). box_destr; repeat split; qlra.
  - intros ([x y] & K). box_destr. split; qlra.
Qed.

Lemma touches_spec a b : solid_box a -> solid_box b ->
  box_touches a b = true <->
  (exists p, in_box a p /\ in_box b p)
  /\ ~ exists p, inside_box a p /\ inside_box b p.
Proof.
  intros Ha Hb.
  rewrite common_iff, common_inside_iff by (auto; box_destr; split; qlra).
  unfold box_touches.
  rewrite !orb_true_iff, !andb_true_iff, !orb_true_iff, !qleb_true, !qeqb_true.
  unfold solid_box in *. split.
  - intros K. split.
    + destruct K as [[[K|K] L]|[L [K|K]]]; repeat split; qlra.
    + intros M. destruct K as [[[K|K] L]|[L [K|K]]]; qlra.
  - intros [[[]] K].
    destruct (Qc_eq_dec (min_x a) (max_x b)); [left; auto|].
    destruct (Qc_eq_dec (max_x a) (min_x b)); [left; auto|].
    right. split; auto.
    destruct (Qc_eq_dec (min_y a) (max_y b)); [left; auto|].
    destruct (Qc_eq_dec (min_y b) (max_y a)); [right; auto|].
    exfalso; apply K. qne. repeat split; qlra.
Qed.

Lemma encloses_spec a b : valid_box a -> valid_box b ->
  box_encloses a b = true <->
  box_subset b a /\ ~ box_subset a b /\ ~ box_inner_subset b a.
Proof.
  intros Ha Hb. rewrite !subset_iff, inner_subset_iff by auto.
  unfold box_encloses. box_destr.
  repeat match goal with
  | |- context [qeqb ?a ?b] =>
      let H := fresh in destruct (qeqb_spec a b) as [|H];
      [|destruct (qltb_spec b a); [|apply Qc_neq in H; destruct H; try (exfalso; qlra)];
        destruct (qltb_spec a b); try (exfalso; qlra)]
  end; cbn;
  (split; [intros; try discriminate; repeat split; qlra
          | intros [? []]; try reflexivity; exfalso;
            first [qlra | match goal with K : ~ _ |- _ => apply K; repeat split; qlra end]]).
Qed.

Lemma qeqb_sym a b : qeqb a b = qeqb b a.
Proof. destruct (qeqb_spec a b), (qeqb_spec b a); congruence. Qed.

Lemma enclosed_by_encloses a b : box_enclosed_by a b = box_encloses b a.
Proof.
  unfold box_enclosed_by, box_encloses.
  rewrite (qeqb_sym (max_x b)), (qeqb_sym (max_y b)), (qeqb_sym (min_x b)),
    (qeqb_sym (min_y b)). reflexivity.
Qed.

Lemma enclosed_by_spec a b : valid_box a -> valid_box b ->
  box_enclosed_by a b = true <->
  box_subset a b /\ ~ box_subset b a /\ ~ box_inner_subset a b.
Proof. intros. rewrite enclosed_by_encloses. apply encloses_spec; auto. Qed.

Lemma relate_sound a b r : solid_box a -> solid_box b ->
  box_relate_to a b = Some r -> box_relation_spec r a b.
Proof.
  intros Ha Hb.
  assert (Va : valid_box a) by (box_destr; split; qlra).
  assert (Vb : valid_box b) by (box_destr; split; qlra).
  intros K.
  enough (match r with
  | EQUAL => a = b
  | DISJOINT => ~ ((min_x a <= max_x b /\ min_x b <= max_x a)
   /\ (min_y a <= max_y b /\ min_y b <= max_y a))
  | TOUCH => ((min_x a <= max_x b /\ min_x b <= max_x a)
   /\ (min_y a <= max_y b /\ min_y b <= max_y a))
             /\ ~ ((min_x a < max_x b /\ min_x b < max_x a)
   /\ (min_y a < max_y b /\ min_y b < max_y a))
  | COVER => ((min_x a < min_x b /\ max_x b < max_x a)
   /\ (min_y a < min_y b /\ max_y b < max_y a))
  | WITHIN => ((min_x b < min_x a /\ max_x a < max_x b)
   /\ (min_y b < min_y a /\ max_y a < max_y b))
  | ENCLOSES => 
  ((min_x a <= min_x b /\ max_x b <= max_x a)
   /\ (min_y a <= min_y b /\ max_y b <= max_y a)) /\ ~ 
  ((min_x b <= min_x a /\ max_x a <= max_x b)
   /\ (min_y b <= min_y a /\ max_y a <= max_y b)) /\ ~ ((min_x a < min_x b /\ max_x b < max_x a)
   /\ (min_y a < min_y b /\ max_y b < max_y a))
  | ENCLOSED =>
  ((min_x b <= min_x a /\ max_x a <= max_x b)
   /\ (min_y b <= min_y a /\ max_y a <= max_y b)) /\
  ~ ((min_x a <= min_x b /\ max_x b <= max_x a)
   /\ (min_y a <= min_y b /\ max_y b <= max_y a)) /\
   ~ ((min_x b < min_x a /\ max_x a < max_x b)
   /\ (min_y b < min_y a /\ max_y a < max_y b))
  | OVERLAP => ((min_x a < max_x b /\ min_x b < max_x a)
   /\ (min_y a < max_y b /\ min_y b < max_y a)) /\
  ~ ((min_x b <= min_x a /\ max_x a <= max_x b)
   /\ (min_y b <= min_y a /\ max_y a <= max_y b)) /\
  ~ ((min_x a <= min_x b /\ max_x b <= max_x a)
   /\ (min_y a <= min_y b /\ max_y b <= max_y a))
  | _ => False end) as G.
  { destruct r; unfold box_relation_spec; try exact G;
    rewrite ?same_iff, ?common_iff, ?common_inside_iff, ?subset_iff,
      ?inner_subset_iff by auto; exact G. }
  clear Va Vb. revert K. box_destr.
  unfold box_relate_to. cbn [min_x max_x min_y max_y].
  repeat match goal with |- ?t = _ -> _ => qhead t end;
    intros [= <-]; [f_equal; qlra| ..]; repeat split; qlra.
Qed.

Ltac spec_bounds :=
  rewrite ?same_iff, ?common_iff, ?common_inside_iff, ?subset_iff,
      ?inner_subset_iff in * by auto.

Lemma relation_spec_exclusive a b r r' : solid_box a -> solid_box b ->
  box_relation_spec r a b -> box_relation_spec r' a b -> r = r'.
Proof.
  intros Ha Hb.
  assert (Va : valid_box a) by (box_destr; split; qlra).
  assert (Vb : valid_box b) by (box_destr; split; qlra).
  destruct r, r'; unfold box_relation_spec; spec_bounds; intros K L;
    try reflexivity; try contradiction; exfalso;
    subst; box_destr;
    repeat match goal with H : _ /\ _ |- _ => destruct H end;
    first [ qlra
          | match goal with H : ~ _ |- _ => apply H; repeat split; qlra end ].
Qed.

Lemma relate_spec a b r : solid_box a -> solid_box b ->
  box_relate_to a b = Some r <-> box_relation_spec r a b.
Proof.
  intros Ha Hb.
  assert (Va : valid_box a) by (box_destr; split; qlra).
  assert (Vb : valid_box b) by (box_destr; split; qlra).
  split; [apply relate_sound; auto|]. intros K.
  destruct (box_relate_to a b) as [r'|] eqn:E.
  - f_equal. apply (relation_spec_exclusive a b); auto. apply relate_sound; auto.
  - exfalso. apply (box_relate_total a b Va Vb E).
Qed.

