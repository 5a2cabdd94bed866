(** Basic facts: order of points, orientation, segments as point sets. *)
From Coq Require Import QArith Qcanon Bool List ZArith Lia.
From Verif Require Import QcTac Model_Base Model_Box Spec_Base.
Import ListNotations.
Local Open Scope Qc_scope.

Ltac pt_destr := repeat match reverse goal with p : point |- _ =>
  let x := fresh "x" in let y := fresh "y" in destruct p as [x y] end;
  cbn [px py] in *.

(** Complement. *)
Lemma complement_involutive r : complement (complement r) = r.
Proof. destruct r; reflexivity. Qed.

(** Points. *)
Lemma point_ext p q : px p = px q -> py p = py q -> p = q.
Proof. destruct p, q; cbn; congruence. Qed.

Lemma Pt_inj a b c d : Pt a b = Pt c d -> a = c /\ b = d.
Proof.
  intros E; split; [exact (f_equal px E)|exact (f_equal py E)].
Qed.

Lemma point_eq_spec p q : reflect (p = q) (point_eq p q).
Proof.
  unfold point_eq. destruct p as [x y], q as [x' y']; cbn [px py].
  destruct (qeqb_spec x x'), (qeqb_spec y y'); cbn; constructor; congruence.
Qed.
Lemma point_eq_true p q : point_eq p q = true <-> p = q.
Proof. destruct (point_eq_spec p q); split; congruence. Qed.
Lemma point_eq_false p q : point_eq p q = false <-> p <> q.
Proof. destruct (point_eq_spec p q); split; congruence. Qed.
Lemma point_eq_refl p : point_eq p p = true.
Proof. apply point_eq_true; reflexivity. Qed.
Lemma point_eq_sym p q : point_eq p q = point_eq q p.
Proof. destruct (point_eq_spec p q), (point_eq_spec q p); congruence. Qed.
Lemma point_dec (p q : point) : {p = q} + {p <> q}.
Proof. destruct (point_eq_spec p q); auto. Qed.

Lemma point_lt_spec p q : reflect (lex_lt p q) (point_lt p q).
Proof.
  unfold point_lt, lex_lt. destruct p as [x y], q as [x' y']; cbn [px py].
  destruct (qltb_spec x x'), (qeqb_spec x x'), (qltb_spec y y'); cbn;
    constructor; tauto.
Qed.
Lemma point_lt_true p q : point_lt p q = true <-> lex_lt p q.
Proof. destruct (point_lt_spec p q); split; auto; congruence. Qed.
Lemma point_lt_false p q : point_lt p q = false <-> ~ lex_lt p q.
Proof. destruct (point_lt_spec p q); split; auto; congruence. Qed.

Lemma lex_irrefl p : ~ lex_lt p p.
Proof. unfold lex_lt; pt_destr. intros [|[]]; qlra. Qed.
Lemma lex_trans p q r : lex_lt p q -> lex_lt q r -> lex_lt p r.
Proof.
  unfold lex_lt; pt_destr. intros [|[]] [|[]]; subst;
  first [left; qlra | right; split; [reflexivity|qlra]].
Qed.
Lemma lex_asym p q : lex_lt p q -> ~ lex_lt q p.
Proof. intros H K. exact (lex_irrefl _ (lex_trans _ _ _ H K)). Qed.
Lemma lex_total p q : {lex_lt p q} + {p = q} + {lex_lt q p}.
Proof.
  unfold lex_lt; pt_destr.
  destruct (Qc_trichotomy x x0) as [[|]|]; [left; left; auto| |right; auto].
  destruct (Qc_trichotomy y y0) as [[|]|];
    [left; left; auto|left; right; congruence|right; auto].
Qed.
Lemma lex_neq p q : p <> q -> {lex_lt p q} + {lex_lt q p}.
Proof. intros; destruct (lex_total p q) as [[|]|]; auto; contradiction. Qed.
Lemma lex_lt_neq p q : lex_lt p q -> p <> q.
Proof. intros H ->; exact (lex_irrefl _ H). Qed.
Lemma lex_le_refl p : lex_le p p.
Proof. right; auto. Qed.
Lemma lex_lt_le p q : lex_lt p q -> lex_le p q.
Proof. left; auto. Qed.
Lemma lex_le_trans p q r : lex_le p q -> lex_le q r -> lex_le p r.
Proof. intros [|<-] [|<-]; unfold lex_le; auto. left; eapply lex_trans; eauto. Qed.
Lemma lex_lt_le_trans p q r : lex_lt p q -> lex_le q r -> lex_lt p r.
Proof. intros ? [|<-]; auto. eapply lex_trans; eauto. Qed.
Lemma lex_le_lt_trans p q r : lex_le p q -> lex_lt q r -> lex_lt p r.
Proof. intros [|<-] ?; auto. eapply lex_trans; eauto. Qed.
Lemma lex_le_antisym p q : lex_le p q -> lex_le q p -> p = q.
Proof. intros [|] [|]; auto. exfalso; eapply lex_asym; eauto. Qed.
Lemma lex_not_lt p q : ~ lex_lt p q <-> lex_le q p.
Proof.
  split; intros H.
  - destruct (lex_total p q) as [[|]|]; [contradiction|right; auto|left; auto].
  - intros K. destruct H as [H|H]; [exact (lex_asym _ _ K H)|].
    subst. exact (lex_irrefl _ K).
Qed.
Lemma lex_not_le p q : ~ lex_le p q <-> lex_lt q p.
Proof.
  split; intros H.
  - destruct (lex_total p q) as [[|]|]; auto; exfalso; apply H; [left|right]; auto.
  - rewrite <- lex_not_lt. auto.
Qed.
Lemma lex_le_total p q : {lex_le p q} + {lex_lt q p}.
Proof. destruct (lex_total p q) as [[|]|]; [left; left|left; right|right]; auto. Qed.
Lemma lex_le_dec p q : {lex_le p q} + {~ lex_le p q}.
Proof.
  destruct (lex_le_total p q) as [|H]; auto. right. rewrite lex_not_le. auto.
Qed.
Lemma point_gt_lt p q : point_gt p q = point_lt q p.
Proof.
  unfold point_gt, point_lt. f_equal. f_equal.
  destruct (qeqb_spec (px p) (px q)), (qeqb_spec (px q) (px p)); congruence.
Qed.
Lemma lex_le_coords p q :
  lex_le p q <-> px p < px q \/ (px p = px q /\ py p <= py q).
Proof.
  unfold lex_le, lex_lt. pt_destr. split.
  - intros [[|[]]|[= -> ->]]; auto; right; split; auto; qlra.
  - intros [|[]]; auto. destruct (Qc_eq_dec y y0) as [->|N]; [right; congruence|].
    left; right; split; auto. qne; qlra.
Qed.
Lemma point_le_spec p q : reflect (lex_le p q) (point_le p q).
Proof.
  apply iff_reflect. rewrite lex_le_coords.
  unfold point_le. rewrite orb_true_iff, andb_true_iff, qltb_true, qeqb_true, qleb_true.
  reflexivity.
Qed.
Lemma point_le_true p q : point_le p q = true <-> lex_le p q.
Proof. destruct (point_le_spec p q); split; auto; congruence. Qed.
Lemma point_ge_le p q : point_ge p q = point_le q p.
Proof.
  unfold point_ge, point_le. f_equal. f_equal.
  destruct (qeqb_spec (px p) (px q)), (qeqb_spec (px q) (px p)); congruence.
Qed.

(** Signs and orientation. *)
Lemma to_sign_spec v :
  (to_sign v = 1%Z /\ 0 < v) \/ (to_sign v = 0%Z /\ v = 0)
  \/ (to_sign v = (-1)%Z /\ v < 0).
Proof.
  unfold to_sign. destruct (qltb_spec 0 v); auto.
  destruct (qeqb_spec v 0); cbn; auto. right; right. split; auto. qne; qlra.
Qed.

Lemma cross_multiply_area2 a b c : cross_multiply a b a c = area2 a b c.
Proof. reflexivity. Qed.

Lemma orient_spec a b c :
  (orient a b c = COUNTERCLOCKWISE /\ 0 < area2 a b c)
  \/ (orient a b c = COLLINEAR /\ area2 a b c = 0)
  \/ (orient a b c = CLOCKWISE /\ area2 a b c < 0).
Proof.
  unfold orient. rewrite cross_multiply_area2.
  destruct (to_sign_spec (area2 a b c)) as [[-> ?]|[[-> ?]|[-> ?]]]; auto.
Qed.
Lemma orient_ccw a b c : orient a b c = COUNTERCLOCKWISE <-> 0 < area2 a b c.
Proof.
  destruct (orient_spec a b c) as [[-> ?]|[[-> ?]|[-> ?]]]; split;
    auto; try discriminate; intros; exfalso; qlra.
Qed.
Lemma orient_col a b c : orient a b c = COLLINEAR <-> area2 a b c = 0.
Proof.
  destruct (orient_spec a b c) as [[-> ?]|[[-> ?]|[-> ?]]]; split;
    auto; try discriminate; intros; exfalso; qlra.
Qed.
Lemma orient_cw a b c : orient a b c = CLOCKWISE <-> area2 a b c < 0.
Proof.
  destruct (orient_spec a b c) as [[-> ?]|[[-> ?]|[-> ?]]]; split;
    auto; try discriminate; intros; exfalso; qlra.
Qed.
Lemma orientation_is_spec a b : reflect (a = b) (orientation_is a b).
Proof. destruct a, b; constructor; congruence. Qed.
Lemma location_is_spec a b : reflect (a = b) (location_is a b).
Proof. destruct a, b; constructor; congruence. Qed.
Lemma relation_is_spec a b : reflect (a = b) (relation_is a b).
Proof. destruct a, b; constructor; congruence. Qed.

Lemma area2_rot a b c : area2 b c a = area2 a b c.
Proof. unfold area2; pt_destr; ring. Qed.
Lemma area2_swap12 a b c : area2 b a c = - area2 a b c.
Proof. unfold area2; pt_destr; ring. Qed.
Lemma area2_swap23 a b c : area2 a c b = - area2 a b c.
Proof. unfold area2; pt_destr; ring. Qed.
Lemma area2_swap13 a b c : area2 c b a = - area2 a b c.
Proof. unfold area2; pt_destr; ring. Qed.
Lemma area2_aab a b : area2 a a b = 0.
Proof. unfold area2; pt_destr; ring. Qed.
Lemma area2_aba a b : area2 a b a = 0.
Proof. unfold area2; pt_destr; ring. Qed.
Lemma area2_abb a b : area2 a b b = 0.
Proof. unfold area2; pt_destr; ring. Qed.
Lemma area2_lerp a b c d t :
  area2 c d (lerp a b t) = area2 c d a + t * (area2 c d b - area2 c d a).
Proof. unfold area2, lerp; pt_destr; ring. Qed.
Lemma area2_self_lerp a b t : area2 a b (lerp a b t) = 0.
Proof. unfold area2, lerp; pt_destr; ring. Qed.

Definition opposite_orientation (o : orientation) : orientation :=
  match o with
  | CLOCKWISE => COUNTERCLOCKWISE
  | COLLINEAR => COLLINEAR
  | COUNTERCLOCKWISE => CLOCKWISE
  end.
Lemma orient_swap23 a b c : orient a c b = opposite_orientation (orient a b c).
Proof.
  destruct (orient_spec a b c) as [[-> ?]|[[-> ?]|[-> ?]]]; cbn;
  [apply orient_cw|apply orient_col|apply orient_ccw]; rewrite area2_swap23; qlra.
Qed.
Lemma orient_swap12 a b c : orient b a c = opposite_orientation (orient a b c).
Proof.
  destruct (orient_spec a b c) as [[-> ?]|[[-> ?]|[-> ?]]]; cbn;
  [apply orient_cw|apply orient_col|apply orient_ccw]; rewrite area2_swap12; qlra.
Qed.
Lemma orient_rot a b c : orient b c a = orient a b c.
Proof. unfold orient. rewrite !cross_multiply_area2, area2_rot. reflexivity. Qed.

(** Collinearity: three collinear points lie on one line. *)
Lemma collinear_lerp a b c : a <> b -> area2 a b c = 0 -> exists t, c = lerp a b t.
Proof.
  intros N H. unfold area2, lerp in *. pt_destr.
  destruct (Qc_eq_dec x x0) as [->|Nx].
  - assert (Ny : y <> y0) by congruence.
    exists ((y1 - y) / (y0 - y)).
    assert (D : y0 - y <> 0) by (intro; apply Ny; qlra).
    assert (x1 = x0).
    { destruct (Qc_eq_dec x1 x0); auto. exfalso. qne; destruct (Qclt_le_dec y0 y); try qnra. }
    subst. f_equal; [ring|]. field. auto.
  - exists ((x1 - x) / (x0 - x)).
    assert (D : x0 - x <> 0) by (intro; apply Nx; qlra).
    f_equal; [field; auto|].
    assert (E : (y1 - y) * (x0 - x) = (x1 - x) * (y0 - y)) by qlra.
    transitivity (y + (y1 - y) * (x0 - x) / (x0 - x)); [field; auto|].
    rewrite E. field. auto.
Qed.

(** Segments as point sets. *)
Lemma between_start a b : between a b a.
Proof. exists 0. unfold lerp; pt_destr. repeat split; try qlra. f_equal; ring. Qed.
Lemma between_end a b : between a b b.
Proof. exists 1. unfold lerp; pt_destr. repeat split; try qlra. f_equal; ring. Qed.
Lemma between_sym a b p : between a b p <-> between b a p.
Proof.
  assert (H : forall a b p, between a b p -> between b a p).
  { intros c d q (t & ? & ? & ->). exists (1 - t). unfold lerp; pt_destr.
    repeat split; try qlra. f_equal; ring. }
  split; apply H.
Qed.
Lemma strictly_between_sym a b p : strictly_between a b p <-> strictly_between b a p.
Proof.
  assert (H : forall a b p, strictly_between a b p -> strictly_between b a p).
  { intros c d q (t & ? & ? & ->). exists (1 - t). unfold lerp; pt_destr.
    repeat split; try qlra. f_equal; ring. }
  split; apply H.
Qed.
Lemma between_same a p : between a a p <-> p = a.
Proof.
  split; [intros (t & ? & ? & ->)|intros ->; apply between_start].
  unfold lerp; pt_destr; f_equal; ring.
Qed.
Lemma between_collinear a b p : between a b p -> area2 a b p = 0.
Proof. intros (t & ? & ? & ->). apply area2_self_lerp. Qed.

Lemma between_lex a b p : lex_lt a b ->
  (between a b p <-> area2 a b p = 0 /\ lex_le a p /\ lex_le p b).
Proof.
  intros L. split.
  - intros (t & H0 & H1 & ->). split; [apply area2_self_lerp|].
    rewrite !lex_le_coords. unfold lerp, lex_lt in *; pt_destr.
    destruct (Qc_eq_dec t 0) as [->|]; [split; [right; split; [ring|qlra]|]; destruct L as [|[]]; [left; qlra|right; split; qlra]|].
    destruct (Qc_eq_dec t 1) as [->|]; [split; [|right; split; [ring|qlra]]; destruct L as [|[]]; [left; qlra|right; split; qlra]|].
    assert (0 < t) by (qne; qlra). assert (t < 1) by (qne; qlra).
    destruct L as [|[-> ?]].
    + split; left; qnra.
    + split; right; (split; [ring|qnra]).
  - intros (C & L1 & L2).
    destruct (collinear_lerp a b p (lex_lt_neq _ _ L) C) as (t & ->).
    exists t. rewrite !lex_le_coords in *. unfold lerp, lex_lt in *; pt_destr.
    clear C. destruct L as [L|[-> L]].
    + repeat split; auto.
      * destruct (Qclt_le_dec t 0); auto. exfalso.
        destruct L1 as [|[]]; qnra.
      * destruct (Qclt_le_dec 1 t); auto. exfalso.
        destruct L2 as [|[]]; qnra.
    + repeat split; auto.
      * destruct (Qclt_le_dec t 0); auto. exfalso.
        destruct L1 as [|[]]; qnra.
      * destruct (Qclt_le_dec 1 t); auto. exfalso.
        destruct L2 as [|[]]; qnra.
Qed.

Lemma lerp_inj a b s t : a <> b -> lerp a b s = lerp a b t -> s = t.
Proof.
  intros N E. unfold lerp in E; pt_destr. apply Pt_inj in E as [].
  assert (H1 : (s - t) * (x0 - x) = 0) by qlra.
  assert (H2 : (s - t) * (y0 - y) = 0) by qlra.
  destruct (Qc_eq_dec s t); auto. exfalso.
  apply Qcmult_integral in H1. apply Qcmult_integral in H2.
  apply N. f_equal; destruct H1, H2; qlra || (exfalso; apply n; qlra).
Qed.

Lemma strictly_between_iff a b p : a <> b ->
  (strictly_between a b p <-> between a b p /\ p <> a /\ p <> b).
Proof.
  intros N. split.
  - intros (t & ? & ? & ->). split; [exists t; repeat split; auto; qlra|].
    split; intros E.
    + assert (E' : lerp a b t = lerp a b 0) by (rewrite E; unfold lerp; pt_destr; f_equal; ring).
      apply lerp_inj in E'; auto. subst. qlra.
    + assert (E' : lerp a b t = lerp a b 1) by (rewrite E; unfold lerp; pt_destr; f_equal; ring).
      apply lerp_inj in E'; auto. subst. qlra.
  - intros ((t & ? & ? & ->) & N1 & N2). exists t.
    assert (t <> 0) by (intros ->; apply N1; unfold lerp; pt_destr; f_equal; ring).
    assert (t <> 1) by (intros ->; apply N2; unfold lerp; pt_destr; f_equal; ring).
    repeat split; auto; qne; qlra.
Qed.

Lemma strictly_between_lex a b p : lex_lt a b ->
  (strictly_between a b p <-> area2 a b p = 0 /\ lex_lt a p /\ lex_lt p b).
Proof.
  intros L. rewrite strictly_between_iff, between_lex by (auto; apply lex_lt_neq; auto).
  unfold lex_le. split.
  - intros ((? & [|] & [|]) & ? & ?); auto; subst; try contradiction; congruence.
  - intros (? & A & B). split; [auto|].
    split; [apply not_eq_sym|]; apply lex_lt_neq; auto.
Qed.

(** Point location in a segment. *)
Lemma locate_spec a b p :
  locate_point_in_segment a b p = BOUNDARY <-> between a b p.
Proof.
  unfold locate_point_in_segment. split.
  - match goal with |- (if ?c then _ else _) = _ -> _ => destruct c eqn:E end;
      [intros _|discriminate].
    rewrite !orb_true_iff, !andb_true_iff in E.
    destruct E as [[E|E]|[[Ex Ey] Eo]].
    + apply point_eq_true in E; subst; apply between_start.
    + apply point_eq_true in E; subst; apply between_end.
    + destruct (orientation_is_spec (orient a b p) COLLINEAR) as [O|]; [|discriminate].
      apply orient_col in O.
      destruct (lex_total a b) as [[L| ->]|L].
      * apply between_lex; auto. rewrite !lex_le_coords. split; auto.
        unfold lex_lt, area2 in *; pt_destr.
        repeat match goal with
        | H : (if qleb ?u ?v then _ else _) = true |- _ => destruct (qleb_spec u v)
        end; rewrite andb_true_iff in *; destruct Ex, Ey; qb;
        destruct L as [L|[? L]]; try (exfalso; qlra).
        -- destruct (Qc_eq_dec x x1), (Qc_eq_dec x0 x1); subst;
           try (exfalso; qlra); qne; split;
           try (left; qlra); try (right; split; [auto|]; qnra).
        -- destruct (Qc_eq_dec x x1), (Qc_eq_dec x0 x1); subst;
           try (exfalso; qlra); qne; split;
           try (left; qlra); try (right; split; [auto|]; qnra).
        -- destruct (Qc_eq_dec x x1), (Qc_eq_dec x0 x1); subst;
           try (exfalso; qlra); qne; split;
           try (left; qlra); try (right; split; [auto|]; qnra).
      * apply between_same.
        unfold lex_lt, area2 in *; pt_destr.
        repeat match goal with
        | H : (if qleb ?u ?v then _ else _) = true |- _ => destruct (qleb_spec u v)
        end; rewrite andb_true_iff in *; destruct Ex, Ey; qb; f_equal; qlra.
      * apply between_sym. apply between_lex; auto. rewrite !lex_le_coords.
        rewrite area2_swap12. split; [qlra|].
        unfold lex_lt, area2 in *; pt_destr.
        repeat match goal with
        | H : (if qleb ?u ?v then _ else _) = true |- _ => destruct (qleb_spec u v)
        end; rewrite andb_true_iff in *; destruct Ex, Ey; qb;
        destruct L as [L|[? L]]; try (exfalso; qlra).
        all: destruct (Qc_eq_dec x x1), (Qc_eq_dec x0 x1); subst;
           try (exfalso; qlra); qne; split;
           try (left; qlra); try (right; split; [auto|]; qnra).
  - intros (t & H0 & H1 & ->).
    match goal with |- (if ?c then _ else _) = _ => destruct c eqn:E end; auto.
    exfalso. rewrite !orb_false_iff, !andb_false_iff in E.
    destruct E as [[E1 E2] E3].
    apply point_eq_false in E1, E2.
    assert (O : orient a b (lerp a b t) = COLLINEAR)
      by (apply orient_col, area2_self_lerp).
    rewrite O in E3.
    assert (t <> 0) by (intros ->; apply E1; unfold lerp; pt_destr; f_equal; ring).
    assert (t <> 1) by (intros ->; apply E2; unfold lerp; pt_destr; f_equal; ring).
    assert (0 < t /\ t < 1) by (qne; split; qlra).
    clear H H2 H0 H1 E1 E2 O.
    destruct E3 as [[E|E]|E]; [ | |discriminate]; unfold lerp in E; pt_destr;
    match type of E with (if qleb ?u ?v then _ else _) = _ => destruct (qleb_spec u v) end;
    apply andb_false_iff in E; destruct E; qb; qnra.
Qed.

Lemma locate_exterior a b p :
  locate_point_in_segment a b p = EXTERIOR <-> ~ between a b p.
Proof.
  rewrite <- locate_spec. unfold locate_point_in_segment.
  match goal with |- context [if ?c then _ else _] => destruct c end;
    split; intros; congruence.
Qed.

Lemma between_dec a b p : {between a b p} + {~ between a b p}.
Proof.
  destruct (locate_point_in_segment a b p) eqn:E.
  - left. apply locate_spec; auto.
  - right. apply locate_exterior; auto.
  - exfalso. unfold locate_point_in_segment in E.
    match type of E with (if ?c then _ else _) = _ => destruct c end; discriminate.
Qed.
