(** [Segment.relate_to] for two segments. *)
From Coq Require Import QArith Qcanon Bool List ZArith Lia.
From Verif Require Import QcTac Model_Base Model_Box Model_Geometry
  Model_Segment Spec_Base Spec_Segment Proof_Base Proof_Line.
Import ListNotations.
Local Open Scope Qc_scope.

Lemma seg_relation_spec_ext r s s' t t' :
  (forall p, on_seg s p <-> on_seg s' p) -> (forall p, on_seg t p <-> on_seg t' p) ->
  (forall p, inside_seg s p <-> inside_seg s' p) ->
  (forall p, inside_seg t p <-> inside_seg t' p) ->
  (forall p, endpoint_of s p <-> endpoint_of s' p) ->
  (forall p, endpoint_of t p <-> endpoint_of t' p) ->
  seg_relation_spec r s t <-> seg_relation_spec r s' t'.
Proof.
  intros A B C D E F.
  unfold seg_relation_spec, seg_same, seg_subset, share_continuum, only_common_point.
  destruct r; try tauto; setoid_rewrite A; setoid_rewrite B;
  try setoid_rewrite C; try setoid_rewrite D; try setoid_rewrite E;
  try setoid_rewrite F; reflexivity.
Qed.

Lemma seg_relation_spec_sorted r s t a b c d :
  (s = Seg a b \/ s = Seg b a) -> (t = Seg c d \/ t = Seg d c) ->
  seg_relation_spec r s t <-> seg_relation_spec r (Seg a b) (Seg c d).
Proof.
  intros Hs Ht. apply seg_relation_spec_ext; intros p.
  - apply on_seg_sorted; auto.
  - apply on_seg_sorted; auto.
  - apply inside_seg_sorted; auto.
  - apply inside_seg_sorted; auto.
  - apply endpoint_sorted; auto.
  - apply endpoint_sorted; auto.
Qed.

(** Two segments on one line, in line coordinates. *)
Section Collinear.
  Variables (a b : point) (t u : Qc).
  Hypothesis (L : lex_lt a b) (H : t < u).
  Let c := lerp a b t.
  Let d := lerp a b u.

  Lemma col_on w : (on_seg (Seg c d) (lerp a b w) <-> t <= w /\ w <= u).
  Proof. apply between_lerp; auto. Qed.
  Lemma col_on1 w : (on_seg (Seg a b) (lerp a b w) <-> 0 <= w /\ w <= 1).
  Proof.
    pose proof (between_lerp a b 0 1 w L) as K. rewrite lerp_0, lerp_1 in K.
    apply K. qlra.
  Qed.
  Lemma col_ex p : on_seg (Seg c d) p -> exists w, p = lerp a b w.
  Proof. apply between_lerp_ex. Qed.
  Lemma col_ex1 p : on_seg (Seg a b) p -> exists w, p = lerp a b w.
  Proof. intros (w & ? & ? & ->); eauto. Qed.

  Lemma col_subset12 : seg_subset (Seg a b) (Seg c d) <-> t <= 0 /\ 1 <= u.
  Proof.
    split.
    - intros K. pose proof (K (lerp a b 0)) as K0. pose proof (K (lerp a b 1)) as K1.
      rewrite col_on1, col_on in K0, K1.
      destruct K0; [split; qlra|]. destruct K1; [split; qlra|]. auto.
    - intros K p Hp. destruct (col_ex1 p Hp) as (w & ->).
      rewrite col_on1 in Hp. rewrite col_on. split; qlra.
  Qed.
  Lemma col_subset21 : seg_subset (Seg c d) (Seg a b) <-> 0 <= t /\ u <= 1.
  Proof.
    split.
    - intros K. pose proof (K (lerp a b t)) as K0. pose proof (K (lerp a b u)) as K1.
      rewrite col_on1, col_on in K0, K1.
      destruct K0; [split; qlra|]. destruct K1; [split; qlra|]. auto.
    - intros K p Hp. destruct (col_ex p Hp) as (w & ->).
      rewrite col_on in Hp. rewrite col_on1. split; qlra.
  Qed.
  Lemma col_same : seg_same (Seg a b) (Seg c d) <-> t = 0 /\ u = 1.
  Proof.
    split.
    - intros K. assert (K1 : seg_subset (Seg a b) (Seg c d)) by (intros p; apply K).
      assert (K2 : seg_subset (Seg c d) (Seg a b)) by (intros p; apply K).
      apply col_subset12 in K1. apply col_subset21 in K2. split; qlra.
    - intros [-> ->] p. unfold c, d. rewrite lerp_0, lerp_1. tauto.
  Qed.
  Lemma col_continuum : share_continuum (Seg a b) (Seg c d) <-> t < 1 /\ 0 < u.
  Proof.
    split.
    - intros (p & q & N & Hp & Hp' & Hq & Hq').
      destruct (col_ex1 p Hp) as (w & ->). destruct (col_ex1 q Hq) as (v & ->).
      assert (w <> v) by congruence.
      rewrite ?col_on1, ?col_on in *. qne; split; qlra.
    - intros [].
      destruct (Qclt_le_dec t 0), (Qclt_le_dec u 1).
      + exists (lerp a b 0), (lerp a b u).
        rewrite !col_on1, !col_on. split; [rewrite lerp_eq by (apply lex_lt_neq; auto); intros <-; qlra|].
        repeat split; qlra.
      + exists (lerp a b 0), (lerp a b 1).
        rewrite !col_on1, !col_on. split; [rewrite lerp_eq by (apply lex_lt_neq; auto); intro; qlra|].
        repeat split; qlra.
      + exists (lerp a b t), (lerp a b u).
        rewrite !col_on1, !col_on. split; [rewrite lerp_eq by (apply lex_lt_neq; auto); intro; qlra|].
        repeat split; qlra.
      + exists (lerp a b t), (lerp a b 1).
        rewrite !col_on1, !col_on. split; [rewrite lerp_eq by (apply lex_lt_neq; auto); intro; qlra|].
        repeat split; qlra.
  Qed.
  Lemma col_disjoint : (~ exists p, on_seg (Seg a b) p /\ on_seg (Seg c d) p)
    <-> 1 < t \/ u < 0.
  Proof.
    split.
    - intros K. destruct (Qclt_le_dec 1 t); auto. destruct (Qclt_le_dec u 0); auto.
      exfalso; apply K. destruct (Qclt_le_dec t 0).
      + exists (lerp a b 0). rewrite col_on1, col_on. repeat split; qlra.
      + exists (lerp a b t). rewrite col_on1, col_on. repeat split; qlra.
    - intros K (p & Hp & Hp'). destruct (col_ex1 p Hp) as (w & ->).
      rewrite col_on1 in Hp. rewrite col_on in Hp'. destruct K; qlra.
  Qed.
  Lemma col_touch_start : u = 0 -> seg_relation_spec TOUCH (Seg a b) (Seg c d).
  Proof.
    intros E. exists (lerp a b 0). split; [split; [|split]|].
    - rewrite col_on1; split; qlra.
    - rewrite col_on; split; qlra.
    - intros q Hq Hq'. destruct (col_ex1 q Hq) as (w & ->).
      rewrite col_on1 in Hq. rewrite col_on in Hq'. f_equal. qlra.
    - left; left. apply lerp_0.
  Qed.
  Lemma col_touch_end : t = 1 -> seg_relation_spec TOUCH (Seg a b) (Seg c d).
  Proof.
    intros E. exists (lerp a b 1). split; [split; [|split]|].
    - rewrite col_on1; split; qlra.
    - rewrite col_on; split; qlra.
    - intros q Hq Hq'. destruct (col_ex1 q Hq) as (w & ->).
      rewrite col_on1 in Hq. rewrite col_on in Hq'. f_equal. qlra.
    - left; right. apply lerp_1.
  Qed.
End Collinear.

Lemma opposite_neg a b c : a <> b -> area2 a b c <> 0 -> area2 b a c <> 0.
Proof. intros _ H K. apply H. rewrite area2_swap12 in K. qlra. Qed.

(** Split on the comparisons in the condition at the head of [x], pruning. *)
Ltac cbhead x :=
  lazymatch x with
  | (if ?c then _ else _) =>
    match c with
    | context [qltb ?p ?q] => destruct (qltb_spec p q)
    | context [qleb ?p ?q] => destruct (qleb_spec p q)
    | context [qeqb ?p ?q] =>
        let H := fresh in destruct (qeqb_spec p q) as [|H];
        [|apply Qc_neq in H; destruct H]
    end
  end; try (exfalso; qlra); cbn [andb orb negb].

(** Bring a second segment on the line of the first to line coordinates. *)
Lemma collinear_coordinates a b c d : lex_lt a b -> lex_lt c d ->
  area2 a b c = 0 -> area2 a b d = 0 ->
  exists t u, c = lerp a b t /\ d = lerp a b u /\ t < u.
Proof.
  intros L M Hc Hd.
  destruct (collinear_lerp a b c (lex_lt_neq _ _ L) Hc) as (t & ->).
  destruct (collinear_lerp a b d (lex_lt_neq _ _ L) Hd) as (u & ->).
  exists t, u. repeat split; auto. apply lerp_lt in M; auto.
Qed.

Definition relate_core (first_start first_end second_start second_end : point)
  : option relation :=
  if point_eq first_start second_start && point_eq first_end second_end
  then Some EQUAL
  else
  let second_start_orientation := orient first_end first_start second_start in
  let second_end_orientation := orient first_end first_start second_end in
  if orientation_is second_start_orientation second_end_orientation then
    if negb (is_collinear second_start_orientation) then Some DISJOINT
    else if point_eq first_start second_start then
      if point_lt second_end first_end then Some COMPOSITE else Some COMPONENT
    else if point_eq first_end second_end then
      if point_lt second_start first_start then Some COMPONENT
      else Some COMPOSITE
    else if point_eq first_start second_end || point_eq first_end second_start
    then Some TOUCH
    else if point_lt first_start second_start && point_lt second_start first_end
    then if point_lt second_end first_end then Some COMPOSITE else Some OVERLAP
    else if point_lt second_start first_start && point_lt first_start second_end
    then if point_lt first_end second_end then Some COMPONENT else Some OVERLAP
    else Some DISJOINT
  else if is_collinear second_start_orientation then
    if point_le first_start second_start && point_le second_start first_end
    then Some TOUCH else Some DISJOINT
  else if is_collinear second_end_orientation then
    if point_le first_start second_end && point_le second_end first_end
    then Some TOUCH else Some DISJOINT
  else
  let first_start_orientation := orient second_start second_end first_start in
  let first_end_orientation := orient second_start second_end first_end in
  if orientation_is first_start_orientation first_end_orientation then
    if negb (is_collinear first_start_orientation) then Some DISJOINT else None
  else if is_collinear first_start_orientation then
    if point_lt second_start first_start && point_lt first_start second_end
    then Some TOUCH else Some DISJOINT
  else if is_collinear first_end_orientation then
    if point_lt second_start first_end && point_lt first_end second_end
    then Some TOUCH else Some DISJOINT
  else Some CROSS.

Lemma relate_is_core s t a b c d :
  to_sorted_pair (seg_start s) (seg_end s) = (a, b) ->
  to_sorted_pair (seg_start t) (seg_end t) = (c, d) ->
  segment_relate_to_segment s t = relate_core a b c d.
Proof.
  intros E F. unfold segment_relate_to_segment, relate_to_segment_endpoints.
  rewrite E, F. reflexivity.
Qed.

(** [c] on the line of [a b], [d] not: [c] is the only possible common point. *)
Lemma touch_point a b c d : lex_lt a b -> area2 a b c = 0 -> area2 a b d <> 0 ->
  lex_le a c -> lex_le c b -> only_common_point (Seg a b) (Seg c d) c.
Proof.
  intros L Hc Hd L1 L2. split; [|split].
  - apply between_lex; auto.
  - apply between_start.
  - intros q Hq Hq'. eapply (common_unique a b c d); eauto.
    + apply between_lex; auto.
    + apply between_start.
Qed.
Lemma no_touch_point a b c d : lex_lt a b -> area2 a b c = 0 -> area2 a b d <> 0 ->
  ~ (lex_le a c /\ lex_le c b) -> ~ exists p, on_seg (Seg a b) p /\ on_seg (Seg c d) p.
Proof.
  intros L Hc Hd N (p & Hp & Hp'). unfold on_seg in *; cbn in *.
  assert (p = c).
  { destruct Hp' as (t & ? & ? & ->). pose proof (between_collinear _ _ _ Hp) as K.
    rewrite area2_lerp, Hc in K.
    assert (K' : t * area2 a b d = 0) by (rewrite <- K; ring).
    apply Qcmult_integral in K'. destruct K' as [->|]; [apply lerp_0|contradiction]. }
  subst. apply N. apply between_lex in Hp; tauto.
Qed.
Lemma only_common_sym s t p : only_common_point s t p -> only_common_point t s p.
Proof. intros (A & B & C). split; [|split]; auto. Qed.
Lemma only_common_rev s c d p :
  only_common_point s (Seg c d) p -> only_common_point s (Seg d c) p.
Proof.
  intros (A & B & C). split; [|split]; auto.
  - apply between_sym, B.
  - intros q Hq Hq'. apply C; auto. apply between_sym, Hq'.
Qed.

Lemma orient_rev_same a b c d :
  orientation_is (orient b a c) (orient b a d)
  = orientation_is (orient a b c) (orient a b d).
Proof.
  rewrite !(orient_swap12 a b).
  destruct (orient a b c), (orient a b d); reflexivity.
Qed.
Lemma is_collinear_rev a b c : is_collinear (orient b a c) = is_collinear (orient a b c).
Proof. rewrite (orient_swap12 a b). destruct (orient a b c); reflexivity. Qed.

Lemma relate_core_sound a b c d r : lex_lt a b -> lex_lt c d ->
  relate_core a b c d = Some r -> seg_relation_spec r (Seg a b) (Seg c d).
Proof.
  intros L M. unfold relate_core.
  rewrite !(is_collinear_rev a b), (orient_rev_same a b).
  destruct (orientation_is_spec (orient a b c) (orient a b d)) as [E|N].
  - destruct (is_collinear_spec' a b c) as [Z|Z]; cbn [negb].
    + assert (Z' : area2 a b d = 0).
      { apply orient_col in Z. rewrite Z in E. apply orient_col. auto. }
      destruct (collinear_coordinates a b c d L M Z Z') as (t & u & -> & -> & H).
      clear M Z Z' E.
      replace (point_eq a (lerp a b t)) with (qeqb 0 t)
        by (rewrite <- (point_eq_lerp a b), lerp_0; auto).
      replace (point_eq b (lerp a b u)) with (qeqb 1 u)
        by (rewrite <- (point_eq_lerp a b), lerp_1; auto).
      replace (point_eq a (lerp a b u)) with (qeqb 0 u)
        by (rewrite <- (point_eq_lerp a b), lerp_0; auto).
      replace (point_eq b (lerp a b t)) with (qeqb 1 t)
        by (rewrite <- (point_eq_lerp a b), lerp_1; auto).
      replace (point_lt (lerp a b u) b) with (qltb u 1)
        by (rewrite <- (point_lt_lerp a b), lerp_1; auto).
      replace (point_lt (lerp a b t) a) with (qltb t 0)
        by (rewrite <- (point_lt_lerp a b), lerp_0; auto).
      replace (point_lt (lerp a b t) b) with (qltb t 1)
        by (rewrite <- (point_lt_lerp a b), lerp_1; auto).
      replace (point_lt a (lerp a b t)) with (qltb 0 t)
        by (rewrite <- (point_lt_lerp a b), lerp_0; auto).
      replace (point_lt a (lerp a b u)) with (qltb 0 u)
        by (rewrite <- (point_lt_lerp a b), lerp_0; auto).
      replace (point_lt b (lerp a b u)) with (qltb 1 u)
        by (rewrite <- (point_lt_lerp a b), lerp_1; auto).
      repeat (match goal with |- ?x = _ -> _ => cbhead x end);
      intros [= <-]; cbn;
      first [ apply col_touch_start; auto; qlra
            | apply col_touch_end; auto; qlra
            | cbn [seg_relation_spec];
              rewrite ?col_same, ?col_subset12, ?col_subset21, ?col_continuum,
                ?col_disjoint by auto; qne; solve
              [ qlra | split; qlra | left; qlra | right; qlra
              | repeat split; qlra ] ].
    + destruct (point_eq_spec a c) as [->|]; [rewrite area2_aba in Z; congruence|].
      cbn. intros [= <-]. cbn. intros (p & Hp & Hp').
      apply (same_side_disjoint a b c d p); auto.
      destruct (orient_spec a b c) as [[K ?]|[[K ?]|[K ?]]]; [left|contradiction|right];
        split; auto; rewrite K in E; symmetry in E;
        [apply orient_ccw|apply orient_cw]; auto.
  - destruct (point_eq_spec a c) as [->|Nac]; cbn [andb].
    + destruct (point_eq_spec b d) as [->|Nbd].
      { exfalso. apply N. rewrite !(proj2 (orient_col _ _ _)); auto;
        [apply area2_abb|apply area2_aba]. }
      destruct (is_collinear_spec' c b c) as [Z|Z]; [|exfalso; apply Z, area2_aba].
      assert (Z' : area2 c b d <> 0).
      { intros K. apply N. apply orient_col in Z, K. congruence. }
      destruct (point_le_spec c c) as [|K]; [|exfalso; apply K, lex_le_refl].
      destruct (point_le_spec c b) as [|K]; [|exfalso; apply K, lex_lt_le; auto].
      cbn. intros [= <-]. exists c. split; [apply touch_point; auto|].
      left; left; auto.
    + clear Nac.
      destruct (is_collinear_spec' a b c) as [Z|Z].
      * assert (Z' : area2 a b d <> 0).
        { intros K. apply N. apply orient_col in Z, K. congruence. }
        destruct (point_le_spec a c), (point_le_spec c b); cbn; intros [= <-];
          try (apply no_touch_point; auto; tauto).
        exists c. split; [apply touch_point; auto|]. right; left; auto.
      * destruct (is_collinear_spec' a b d) as [Z'|Z'].
        -- destruct (point_le_spec a d), (point_le_spec d b); cbn; intros [= <-];
           try (intros (p & Hp & Hp'); eapply (no_touch_point a b d c); eauto; [tauto|];
                exists p; split; [auto|]; apply between_sym; auto).
           exists d. split; [apply only_common_rev, touch_point; auto|].
           right; right; auto.
        -- destruct (orientation_is_spec (orient c d a) (orient c d b)) as [E|N'].
           ++ destruct (is_collinear_spec' c d a) as [W|W]; [discriminate|].
              intros [= <-]. intros (p & Hp & Hp').
              apply (same_side_disjoint c d a b p); auto.
              destruct (orient_spec c d a) as [[K ?]|[[K ?]|[K ?]]];
                [left|contradiction|right]; split; auto; rewrite K in E; symmetry in E;
                [apply orient_ccw|apply orient_cw]; auto.
           ++ destruct (is_collinear_spec' c d a) as [W|W].
              ** assert (W' : area2 c d b <> 0).
                 { intros K. apply N'. apply orient_col in W, K. congruence. }
                 destruct (point_lt_spec c a) as [K1|K1], (point_lt_spec a d) as [K2|K2];
                   cbn; intros [= <-].
                 { exists a. split; [|left; left; auto].
                   apply only_common_sym, touch_point; auto; left; auto. }
                 all: intros (p & Hp & Hp'); eapply (no_touch_point c d a b); eauto;
                   intros [[|E1] [|E2]]; auto; subst;
                   rewrite ?area2_aba, ?area2_abb in *; congruence.
              ** destruct (is_collinear_spec' c d b) as [W'|W'].
                 { destruct (point_lt_spec c b) as [K1|K1], (point_lt_spec b d) as [K2|K2];
                   cbn; intros [= <-].
                   { exists b. split; [|left; right; auto].
                     apply only_common_sym, only_common_rev, only_common_sym,
                       only_common_sym, touch_point; auto; left; auto. }
                   all: intros (p & Hp & Hp'); eapply (no_touch_point c d b a); eauto;
                     [|exists p; split; [eauto|apply between_sym; auto]];
                     intros [[|E1] [|E2]]; auto; subst;
                     rewrite ?area2_aba, ?area2_abb in *; congruence. }
                 intros [= <-].
                 assert (O1 : opposite (area2 a b c) (area2 a b d)).
                 { apply on_opposite_sides_spec. unfold on_opposite_sides.
                   destruct (is_collinear_spec' a b c), (is_collinear_spec' a b d);
                     try contradiction. cbn.
                   destruct (orientation_is_spec (orient a b c) (orient a b d));
                     auto. }
                 assert (O2 : opposite (area2 c d a) (area2 c d b)).
                 { apply on_opposite_sides_spec. unfold on_opposite_sides.
                   destruct (is_collinear_spec' c d a), (is_collinear_spec' c d b);
                     try contradiction. cbn.
                   destruct (orientation_is_spec (orient c d a) (orient c d b));
                     auto. }
                 destruct (crossing_point a b c d O1 O2) as [I1 I2].
                 exists (to_segments_intersection a b c d).
                 split; [|auto]. split; [|split].
                 { apply strictly_between_between; auto. }
                 { apply strictly_between_between; auto. }
                 intros q Hq Hq'. eapply (common_unique a b c d); eauto;
                   apply strictly_between_between; auto.
Qed.

Lemma relate_core_total a b c d : lex_lt a b -> lex_lt c d ->
  relate_core a b c d <> None.
Proof.
  intros L M. unfold relate_core.
  rewrite !(is_collinear_rev a b), (orient_rev_same a b).
  repeat match goal with
  | |- (if ?c then _ else _) <> None => destruct c eqn:?; try discriminate
  end.
  exfalso.
  destruct (orientation_is_spec (orient c d a) (orient c d b)) as [E|]; [|discriminate].
  rewrite negb_false_iff, is_collinear_spec in *.
  assert (F : area2 c d b = 0).
  { apply orient_col. rewrite <- E. apply orient_col; auto. }
  assert (area2 a b c = 0).
  { apply (same_line c d a b c (lex_lt_neq _ _ M) (lex_lt_neq _ _ L)); auto.
    apply area2_aba. }
  assert (is_collinear (orient a b c) = true) by (apply is_collinear_spec; auto).
  congruence.
Qed.

Lemma endpoint_on s p : endpoint_of s p -> on_seg s p.
Proof. intros [->| ->]; [apply between_start|apply between_end]. Qed.

Lemma endpoint_not_inside s p : proper_seg s -> endpoint_of s p -> ~ inside_seg s p.
Proof.
  intros N E I. apply strictly_between_iff in I; auto.
  destruct E as [->| ->]; tauto.
Qed.

Lemma proper_two_points s : proper_seg s ->
  exists p q, p <> q /\ on_seg s p /\ on_seg s q.
Proof.
  intros N. exists (seg_start s), (seg_end s). split; auto.
  split; apply endpoint_on; [left|right]; auto.
Qed.

Lemma only_common_no_continuum s t p :
  only_common_point s t p -> ~ share_continuum s t.
Proof.
  intros (A & B & C) (u & v & N & ? & ? & ? & ?). apply N.
  rewrite (C u), (C v); auto.
Qed.
Lemma subset_continuum s t : proper_seg s -> seg_subset s t -> share_continuum s t.
Proof.
  intros N H. destruct (proper_two_points s N) as (p & q & ? & ? & ?).
  exists p, q. auto 6.
Qed.
Lemma share_continuum_sym s t : share_continuum s t -> share_continuum t s.
Proof. intros (p & q & ?&?&?&?&?). exists p, q; auto 6. Qed.
Lemma share_not_disjoint s t : share_continuum s t ->
  ~ ~ exists p, on_seg s p /\ on_seg t p.
Proof. intros (p & q & ?&?&?&?&?) K. apply K; eauto. Qed.

(** At most one relation is meant. *)
Lemma seg_relation_exclusive s t r r' : proper_seg s -> proper_seg t ->
  seg_relation_spec r s t -> seg_relation_spec r' s t -> r = r'.
Proof.
  intros Ns Nt.
  assert (class : forall r, seg_relation_spec r s t ->
    match r with
    | EQUAL => share_continuum s t /\ seg_subset s t /\ seg_subset t s
    | COMPONENT => share_continuum s t /\ seg_subset s t /\ ~ seg_subset t s
    | COMPOSITE => share_continuum s t /\ ~ seg_subset s t /\ seg_subset t s
    | OVERLAP => share_continuum s t /\ ~ seg_subset s t /\ ~ seg_subset t s
    | DISJOINT => ~ (exists p, on_seg s p /\ on_seg t p)
    | TOUCH => ~ share_continuum s t /\ exists p, only_common_point s t p
                       /\ (endpoint_of s p \/ endpoint_of t p)
    | CROSS => ~ share_continuum s t /\ exists p, only_common_point s t p
                       /\ inside_seg s p /\ inside_seg t p
    | _ => False
    end).
  { clear r r'. intros r H. destruct r; cbn in *; auto.
    - destruct H; auto using subset_continuum.
    - destruct H; auto using subset_continuum, share_continuum_sym.
    - split; auto. destruct H as (p & K & _). eapply only_common_no_continuum; eauto.
    - assert (seg_subset s t) by (intros p; apply H).
      assert (seg_subset t s) by (intros p; apply H).
      auto using subset_continuum.
    - split; auto. destruct H as (p & K & _). eapply only_common_no_continuum; eauto. }
  assert (X : ~ ((exists p, only_common_point s t p
                       /\ (endpoint_of s p \/ endpoint_of t p))
              /\ (exists p, only_common_point s t p
                       /\ inside_seg s p /\ inside_seg t p))).
  { intros ((p & (A & B & C) & D) & (q & (A' & B' & C') & D' & E')).
    assert (p = q) by auto. subst q.
    destruct D as [D|D];
      [apply (endpoint_not_inside s p)|apply (endpoint_not_inside t p)]; auto. }
  intros H H'. apply class in H, H'.
  destruct r, r'; try reflexivity; try contradiction; exfalso;
    try tauto;
    repeat match goal with K : _ /\ _ |- _ => destruct K end;
    try tauto;
    first
    [ eapply share_not_disjoint; eauto; fail
    | match goal with K : exists p, only_common_point s t p /\ _, N : ~ exists p, _ |- _ =>
        destruct K as (p & (? & ? & _) & _); apply N; eauto end ].
Qed.

Lemma segment_relate_spec s t r : proper_seg s -> proper_seg t ->
  segment_relate_to_segment s t = Some r <-> seg_relation_spec r s t.
Proof.
  intros Ns Nt.
  destruct (to_sorted_pair_proper s Ns) as (a & b & Es & Ls & Hs).
  destruct (to_sorted_pair_proper t Nt) as (c & d & Et & Lt & Ht).
  rewrite (relate_is_core s t a b c d) by auto.
  assert (S : forall r, relate_core a b c d = Some r -> seg_relation_spec r s t).
  { intros r' H. apply (seg_relation_spec_sorted r' s t a b c d); auto.
    apply relate_core_sound; auto. }
  split; auto. intros H.
  destruct (relate_core a b c d) as [r'|] eqn:E.
  - f_equal. apply (seg_relation_exclusive s t); auto.
  - exfalso. apply (relate_core_total a b c d Ls Lt E).
Qed.

Lemma segment_relate_total s t : proper_seg s -> proper_seg t ->
  exists r, segment_relate_to_segment s t = Some r.
Proof.
  intros Ns Nt.
  destruct (to_sorted_pair_proper s Ns) as (a & b & Es & Ls & Hs).
  destruct (to_sorted_pair_proper t Nt) as (c & d & Et & Lt & Ht).
  rewrite (relate_is_core s t a b c d) by auto.
  destruct (relate_core a b c d) eqn:E; eauto.
  exfalso. apply (relate_core_total a b c d Ls Lt E).
Qed.

Lemma seg_relation_complement r s t :
  seg_relation_spec r s t -> seg_relation_spec (complement r) t s.
Proof.
  unfold seg_relation_spec, only_common_point.
  destruct r; cbn; auto.
  - intros (p & (A & B & C) & D). exists p. repeat split; auto; tauto.
  - intros H (p & A & B). apply H; eauto.
  - intros H p. symmetry. apply H.
  - intros (A & B & C). auto using share_continuum_sym.
  - intros (p & (A & B & C) & D). exists p. repeat split; auto; tauto.
Qed.

Lemma segment_relate_complement s t r : proper_seg s -> proper_seg t ->
  segment_relate_to_segment s t = Some r ->
  segment_relate_to_segment t s = Some (complement r).
Proof.
  intros Ns Nt H. apply segment_relate_spec in H; auto.
  apply segment_relate_spec; auto. apply seg_relation_complement; auto.
Qed.

Lemma sorted_reverse s : proper_seg s ->
  to_sorted_pair (seg_start (reverse_seg s)) (seg_end (reverse_seg s))
  = to_sorted_pair (seg_start s) (seg_end s).
Proof.
  intros N. destruct s as [p q]; cbn in *. unfold proper_seg in N; cbn in N.
  unfold to_sorted_pair.
  destruct (point_lt_spec q p) as [A|A], (point_lt_spec p q) as [B|B]; auto.
  - exfalso; exact (lex_asym _ _ A B).
  - exfalso. destruct (lex_neq p q N); auto.
Qed.

Lemma segment_relate_direction s t : proper_seg s -> proper_seg t ->
  segment_relate_to_segment (reverse_seg s) t = segment_relate_to_segment s t
  /\ segment_relate_to_segment s (reverse_seg t) = segment_relate_to_segment s t.
Proof.
  intros Ns Nt. unfold segment_relate_to_segment, relate_to_segment_endpoints.
  rewrite (sorted_reverse s), (sorted_reverse t) by auto. auto.
Qed.

(** Equality of segments. *)
Lemma segment_eq_spec s t :
  segment_eq s t = true <-> t = s \/ t = reverse_seg s.
Proof.
  unfold segment_eq, reverse_seg. rewrite orb_true_iff, !andb_true_iff, !point_eq_true.
  destruct s, t; cbn. split; [intros [[-> ->]|[-> ->]]; auto|].
  intros [[= -> ->]|[= -> ->]]; auto.
Qed.

Lemma between_antisym a b c d : seg_same (Seg a b) (Seg c d) ->
  (c = a /\ d = b) \/ (c = b /\ d = a).
Proof.
  intros H.
  assert (G : forall a b c d, lex_le a b -> lex_le c d -> seg_same (Seg a b) (Seg c d) ->
     a = c /\ b = d).
  { clear. intros a b c d L M H.
    assert (R : forall a b p, lex_le a b -> between a b p -> lex_le a p /\ lex_le p b).
    { intros u v p [K|<-] B; [apply between_lex in B; tauto|].
      apply between_same in B; subst. split; apply lex_le_refl. }
    pose proof (proj1 (H a) (between_start _ _)) as A1.
    pose proof (proj1 (H b) (between_end _ _)) as A2.
    pose proof (proj2 (H c) (between_start _ _)) as A3.
    pose proof (proj2 (H d) (between_end _ _)) as A4.
    apply R in A1, A2, A3, A4; cbn; auto.
    split; apply lex_le_antisym; cbn in *; tauto. }
  assert (S : forall a b, seg_same (Seg a b) (Seg b a))
    by (intros u v p; apply between_sym).
  destruct (lex_le_total a b) as [L|L]; destruct (lex_le_total c d) as [M|M].
  - destruct (G a b c d L M H); subst; auto.
  - destruct (G a b d c L (lex_lt_le _ _ M)) as [-> ->]; auto.
    intros p; rewrite (H p); apply S.
  - destruct (G b a c d (lex_lt_le _ _ L) M) as [-> ->]; auto.
    intros p; rewrite <- (H p); apply S.
  - destruct (G b a d c (lex_lt_le _ _ L) (lex_lt_le _ _ M)) as [-> ->]; auto.
    intros p; rewrite (S b a p), (H p); apply S.
Qed.

Lemma segment_eq_same s t : segment_eq s t = true <-> seg_same s t.
Proof.
  rewrite segment_eq_spec. split.
  - intros [->| ->] p; [tauto|]. destruct s; apply between_sym.
  - destruct s as [a b], t as [c d]. intros H. apply between_antisym in H.
    destruct H as [[-> ->]|[-> ->]]; auto.
Qed.

(** Packaging for the property files. *)
Lemma complement_table :
  complement COMPONENT = COMPOSITE /\ complement COMPOSITE = COMPONENT
  /\ complement ENCLOSED = ENCLOSES /\ complement ENCLOSES = ENCLOSED
  /\ complement COVER = WITHIN /\ complement WITHIN = COVER
  /\ (forall r, In r [CROSS; DISJOINT; EQUAL; OVERLAP; TOUCH] <-> complement r = r).
Proof.
  repeat split; destruct r; cbn; intuition discriminate.
Qed.

Lemma point_comparisons p q :
  (point_lt p q = true <-> lex_lt p q) /\ (point_le p q = true <-> lex_le p q)
  /\ (point_gt p q = true <-> lex_lt q p) /\ (point_ge p q = true <-> lex_le q p)
  /\ (point_eq p q = true <-> p = q).
Proof.
  rewrite point_gt_lt, point_ge_le, !point_lt_true, !point_le_true, point_eq_true.
  tauto.
Qed.

Lemma point_total_order :
  (forall p q, (point_lt p q = true /\ p <> q /\ point_lt q p = false)
            \/ (point_lt p q = false /\ p = q /\ point_lt q p = false)
            \/ (point_lt p q = false /\ p <> q /\ point_lt q p = true))
  /\ (forall p q r, point_lt p q = true -> point_lt q r = true -> point_lt p r = true)
  /\ (forall p q, point_le p q = point_lt p q || point_eq p q)
  /\ (forall p q, point_eq p q = true -> point_hash_key p = point_hash_key q).
Proof.
  split; [|split; [|split]].
  - intros p q. rewrite !point_lt_false, !point_lt_true.
    destruct (lex_total p q) as [[H|H]|H].
    + left. auto using lex_asym, lex_lt_neq.
    + right; left. subst; auto using lex_irrefl.
    + right; right. repeat split; auto using lex_asym.
      apply not_eq_sym, lex_lt_neq; auto.
  - intros p q r. rewrite !point_lt_true. apply lex_trans.
  - intros p q.
    destruct (point_le_spec p q) as [H|H], (point_lt_spec p q) as [K|K],
      (point_eq_spec p q) as [E|E]; auto; exfalso; unfold lex_le in *; tauto.
  - intros p q H. apply point_eq_true in H; congruence.
Qed.

Lemma orient_collinear_line v p q :
  orient v p q = COLLINEAR <->
  exists a b, a <> b /\ (exists t, v = lerp a b t) /\ (exists t, p = lerp a b t)
              /\ (exists t, q = lerp a b t).
Proof.
  rewrite orient_col. split.
  - intros H. destruct (point_dec v p) as [->|N].
    + destruct (point_dec p q) as [->|N].
      * exists q, (Pt (px q + 1) (py q)).
        assert (forall t, t = 0 -> q = lerp q (Pt (px q + 1) (py q)) t)
          by (intros t ->; symmetry; apply lerp_0).
        repeat split; eauto. intros E. apply (f_equal px) in E; cbn in E. qlra.
      * exists p, q. repeat split; auto; [exists 0|exists 0|exists 1];
          rewrite ?lerp_0, ?lerp_1; auto.
    + exists v, p. split; auto. split; [exists 0; rewrite lerp_0; auto|].
      split; [exists 1; rewrite lerp_1; auto|]. apply collinear_lerp; auto.
  - intros (a & b & _ & (s & ->) & (t & ->) & (u & ->)).
    unfold area2, lerp; pt_destr; ring.
Qed.

Lemma orient_alternating v p q :
  orient p q v = orient v p q /\ orient q v p = orient v p q
  /\ orient v q p = match orient v p q with
                    | CLOCKWISE => COUNTERCLOCKWISE
                    | COLLINEAR => COLLINEAR
                    | COUNTERCLOCKWISE => CLOCKWISE
                    end
  /\ orient p v q = orient v q p
  /\ forall dx dy, let move a := Pt (px a + dx) (py a + dy) in
       orient (move v) (move p) (move q) = orient v p q.
Proof.
  split; [apply orient_rot|]. split; [symmetry; apply orient_rot|].
  split; [rewrite orient_swap23; destruct (orient v p q); reflexivity|].
  split; [symmetry; apply orient_rot|].
  intros dx dy move. unfold orient. rewrite !cross_multiply_area2.
  replace (area2 (move v) (move p) (move q)) with (area2 v p q); auto.
  unfold move, area2; pt_destr; ring.
Qed.

Lemma segment_location s p :
  (segment_locate s p = BOUNDARY <-> on_seg s p)
  /\ (segment_locate s p = EXTERIOR <-> ~ on_seg s p)
  /\ (segment_contains s p = true <-> on_seg s p)
  /\ segment_locate (reverse_seg s) p = segment_locate s p.
Proof.
  assert (A : forall s, segment_locate s p = BOUNDARY <-> on_seg s p)
    by (intros; apply locate_spec).
  assert (B : forall s, segment_locate s p = EXTERIOR <-> ~ on_seg s p)
    by (intros; apply locate_exterior).
  assert (R : on_seg (reverse_seg s) p <-> on_seg s p)
    by (destruct s; unfold on_seg; cbn; apply between_sym).
  repeat split; try apply A; try apply B.
  - unfold segment_contains. intros H. apply A.
    destruct (between_dec (seg_start s) (seg_end s) p) as [K|K]; [apply A, K|].
    exfalso. apply B in K. rewrite K in H. discriminate.
  - intros H. unfold segment_contains. apply A in H. rewrite H. reflexivity.
  - destruct (between_dec (seg_start s) (seg_end s) p) as [K|K].
    + rewrite (proj2 (A s) K). apply A. rewrite R. exact K.
    + rewrite (proj2 (B s) K). apply B. rewrite R. exact K.
Qed.

Lemma segment_hash_consistent s t : segment_eq s t = true ->
  forall p, In p (segment_hash_key s) <-> In p (segment_hash_key t).
Proof.
  intros H p. apply segment_eq_spec in H.
  destruct s, H as [->| ->]; cbn; tauto.
Qed.

Lemma crossing_point_orient a b c d :
  orient a b c <> COLLINEAR -> orient a b d <> COLLINEAR ->
  orient c d a <> COLLINEAR -> orient c d b <> COLLINEAR ->
  orient a b c <> orient a b d -> orient c d a <> orient c d b ->
  let p := to_segments_intersection a b c d in
  strictly_between a b p /\ strictly_between c d p
  /\ (forall q, between a b q -> between c d q -> q = p)
  /\ to_segments_intersection c d a b = p.
Proof.
  intros A B C D E F.
  assert (opp : forall a b c d, orient a b c <> COLLINEAR ->
    orient a b d <> COLLINEAR -> orient a b c <> orient a b d ->
    opposite (area2 a b c) (area2 a b d)).
  { clear. intros a b c d A B C. apply on_opposite_sides_spec.
    unfold on_opposite_sides, is_collinear.
    destruct (orient a b c), (orient a b d); auto; contradiction. }
  assert (O1 := opp _ _ _ _ A B E). assert (O2 := opp _ _ _ _ C D F).
  destruct (crossing_point a b c d O1 O2) as [I1 I2].
  cbn zeta. repeat split; auto.
  - intros q Hq Hq'. apply (common_unique a b c d); auto;
      try (apply strictly_between_between; auto).
    left. intro. destruct O1; qlra.
  - symmetry; apply intersection_symmetric; auto.
Qed.
