(** [Segment.relate_to] for a multisegment: the result. *)
From Coq Require Import QArith Qcanon Bool List ZArith Lia.
From Verif Require Import QcTac Model_Base Model_Geometry Model_Segment Model_Contour Model_Relate
  Spec_Base Spec_Segment Spec_Clip Spec_Relate Proof_Base Proof_Line Proof_SegRel Proof_SegOps Proof_SegOps2
  Proof_Relate Proof_Relate2 Proof_Relate3 Proof_Relate4.
Import ListNotations.
Local Open Scope Qc_scope.

Section Line.
Variables (a b : point).
Hypothesis L : lex_lt a b.
Notation base := (Seg a b).
Let N : a <> b := a_neq_b a b L.
Notation pair_at c := (lerp a b (fst c), lerp a b (snd c)).

Lemma coords_subset t u v : at_coords a b t u v -> 0 <= u -> v <= 1 -> seg_subset t base.
Proof.
  intros K A B p O. destruct (at_coords_ex a b t u v p K O) as (w & ->).
  apply (at_coords_on a b L t u v w K) in O. apply (on_base a b L). split; qlra.
Qed.

Lemma coords_sorted t u v : at_coords a b t u v ->
  to_sorted_pair (seg_start t) (seg_end t) = (lerp a b u, lerp a b v) /\
  point_max (seg_start t) (seg_end t) = lerp a b v /\ point_min (seg_start t) (seg_end t) = lerp a b u.
Proof.
  intros (K & [-> | ->]); unfold to_sorted_pair, point_max, point_min; cbn [seg_start seg_end];
    rewrite ?point_gt_lt, !(point_lt_lerp a b _ _ L).
  - replace (qltb u v) with true by (symmetry; apply qltb_true; auto).
    replace (qltb v u) with false by (symmetry; apply qltb_false; qlra). auto.
  - replace (qltb v u) with false by (symmetry; apply qltb_false; qlra).
    replace (qltb u v) with true by (symmetry; apply qltb_true; auto). auto.
Qed.
Lemma coords_eq t u v x : at_coords a b t u v ->
  point_eq (lerp a b x) (seg_start t) || point_eq (lerp a b x) (seg_end t) = qeqb x u || qeqb x v.
Proof.
  intros (K & [-> | ->]); cbn [seg_start seg_end]; rewrite !(point_eq_lerp a b _ _ L); auto. apply orb_comm.
Qed.

Lemma ccw_area p q r : orientation_is (orient p q r) COUNTERCLOCKWISE = true <-> 0 < area2 p q r.
Proof.
  destruct (orientation_is_spec (orient p q r) COUNTERCLOCKWISE) as [E|E].
  - split; auto. intros _. apply orient_ccw. auto.
  - split; [discriminate|]. intros K. exfalso. apply E, orient_ccw. auto.
Qed.

Lemma relation_is_refl r : relation_is r r = true.
Proof. destruct r; auto. Qed.

(** ** One step *)
Lemma step_spec D t s : Forall proper_seg D -> proper_seg t ->
  (forall d, In d D -> ~ share_continuum d t) -> state_at a b D s ->
  match relate_to_multisegment_segment a b t s with
  | None => False
  | Some None => seg_subset base t
  | Some (Some s') => state_at a b (D ++ [t]) s'
  end.
Proof.
  intros PD P F S. unfold relate_to_multisegment_segment. cbv zeta.
  destruct (part_cases a b L t P) as [r R C SB|u v R K U V UV|u v R K UV|r R C SP NS]; rewrite R.
  - destruct C as [-> | ->]; auto.
  - (* COMPOSITE *)
    destruct (sa_intervals a b D s S) as (x & y & cs & E1 & E2 & E3 & IV).
    assert (SH : share_continuum base t) by (apply (coords_share a b L t u v K); destruct K as (K & _); qlra).
    assert (SUB : seg_subset t base) by (apply (coords_subset t u v); auto).
    destruct (coords_sorted t u v K) as (T1 & T2 & T3).
    pose proof IV as (A & B & C & E & G & H).
    destruct (fresh_bounds a b L D x y cs t u v PD K F IV u v (Qcle_refl u) (Qcle_refl v) U V (proj1 K)) as (F1 & F2 & F3).
    pose proof (proj1 K) as M.
    rewrite E1, E2, (coords_eq t u v x K), (coords_eq t u v y K).
    destruct (qeqb x u) eqn:Q1; [apply qeqb_true in Q1|apply qeqb_false in Q1].
    + cbn [orb]. apply (state_app_along a b D t s _ v y cs); cbn; auto.
      * tauto.
      * apply (intervals_left a b L D x y cs t u v); auto; qlra.
    + destruct (qeqb x v) eqn:Q2; [apply qeqb_true in Q2; exfalso|apply qeqb_false in Q2].
      { destruct (Qc_eq_dec x 0) as [Z|Z]; [qlra|]. assert (x <= u) by (apply F1; qne; qlra). qlra. }
      cbn [orb]. destruct (qeqb y u) eqn:Q3; [apply qeqb_true in Q3; exfalso|apply qeqb_false in Q3].
      { destruct (Qc_eq_dec y 1) as [Z|Z]; [qlra|]. assert (v <= y) by (apply F2; qne; qlra). qlra. }
      destruct (qeqb y v) eqn:Q4; [apply qeqb_true in Q4|apply qeqb_false in Q4]; cbn [orb].
      * apply (state_app_along a b D t s _ x u cs); cbn; auto.
        -- tauto.
        -- apply (intervals_right a b L D x y cs t u v); auto; qlra.
      * apply (state_app_along a b D t s _ x y (cs ++ [(u, v)])); cbn; auto.
        -- tauto.
        -- rewrite E3, T1, map_app. reflexivity.
        -- apply (intervals_mid a b L D x y cs t u v); auto.
  - (* OVERLAP *)
    destruct (sa_intervals a b D s S) as (x & y & cs & E1 & E2 & E3 & IV).
    destruct (coords_sorted t u v K) as (T1 & T2 & T3).
    pose proof IV as (A & B & C & E & G & H). pose proof (proj1 K) as M.
    assert (SH : share_continuum base t) by (apply (coords_share a b L t u v K); destruct UV; qlra).
    assert (NSUB : ~ seg_subset t base).
    { intros SUB. assert (X : (0 <= u /\ u <= 1) /\ (0 <= v /\ v <= 1)).
      { split; apply (on_base a b L), SUB, (at_coords_on a b L t u v _ K); split; qlra. }
      destruct UV; qlra. }
    unfold subtract_segments_overlap. rewrite E1, E2, T1.
    assert (XY : x < y -> to_sorted_pair (lerp a b x) (lerp a b y) = (lerp a b x, lerp a b y)).
    { intros XY. unfold to_sorted_pair. rewrite (point_lt_lerp a b _ _ L).
      replace (qltb x y) with true by (symmetry; apply qltb_true; auto). auto. }
    destruct UV as [(U1 & U2 & U3)|(U1 & U2 & U3)].
    + destruct (fresh_bounds a b L D x y cs t u v PD K F IV 0 v) as (F1 & F2 & F3); try qlra.
      assert (X0 : x = 0) by (destruct (Qc_eq_dec x 0) as [|Z]; auto; assert (x <= 0) by (apply F1; qne; qlra); qlra).
      assert (VY : v <= y) by (destruct (Qc_eq_dec y 1) as [->|Z]; [qlra|apply F2; qne; qlra]).
      rewrite XY by qlra. rewrite !(point_lt_lerp a b _ _ L).
      replace (qltb u x) with true by (symmetry; apply qltb_true; qlra).
      replace (qltb x v) with true by (symmetry; apply qltb_true; qlra). cbn [andb].
      apply (state_app_along a b D t s _ v y cs); cbn; auto.
      * split; [discriminate|]. tauto.
      * apply (intervals_left a b L D x y cs t u v); auto; qlra.
    + destruct (fresh_bounds a b L D x y cs t u v PD K F IV u 1) as (F1 & F2 & F3); try qlra.
      assert (Y1 : y = 1) by (destruct (Qc_eq_dec y 1) as [|Z]; auto; assert (1 <= y) by (apply F2; qne; qlra); qlra).
      assert (XU : x <= u) by (destruct (Qc_eq_dec x 0) as [->|Z]; [qlra|apply F1; qne; qlra]).
      rewrite XY by qlra. rewrite !(point_lt_lerp a b _ _ L).
      replace (qltb u x) with false by (symmetry; apply qltb_false; qlra). cbn [andb].
      apply (state_app_along a b D t s _ x u cs); cbn; auto.
      * split; [discriminate|]. tauto.
      * apply (intervals_right a b L D x y cs t u v); auto; qlra.
  - (* apart *)
    assert (EX : forall r', seg_relation_spec r' base t -> r' = r).
    { intros r' K. apply (seg_relation_exclusive base t); auto. }
    assert (Goal : state_at a b (D ++ [t])
      (if ms_no_overlap s
         then if relation_is r TOUCH
              then
                if ms_no_cross s
                   && (negb (point_eq (seg_start t) a) && negb (point_eq a (seg_end t)))
                   && (negb (point_eq (seg_start t) b) && negb (point_eq b (seg_end t)))
                then
                  if orientation_is (orient a b (the_free_end a b t)) COUNTERCLOCKWISE
                  then MultisegmentState (ms_start s) (ms_end s) false false (ms_no_cross s)
                         true (ms_clockwise s) (ms_counterclockwise s ++ [the_scale a b t])
                         (ms_components s)
                  else MultisegmentState (ms_start s) (ms_end s) false false (ms_no_cross s)
                         true (ms_clockwise s ++ [the_scale a b t]) (ms_counterclockwise s)
                         (ms_components s)
                else MultisegmentState (ms_start s) (ms_end s) false false (ms_no_cross s)
                       true (ms_clockwise s) (ms_counterclockwise s) (ms_components s)
              else MultisegmentState (ms_start s) (ms_end s) false (ms_no_touch s)
                     (ms_no_cross s && negb (relation_is r CROSS)) true
                     (ms_clockwise s) (ms_counterclockwise s) (ms_components s)
         else MultisegmentState (ms_start s) (ms_end s) false (ms_no_touch s) (ms_no_cross s)
                false (ms_clockwise s) (ms_counterclockwise s) (ms_components s))).
    2: { destruct C as [->|[->| ->]]; exact Goal. }
    destruct (ms_no_overlap s) eqn:O.
    2: { apply (state_app_apart a b D t s); auto. rewrite O. discriminate. }
    destruct (relation_is_spec r TOUCH) as [->|NT].
    2: { apply (state_app_apart a b D t s); auto; cbn. intros _. split; [|split].
         - split; [|tauto]. intros K. split; auto. intros K'. apply NT. symmetry. auto.
         - rewrite andb_true_iff, negb_true_iff.
           destruct (relation_is_spec r CROSS) as [->|NX]; [split; [intros (_ & ?); discriminate|tauto]|].
           split; [intros (K & _)|tauto]. split; auto. intros K'. apply NX. symmetry. auto.
         - intros _ w. split; (split; [auto|]); (intros [K|((K & _) & _)]; auto); exfalso; apply NT; symmetry; auto. }
    assert (TT : (ms_no_cross s = true <-> ms_no_cross s = true /\ ~ seg_relation_spec CROSS base t)).
    { split; [|tauto]. intros K. split; auto. intros K'. specialize (EX CROSS K'). discriminate. }
    assert (MID : (negb (point_eq (seg_start t) a) && negb (point_eq a (seg_end t)))
                   && (negb (point_eq (seg_start t) b) && negb (point_eq b (seg_end t))) = true <-> touches_mid a b t).
    { rewrite !andb_true_iff, !negb_true_iff, !point_eq_false. unfold touches_mid.
      split; [intros ((? & ?) & (? & ?))|intros (_ & ? & ? & ? & ?)]; repeat split; auto. }
    rewrite <- andb_assoc.
    destruct (ms_no_cross s) eqn:X; cbn [andb].
    2: { apply (state_app_apart a b D t s); auto; cbn. intros _. split; [|split].
         - split; [discriminate|]. intros (_ & K). contradiction.
         - rewrite X. exact TT.
         - discriminate. }
    destruct (_ && _) eqn:MD.
    2: { apply (state_app_apart a b D t s); auto; cbn. intros _. split; [|split].
         - split; [discriminate|]. intros (_ & K). contradiction.
         - rewrite X. exact TT.
         - intros _ w. assert (NM : ~ touches_mid a b t) by (intros K; apply MID in K; congruence). tauto. }
    clear MD. pose proof (proj1 MID eq_refl) as MD.
    destruct (orientation_is _ _) eqn:OR.
    + apply ccw_area in OR. apply (state_app_apart a b D t s); auto; cbn. intros _. split; [|split].
      * split; [discriminate|]. intros (_ & K). contradiction.
      * rewrite X. exact TT.
      * intros _ w. rewrite in_app_iff. cbn. tauto.
    + assert (NO : ~ 0 < area2 a b (the_free_end a b t)) by (intros K; apply ccw_area in K; congruence).
      apply (state_app_apart a b D t s); auto; cbn. intros _. split; [|split].
      * split; [discriminate|]. intros (_ & K). contradiction.
      * rewrite X. exact TT.
      * intros _ w. rewrite in_app_iff. cbn. tauto.
Qed.

Lemma initial_state : state_at a b [] (MultisegmentState a b true true true true [] [] []).
Proof.
  constructor; cbn.
  - split; auto. intros _ t [].
  - split; auto.
  - intros _. split; auto.
  - intros _. split; auto.
  - intros _ _ w. split; [intros []|intros (t & [] & _)].
  - intros _ _ w. split; [intros []|intros (t & [] & _)].
  - exists 0, 1, []. rewrite lerp_0, lerp_1. repeat split; auto; try qlra; try contradiction.
    + intros (t & [] & _).
    + intros [K|[K|(c & [] & _)]]; qlra.
Qed.

Definition no_share (l : list segment) : Prop :=
  ForallOrdPairs (fun s t => ~ share_continuum s t) l.
Lemma no_share_app D t T : no_share (D ++ t :: T) ->
  (forall d, In d D -> ~ share_continuum d t) /\ (forall d, In d T -> ~ share_continuum t d).
Proof.
  intros H. induction D as [|d D IH]; cbn in H.
  - inversion H; subst. split; [intros ? []|]. apply Forall_forall. auto.
  - inversion H as [|? ? A B]; subst. destruct (IH B) as (I1 & I2). split; auto.
    rewrite Forall_forall in A. intros d' [<-|I']; auto. apply A, in_app_iff. cbn; auto.
Qed.

Lemma loop_spec T : forall D s, Forall proper_seg (D ++ T) -> no_share (D ++ T) -> state_at a b D s ->
  match relate_to_multisegment_loop a b T s with
  | None => False
  | Some None => exists D' t T', D ++ T = D' ++ t :: T' /\ seg_subset base t
  | Some (Some s') => state_at a b (D ++ T) s'
  end.
Proof.
  induction T as [|t T IH]; intros D s P NS S.
  - cbn. rewrite app_nil_r. auto.
  - cbn [relate_to_multisegment_loop].
    pose proof P as P'. apply Forall_app in P'. destruct P' as (PD & PT). inversion PT; subst.
    pose proof (step_spec D t s PD ltac:(auto) (proj1 (no_share_app D t T NS)) S) as H.
    destruct (relate_to_multisegment_segment a b t s) as [[s'|]|]; auto.
    + specialize (IH (D ++ [t]) s'). rewrite <- app_assoc in IH. cbn in IH. apply IH; auto.
    + exists D, t, T. auto.
Qed.
End Line.
