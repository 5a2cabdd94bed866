(** The four direct operations on two segments. *)
From Coq Require Import QArith Qcanon Bool List ZArith Lia.
From Verif Require Import QcTac Model_Base Model_Box Model_Geometry
  Model_Segment Spec_Base Spec_Segment Spec_Clip Spec_Bounds Proof_Base Proof_Line Proof_SegRel
  Proof_Box Proof_Box2 Proof_Bounds Proof_SegOps.
Import ListNotations.
Local Open Scope Qc_scope.

(** Rewrite comparisons of points of the line [a b] to comparisons of coordinates. *)
Ltac pcoord a b L :=
  repeat match goal with
  | |- context [point_lt (lerp a b ?t) (lerp a b ?u)] =>
      rewrite (point_lt_lerp a b t u L)
  | |- context [point_lt a (lerp a b ?u)] =>
      replace (point_lt a (lerp a b u)) with (qltb 0 u)
        by (rewrite <- (point_lt_lerp a b 0 u L), lerp_0; reflexivity)
  | |- context [point_lt b (lerp a b ?u)] =>
      replace (point_lt b (lerp a b u)) with (qltb 1 u)
        by (rewrite <- (point_lt_lerp a b 1 u L), lerp_1; reflexivity)
  | |- context [point_lt (lerp a b ?u) a] =>
      replace (point_lt (lerp a b u) a) with (qltb u 0)
        by (rewrite <- (point_lt_lerp a b u 0 L), lerp_0; reflexivity)
  | |- context [point_lt (lerp a b ?u) b] =>
      replace (point_lt (lerp a b u) b) with (qltb u 1)
        by (rewrite <- (point_lt_lerp a b u 1 L), lerp_1; reflexivity)
  | |- context [point_le (lerp a b ?t) (lerp a b ?u)] =>
      rewrite (point_le_lerp a b t u L)
  | |- context [point_le a (lerp a b ?u)] =>
      replace (point_le a (lerp a b u)) with (qleb 0 u)
        by (rewrite <- (point_le_lerp a b 0 u L), lerp_0; reflexivity)
  | |- context [point_le b (lerp a b ?u)] =>
      replace (point_le b (lerp a b u)) with (qleb 1 u)
        by (rewrite <- (point_le_lerp a b 1 u L), lerp_1; reflexivity)
  | |- context [point_le (lerp a b ?u) a] =>
      replace (point_le (lerp a b u) a) with (qleb u 0)
        by (rewrite <- (point_le_lerp a b u 0 L), lerp_0; reflexivity)
  | |- context [point_le (lerp a b ?u) b] =>
      replace (point_le (lerp a b u) b) with (qleb u 1)
        by (rewrite <- (point_le_lerp a b u 1 L), lerp_1; reflexivity)
  | |- context [point_eq (lerp a b ?t) (lerp a b ?u)] =>
      rewrite (point_eq_lerp a b t u L)
  | |- context [point_eq a (lerp a b ?u)] =>
      replace (point_eq a (lerp a b u)) with (qeqb 0 u)
        by (rewrite <- (point_eq_lerp a b 0 u L), lerp_0; reflexivity)
  | |- context [point_eq b (lerp a b ?u)] =>
      replace (point_eq b (lerp a b u)) with (qeqb 1 u)
        by (rewrite <- (point_eq_lerp a b 1 u L), lerp_1; reflexivity)
  | |- context [point_eq (lerp a b ?u) a] =>
      replace (point_eq (lerp a b u) a) with (qeqb u 0)
        by (rewrite <- (point_eq_lerp a b u 0 L), lerp_0; reflexivity)
  | |- context [point_eq (lerp a b ?u) b] =>
      replace (point_eq (lerp a b u) b) with (qeqb u 1)
        by (rewrite <- (point_eq_lerp a b u 1 L), lerp_1; reflexivity)
  end.

(** Segments on the line [a b] given by coordinates. *)
Definition iv (a b : point) (x : Qc * Qc) : segment :=
  Seg (lerp a b (fst x)) (lerp a b (snd x)).
Definition in_iv (w : Qc) (x : Qc * Qc) : Prop :=
  (fst x <= w /\ w <= snd x) \/ (snd x <= w /\ w <= fst x).

Lemma on_iv a b x w : a <> b -> (on_seg (iv a b x) (lerp a b w) <-> in_iv w x).
Proof. intros N. apply between_lerp'; auto. Qed.
Lemma iv_proper a b x : a <> b -> (proper_seg (iv a b x) <-> fst x <> snd x).
Proof. intros N. unfold proper_seg, iv; cbn. rewrite lerp_eq by auto. tauto. Qed.
Lemma on_iv_ex a b x p : on_seg (iv a b x) p -> exists w, p = lerp a b w.
Proof. intros (t & _ & _ & ->). unfold iv; cbn. rewrite lerp_lerp. eauto. Qed.
Lemma in_iv_ex w x : in_iv w x -> exists t, 0 <= t /\ t <= 1 /\ w = fst x + t * (snd x - fst x).
Proof.
  destruct x as [v v']; cbn. intros H.
  destruct (Qc_eq_dec v v') as [<-|N].
  - exists 0. unfold in_iv in H; cbn in *. repeat split; try qlra.
    destruct H; qlra.
  - exists ((w - v) / (v' - v)).
    assert (M : v' - v <> 0) by (intro; apply N; qlra).
    assert (E : (w - v) / (v' - v) * (v' - v) = w - v) by (field; auto).
    revert E. generalize ((w - v) / (v' - v)). intros t E.
    unfold in_iv in H; cbn in H. qne; repeat split; destruct H; try qlra; qnra.
Qed.

(** The two shapes of touch_or_disjoint intervals. *)
Lemma iv_tod a b x y : a <> b -> fst x <> snd x -> fst y <> snd y ->
  (forall w w', in_iv w x -> in_iv w' y -> w <= w') \/
  (forall w w', in_iv w x -> in_iv w' y -> w' <= w) ->
  touch_or_disjoint (iv a b x) (iv a b y).
Proof.
  intros N Nx Ny H.
  assert (W : forall w w', in_iv w x -> in_iv w' x -> in_iv w y -> in_iv w' y -> w = w').
  { intros w w' A B C D. destruct H as [H|H];
    pose proof (H _ _ A C); pose proof (H _ _ A D);
    pose proof (H _ _ B C); pose proof (H _ _ B D); qlra. }
  assert (D : forall v, (in_iv v x /\ in_iv v y) ->
     (v = fst x \/ v = snd x) \/ (v = fst y \/ v = snd y)).
  { intros v [Vx Vy]. left.
    destruct (Qc_eq_dec v (fst x)); auto. destruct (Qc_eq_dec v (snd x)); auto.
    exfalso.
    assert (A1 : in_iv (fst x) x).
    { unfold in_iv. destruct (Qclt_le_dec (fst x) (snd x)); [left|right]; split; qlra. }
    assert (A2 : in_iv (snd x) x).
    { unfold in_iv. destruct (Qclt_le_dec (fst x) (snd x)); [left|right]; split; qlra. }
    destruct H as [H|H]; pose proof (H _ _ A1 Vy); pose proof (H _ _ A2 Vy);
    unfold in_iv in Vx; qne; destruct Vx; qlra. }
  assert (G : (exists v, in_iv v x /\ in_iv v y) \/ ~ (exists v, in_iv v x /\ in_iv v y)).
  { assert (Y : forall v z, {in_iv v z} + {~ in_iv v z}).
    { intros v [z z']. unfold in_iv; cbn.
      destruct (Qclt_le_dec v z), (Qclt_le_dec v z'), (Qclt_le_dec z v), (Qclt_le_dec z' v);
      first [ left; left; split; qlra | left; right; split; qlra
            | right; intros [|]; qlra ]. }
    destruct (Y (fst x) y); [left; exists (fst x)|].
    { split; auto. unfold in_iv. destruct (Qclt_le_dec (fst x) (snd x)); [left|right]; split; qlra. }
    destruct (Y (snd x) y); [left; exists (snd x)|].
    { split; auto. unfold in_iv. destruct (Qclt_le_dec (fst x) (snd x)); [left|right]; split; qlra. }
    right. intros (v & A & B). destruct (D v (conj A B)) as [[->| ->]|E]; try contradiction.
    assert (C : v = fst x \/ v = snd x).
    { destruct (Qc_eq_dec v (fst x)); auto. destruct (Qc_eq_dec v (snd x)); auto.
      exfalso.
      assert (A1 : in_iv (fst x) x).
      { unfold in_iv. destruct (Qclt_le_dec (fst x) (snd x)); [left|right]; split; qlra. }
      assert (A2 : in_iv (snd x) x).
      { unfold in_iv. destruct (Qclt_le_dec (fst x) (snd x)); [left|right]; split; qlra. }
      destruct H as [H|H]; pose proof (H _ _ A1 B); pose proof (H _ _ A2 B);
      unfold in_iv in A; qne; destruct A; qlra. }
    destruct C as [->| ->]; contradiction. }
  destruct G as [(v & A & B)|G].
  - left. exists (lerp a b v). split; [split; [|split]|].
    + apply on_iv; auto.
    + apply on_iv; auto.
    + intros q Q1 Q2. destruct (on_iv_ex _ _ _ _ Q1) as (w & ->).
      rewrite on_iv in Q1, Q2 by auto. f_equal. apply W; auto.
    + destruct (D v (conj A B)) as [[->| ->]|[->| ->]];
      [left; left|left; right|right; left|right; right]; reflexivity.
  - right. intros (q & Q1 & Q2). destruct (on_iv_ex _ _ _ _ Q1) as (w & ->).
    rewrite on_iv in Q1, Q2 by auto. apply G; eauto.
Qed.

Lemma on_segs_nil p : on_segs [] p <-> False.
Proof. split; [intros (s & [] & _)|intros []]. Qed.
Lemma on_segs_cons s l p : on_segs (s :: l) p <-> on_seg s p \/ on_segs l p.
Proof.
  split.
  - intros (t & [<-|I] & O); auto. right. exists t; auto.
  - intros [O|(t & I & O)]; [exists s|exists t]; cbn; auto.
Qed.
Lemma on_segs_app l l' p : on_segs (l ++ l') p <-> on_segs l p \/ on_segs l' p.
Proof.
  induction l; cbn [app]; rewrite ?on_segs_nil, ?on_segs_cons; tauto.
Qed.

(** A result that is good and covers exactly the points [P]. *)
Definition covers_exactly (g : geometry) (P : point -> Prop) : Prop :=
  good_result g /\ forall p, on_geometry g p <-> P p.

Lemma covers_ext g P P' : (forall p, P p <-> P' p) -> covers_exactly g P ->
  covers_exactly g P'.
Proof. intros E [A B]. split; auto. intros p. rewrite B. apply E. Qed.

Lemma good_empty : good_result GEmpty.
Proof. repeat split; constructor. Qed.
Lemma good_segment s : proper_seg s -> good_result (GSegment s).
Proof. intros. repeat split; cbn; auto; repeat constructor; auto. Qed.
Lemma good_two s t : proper_seg s -> proper_seg t -> touch_or_disjoint s t ->
  good_result (GMultisegment [s; t]).
Proof. intros. split; [split; cbn; auto|cbn; lia].
  apply FOP_cons; [constructor; auto|]. apply FOP_cons; [constructor|]. apply FOP_nil.
Qed.

Lemma rev_opposite a b c d :
  on_opposite_sides (orient b a c) (orient b a d)
  = on_opposite_sides (orient a b c) (orient a b d).
Proof.
  unfold on_opposite_sides. rewrite !(is_collinear_rev a b), (orient_rev_same a b).
  reflexivity.
Qed.

Lemma proper_sorted s a b : lex_lt a b -> (s = Seg a b \/ s = Seg b a) -> proper_seg s.
Proof. intros L [->| ->]; unfold proper_seg; cbn; [|apply not_eq_sym]; apply lex_lt_neq; auto. Qed.

Lemma covers_one s P : proper_seg s -> (forall p, on_seg s p <-> P p) ->
  covers_exactly (GSegment s) P.
Proof.
  intros. split; [apply good_segment; auto|]. intros p.
  unfold on_geometry; cbn. rewrite on_segs_cons, on_segs_nil, <- H0. tauto.
Qed.
Lemma covers_none P : (forall p, ~ P p) -> covers_exactly GEmpty P.
Proof.
  intros. split; [apply good_empty|]. intros p. unfold on_geometry; cbn.
  rewrite on_segs_nil. split; [tauto|apply H].
Qed.
Lemma covers_two s t P : proper_seg s -> proper_seg t -> touch_or_disjoint s t ->
  (forall p, on_seg s p \/ on_seg t p <-> P p) ->
  covers_exactly (GMultisegment [s; t]) P.
Proof.
  intros. split; [apply good_two; auto|]. intros p. unfold on_geometry; cbn.
  rewrite !on_segs_cons, on_segs_nil, <- H2. tauto.
Qed.

(** Two halves of one segment. *)
Lemma halves_tod a b x : strictly_between a b x -> a <> b ->
  touch_or_disjoint (Seg a x) (Seg x b) /\ a <> x /\ x <> b.
Proof.
  intros H N. pose proof (strictly_between_neq a b x N H) as [].
  split; [|auto]. destruct H as (t & ? & ? & ->).
  assert (E1 : Seg a (lerp a b t) = iv a b (0, t)) by (unfold iv; cbn; rewrite lerp_0; auto).
  assert (E2 : Seg (lerp a b t) b = iv a b (t, 1)) by (unfold iv; cbn; rewrite lerp_1; auto).
  rewrite E1, E2. apply iv_tod; auto; cbn; try (intro; qlra).
  left. unfold in_iv; cbn. intros w w' [|] [|]; qlra.
Qed.

(** The four quarters of two crossing segments. *)
Lemma quarter_tod a b c d x : strictly_between a b x -> strictly_between c d x ->
  (forall q, between a b q -> between c d q -> q = x) ->
  touch_or_disjoint (Seg a x) (Seg c x).
Proof.
  intros A B C. left. exists x. split; [split; [|split]|left; right; reflexivity].
  - apply between_end.
  - apply between_end.
  - intros q Q1 Q2. apply C.
    + apply (between_trans a b a x); auto using between_start, strictly_between_between.
    + apply (between_trans c d c x); auto using between_start, strictly_between_between.
Qed.
Lemma tod_reverse_r s t : touch_or_disjoint s t -> touch_or_disjoint s (reverse_seg t).
Proof. intros H. apply touch_or_disjoint_sym, touch_or_disjoint_reverse, touch_or_disjoint_sym; auto. Qed.

Lemma covers_iv_one a b x (P : point -> Prop) : a <> b -> fst x <> snd x ->
  (forall p, P p -> exists w, p = lerp a b w) ->
  (forall w, in_iv w x <-> P (lerp a b w)) -> covers_exactly (GSegment (iv a b x)) P.
Proof.
  intros N Nx E H. apply covers_one; [apply iv_proper; auto|].
  intros p. split.
  - intros O. destruct (on_iv_ex _ _ _ _ O) as (w & ->). apply H. apply on_iv in O; auto.
  - intros O. destruct (E p O) as (w & ->). apply on_iv; auto. apply H; auto.
Qed.
Lemma covers_iv_two a b x y (P : point -> Prop) : a <> b -> fst x <> snd x -> fst y <> snd y ->
  (forall w w', in_iv w x -> in_iv w' y -> w <= w') \/
  (forall w w', in_iv w x -> in_iv w' y -> w' <= w) ->
  (forall p, P p -> exists w, p = lerp a b w) ->
  (forall w, in_iv w x \/ in_iv w y <-> P (lerp a b w)) ->
  covers_exactly (GMultisegment [iv a b x; iv a b y]) P.
Proof.
  intros N Nx Ny D E H. apply covers_two; try (apply iv_proper; auto); [apply iv_tod; auto|].
  intros p. split.
  - intros [O|O]; destruct (on_iv_ex _ _ _ _ O) as (w & ->); apply H;
    apply on_iv in O; auto.
  - intros O. destruct (E p O) as (w & ->). rewrite !on_iv by auto. apply H; auto.
Qed.

Ltac to_iv a b :=
  repeat match goal with
  | |- context [Seg a b] =>
      replace (Seg a b) with (iv a b (0, 1))
        by (unfold iv; cbn; rewrite ?lerp_0, ?lerp_1; reflexivity)
  | |- context [Seg a (lerp a b ?t)] =>
      replace (Seg a (lerp a b t)) with (iv a b (0, t))
        by (unfold iv; cbn; rewrite ?lerp_0, ?lerp_1; reflexivity)
  | |- context [Seg (lerp a b ?t) a] =>
      replace (Seg (lerp a b t) a) with (iv a b (t, 0))
        by (unfold iv; cbn; rewrite ?lerp_0, ?lerp_1; reflexivity)
  | |- context [Seg b (lerp a b ?t)] =>
      replace (Seg b (lerp a b t)) with (iv a b (1, t))
        by (unfold iv; cbn; rewrite ?lerp_0, ?lerp_1; reflexivity)
  | |- context [Seg (lerp a b ?t) b] =>
      replace (Seg (lerp a b t) b) with (iv a b (t, 1))
        by (unfold iv; cbn; rewrite ?lerp_0, ?lerp_1; reflexivity)
  | |- context [Seg (lerp a b ?t) (lerp a b ?u)] =>
      replace (Seg (lerp a b t) (lerp a b u)) with (iv a b (t, u)) by reflexivity
  end.

Lemma difference_ex a b t p : in_difference (Seg a b) t p -> exists w, p = lerp a b w.
Proof. intros [H _]. apply col_ex1 in H. auto. Qed.

(** Solve statements about one coordinate [w]. *)
Ltac iv_lra :=
  unfold in_iv; cbn [fst snd];
  repeat match goal with
  | |- _ <-> _ => split; intros
  | |- _ /\ _ => split
  | H : _ /\ _ |- _ => destruct H
  | H : _ \/ _ |- _ => destruct H; try (exfalso; qlra)
  end;
  first
    [ qlra
    | left; split; qlra
    | right; split; qlra
    | left; left; split; qlra
    | left; right; split; qlra
    | right; left; split; qlra
    | right; right; split; qlra
    | match goal with
      | |- context [?w <= ?v] =>
          destruct (Qclt_le_dec w v);
          first [ qlra | left; split; qlra | right; split; qlra
                | left; left; split; qlra | left; right; split; qlra
                | right; left; split; qlra | right; right; split; qlra ]
      end ].

Lemma new_two s t : new_multisegment [s; t] = Some (GMultisegment [s; t]).
Proof. reflexivity. Qed.

Theorem subtract_segments m s : proper_seg m -> proper_seg s ->
  exists g, subtract_segment_from_segment m s = Some g
            /\ covers_exactly g (in_difference m s).
Proof.
  intros Nm Ns.
  destruct (to_sorted_pair_proper m Nm) as (a & b & Em & L & Hm).
  destruct (to_sorted_pair_proper s Ns) as (c & d & Es & M & Hs).
  assert (X : forall p, in_difference (Seg a b) (Seg c d) p <-> in_difference m s p).
  { intros p. apply in_difference_ext; intros q; symmetry;
    [apply (on_seg_sorted m a b q Hm)|apply (on_seg_sorted s c d q Hs)]. }
  enough (exists g, subtract_segment_from_segment m s = Some g
            /\ covers_exactly g (in_difference (Seg a b) (Seg c d))) as (g & A & B).
  { exists g. split; [exact A|]. exact (covers_ext _ _ _ X B). }
  unfold subtract_segment_from_segment. rewrite Em, Es.
  rewrite !(rev_opposite a b), !(is_collinear_rev a b).
  assert (Nab : a <> b) by (apply lex_lt_neq; auto).
  assert (Ncd : c <> d) by (apply lex_lt_neq; auto).
  assert (whole : ~ share_continuum (Seg a b) (Seg c d) ->
     exists g, Some (GSegment m) = Some g
            /\ covers_exactly g (in_difference (Seg a b) (Seg c d))).
  { intros N. eexists; split; [reflexivity|]. apply covers_one; auto.
    intros p. rewrite in_difference_no_continuum by auto. apply (on_seg_sorted m a b p Hm). }
  destruct (point_eq_spec a c) as [Eac|Nac]; [destruct (point_eq_spec b d) as [Ebd|Nbd]|];
    cbn [andb].
  { subst. eexists; split; [reflexivity|]. apply covers_none. intros p K.
    destruct (difference_ex _ _ _ _ K) as (w & ->).
    assert (K' : in_difference (Seg c d) (Seg (lerp c d 0) (lerp c d 1)) (lerp c d w)).
    { rewrite lerp_0, lerp_1. auto. }
    apply in_difference_collinear in K'; auto; [|qlra]. destruct K' as [? [|]]; qlra. }
  all: destruct (on_opposite_sides_spec' a b c d) as [O1|O1];
    [assert (NS : ~ share_continuum (Seg a b) (Seg c d)) by
       (rewrite share_iff by auto; intros [[] _]; destruct O1; qlra);
     destruct (on_opposite_sides_spec' c d a b) as [O2|O2]; [|apply whole; auto];
     destruct (crossing_point a b c d O1 O2) as [I1 I2];
     destruct (halves_tod _ _ _ I1 Nab) as (T & N1 & N2);
     rewrite new_two; eexists; split; [reflexivity|]; apply covers_two; auto; intros p;
     rewrite in_difference_no_continuum by auto; symmetry; apply between_split;
     apply strictly_between_between; auto|].
  all: destruct (is_collinear_spec' a b c) as [Zc|Zc]; cbn [andb];
    [|apply whole; rewrite share_iff by auto; tauto].
  all: destruct (is_collinear_spec' a b d) as [Zd|Zd]; cbn [andb];
    [|apply whole; rewrite share_iff by auto; tauto].
  all: destruct (collinear_coordinates a b c d L M Zc Zd) as (t & u & -> & -> & H).
  all: assert (whole' : 1 <= t \/ u <= 0 ->
     exists g, Some (GSegment m) = Some g
            /\ covers_exactly g (in_difference (Seg a b)
                 (Seg (lerp a b t) (lerp a b u)))) by
      (intros K; apply whole; rewrite col_continuum by auto; destruct K; qlra).
  all: clear whole O1 Em Es Hm Hs Zc Zd X M.
  all: rewrite ?new_two.
  all: revert whole'; pcoord a b L; intros whole'.
  all: try (assert (t = 0) by (rewrite <- (lerp_0 a b) in Eac at 1; apply lerp_eq in Eac; auto)).
  all: try (assert (N0 : 0 <> t) by (intros <-; apply Nac; rewrite lerp_0; reflexivity)).
  all: qne.
  all: repeat (match goal with |- exists g, ?x = _ /\ _ => cbhead x end).
  all: try (apply whole'; first [left; qlra | right; qlra]).
  all: eexists; (split; [reflexivity|]).
  all: try (apply covers_none; intros p K; destruct (difference_ex _ _ _ _ K) as (w & ->);
            apply in_difference_collinear in K; auto; destruct K as [? [|]]; qlra).
  all: match goal with |- covers_exactly ?g ?P => set (P' := P); to_iv a b; subst P' end.
  all: first [ apply covers_iv_one; auto; cbn [fst snd]; [|intros p; apply difference_ex|intros w]
             | apply covers_iv_two; auto; cbn [fst snd];
               [| | |intros p; apply difference_ex|intros w] ].
  all: try (intro; qlra).
  all: try (rewrite in_difference_collinear by auto; iv_lra).
  all: try (left; unfold in_iv; cbn; intros w w' [|] [|]; qlra).
Qed.

(** Two crossing segments cut at the crossing point. *)
Lemma cross_quarters a b c d :
  a <> b -> c <> d ->
  opposite (area2 a b c) (area2 a b d) -> opposite (area2 c d a) (area2 c d b) ->
  let x := to_segments_intersection a b c d in
  covers_exactly (GMultisegment [Seg a x; Seg x b; Seg c x; Seg x d])
    (fun p => on_seg (Seg a b) p \/ on_seg (Seg c d) p).
Proof.
  intros Nab Ncd O1 O2 x.
  destruct (crossing_point a b c d O1 O2) as [I1 I2]. fold x in I1, I2.
  assert (U : forall q, between a b q -> between c d q -> q = x).
  { intros q Q1 Q2. apply (common_unique a b c d); auto using strictly_between_between.
    left. intros E; destruct O1; qlra. }
  assert (I1' : strictly_between b a x) by (apply strictly_between_sym; auto).
  assert (I2' : strictly_between d c x) by (apply strictly_between_sym; auto).
  destruct (halves_tod _ _ _ I1 Nab) as (T1 & A1 & A2).
  destruct (halves_tod _ _ _ I2 Ncd) as (T2 & A3 & A4).
  assert (T3 : touch_or_disjoint (Seg a x) (Seg c x)) by (apply (quarter_tod a b c d); auto).
  assert (T4 : touch_or_disjoint (Seg a x) (Seg d x)).
  { apply (quarter_tod a b d c); auto. intros q Q1 Q2. apply U; auto. apply between_sym; auto. }
  assert (T5 : touch_or_disjoint (Seg b x) (Seg c x)).
  { apply (quarter_tod b a c d); auto. intros q Q1 Q2. apply U; auto. apply between_sym; auto. }
  assert (T6 : touch_or_disjoint (Seg b x) (Seg d x)).
  { apply (quarter_tod b a d c); auto. intros q Q1 Q2. apply U; apply between_sym; auto. }
  split; [split; [split|]|].
  - repeat (apply Forall_cons || apply Forall_nil); unfold proper_seg; cbn; auto.
  - cbn [parts]. repeat (apply FOP_cons || apply FOP_nil || apply Forall_cons || apply Forall_nil);
    auto.
    + apply (tod_reverse_r _ _ T4).
    + apply (touch_or_disjoint_reverse _ _ T5).
    + apply (touch_or_disjoint_reverse _ _ (tod_reverse_r _ _ T6)).
  - cbn; lia.
  - intros p. unfold on_geometry; cbn [parts].
    rewrite !on_segs_cons, on_segs_nil. unfold on_seg; cbn [seg_start seg_end].
    rewrite (between_split a b x), (between_split c d x) by
      (apply strictly_between_between; auto). tauto.
Qed.

(** Union. *)
Lemma unite_segments s t : proper_seg s -> proper_seg t ->
  exists g, unite_segment_with_segment s t = Some g
            /\ covers_exactly g (fun p => on_seg s p \/ on_seg t p).
Proof.
  intros Nm Ns.
  destruct (to_sorted_pair_proper s Nm) as (a & b & Em & L & Hm).
  destruct (to_sorted_pair_proper t Ns) as (c & d & Es & M & Hs).
  assert (Xs := fun p => on_seg_sorted s a b p Hm).
  assert (Xt := fun p => on_seg_sorted t c d p Hs).
  enough (exists g, unite_segment_with_segment s t = Some g
            /\ covers_exactly g (fun p => on_seg (Seg a b) p \/ on_seg (Seg c d) p))
    as (g & A & B).
  { exists g. split; [exact A|]. refine (covers_ext _ _ _ _ B).
    intros p. rewrite Xs, Xt. reflexivity. }
  unfold unite_segment_with_segment. rewrite Em, Es.
  rewrite !(rev_opposite a b), !(is_collinear_rev a b).
  assert (Nab : a <> b) by (apply lex_lt_neq; auto).
  assert (Ncd : c <> d) by (apply lex_lt_neq; auto).
  rewrite new_two.
  assert (tod : touch_or_disjoint (Seg a b) (Seg c d) ->
     exists g, Some (GMultisegment [s; t]) = Some g
       /\ covers_exactly g (fun p => on_seg (Seg a b) p \/ on_seg (Seg c d) p)).
  { intros T. eexists; split; [reflexivity|]. apply covers_two; auto.
    - destruct Hm as [->| ->], Hs as [->| ->]; auto.
      + apply (tod_reverse_r _ _ T).
      + apply (touch_or_disjoint_reverse _ _ T).
      + apply (touch_or_disjoint_reverse _ _ (tod_reverse_r _ _ T)).
    - intros p. rewrite Xs, Xt. reflexivity. }
  destruct (point_eq_spec a c) as [Eac|Nac]; [destruct (point_eq_spec b d) as [Ebd|Nbd]|];
    cbn [andb].
  { subst. eexists; split; [reflexivity|]. apply covers_one; auto.
    intros p. rewrite Xs. unfold on_seg; cbn. tauto. }
  all: assert (default : ~ share_continuum (Seg a b) (Seg c d) ->
     ~ (opposite (area2 a b c) (area2 a b d) /\ opposite (area2 c d a) (area2 c d b)) ->
     exists g, Some (GMultisegment [s; t]) = Some g
       /\ covers_exactly g (fun p => on_seg (Seg a b) p \/ on_seg (Seg c d) p)) by
    (intros NS NC; apply tod;
     destruct (not_share_cases (Seg a b) (Seg c d) Nab Ncd NS) as [C|T]; [|exact T];
     exfalso; apply NC, cross_iff; auto).
  all: destruct (on_opposite_sides_spec' a b c d) as [O1|O1];
    [assert (NS : ~ share_continuum (Seg a b) (Seg c d)) by
       (rewrite share_iff by auto; intros [[] _]; destruct O1; qlra);
     destruct (on_opposite_sides_spec' c d a b) as [O2|O2];
       [|apply default; [auto|tauto]]|].
  1, 3: eexists; (split; [reflexivity|]); apply (cross_quarters a b c d); auto.
  all: destruct (is_collinear_spec' a b c) as [Zc|Zc]; cbn [andb];
    [|apply default; [rewrite share_iff by auto; tauto|tauto]].
  all: destruct (is_collinear_spec' a b d) as [Zd|Zd]; cbn [andb];
    [|apply default; [rewrite share_iff by auto; tauto|tauto]].
  all: destruct (collinear_coordinates a b c d L M Zc Zd) as (v & u & -> & -> & H).
  all: assert (default' : 1 < v \/ u < 0 ->
     exists g, Some (GMultisegment [s; t]) = Some g
       /\ covers_exactly g (fun p => on_seg (Seg a b) p
             \/ on_seg (Seg (lerp a b v) (lerp a b u)) p)) by
      (intros K; apply default; [rewrite col_continuum by auto; destruct K; qlra|tauto]).
  all: clear default tod O1 Em Es Hm Hs Zc Zd Xs Xt M.
  all: unfold point_min, point_max; rewrite ?point_gt_lt.
  all: revert default'; pcoord a b L; intros default'.
  all: try (assert (v = 0) by (rewrite <- (lerp_0 a b) in Eac at 1; apply lerp_eq in Eac; auto)).
  all: try (assert (N0 : 0 <> v) by (intros <-; apply Nac; rewrite lerp_0; reflexivity)).
  all: qne.
  all: repeat (match goal with |- exists g, ?x = _ /\ _ => cbhead x end).
  all: try (apply default'; first [left; qlra | right; qlra]).
  all: eexists; (split; [reflexivity|]).
  all: repeat match goal with |- context [if qltb ?x ?y then _ else _] =>
         destruct (qltb_spec x y); try (exfalso; qlra) end.
  all: match goal with |- covers_exactly ?g ?P => set (P' := P); to_iv a b; subst P' end.
  all: apply covers_iv_one; auto; cbn [fst snd];
    [|intros p [K|K]; [apply col_ex1 in K|apply col_ex in K]; auto
     |intros w; rewrite (col_on1 a b v u L H), (col_on a b v u L H)].
  all: try (intro; qlra).
  all: iv_lra.
Qed.

(** Closure of the difference in line coordinates, in general. *)
Lemma in_difference_iv a b v v' t u w : lex_lt a b -> v < v' -> t < u ->
  in_difference (iv a b (v, v')) (iv a b (t, u)) (lerp a b w) <->
  (v <= w /\ w <= v') /\ ((w <= t /\ v < t) \/ (u <= w /\ u < v')).
Proof.
  intros L Hv H. assert (Nab : a <> b) by (apply lex_lt_neq; auto).
  assert (Oi : forall z z' x, z < z' -> (on_seg (iv a b (z, z')) (lerp a b x) <-> z <= x /\ x <= z')).
  { intros z z' x Hz. rewrite on_iv by auto. unfold in_iv; cbn. split; [intros [|]; split; qlra|auto]. }
  unfold in_difference. rewrite (Oi v v') by auto.
  assert (S : forall v r, v <> w ->
     (strictly_between (lerp a b w) (lerp a b v) (lerp a b r) <->
      (w < r /\ r < v) \/ (v < r /\ r < w))).
  { intros z r N. destruct (Qc_neq z w N).
    - rewrite strictly_between_sym, strictly_between_lerp by auto.
      split; [tauto|]. intros [|]; [exfalso; qlra|auto].
    - rewrite strictly_between_lerp by auto.
      split; [tauto|]. intros [|]; [auto|exfalso; qlra]. }
  split.
  - intros (Hw & q & Nq & Hq & K). split; auto.
    destruct (on_iv_ex _ _ _ q Hq) as (z & ->).
    rewrite Oi in Hq by auto.
    assert (N : z <> w) by congruence.
    assert (K' : forall r, (w < r /\ r < z) \/ (z < r /\ r < w) -> ~ (t <= r /\ r <= u)).
    { intros r Hr Hr'. apply (K (lerp a b r)); [apply S; auto|]. apply Oi; auto. }
    clear K S Oi. destruct (Qc_neq z w N) as [G|G].
    + destruct (Qclt_le_dec t w) as [A|A]; [|left; split; qlra].
      destruct (Qclt_le_dec z u) as [B|B]; [|right; split; qlra].
      destruct (max_lt z t w u) as (m & ? & ?); auto.
      exfalso. apply (K' m); [right; split; qlra|split; qlra].
    + destruct (Qclt_le_dec t z) as [A|A]; [|left; split; qlra].
      destruct (Qclt_le_dec w u) as [B|B]; [|right; split; qlra].
      destruct (max_lt w t z u) as (m & ? & ?); auto.
      exfalso. apply (K' m); [left; split; qlra|split; qlra].
  - intros [Hw K]. split; auto.
    assert (E : exists z, z <> w /\ (v <= z /\ z <= v') /\
      forall r, (w < r /\ r < z) \/ (z < r /\ r < w) -> ~ (t <= r /\ r <= u)).
    { destruct K as [[K1 K2]|[K1 K2]].
      - destruct (Qc_eq_dec w v) as [->|].
        + destruct (Qclt_le_dec t v').
          * exists t. split; [intro; qlra|]. split; [split; qlra|].
            intros r [|] ?; qlra.
          * exists v'. split; [intro; qlra|]. split; [split; qlra|].
            intros r [|] ?; qlra.
        + exists v. split; auto. split; [split; qlra|].
          intros r [|] ?; qlra.
      - destruct (Qc_eq_dec w v') as [->|].
        + destruct (Qclt_le_dec v u).
          * exists u. split; [intro; qlra|]. split; [split; qlra|].
            intros r [|] ?; qlra.
          * exists v. split; [intro; qlra|]. split; [split; qlra|].
            intros r [|] ?; qlra.
        + exists v'. split; auto. split; [split; qlra|].
          intros r [|] ?; qlra. }
    destruct E as (z & N & V & E). exists (lerp a b z).
    split; [rewrite lerp_eq; auto|].
    rewrite Oi by auto. split; auto. intros r Hr.
    assert (X : exists r', r = lerp a b r').
    { destruct Hr as (y & _ & _ & ->). rewrite lerp_lerp. eauto. }
    destruct X as (r' & ->). rewrite S in Hr by auto. rewrite Oi by auto. auto.
Qed.

Lemma symmetric_subtract_segments s t : proper_seg s -> proper_seg t ->
  exists g, symmetric_subtract_segment_from_segment s t = Some g
            /\ covers_exactly g (fun p => in_difference s t p \/ in_difference t s p).
Proof.
  intros Nm Ns.
  destruct (to_sorted_pair_proper s Nm) as (a & b & Em & L & Hm).
  destruct (to_sorted_pair_proper t Ns) as (c & d & Es & M & Hs).
  assert (Xs := fun p => on_seg_sorted s a b p Hm).
  assert (Xt := fun p => on_seg_sorted t c d p Hs).
  enough (exists g, symmetric_subtract_segment_from_segment s t = Some g
            /\ covers_exactly g (fun p => in_difference (Seg a b) (Seg c d) p
                  \/ in_difference (Seg c d) (Seg a b) p))
    as (g & A & B).
  { exists g. split; [exact A|]. refine (covers_ext _ _ _ _ B).
    intros p. rewrite (in_difference_ext s (Seg a b) t (Seg c d) p),
      (in_difference_ext t (Seg c d) s (Seg a b) p) by assumption. reflexivity. }
  unfold symmetric_subtract_segment_from_segment. rewrite Em, Es.
  rewrite !(rev_opposite a b), !(is_collinear_rev a b).
  assert (Nab : a <> b) by (apply lex_lt_neq; auto).
  assert (Ncd : c <> d) by (apply lex_lt_neq; auto).
  rewrite !new_two.
  assert (whole : ~ share_continuum (Seg a b) (Seg c d) -> forall p,
     on_seg (Seg a b) p \/ on_seg (Seg c d) p <->
     in_difference (Seg a b) (Seg c d) p \/ in_difference (Seg c d) (Seg a b) p).
  { intros N p. rewrite !in_difference_no_continuum; auto; [tauto|].
    intro; apply N, share_continuum_sym; auto. }
  assert (tod : touch_or_disjoint (Seg a b) (Seg c d) ->
     ~ share_continuum (Seg a b) (Seg c d) ->
     exists g, Some (GMultisegment [s; t]) = Some g
       /\ covers_exactly g (fun p => in_difference (Seg a b) (Seg c d) p
             \/ in_difference (Seg c d) (Seg a b) p)).
  { intros T N. eexists; split; [reflexivity|]. apply covers_two; auto.
    - destruct Hm as [->| ->], Hs as [->| ->]; auto.
      + apply (tod_reverse_r _ _ T).
      + apply (touch_or_disjoint_reverse _ _ T).
      + apply (touch_or_disjoint_reverse _ _ (tod_reverse_r _ _ T)).
    - intros p. rewrite Xs, Xt. apply whole; auto. }
  rewrite (point_eq_sym c a), (point_eq_sym d b).
  destruct (point_eq_spec a c) as [Eac|Nac]; [destruct (point_eq_spec b d) as [Ebd|Nbd]|];
    cbn [andb].
  { subst. eexists; split; [reflexivity|]. apply covers_none.
    assert (F : forall p, ~ in_difference (Seg c d) (Seg c d) p).
    { intros p K. destruct (difference_ex _ _ _ _ K) as (w & ->).
      assert (K' : in_difference (Seg c d) (Seg (lerp c d 0) (lerp c d 1)) (lerp c d w)).
      { rewrite lerp_0, lerp_1. auto. }
      apply in_difference_collinear in K'; auto; [|qlra]. destruct K' as [? [|]]; qlra. }
    intros p [K|K]; apply (F p K). }
  all: assert (default : ~ share_continuum (Seg a b) (Seg c d) ->
     ~ (opposite (area2 a b c) (area2 a b d) /\ opposite (area2 c d a) (area2 c d b)) ->
     exists g, Some (GMultisegment [s; t]) = Some g
       /\ covers_exactly g (fun p => in_difference (Seg a b) (Seg c d) p
             \/ in_difference (Seg c d) (Seg a b) p)) by
    (intros NS NC; apply tod; auto;
     destruct (not_share_cases (Seg a b) (Seg c d) Nab Ncd NS) as [C|T]; [|exact T];
     exfalso; apply NC, cross_iff; auto).
  all: destruct (on_opposite_sides_spec' a b c d) as [O1|O1];
    [assert (NS : ~ share_continuum (Seg a b) (Seg c d)) by
       (rewrite share_iff by auto; intros [[] _]; destruct O1; qlra);
     destruct (on_opposite_sides_spec' c d a b) as [O2|O2];
       [|apply default; [auto|tauto]]|].
  1, 3: eexists; (split; [reflexivity|]);
    refine (covers_ext _ _ _ (whole NS) (cross_quarters a b c d Nab Ncd O1 O2)).
  all: destruct (is_collinear_spec' a b c) as [Zc|Zc]; cbn [andb];
    [|apply default; [rewrite share_iff by auto; tauto|tauto]].
  all: destruct (is_collinear_spec' a b d) as [Zd|Zd]; cbn [andb];
    [|apply default; [rewrite share_iff by auto; tauto|tauto]].
  all: destruct (collinear_coordinates a b c d L M Zc Zd) as (v & u & -> & -> & H).
  all: assert (default' : 1 < v \/ u < 0 ->
     exists g, Some (GMultisegment [s; t]) = Some g
       /\ covers_exactly g (fun p =>
            in_difference (Seg a b) (Seg (lerp a b v) (lerp a b u)) p
             \/ in_difference (Seg (lerp a b v) (lerp a b u)) (Seg a b) p)) by
      (intros K; apply default; [rewrite col_continuum by auto; destruct K; qlra|tauto]).
  all: clear default tod O1 Em Es Hm Hs Zc Zd Xs Xt M whole.
  all: revert default'; pcoord a b L; intros default'.
  all: try (assert (v = 0) by (rewrite <- (lerp_0 a b) in Eac at 1; apply lerp_eq in Eac; auto)).
  all: try (assert (N0 : 0 <> v) by (intros <-; apply Nac; rewrite lerp_0; reflexivity)).
  all: qne.
  1: assert (N1 : 1 <> u) by (intros <-; apply Nbd; rewrite lerp_1; reflexivity); qne.
  all: repeat (match goal with |- exists g, ?x = _ /\ _ => cbhead x end).
  all: try (apply default'; first [left; qlra | right; qlra]).
  all: eexists; (split; [reflexivity|]); clear default'.
  all: to_iv a b.
  all: first [ apply covers_iv_one; auto; cbn [fst snd];
               [|intros p [[K _]|[K _]]; apply on_iv_ex in K; exact K
                |intros w; rewrite !in_difference_iv by (auto; qlra)]
             | apply covers_iv_two; auto; cbn [fst snd];
               [| | |intros p [[K _]|[K _]]; apply on_iv_ex in K; exact K
                |intros w; rewrite !in_difference_iv by (auto; qlra)] ].
  all: try (intro; qlra).
  all: try (left; unfold in_iv; cbn; intros w w' [|] [|]; qlra).
  all: unfold in_iv; cbn [fst snd]; split; intros;
  repeat match goal with
  | H : _ /\ _ |- _ => destruct H
  | H : _ \/ _ |- _ => destruct H; try (exfalso; qlra)
  end.
  all: try solve
    [ left; split; qlra | right; split; qlra
    | left; left; split; qlra | left; right; split; qlra
    | right; left; split; qlra | right; right; split; qlra
    | left; split; [split; qlra|left; split; qlra]
    | left; split; [split; qlra|right; split; qlra]
    | right; split; [split; qlra|left; split; qlra]
    | right; split; [split; qlra|right; split; qlra]
    | match goal with
      | |- context [?w <= ?v] =>
          destruct (Qclt_le_dec w v);
          first
           [ left; split; [split; qlra|left; split; qlra]
    | left; split; [split; qlra|right; split; qlra]
    | right; split; [split; qlra|left; split; qlra]
    | right; split; [split; qlra|right; split; qlra] ] end ].
Qed.

(** Intersection. *)
Definition common (s t : segment) (p : point) : Prop := on_seg s p /\ on_seg t p.

Lemma collinear_or_eq a b c : (point_eq a c || is_collinear (orient b a c))
  = is_collinear (orient a b c).
Proof.
  rewrite (is_collinear_rev a b).
  destruct (point_eq_spec a c) as [->|]; auto. cbn.
  symmetry. apply is_collinear_spec, area2_aba.
Qed.
Lemma collinear_or_eq' a b d : (point_eq b d || is_collinear (orient b a d))
  = is_collinear (orient a b d).
Proof.
  rewrite (is_collinear_rev a b).
  destruct (point_eq_spec b d) as [->|]; auto. cbn.
  symmetry. apply is_collinear_spec, area2_abb.
Qed.

Lemma segment_box_sorted s a b : (s = Seg a b \/ s = Seg b a) ->
  segment_bounding_box s = segment_bounding_box (Seg a b).
Proof. intros [->| ->]; auto. apply (segment_box_reverse (Seg a b)). Qed.

(** The comprehension body shared by the three intersections. *)
Lemma intersect_core s t : proper_seg s -> proper_seg t ->
  do_boxes_have_common_continuum (segment_bounding_box s) (segment_bounding_box t) = true ->
  match intersect_segments_with_common_continuum_bounding_boxes
          (seg_start s) (seg_end s) (seg_start t) (seg_end t) with
  | Some r => share_continuum s t /\ proper_seg r
              /\ forall p, on_seg r p <-> on_seg s p /\ on_seg t p
  | None => ~ share_continuum s t
  end.
Proof.
  intros Nm Ns F.
  destruct (to_sorted_pair_proper s Nm) as (a & b & Em & L & Hm).
  destruct (to_sorted_pair_proper t Ns) as (c & d & Es & M & Hs).
  rewrite (segment_box_sorted s a b Hm), (segment_box_sorted t c d Hs) in F.
  assert (Xs := fun p => on_seg_sorted s a b p Hm).
  assert (Xt := fun p => on_seg_sorted t c d p Hs).
  assert (Sh : share_continuum s t <-> share_continuum (Seg a b) (Seg c d)).
  { unfold share_continuum. split; intros (p & q & N & K); exists p, q; split; auto;
    rewrite !Xs, !Xt in *; auto. }
  unfold intersect_segments_with_common_continuum_bounding_boxes. rewrite Em, Es.
  rewrite collinear_or_eq, collinear_or_eq'.
  destruct (is_collinear_spec' a b c) as [Zc|Zc]; cbn [andb];
    [|rewrite Sh, share_iff by auto; tauto].
  destruct (is_collinear_spec' a b d) as [Zd|Zd]; cbn [andb];
    [|rewrite Sh, share_iff by auto; tauto].
  destruct (collinear_coordinates a b c d L M Zc Zd) as (v & u & -> & -> & H).
  assert (K : v < 1 /\ 0 < u).
  { destruct (Qclt_le_dec v 1), (Qclt_le_dec 0 u); auto; exfalso;
    rewrite continuum_filter_collinear in F; auto; discriminate. }
  rewrite Sh, col_continuum by auto. split; [exact K|].
  assert (Nab : a <> b) by (apply lex_lt_neq; auto).
  assert (G : forall x, fst x <> snd x ->
     (forall w, in_iv w x <-> (0 <= w /\ w <= 1) /\ (v <= w /\ w <= u)) ->
     proper_seg (iv a b x) /\ forall p, on_seg (iv a b x) p <-> on_seg s p /\ on_seg t p).
  { intros x Nx E. split; [apply iv_proper; auto|]. intros p. rewrite Xs, Xt.
    split.
    - intros O. destruct (on_iv_ex _ _ _ _ O) as (w & ->). rewrite on_iv, E in O by auto.
      rewrite <- (col_on1 a b v u L H), <- (col_on a b v u L H) in O. exact O.
    - intros [O O']. destruct (col_ex1 _ _ _ O) as (w & ->). rewrite on_iv, E by auto.
      rewrite <- (col_on1 a b v u L H), <- (col_on a b v u L H). auto. }
  unfold point_max, point_min. rewrite point_gt_lt. pcoord a b L.
  destruct (qltb_spec 0 v), (qltb_spec u 1); to_iv a b; apply G; cbn [fst snd];
    try (intro; qlra); intros w; unfold in_iv; cbn [fst snd];
    (split; [intros [|]; repeat split; qlra|intros; left; split; qlra]).
Qed.

Lemma intersect_segments s t : proper_seg s -> proper_seg t ->
  (share_continuum s t /\ exists r, intersect_segment_with_segment s t = GSegment r
      /\ proper_seg r /\ forall p, on_seg r p <-> on_seg s p /\ on_seg t p)
  \/ (~ share_continuum s t /\ intersect_segment_with_segment s t = GEmpty).
Proof.
  intros Ns Nt. unfold intersect_segment_with_segment.
  rewrite continuum_filters_complementary.
  destruct (do_boxes_have_common_continuum _ _) eqn:F; cbn.
  - pose proof (intersect_core s t Ns Nt F) as K.
    destruct (intersect_segments_with_common_continuum_bounding_boxes _ _ _ _) as [r|].
    + left. destruct K as (A & B & C). split; auto. exists r. auto.
    + right; auto.
  - right. split; auto. intros S. apply continuum_filter_segments in S. congruence.
Qed.
