(** Union of a segment with a multisegment or contour. *)
From Coq Require Import QArith Qcanon Bool List ZArith Lia Sorting.Sorted.
From Verif Require Import QcTac Model_Base Model_Box Model_Geometry
  Model_Segment Spec_Base Spec_Segment Spec_Clip Spec_Bounds Proof_Base Proof_Line Proof_SegRel
  Proof_Box Proof_Box2 Proof_Bounds Proof_SegOps Proof_SegOps2 Proof_SegLoops.
Import ListNotations.
Local Open Scope Qc_scope.

(** ** Cutting a segment at points *)
Fixpoint chain (start : point) (l : list point) (end_ : point) : Prop :=
  match l with
  | [] => start <> end_
  | p :: r => strictly_between start end_ p /\ start <> end_ /\ chain p r end_
  end.
Lemma cut_at_spec l : forall start end_, chain start l end_ ->
  non_crossing (cut_at start l end_)
  /\ (forall p, on_segs (cut_at start l end_) p <-> on_seg (Seg start end_) p).
Proof.
  induction l as [|x l IH]; intros start end_ C; cbn [cut_at chain] in *.
  - split; [split|].
    + constructor; auto.
    + apply FOP_cons; constructor.
    + intros p. rewrite on_segs_cons, on_segs_nil. tauto.
  - destruct C as (S & N & C). destruct (IH x end_ C) as [[A1 A2] A3].
    destruct (halves_tod start end_ x S N) as (T & N1 & N2).
    split; [split|].
    + constructor; auto.
    + apply FOP_cons; auto. apply Forall_forall. intros y I.
      rewrite Forall_forall in A1.
      apply (touch_or_disjoint_sub (Seg start x) (Seg x end_)); auto.
      * intros p; auto.
      * intros p O. apply A3. exists y; auto.
    + intros p. rewrite on_segs_cons, A3. symmetry. apply between_split.
      apply strictly_between_between; auto.
Qed.

Lemma insert_point_In p l q : In q (insert_point p l) <-> q = p \/ In q l.
Proof.
  induction l as [|x l IH]; cbn; [intuition|].
  destruct (point_lt x p); cbn; rewrite ?IH; intuition.
Qed.
Lemma insert_point_sorted p l : StronglySorted lex_le l ->
  StronglySorted lex_le (insert_point p l).
Proof.
  induction 1 as [|x l S IH F]; cbn; [repeat constructor|].
  destruct (point_lt_spec x p) as [L|L].
  - constructor; auto. rewrite Forall_forall in *. intros q I.
    apply insert_point_In in I. destruct I as [->|I]; auto. left; auto.
  - apply lex_not_lt in L. constructor; [constructor; auto|].
    constructor; auto. rewrite Forall_forall in *. intros q I.
    apply (lex_le_trans p x q); auto.
Qed.
Lemma sort_points_spec l : StronglySorted lex_le (sort_points l)
  /\ forall q, In q (sort_points l) <-> In q l.
Proof.
  induction l as [|x l [S I]]; cbn.
  - split; [constructor|tauto].
  - split; [apply insert_point_sorted; auto|]. intros q. rewrite insert_point_In, I.
    intuition.
Qed.
Lemma deduplicate_cons p l : deduplicate_points (p :: l) =
  match l with [] => [p] | q :: _ =>
  if point_eq p q then deduplicate_points l else p :: deduplicate_points l end.
Proof. reflexivity. Qed.
Lemma deduplicate_spec l : StronglySorted lex_le l ->
  StronglySorted lex_lt (deduplicate_points l)
  /\ forall q, In q (deduplicate_points l) <-> In q l.
Proof.
  induction 1 as [|x l S [IH1 IH2] F].
  - split; [constructor|tauto].
  - rewrite deduplicate_cons. destruct l as [|y l].
    + split; [repeat constructor|tauto].
    + destruct (point_eq_spec x y) as [->|N].
      * split; auto. intros q. rewrite IH2. cbn. tauto.
      * split.
        -- constructor; auto. rewrite Forall_forall in *. intros q I. apply IH2 in I.
           apply (lex_lt_le_trans x y q).
           ++ destruct (F y (or_introl eq_refl)); auto. contradiction.
           ++ destruct I as [<-|I]; [right; auto|].
              inversion S; subst. rewrite Forall_forall in H2. auto.
        -- intros q. cbn [In]. rewrite IH2. cbn. tauto.
Qed.

Lemma sorted_chain l : forall start end_, lex_lt start end_ ->
  StronglySorted lex_lt l -> Forall (strictly_between start end_) l -> chain start l end_.
Proof.
  induction l as [|x l IH]; intros start end_ L S F; cbn; [apply lex_lt_neq; auto|].
  inversion S; subst. inversion F; subst.
  split; auto. split; [apply lex_lt_neq; auto|].
  assert (Lx := proj1 (strictly_between_lex start end_ x L) H3).
  destruct Lx as (Z & L1 & L2).
  apply IH; auto. rewrite Forall_forall in *. intros q I.
  specialize (H2 q I). specialize (H4 q I).
  apply strictly_between_lex in H4; auto. destruct H4 as (Zq & L3 & L4).
  apply strictly_between_lex; auto. repeat split; auto.
  apply (same_line start end_ x end_ q); auto.
  - apply lex_lt_neq; auto.
  - apply lex_lt_neq; auto.
  - apply area2_abb.
Qed.

Lemma cut_segment_spec s c d points : lex_lt c d -> (s = Seg c d \/ s = Seg d c) ->
  Forall (strictly_between c d) points ->
  non_crossing (cut_segment s c d points) /\ cut_segment s c d points <> []
  /\ (forall p, on_segs (cut_segment s c d points) p <-> on_seg s p).
Proof.
  intros L Hs F. unfold cut_segment. destruct points as [|x l].
  - split; [|split; [discriminate|]].
    + apply (piece_self s). apply (proper_sorted s c d); auto.
    + intros p. rewrite on_segs_cons, on_segs_nil. tauto.
  - revert F. generalize (x :: l). clear x l. intros l F.
    destruct (sort_points_spec l) as [S1 I1].
    destruct (deduplicate_spec (sort_points l) S1) as [S2 I2].
    assert (C : chain c (deduplicate_points (sort_points l)) d).
    { apply sorted_chain; auto. rewrite Forall_forall in *. intros q I.
      apply F, I1, I2; auto. }
    destruct (cut_at_spec _ _ _ C) as [A B]. split; auto. split.
    + destruct (deduplicate_points _); discriminate.
    + intros p. rewrite B. symmetry. apply (on_seg_sorted s c d); auto.
Qed.

(** ** One step of the loop *)
Definition plus_pieces (m : segment) (bb : box) (c d : point)
  : list segment * list point :=
      if box_disjoint_with (segment_bounding_box m) bb
      then ([m], [])
      else
      let (a, b) := to_sorted_pair (seg_start m) (seg_end m) in
      let oa := orient d c a in
      let ob := orient d c b in
      if orientation_is oa ob then
        if is_collinear oa then
          if point_eq c a then
            if point_lt d b then ([Seg d b], []) else ([], [])
          else if point_eq d b then
            if point_lt a c then ([Seg a c], []) else ([], [])
          else if point_lt c a && point_lt a d then
            if point_lt d b then ([Seg d b], []) else ([], [])
          else if point_lt a c && point_lt c b then
            (Seg a c :: (if point_lt d b then [Seg d b] else []), [])
          else ([m], [])
        else ([m], [])
      else if is_collinear oa then
        if point_lt c a && point_lt a d then ([m], [a]) else ([m], [])
      else if is_collinear ob then
        if point_lt c b && point_lt b d then ([m], [b]) else ([m], [])
      else
      let oc := orient a b c in
      let od := orient a b d in
      if is_collinear oc then
        if point_lt a c && point_lt c b then ([Seg a c; Seg c b], []) else ([m], [])
      else if is_collinear od then
        if point_lt a d && point_lt d b then ([Seg a d; Seg d b], []) else ([m], [])
      else if negb (orientation_is oc od) then
        let x := to_segments_intersection a b c d in
        ([Seg a x; Seg x b], [x])
      else ([m], []).

Definition same_test (m : segment) bb c d : bool :=
  negb (box_disjoint_with (segment_bounding_box m) bb)
     && point_eq c (fst (to_sorted_pair (seg_start m) (seg_end m)))
     && point_eq d (snd (to_sorted_pair (seg_start m) (seg_end m))).

Lemma unite_loop_step m rest bb c d :
  unite_segments_with_segment (m :: rest) bb c d =
  if same_test m bb c d then (rest, [])
  else (fst (plus_pieces m bb c d) ++ fst (unite_segments_with_segment rest bb c d),
        snd (plus_pieces m bb c d) ++ snd (unite_segments_with_segment rest bb c d)).
Proof.
  unfold plus_pieces, same_test. cbn [unite_segments_with_segment].
  destruct (unite_segments_with_segment rest bb c d) as [segs points]. cbn [fst snd].
  destruct (box_disjoint_with _ _); cbn [negb andb]; [reflexivity|].
  destruct (to_sorted_pair (seg_start m) (seg_end m)) as [a b]. cbn [fst snd].
  destruct (point_eq c a && point_eq d b); [reflexivity|].
  repeat match goal with
  | |- context [if ?x then _ else _] => destruct x; try reflexivity
  end.
Qed.

Definition plus_ok (m s : segment) (c d : point) (l : list segment) (ps : list point) : Prop :=
  piece_list m l
  /\ (forall p, on_segs l p \/ on_seg s p <-> on_seg m p \/ on_seg s p)
  /\ Forall (fun x => touch_or_disjoint x s) l
  /\ Forall (strictly_between c d) ps.

Lemma tod_sorted m s a b c d : (m = Seg a b \/ m = Seg b a) -> (s = Seg c d \/ s = Seg d c) ->
  touch_or_disjoint (Seg a b) (Seg c d) -> touch_or_disjoint m s.
Proof.
  intros Hm Hs T. destruct Hm as [->| ->], Hs as [->| ->]; auto.
  - apply (tod_reverse_r _ _ T).
  - apply (touch_or_disjoint_reverse _ _ T).
  - apply (touch_or_disjoint_reverse _ _ (tod_reverse_r _ _ T)).
Qed.

Lemma plus_pieces_spec m s c d : proper_seg m -> proper_seg s ->
  lex_lt c d -> (s = Seg c d \/ s = Seg d c) ->
  ~ (c = fst (to_sorted_pair (seg_start m) (seg_end m))
     /\ d = snd (to_sorted_pair (seg_start m) (seg_end m))) ->
  plus_ok m s c d (fst (plus_pieces m (segment_bounding_box s) c d))
    (snd (plus_pieces m (segment_bounding_box s) c d)).
Proof.
  intros Nm Ns M Hs NE.
  destruct (to_sorted_pair_proper m Nm) as (a & b & Em & L & Hm).
  unfold plus_pieces. rewrite Em in *. cbn [fst snd] in NE.
  rewrite !(orient_rev_same c d), !(is_collinear_rev c d).
  assert (Nab : a <> b) by (apply lex_lt_neq; auto).
  assert (Ncd : c <> d) by (apply lex_lt_neq; auto).
  assert (Xm := fun p => on_seg_sorted m a b p Hm).
  assert (Xs := fun p => on_seg_sorted s c d p Hs).
  assert (whole : forall ps, Forall (strictly_between c d) ps ->
     touch_or_disjoint (Seg a b) (Seg c d) -> plus_ok m s c d [m] ps).
  { intros ps Fp T. split; [apply piece_self; auto|]. split; [|split; auto].
    - intros p. rewrite on_segs_cons, on_segs_nil. tauto.
    - constructor; auto. apply (tod_sorted m s a b c d); auto. }
  assert (default : forall ps, Forall (strictly_between c d) ps ->
     ~ share_continuum (Seg a b) (Seg c d) ->
     ~ (opposite (area2 a b c) (area2 a b d) /\ opposite (area2 c d a) (area2 c d b)) ->
     plus_ok m s c d [m] ps).
  { intros ps Fp NS NC; apply whole; auto.
    destruct (not_share_cases (Seg a b) (Seg c d) Nab Ncd NS) as [C|T]; [|exact T].
    exfalso; apply NC, cross_iff; auto. }
  assert (halves : forall x, strictly_between a b x ->
     (touch_or_disjoint (Seg a b) (Seg c d) \/
      (touch_or_disjoint (Seg a x) (Seg c d) /\ touch_or_disjoint (Seg x b) (Seg c d))) ->
     forall ps, Forall (strictly_between c d) ps ->
     plus_ok m s c d [Seg a x; Seg x b] ps).
  { intros x Sx T ps Fp. destruct (halves_tod a b x Sx Nab) as (Th & N1 & N2).
    assert (B := strictly_between_between _ _ _ Sx).
    assert (S1 : seg_subset (Seg a x) (Seg a b)).
    { intros p O. apply (between_split a b x); auto. }
    assert (S2 : seg_subset (Seg x b) (Seg a b)).
    { intros p O. apply (between_split a b x); auto. }
    split; [split; [split|]|split; [|split; auto]].
    - repeat (constructor; auto).
    - apply FOP_cons; [constructor; auto|apply FOP_cons; constructor].
    - repeat constructor; intros p O; apply Xm; [apply S1|apply S2]; auto.
    - intros p. rewrite !on_segs_cons, on_segs_nil. rewrite Xm.
      rewrite (between_split a b x) by auto. unfold on_seg at 1 2; cbn. tauto.
    - constructor; [|constructor; [|constructor]].
      + apply (tod_sorted _ _ a x c d); auto. destruct T as [T|[T _]]; auto.
        apply (touch_or_disjoint_sub (Seg a b) (Seg c d)); auto. intros p; auto.
      + apply (tod_sorted _ _ x b c d); auto. destruct T as [T|[_ T]]; auto.
        apply (touch_or_disjoint_sub (Seg a b) (Seg c d)); auto. intros p; auto. }
  destruct (box_disjoint_with _ _) eqn:D.
  { apply whole; [constructor|]. right. apply disjoint_boxes_points in D.
    intros (p & A & B). apply D. exists p. rewrite Xm, Xs. auto. }
  clear D.
  assert (NSc : ~ (area2 c d a = 0 /\ area2 c d b = 0) ->
    ~ share_continuum (Seg a b) (Seg c d)).
  { intros N S. apply share_continuum_sym, share_iff in S; auto. tauto. }
  assert (NS' : ~ (area2 a b c = 0 /\ area2 a b d = 0) ->
    ~ share_continuum (Seg a b) (Seg c d)).
  { intros N S. apply share_iff in S; auto. tauto. }
  destruct (orientation_is_spec (orient c d a) (orient c d b)) as [Eo|No].
  - destruct (is_collinear_spec' c d a) as [Za|Za].
    2:{ apply default; [constructor| |].
        - apply NSc; tauto.
        - intros [_ O]. apply Za.
          destruct (orient_spec c d a) as [[K ?]|[[K ?]|[K ?]]]; auto;
          rewrite K in Eo; symmetry in Eo; [apply orient_ccw in Eo|apply orient_cw in Eo];
          destruct O; qlra. }
    assert (Zb : area2 c d b = 0).
    { apply orient_col in Za. rewrite Za in Eo. apply orient_col; auto. }
    destruct (collinear_coordinates c d a b M L Za Zb) as (v & u & -> & -> & H).
    assert (default' : 1 <= v \/ u <= 0 -> plus_ok m s c d [m] []).
    { intros K; apply default; [constructor| |].
      - intros S. apply share_continuum_sym in S.
        rewrite col_continuum in S by auto. destruct K; qlra.
      - intros [_ O]. destruct O; qlra. }
    assert (N01 : ~ (v = 0 /\ u = 1)).
    { intros [-> ->]. apply NE. rewrite lerp_0, lerp_1. auto. }
    assert (G : forall l, covers_exactly (to_geometry l)
       (in_difference (Seg (lerp c d v) (lerp c d u)) (Seg c d)) -> v < 1 -> 0 < u ->
       plus_ok m s c d l []).
    { intros l [[K _] C] V U. rewrite to_geometry_parts in K.
      assert (C' : forall p, on_segs l p <-> in_difference (Seg (lerp c d v) (lerp c d u)) (Seg c d) p).
      { intros p. rewrite <- C. unfold on_geometry. rewrite to_geometry_parts. tauto. }
      assert (Pl : piece_list m l).
      { split; auto. apply Forall_forall. intros x I p O. apply Xm.
        assert (Q : on_segs l p) by (exists x; auto). apply C' in Q. apply Q. }
      split; [exact Pl|]. split; [|split; [|constructor]].
      - intros p. rewrite C', Xm, Xs. split.
        + intros [[O _]|O]; auto.
        + intros [O|O]; auto. destruct (on_seg_dec (Seg c d) p) as [I|I]; auto.
          left. apply (col_ex c d v u) in O as O'. destruct O' as (w & ->).
          replace (Seg c d) with (iv c d (0, 1)) by (unfold iv; cbn; rewrite lerp_0, lerp_1; auto).
          apply (in_difference_iv c d v u 0 1 w); auto; [qlra|].
          apply (col_on c d v u M H) in O.
          rewrite (col_on1 c d v u M H) in I. split; auto.
          destruct (Qclt_le_dec w 0); [left; split; qlra|].
          destruct (Qclt_le_dec 1 w); [right; split; qlra|]. exfalso. apply I; split; auto.
      - rewrite Forall_forall. intros x I. destruct K as [K1 K2].
        rewrite Forall_forall in K1. specialize (K1 x I).
        apply (tod_sorted _ _ (seg_start x) (seg_end x) c d); [left; destruct x; auto|auto|].
        assert (Sub : forall p, on_seg x p ->
           in_difference (Seg (lerp c d v) (lerp c d u)) (Seg c d) p).
        { intros p O. apply C'. exists x; auto. }
        replace (Seg c d) with (iv c d (0, 1)) in * by (unfold iv; cbn; rewrite lerp_0, lerp_1; auto).
        change (Seg (lerp c d v) (lerp c d u)) with (iv c d (v, u)) in Sub.
        assert (A1 := Sub _ (between_start _ _)). assert (A2 := Sub _ (between_end _ _)).
        destruct (on_iv_ex _ _ _ _ (proj1 A1)) as (w1 & E1).
        destruct (on_iv_ex _ _ _ _ (proj1 A2)) as (w2 & E2).
        assert (Ex : x = iv c d (w1, w2)).
        { destruct x; cbn in *; subst; reflexivity. }
        clear E1 E2. subst x. cbn [iv seg_start seg_end fst snd] in *.
        assert (W : forall w, in_iv w (w1, w2) ->
           (v <= w /\ w <= u) /\ ((w <= 0 /\ v < 0) \/ (1 <= w /\ 1 < u))).
        { intros w Hw. apply (in_difference_iv c d v u 0 1 w); auto; [qlra|].
          apply Sub. apply on_iv; auto. }
        apply iv_proper in K1; auto. cbn in K1.
        change (Seg (lerp c d w1) (lerp c d w2)) with (iv c d (w1, w2)).
        apply iv_tod; auto; cbn; [intro; qlra|].
        assert (B1 : in_iv w1 (w1, w2)).
        { unfold in_iv; cbn. destruct (Qclt_le_dec w1 w2); [left|right]; split; qlra. }
        assert (B2 : in_iv w2 (w1, w2)).
        { unfold in_iv; cbn. destruct (Qclt_le_dec w1 w2); [left|right]; split; qlra. }
        pose proof (W w1 B1) as [_ W1]. pose proof (W w2 B2) as [_ W2].
        destruct W1 as [W1|W1], W2 as [W2|W2].
        + left. unfold in_iv; cbn. intros w w' [|] [|]; qlra.
        + exfalso. assert (B0 : in_iv (1 / (1 + 1)) (w1, w2)).
          { unfold in_iv; cbn. left. assert (0 <= 1 / (1+1) /\ 1 / (1 + 1) <= 1) by (split; discriminate).
            split; qlra. }
          apply W in B0. assert (0 < 1 / (1+1) /\ 1 / (1 + 1) < 1) by (split; reflexivity).
          destruct B0 as [_ [|]]; qlra.
        + exfalso. assert (B0 : in_iv (1 / (1 + 1)) (w1, w2)).
          { unfold in_iv; cbn. right. assert (0 <= 1 / (1+1) /\ 1 / (1 + 1) <= 1) by (split; discriminate).
            split; qlra. }
          apply W in B0. assert (0 < 1 / (1+1) /\ 1 / (1 + 1) < 1) by (split; reflexivity).
          destruct B0 as [_ [|]]; qlra.
        + right. unfold in_iv; cbn. intros w w' [|] [|]; qlra. }
    clear whole default halves NSc NS' Em Hm Hs Za Zb NE L Xm Xs Nab Eo.
    revert default' G; pcoord c d M; intros default' G.
    repeat (match goal with |- plus_ok _ _ _ _ (fst ?x) _ => cbhead x end).
    all: cbn [fst snd].
    all: try (exfalso; apply N01; split; qlra).
    all: try (apply default'; first [left; qlra | right; qlra]).
    all: apply G; [|qlra|qlra]; clear default' G.
    all: repeat match goal with |- context [if qltb ?x ?y then _ else _] =>
         destruct (qltb_spec x y); try (exfalso; qlra) end.
    all: cbn [to_geometry]; to_iv c d.
    all: first [ apply covers_iv_one; cbn [fst snd];
               [exact Ncd|intro; qlra|intros p [K _]; apply on_iv_ex in K; exact K
                |intros w; rewrite !in_difference_iv by (auto; qlra)]
             | apply covers_iv_two; cbn [fst snd];
               [exact Ncd|intro; qlra|intro; qlra| |intros p [K _]; apply on_iv_ex in K; exact K
                |intros w; rewrite !in_difference_iv by (auto; qlra)]
             | apply covers_none; intros p K; pose proof K as [K' _];
               apply on_iv_ex in K'; destruct K' as (w & ->);
               rewrite in_difference_iv in K by (auto; qlra);
               destruct K as [? [|]]; qlra ].
    all: try (left; unfold in_iv; cbn; intros w w' [|] [|]; qlra).
    all: iv_lra.
  - assert (NS : ~ share_continuum (Seg a b) (Seg c d)).
    { apply NSc. intros [Za Zb]. apply No. apply orient_col in Za, Zb. congruence. }
    destruct (is_collinear_spec' c d a) as [Za|Za].
    { assert (NC : ~ (opposite (area2 a b c) (area2 a b d) /\ opposite (area2 c d a) (area2 c d b)))
        by (intros [_ O]; destruct O; qlra).
      destruct (point_lt_spec c a) as [K1|K1], (point_lt_spec a d) as [K2|K2]; cbn;
        apply default; auto.
      constructor; [|constructor]. apply strictly_between_lex; auto. }
    destruct (is_collinear_spec' c d b) as [Zb|Zb].
    { assert (NC : ~ (opposite (area2 a b c) (area2 a b d) /\ opposite (area2 c d a) (area2 c d b)))
        by (intros [_ O]; destruct O; qlra).
      destruct (point_lt_spec c b) as [K1|K1], (point_lt_spec b d) as [K2|K2]; cbn;
        apply default; auto.
      constructor; [|constructor]. apply strictly_between_lex; auto. }
    assert (tod : ~ opposite (area2 a b c) (area2 a b d) -> touch_or_disjoint (Seg a b) (Seg c d)).
    { intros NO. destruct (not_share_cases (Seg a b) (Seg c d) Nab Ncd NS) as [C|T]; [|exact T].
      exfalso; apply NO, (cross_iff a b c d); auto. }
    destruct (is_collinear_spec' a b c) as [Zc|Zc].
    { assert (T : touch_or_disjoint (Seg a b) (Seg c d)) by (apply tod; intros O; destruct O; qlra).
      destruct (point_lt_spec a c) as [K1|K1], (point_lt_spec c b) as [K2|K2]; cbn;
        try (apply whole; auto; fail).
      apply halves; auto. apply strictly_between_lex; auto. }
    destruct (is_collinear_spec' a b d) as [Zd|Zd].
    { assert (T : touch_or_disjoint (Seg a b) (Seg c d)) by (apply tod; intros O; destruct O; qlra).
      destruct (point_lt_spec a d) as [K1|K1], (point_lt_spec d b) as [K2|K2]; cbn;
        try (apply whole; auto; fail).
      apply halves; auto. apply strictly_between_lex; auto. }
    destruct (orientation_is_spec (orient a b c) (orient a b d)) as [E2|N2]; cbn [negb fst snd].
    { apply whole; [constructor|]. apply tod. intros O. apply Zc.
      destruct (orient_spec a b c) as [[K ?]|[[K ?]|[K ?]]]; auto;
      rewrite K in E2; symmetry in E2; [apply orient_ccw in E2|apply orient_cw in E2];
      destruct O; qlra. }
    assert (O1 : opposite (area2 a b c) (area2 a b d)).
    { apply on_opposite_sides_spec. unfold on_opposite_sides.
      destruct (is_collinear_spec' a b c), (is_collinear_spec' a b d); try contradiction.
      destruct (orientation_is_spec (orient a b c) (orient a b d)); auto. }
    assert (O2 : opposite (area2 c d a) (area2 c d b)).
    { apply on_opposite_sides_spec. unfold on_opposite_sides.
      destruct (is_collinear_spec' c d a), (is_collinear_spec' c d b); try contradiction.
      destruct (orientation_is_spec (orient c d a) (orient c d b)); auto. }
    destruct (crossing_point a b c d O1 O2) as [I1 I2].
    assert (U : forall q, between a b q -> between c d q ->
        q = to_segments_intersection a b c d).
    { intros q Q1 Q2. apply (common_unique a b c d); auto using strictly_between_between. }
    assert (B := strictly_between_between _ _ _ I1).
    apply halves; auto. right. split; left; exists (to_segments_intersection a b c d);
      (split; [split; [|split]|]).
    + apply between_end.
    + apply strictly_between_between; auto.
    + intros q Q1 Q2. apply U; auto. apply (between_split a b (to_segments_intersection a b c d)); auto.
    + left; right; auto.
    + apply between_start.
    + apply strictly_between_between; auto.
    + intros q Q1 Q2. apply U; auto. apply (between_split a b (to_segments_intersection a b c d)); auto.
    + left; left; auto.
Qed.

(** ** The loop *)
Lemma unite_loop l s c d : proper_seg s -> lex_lt c d -> (s = Seg c d \/ s = Seg d c) ->
  Forall proper_seg l ->
  (exists ls, Forall2 piece_list l ls
     /\ fst (unite_segments_with_segment l (segment_bounding_box s) c d) = concat ls)
  /\ (forall p, on_segs (fst (unite_segments_with_segment l (segment_bounding_box s) c d)) p
        \/ on_seg s p <-> on_segs l p \/ on_seg s p)
  /\ Forall (strictly_between c d)
       (snd (unite_segments_with_segment l (segment_bounding_box s) c d))
  /\ (non_crossing l -> Forall (fun x => touch_or_disjoint x s)
       (fst (unite_segments_with_segment l (segment_bounding_box s) c d))).
Proof.
  intros Ns M Hs P. induction P as [|m l Nm P IH].
  - cbn. split; [exists []; split; [constructor|reflexivity]|].
    split; [tauto|]. split; [constructor|]. intros _; constructor.
  - rewrite unite_loop_step. unfold same_test.
    destruct (same_dec_subtract m (segment_bounding_box s) c d) as [(E & Ec & Ed)|[E D]];
      rewrite E; cbn [fst snd].
    + assert (S := sorted_pair_same m s c d M Hs Ec Ed).
      split; [|split; [|split]].
      * exists ([] :: map (fun s => [s]) l). destruct (pieces_self l P). split; cbn; auto.
        constructor; auto. apply piece_nil.
      * intros p. rewrite on_segs_cons. specialize (S p). tauto.
      * constructor.
      * intros [_ O]. inversion O; subst. rewrite Forall_forall in *. intros x I.
        apply touch_or_disjoint_sym.
        apply (touch_or_disjoint_sub m x s x); auto.
        -- intros p K. apply S; auto.
        -- intros p; auto.
    + assert (NE : ~ (c = fst (to_sorted_pair (seg_start m) (seg_end m))
         /\ d = snd (to_sorted_pair (seg_start m) (seg_end m)))).
      { destruct D as [D|]; auto. apply (same_not_disjoint m s c d); auto. }
      destruct (plus_pieces_spec m s c d Nm Ns M Hs NE) as (C1 & C2 & C3 & C4).
      destruct IH as ((ls & F & El) & IH1 & IH2 & IH3).
      split; [|split; [|split]].
      * exists (fst (plus_pieces m (segment_bounding_box s) c d) :: ls). split; auto.
        cbn. rewrite El. reflexivity.
      * intros p. rewrite on_segs_app, on_segs_cons. specialize (C2 p). specialize (IH1 p).
        tauto.
      * apply Forall_app; auto.
      * intros [O1 O2]. inversion O1; inversion O2; subst.
        apply Forall_app; split; auto. apply IH3. split; auto.
Qed.

Lemma lerp_extreme (a b t u0 u1 : Qc) : 0 < t -> t < 1 -> u0 <= a -> a <= u1 -> u0 <= b -> b <= u1 ->
  a + t * (b - a) = u0 \/ a + t * (b - a) = u1 -> a = b.
Proof.
  intros T0 T1 A0 A1 B0 B1 K.
  destruct (Qc_trichotomy a b) as [[L|E]|L]; auto; exfalso; destruct K as [K|K]; qnra.
Qed.
Lemma cross_filter g s x : constructed g -> proper_seg s -> In x (parts g) ->
  seg_relation_spec CROSS x s ->
  do_boxes_have_common_continuum (bounding_box g) (segment_bounding_box s) = true.
Proof.
  intros C Ns I (p & (Ox & Os & _) & Ix & Is).
  assert (Pg : in_box (bounding_box g) p) by (apply parts_of_box; eauto).
  assert (Ps := segment_box_covers s p Os).
  assert (Pc := segment_box_covers s _ (between_start _ _)).
  assert (Pd := segment_box_covers s _ (between_end _ _)).
  unfold do_boxes_have_common_continuum.
  destruct (bounding_box g) as [x0 x1 y0 y1], (segment_bounding_box s) as [u0 u1 v0 v1].
  unfold in_box in *; cbn in *.
  destruct Is as (t & T0 & T1 & ->).
  unfold box_disjoint_with, box_touches; cbn.
  destruct s as [c d]; cbn in *. unfold proper_seg in Ns; cbn in Ns.
  unfold lerp in *; cbn in *.
  destruct Pc as [[? ?] [? ?]], Pd as [[? ?] [? ?]], Ps as [[? ?] [? ?]], Pg as [[? ?] [? ?]].
  assert (X := lerp_extreme (px c) (px d) t u0 u1). assert (Y := lerp_extreme (py c) (py d) t v0 v1).
  assert (XY : ~ (px c = px d /\ py c = py d)).
  { intros [? ?]. apply Ns. destruct c, d; cbn in *; subst; auto. }
  set (xt := px c + t * (px d - px c)) in *. set (yt := py c + t * (py d - py c)) in *.
  clearbody xt yt. clear I Ox Os Ix Ns C x g.
  destruct (qltb_spec x1 u0); [qlra|]. destruct (qltb_spec y1 v0); [qlra|].
  destruct (qltb_spec u1 x0); [qlra|]. destruct (qltb_spec v1 y0); [qlra|].
  cbn [orb negb andb].
  assert (D : ~ ((x0 = u1 \/ u0 = x1) /\ (y0 = v1 \/ v0 = y1))).
  { intros [DX DY]. apply XY. split; [apply X|apply Y]; auto.
    - destruct DX; [right|left]; qlra.
    - destruct DY; [right|left]; qlra. }
  destruct (qeqb_spec y0 v1), (qeqb_spec v0 y1), (qeqb_spec x0 u1), (qeqb_spec u0 x1);
    cbn [negb andb orb]; rewrite ?orb_true_r; auto; exfalso; apply D; auto.
Qed.

Lemma new_multisegment_ok l : (2 <= length l)%nat -> new_multisegment l = Some (GMultisegment l).
Proof.
  intros H. unfold new_multisegment. destruct l as [|? [|? ?]]; cbn in *; try lia. reflexivity.
Qed.
Lemma multisegmental_length g : multisegmental g -> (2 <= length (parts g))%nat.
Proof.
  destruct g; cbn; try tauto. intros H.
  destruct vertices as [|? [|? [|? ?]]]; cbn in *; lia.
Qed.

Lemma FOP_perm_cons (s : segment) l : ForallOrdPairs touch_or_disjoint l ->
  Forall (fun x => touch_or_disjoint x s) l -> ForallOrdPairs touch_or_disjoint (s :: l).
Proof.
  intros F G. apply FOP_cons; auto. rewrite Forall_forall in *.
  intros x I. apply touch_or_disjoint_sym; auto.
Qed.

Lemma unite_multisegmental g s : multisegmental g -> proper_seg s ->
  Forall proper_seg (parts g) ->
  (exists r, unite_multisegmental_with_segment g s = Some r
  /\ (forall p, on_geometry r p <-> on_geometry g p \/ on_seg s p)
  /\ (non_crossing (parts g) -> good_result r))
  /\ (exists r, unite_segment_with_multisegmental s g = Some r
  /\ (forall p, on_geometry r p <-> on_geometry g p \/ on_seg s p)
  /\ (non_crossing (parts g) -> good_result r)).
Proof.
  intros Mg Ns P. pose proof (multisegmental_constructed g Mg) as Cg.
  assert (Lg := multisegmental_length g Mg).
  unfold unite_multisegmental_with_segment, unite_segment_with_multisegmental.
  rewrite !continuum_filters_complementary, (continuum_filter_sym (segment_bounding_box s)).
  rewrite !segments_parts.
  destruct (do_boxes_have_common_continuum _ _) eqn:F; cbn [negb].
  - destruct (to_sorted_pair_proper s Ns) as (c & d & Es & M & Hs). rewrite Es.
    destruct (unite_loop (parts g) s c d Ns M Hs P) as ((ls & A & B) & C & D & T).
    destruct (unite_segments_with_segment (parts g) (segment_bounding_box s) c d)
      as [segs points]. cbn [fst snd] in *.
    destruct (cut_segment_spec s c d points M Hs D) as ([K1 K2] & K3 & K4).
    assert (G : exists r,
      collect_non_empty_segments (segs ++ cut_segment s c d points) = Some r
      /\ (forall p, on_geometry r p <-> on_geometry g p \/ on_seg s p)
      /\ (non_crossing (parts g) -> good_result r)).
    { destruct (collect_non_empty (segs ++ cut_segment s c d points)) as (r & E & Ep & Gr).
      { intros E. apply app_eq_nil in E. tauto. }
      exists r. split; auto. split.
      + intros p. unfold on_geometry. rewrite Ep, on_segs_app, K4. apply C.
      + intros N. apply Gr. destruct (pieces_non_crossing _ _ A N) as [Q1 Q2].
        rewrite <- B in Q1, Q2. split.
        * apply Forall_app; auto.
        * apply FOP_app; auto. intros x y Ix Iy.
          specialize (T N). rewrite Forall_forall in *.
          apply (touch_or_disjoint_sub x s); auto.
          -- intros p; auto.
          -- intros p O. apply K4. exists y; auto. }
    split; exact G.
  - assert (TOD : Forall (fun x => touch_or_disjoint x s) (parts g)).
    { rewrite Forall_forall in *. intros x I.
      destruct (not_share_cases x s) as [X|X]; auto.
      - apply (no_continuum_filter g); auto.
      - exfalso. rewrite (cross_filter g s x) in F; auto. discriminate. }
    split.
    + rewrite new_multisegment_ok by (rewrite app_length; lia). eexists. split; [reflexivity|].
      split.
      * intros p. unfold on_geometry; cbn [parts]. rewrite on_segs_app, on_segs_cons, on_segs_nil.
        tauto.
      * intros [N1 N2]. split; cbn [parts].
        -- split; [apply Forall_app; auto|]. apply FOP_app; auto.
           ++ apply FOP_cons; constructor.
           ++ rewrite Forall_forall in TOD. intros x y Ix [<-|[]]; auto.
        -- rewrite app_length; lia.
    + rewrite new_multisegment_ok by (cbn; lia). eexists. split; [reflexivity|].
      split.
      * intros p. unfold on_geometry; cbn [parts]. rewrite on_segs_cons.
        tauto.
      * intros [N1 N2]. split; cbn [parts].
        -- split; [constructor; auto|]. apply FOP_perm_cons; auto.
        -- cbn; lia.
Qed.

(** The hypotheses of the theorems are met by a triangle. *)
Lemma tod_relate s t r : proper_seg s -> proper_seg t ->
  segment_relate_to_segment s t = Some r -> r = TOUCH \/ r = DISJOINT -> touch_or_disjoint s t.
Proof.
  intros Ns Nt E H. apply segment_relate_spec in E; auto.
  destruct H as [->| ->]; [left|right]; auto.
Qed.
Lemma tod_no_share s t : touch_or_disjoint s t -> ~ share_continuum s t.
Proof.
  intros [(p & (A & B & U) & _)|D] S.
  - destruct S as (x & y & N & ? & ? & ? & ?). apply N. transitivity p; [|symmetry]; auto.
  - apply D. destruct S as (x & y & N & ? & ? & ? & ?). eauto.
Qed.
Lemma non_crossing_no_overlaps l : non_crossing l -> no_overlaps l.
Proof.
  intros [P N]. split; auto. clear P. induction N as [|x l F N IH]; [constructor|].
  apply FOP_cons; auto. rewrite Forall_forall in *. intros y I. apply tod_no_share; auto.
Qed.
Lemma triangle_hypotheses :
  let g := GContour [Pt (Z2Qc 0) (Z2Qc 0); Pt (Z2Qc 4) (Z2Qc 0); Pt (Z2Qc 0) (Z2Qc 4)] in
  multisegmental g /\ Forall proper_seg (parts g) /\ non_crossing (parts g)
  /\ no_overlaps (parts g).
Proof.
  set (g := GContour _). cbn zeta.
  assert (P : Forall proper_seg (parts g)).
  { unfold g; cbn. repeat apply Forall_cons; try apply Forall_nil; unfold proper_seg; cbn;
      apply point_eq_false; vm_compute; reflexivity. }
  assert (N : non_crossing (parts g)).
  { split; auto. unfold g in *; cbn in *. inversion P; subst. inversion H2; subst.
    inversion H4; subst.
    repeat apply FOP_cons; repeat apply Forall_cons; try apply Forall_nil; try apply FOP_nil;
      (eapply tod_relate; [auto|auto|vm_compute; reflexivity|auto]). }
  split; [|split; [auto|split; [auto|]]].
  - unfold g; cbn. auto with arith.
  - apply non_crossing_no_overlaps; auto.
Qed.
