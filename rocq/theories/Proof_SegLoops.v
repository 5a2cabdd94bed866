(** The loops over the segments of a multisegment or contour. *)
From Coq Require Import QArith Qcanon Bool List ZArith Lia.
From Verif Require Import QcTac Model_Base Model_Box Model_Geometry
  Model_Segment Spec_Base Spec_Segment Spec_Clip Spec_Bounds Proof_Base Proof_Line Proof_SegRel
  Proof_Box Proof_Box2 Proof_Bounds Proof_SegOps Proof_SegOps2.
Import ListNotations.
Local Open Scope Qc_scope.

(** ** Pieces *)
Definition piece_list (s : segment) (l : list segment) : Prop :=
  non_crossing l /\ Forall (fun x => seg_subset x s) l.

Lemma FOP_app (A : Type) (R : A -> A -> Prop) l l' :
  ForallOrdPairs R l -> ForallOrdPairs R l' ->
  (forall x y, In x l -> In y l' -> R x y) -> ForallOrdPairs R (l ++ l').
Proof.
  induction 1 as [|x l Fx F IH]; intros F' C; cbn; auto.
  apply FOP_cons.
  - apply Forall_app. split; auto. apply Forall_forall. intros y I. apply C; cbn; auto.
  - apply IH; auto. intros; apply C; cbn; auto.
Qed.

Lemma FOP_app_inv (A : Type) (R : A -> A -> Prop) l l' :
  ForallOrdPairs R (l ++ l') -> ForallOrdPairs R l /\ ForallOrdPairs R l'
   /\ forall x y, In x l -> In y l' -> R x y.
Proof.
  induction l as [|x l IH]; cbn.
  - intros. repeat split; auto. constructor. intros x y [].
  - intros F. inversion F; subst. apply Forall_app in H1. destruct H1.
    destruct (IH H2) as (A1 & B & C). repeat split; auto.
    + apply FOP_cons; auto.
    + intros u v [->|I] J; auto. rewrite Forall_forall in H0. auto.
Qed.

Lemma pieces_non_crossing l ls : Forall2 piece_list l ls -> non_crossing l ->
  non_crossing (concat ls).
Proof.
  intros F [P N]. split.
  - clear N. induction F as [|s ps l ls [[Q _] _] F IH]; cbn; [constructor|].
    inversion P; subst. apply Forall_app. auto.
  - revert P N. induction F as [|s ps l ls [[Q Q'] S] F IH]; intros P N; cbn; [constructor|].
    inversion P; subst. inversion N; subst.
    apply FOP_app; auto. intros x y Ix Iy.
    rewrite in_concat in Iy. destruct Iy as (qs & I1 & I2).
    assert (E : exists t, In t l /\ piece_list t qs).
    { clear - F I1. induction F; [destruct I1|]. destruct I1 as [->|I1].
      - exists x. split; [left|]; auto.
      - destruct (IHF I1) as (t & A & B). exists t. split; [right|]; auto. }
    destruct E as (t & It & ([Qt _] & St)).
    rewrite Forall_forall in *.
    apply (touch_or_disjoint_sub s t); auto.
Qed.
Lemma piece_self s : proper_seg s -> piece_list s [s].
Proof.
  intros. repeat split.
  - constructor; auto.
  - apply FOP_cons; constructor.
  - constructor; [intros p; auto|constructor].
Qed.
Lemma pieces_self l : Forall proper_seg l -> Forall2 piece_list l (map (fun s => [s]) l)
  /\ concat (map (fun s => [s]) l) = l.
Proof.
  induction 1; cbn; [repeat constructor|]. destruct IHForall. split.
  - constructor; auto. apply piece_self; auto.
  - congruence.
Qed.
Lemma piece_nil s : piece_list s [].
Proof. repeat constructor. Qed.

Lemma covers_piece_list g s P : covers_exactly g P -> (forall p, P p -> on_seg s p) ->
  piece_list s (parts g).
Proof.
  intros [[G _] C] H. split; auto. apply Forall_forall. intros x I p O.
  apply H, C. exists x; auto.
Qed.

(** ** Intersection *)
Definition meet_pieces (s t : segment) : list segment :=
  if do_boxes_have_common_continuum (segment_bounding_box s) (segment_bounding_box t)
  then match intersect_segments_with_common_continuum_bounding_boxes
               (seg_start s) (seg_end s) (seg_start t) (seg_end t) with
       | Some s => [s]
       | None => []
       end
  else [].

Lemma meet_pieces_spec s t : proper_seg s -> proper_seg t ->
  Forall proper_seg (meet_pieces s t) /\ (length (meet_pieces s t) <= 1)%nat /\
  forall p, on_segs (meet_pieces s t) p <-> on_common_continuum s t p.
Proof.
  intros Ns Nt. unfold meet_pieces, on_common_continuum.
  destruct (do_boxes_have_common_continuum _ _) eqn:F.
  - pose proof (intersect_core s t Ns Nt F) as K.
    destruct (intersect_segments_with_common_continuum_bounding_boxes _ _ _ _) as [r|].
    + destruct K as (A & B & C). split; [repeat constructor; auto|]. split; [auto|].
      intros p. rewrite on_segs_cons, on_segs_nil, C. tauto.
    + split; [constructor|]. split; [cbn; auto|]. intros p. rewrite on_segs_nil. tauto.
  - split; [constructor|]. split; [cbn; auto|].
    intros p. rewrite on_segs_nil. split; [tauto|]. intros [S _].
    apply continuum_filter_segments in S. congruence.
Qed.
Lemma meet_piece_list s t : proper_seg s -> proper_seg t -> piece_list s (meet_pieces s t).
Proof.
  intros Ns Nt. destruct (meet_pieces_spec s t Ns Nt) as (A & B & C).
  split; [split; auto|].
  - destruct (meet_pieces s t) as [|x [|y l]]; [constructor|apply FOP_cons; constructor|].
    cbn in B; lia.
  - apply Forall_forall. intros x I p O. apply (C p). exists x; auto.
Qed.

Lemma collect_maybe l : exists g, collect_maybe_empty_segments l = Some g
  /\ parts g = l /\ (non_crossing l -> good_result g).
Proof.
  destruct l as [|s [|t l]]; cbn; eexists; (split; [reflexivity|]); (split; [reflexivity|]);
  intros; split; auto. cbn; lia.
Qed.
Lemma collect_non_empty l : l <> [] -> exists g, collect_non_empty_segments l = Some g
  /\ parts g = l /\ (non_crossing l -> good_result g).
Proof. intros N. destruct (collect_maybe l) as (g & E). exists g. destruct l; [congruence|auto]. Qed.

Lemma on_segs_flat_map (f : segment -> list segment) l p :
  on_segs (flat_map f l) p <-> exists s, In s l /\ on_segs (f s) p.
Proof.
  split.
  - intros (x & I & O). apply in_flat_map in I. destruct I as (s & A & B).
    exists s; split; auto. exists x; auto.
  - intros (s & A & x & B & O). exists x. split; auto. apply in_flat_map; eauto.
Qed.

Lemma intersect_multisegmental_segment g t : Forall proper_seg (parts g) -> proper_seg t ->
  exists r, intersect_multisegmental_with_segment g t = Some r
    /\ (forall p, on_geometry r p <-> exists s, In s (parts g) /\ on_common_continuum s t p)
    /\ (non_crossing (parts g) -> good_result r).
Proof.
  intros P Nt. unfold intersect_multisegmental_with_segment,
    intersect_multisegmental_with_segment_parts. rewrite segments_parts.
  change (flat_map _ (parts g)) with (flat_map (fun s => meet_pieces s t) (parts g)).
  destruct (collect_maybe (flat_map (fun s => meet_pieces s t) (parts g)))
    as (r & E & Ep & G).
  exists r. split; auto. split.
  - intros p. unfold on_geometry. rewrite Ep, on_segs_flat_map.
    rewrite Forall_forall in P.
    split; intros (s & I & O); exists s; split; auto; apply meet_pieces_spec in O; auto.
  - intros N. apply G. rewrite flat_map_concat_map.
    apply (pieces_non_crossing (parts g)); auto.
    clear - P Nt. induction P; cbn; constructor; auto. apply meet_piece_list; auto.
Qed.

Lemma common_continuum_sym s t p : on_common_continuum s t p <-> on_common_continuum t s p.
Proof. unfold on_common_continuum. split; intros (A & B & C); auto using share_continuum_sym. Qed.

Lemma intersect_segment_multisegmental t g : Forall proper_seg (parts g) -> proper_seg t ->
  exists r, intersect_segment_with_multisegmental t g = Some r
    /\ (forall p, on_geometry r p <-> exists s, In s (parts g) /\ on_common_continuum t s p)
    /\ (non_crossing (parts g) -> good_result r).
Proof.
  intros P Nt. unfold intersect_segment_with_multisegmental,
    intersect_segment_with_multisegmental_parts. rewrite segments_parts.
  assert (E' : flat_map (fun second_segment =>
    if do_boxes_have_common_continuum
         (segment_bounding_box second_segment) (segment_bounding_box t)
    then match intersect_segments_with_common_continuum_bounding_boxes
                 (seg_start t) (seg_end t)
                 (seg_start second_segment) (seg_end second_segment) with
         | Some s => [s]
         | None => []
         end
    else []) (parts g) = flat_map (fun s => meet_pieces t s) (parts g)).
  { apply flat_map_ext. intros s. unfold meet_pieces. rewrite continuum_filter_sym. reflexivity. }
  rewrite E'. clear E'.
  destruct (collect_maybe (flat_map (fun s => meet_pieces t s) (parts g)))
    as (r & E & Ep & G).
  exists r. split; auto. split.
  - intros p. unfold on_geometry. rewrite Ep, on_segs_flat_map.
    rewrite Forall_forall in P.
    split; intros (s & I & O); exists s; split; auto; apply meet_pieces_spec in O; auto.
  - intros N. apply G. rewrite flat_map_concat_map.
    apply (pieces_non_crossing (parts g)); auto.
    clear - P Nt. induction P; cbn; constructor; auto.
    destruct (meet_pieces_spec t x Nt H) as (A & B & C).
    split; [split; auto|].
    + destruct (meet_pieces t x) as [|y [|y' l']]; [constructor|apply FOP_cons; constructor|].
      cbn in B; lia.
    + apply Forall_forall. intros y I p O. apply (C p). exists y; auto.
Qed.

(** ** Difference *)
Definition minus_pieces (m : segment) (subtrahend_bounding_box : box)
  (subtrahend_start subtrahend_end : point) : list segment :=
      if box_disjoint_with (segment_bounding_box m)
                           subtrahend_bounding_box
      then [m]
      else
      let (minuend_start, minuend_end) :=
        to_sorted_pair (seg_start m) (seg_end m) in
      let minuend_start_orientation :=
        orient subtrahend_end subtrahend_start minuend_start in
      let minuend_end_orientation :=
        orient subtrahend_end subtrahend_start minuend_end in
      if on_opposite_sides minuend_start_orientation minuend_end_orientation
      then
        let subtrahend_start_orientation :=
          orient minuend_start minuend_end subtrahend_start in
        let subtrahend_end_orientation :=
          orient minuend_start minuend_end subtrahend_end in
        if on_opposite_sides subtrahend_start_orientation
                             subtrahend_end_orientation
        then
          let cross_point := to_segments_intersection
            minuend_start minuend_end subtrahend_start subtrahend_end in
          [Seg minuend_start cross_point; Seg cross_point minuend_end]
        else [m]
      else if is_collinear minuend_start_orientation
              && is_collinear minuend_end_orientation
      then
        if point_eq subtrahend_start minuend_start then
          if point_lt subtrahend_end minuend_end
          then [Seg subtrahend_end minuend_end]
          else []
        else if point_eq subtrahend_end minuend_end then
          if point_lt minuend_start subtrahend_start
          then [Seg minuend_start subtrahend_start]
          else []
        else if point_lt subtrahend_start minuend_start
                && point_lt minuend_start subtrahend_end then
          if point_lt subtrahend_end minuend_end
          then [Seg subtrahend_end minuend_end]
          else []
        else if point_lt minuend_start subtrahend_start
                && point_lt subtrahend_start minuend_end then
          Seg minuend_start subtrahend_start
          :: (if point_lt subtrahend_end minuend_end
              then [Seg subtrahend_end minuend_end]
              else [])
        else [m]
      else [m].

Lemma subtract_loop_step m rest bb c d :
  subtract_segment_from_segments (m :: rest) bb c d =
  if negb (box_disjoint_with (segment_bounding_box m) bb)
     && point_eq c (fst (to_sorted_pair (seg_start m) (seg_end m)))
     && point_eq d (snd (to_sorted_pair (seg_start m) (seg_end m)))
  then rest
  else minus_pieces m bb c d ++ subtract_segment_from_segments rest bb c d.
Proof.
  unfold minus_pieces. cbn [subtract_segment_from_segments].
  destruct (box_disjoint_with _ _); cbn [negb andb]; [reflexivity|].
  destruct (to_sorted_pair (seg_start m) (seg_end m)) as [a b]. cbn [fst snd].
  destruct (point_eq c a && point_eq d b); [reflexivity|].
  repeat match goal with
  | |- context [if ?x then _ else _] => destruct x; try reflexivity
  end.
Qed.

Lemma disjoint_boxes_points s t : box_disjoint_with (segment_bounding_box s)
  (segment_bounding_box t) = true -> ~ exists p, on_seg s p /\ on_seg t p.
Proof.
  intros D (p & A & B).
  assert (V : forall s, valid_box (segment_bounding_box s)) by (intros; apply segment_box_hull).
  apply disjoint_with_spec in D; auto. apply D. exists p.
  split; apply segment_box_covers; auto.
Qed.
Lemma share_common s t : share_continuum s t -> exists p, on_seg s p /\ on_seg t p.
Proof. intros (p & _ & _ & ? & ? & _). eauto. Qed.

(** The pieces cover exactly the closure of the difference. *)
Definition cut_exactly (s : segment) (l : list segment) (P : point -> Prop) : Prop :=
  non_crossing l /\ forall p, on_segs l p <-> P p.
Lemma cut_exactly_of g s P : covers_exactly g P -> cut_exactly s (parts g) P.
Proof. intros [[A _] B]. split; auto. Qed.

Definition to_geometry (l : list segment) : geometry :=
  match l with [] => GEmpty | [x] => GSegment x | _ => GMultisegment l end.
Lemma to_geometry_parts l : parts (to_geometry l) = l.
Proof. destruct l as [|x [|y l]]; reflexivity. Qed.
Lemma cut_exactly_to s l P : covers_exactly (to_geometry l) P -> cut_exactly s l P.
Proof. intros H. rewrite <- (to_geometry_parts l). apply cut_exactly_of; auto. Qed.

Lemma minus_pieces_spec m s c d : proper_seg m -> proper_seg s ->
  lex_lt c d -> (s = Seg c d \/ s = Seg d c) ->
  ~ (c = fst (to_sorted_pair (seg_start m) (seg_end m))
     /\ d = snd (to_sorted_pair (seg_start m) (seg_end m))) ->
  cut_exactly m (minus_pieces m (segment_bounding_box s) c d) (in_difference m s).
Proof.
  intros Nm Ns M Hs NE. apply cut_exactly_to.
  destruct (to_sorted_pair_proper m Nm) as (a & b & Em & L & Hm).
  unfold minus_pieces. rewrite Em in *. cbn [fst snd] in NE.
  rewrite !(rev_opposite c d), !(is_collinear_rev c d).
  assert (Nab : a <> b) by (apply lex_lt_neq; auto).
  assert (Ncd : c <> d) by (apply lex_lt_neq; auto).
  assert (Xm := fun p => on_seg_sorted m a b p Hm).
  assert (Xs := fun p => on_seg_sorted s c d p Hs).
  assert (X : forall p, in_difference (Seg a b) (Seg c d) p <-> in_difference m s p).
  { intros p. apply in_difference_ext; intros q; symmetry; [apply Xm|apply Xs]. }
  assert (whole : ~ share_continuum (Seg a b) (Seg c d) ->
     covers_exactly (GSegment m) (in_difference m s)).
  { intros N. apply covers_one; auto.
    intros p. rewrite <- X, in_difference_no_continuum by auto. apply Xm. }
  destruct (box_disjoint_with _ _) eqn:D.
  { apply whole. intros S. apply disjoint_boxes_points in D. apply D.
    apply share_common in S. destruct S as (p & A & B). exists p. rewrite Xm, Xs. auto. }
  clear D.
  destruct (on_opposite_sides_spec' c d a b) as [O1|O1].
  { assert (NS : ~ share_continuum (Seg a b) (Seg c d)).
    { intros S. apply share_continuum_sym, share_iff in S; auto.
      destruct S as [[] _]; destruct O1; qlra. }
    destruct (on_opposite_sides_spec' a b c d) as [O2|O2]; [|apply whole; auto].
    destruct (crossing_point a b c d O2 O1) as [I1 I2].
    destruct (halves_tod _ _ _ I1 Nab) as (T & N1 & N2).
    apply covers_two; auto. intros p.
    rewrite <- X, in_difference_no_continuum by auto. symmetry; apply between_split.
    apply strictly_between_between; auto. }
  assert (NSc : ~ (area2 c d a = 0 /\ area2 c d b = 0) ->
    ~ share_continuum (Seg a b) (Seg c d)).
  { intros N S. apply share_continuum_sym, share_iff in S; auto. tauto. }
  destruct (is_collinear_spec' c d a) as [Za|Za]; cbn [andb]; [|apply whole; tauto].
  destruct (is_collinear_spec' c d b) as [Zb|Zb]; cbn [andb]; [|apply whole; tauto].
  destruct (collinear_coordinates c d a b M L Za Zb) as (v & u & -> & -> & H).
  assert (whole' : 1 <= v \/ u <= 0 ->
    covers_exactly (GSegment m) (in_difference m s)).
  { intros K; apply whole. intros S. apply share_continuum_sym in S.
    rewrite col_continuum in S by auto. destruct K; qlra. }
  assert (Y : forall l, covers_exactly (to_geometry l)
      (in_difference (Seg (lerp c d v) (lerp c d u)) (Seg c d)) ->
      covers_exactly (to_geometry l) (in_difference m s)).
  { intros l G. exact (covers_ext _ _ _ X G). }
  assert (N01 : ~ (v = 0 /\ u = 1)).
  { intros [-> ->]. apply NE. rewrite lerp_0, lerp_1. auto. }
  clear whole O1 Em Hm Hs Za Zb X NSc NE L Xm Xs Nab.
  revert whole'; pcoord c d M; intros whole'.
  repeat (match goal with |- covers_exactly (to_geometry ?x) _ => cbhead x end).
  all: try (exfalso; apply N01; split; qlra).
  all: try (apply whole'; first [left; qlra | right; qlra]).
  all: clear whole'; apply Y; clear Y.
  all: repeat match goal with |- context [if qltb ?x ?y then _ else _] =>
         destruct (qltb_spec x y); try (exfalso; qlra) end.
  all: cbn [to_geometry]; to_iv c d.
  all: first [ apply covers_iv_one; cbn [fst snd];
               [exact Ncd|intro; qlra|intros p [K _]; apply on_iv_ex in K; exact K
                |intros w; rewrite !in_difference_iv by (auto; qlra)]
             | apply covers_iv_two; cbn [fst snd];
               [exact Ncd|intro; qlra|intro; qlra| |intros p [K _]; apply on_iv_ex in K; exact K
                |intros w; rewrite !in_difference_iv by (auto; qlra)]
             | apply covers_none; intros p K; pose proof K as [K' _];
               apply on_iv_ex in K'; destruct K' as (w & ->);
               rewrite in_difference_iv in K by (auto; qlra);
               destruct K as [? [|]]; qlra ].
  all: try (intro; qlra).
  all: try (left; unfold in_iv; cbn; intros w w' [|] [|]; qlra).
  all: iv_lra.
Qed.

Lemma sorted_pair_same m s c d : lex_lt c d -> (s = Seg c d \/ s = Seg d c) ->
  c = fst (to_sorted_pair (seg_start m) (seg_end m)) ->
  d = snd (to_sorted_pair (seg_start m) (seg_end m)) ->
  forall p, on_seg m p <-> on_seg s p.
Proof.
  intros M Hs Ec Ed p. rewrite (on_seg_sorted s c d p Hs).
  destruct (to_sorted_pair_cases (seg_start m) (seg_end m)) as [[E _]|[E _]];
  rewrite E in Ec, Ed; cbn in Ec, Ed; subst; [reflexivity|apply between_sym].
Qed.

Lemma in_difference_self s p : ~ in_difference s s p.
Proof.
  intros (O & q & N & Q & K).
  destruct (lex_neq p q (not_eq_sym N)) as [L|L].
  - apply (K (lerp p q (1 / (1 + 1)))).
    + exists (1 / (1 + 1)). repeat split; reflexivity.
    + apply (on_seg_convex s p q); auto. exists (1 / (1 + 1)). repeat split; reflexivity.
  - apply (K (lerp p q (1 / (1 + 1)))).
    + exists (1 / (1 + 1)). repeat split; reflexivity.
    + apply (on_seg_convex s p q); auto. exists (1 / (1 + 1)). repeat split; reflexivity.
Qed.

Lemma share_ext s s' t t' : (forall p, on_seg s p <-> on_seg s' p) ->
  (forall p, on_seg t p <-> on_seg t' p) -> share_continuum s t -> share_continuum s' t'.
Proof.
  intros A B (p & q & N & ? & ? & ? & ?). exists p, q. rewrite <- !A, <- !B. auto.
Qed.

Lemma same_dec_subtract m bb c d :
  {negb (box_disjoint_with (segment_bounding_box m) bb)
     && point_eq c (fst (to_sorted_pair (seg_start m) (seg_end m)))
     && point_eq d (snd (to_sorted_pair (seg_start m) (seg_end m))) = true
    /\ c = fst (to_sorted_pair (seg_start m) (seg_end m))
    /\ d = snd (to_sorted_pair (seg_start m) (seg_end m))} +
  {negb (box_disjoint_with (segment_bounding_box m) bb)
     && point_eq c (fst (to_sorted_pair (seg_start m) (seg_end m)))
     && point_eq d (snd (to_sorted_pair (seg_start m) (seg_end m))) = false
    /\ (box_disjoint_with (segment_bounding_box m) bb = true \/
    ~ (c = fst (to_sorted_pair (seg_start m) (seg_end m))
    /\ d = snd (to_sorted_pair (seg_start m) (seg_end m))))}.
Proof.
  destruct (box_disjoint_with _ _); [right; auto|].
  destruct (point_eq_spec c (fst (to_sorted_pair (seg_start m) (seg_end m)))),
   (point_eq_spec d (snd (to_sorted_pair (seg_start m) (seg_end m)))); cbn;
   [left; auto|right; split; auto; right; tauto..].
Qed.

(** A segment equal to the subtrahend cannot have a disjoint box. *)
Lemma same_not_disjoint m s c d : proper_seg m -> lex_lt c d -> (s = Seg c d \/ s = Seg d c) ->
  box_disjoint_with (segment_bounding_box m) (segment_bounding_box s) = true ->
  ~ (c = fst (to_sorted_pair (seg_start m) (seg_end m))
    /\ d = snd (to_sorted_pair (seg_start m) (seg_end m))).
Proof.
  intros Nm M Hs D [Ec Ed]. apply disjoint_boxes_points in D. apply D.
  exists (seg_start m). split; [apply between_start|].
  apply (sorted_pair_same m s c d); auto. apply between_start.
Qed.

Lemma subtract_loop l s c d : proper_seg s -> lex_lt c d -> (s = Seg c d \/ s = Seg d c) ->
  Forall proper_seg l ->
  (exists ls, Forall2 piece_list l ls
     /\ subtract_segment_from_segments l (segment_bounding_box s) c d = concat ls)
  /\ (no_overlaps l -> forall p,
      on_segs (subtract_segment_from_segments l (segment_bounding_box s) c d) p
      <-> exists m, In m l /\ in_difference m s p).
Proof.
  intros Ns M Hs P. induction P as [|m l Nm P IH].
  - split; [exists []; split; [constructor|reflexivity]|].
    intros _ p. cbn. rewrite on_segs_nil. split; [tauto|intros (? & [] & _)].
  - rewrite subtract_loop_step.
    destruct (same_dec_subtract m (segment_bounding_box s) c d) as [(E & Ec & Ed)|[E D]];
      rewrite E.
    + split.
      * exists ([] :: map (fun s => [s]) l). destruct (pieces_self l P). split; cbn; auto.
        constructor; auto. apply piece_nil.
      * intros [_ O] p. inversion O; subst.
        assert (S := sorted_pair_same m s _ _ M Hs eq_refl eq_refl).
        split.
        -- intros (x & I & Ox). exists x. split; [right; auto|].
           rewrite Forall_forall in P, H1.
           apply in_difference_no_continuum; auto.
           intros Sh. apply (H1 x I). apply share_continuum_sym.
           apply (share_ext x x s m); auto; [tauto|]. intros q; symmetry; apply S.
        -- intros (x & [<-|I] & K).
           ++ exfalso. apply (in_difference_self s p).
              apply (in_difference_ext m s s s); auto. tauto.
           ++ exists x. split; auto. apply K.
    + assert (NE : ~ (c = fst (to_sorted_pair (seg_start m) (seg_end m))
         /\ d = snd (to_sorted_pair (seg_start m) (seg_end m)))).
      { destruct D as [D|]; auto. apply (same_not_disjoint m s c d); auto. }
      destruct (minus_pieces_spec m s c d Nm Ns M Hs NE) as [C1 C2].
      destruct IH as [(ls & F & El) IH]. split.
      * exists (minus_pieces m (segment_bounding_box s) c d :: ls). split.
        -- constructor; auto. split; auto. apply Forall_forall. intros x I p O.
           assert (K : in_difference m s p) by (apply C2; exists x; auto). apply K.
        -- cbn. rewrite El. reflexivity.
      * intros O p. rewrite on_segs_app, C2, IH.
        -- split.
           ++ intros [K|(x & I & K)]; [exists m|exists x]; cbn; auto.
           ++ intros (x & [<-|I] & K); eauto.
        -- destruct O as [O1 O2]. inversion O1; inversion O2; subst. split; auto.
Qed.

Lemma parts_of_box g p : constructed g -> (exists s, In s (parts g) /\ on_seg s p) ->
  in_box (bounding_box g) p.
Proof.
  intros C (s & I & O). apply bounding_box_covers; auto.
  destruct g; cbn in *; try contradiction; exists s; cbn; auto.
Qed.

Lemma no_continuum_filter g s : constructed g ->
  do_boxes_have_common_continuum (bounding_box g) (segment_bounding_box s) = false ->
  forall x, In x (parts g) -> ~ share_continuum x s.
Proof.
  intros C F x I (p & q & N & ? & ? & ? & ?).
  rewrite continuum_filter_complete in F; [discriminate|].
  exists p, q. repeat split; auto; try (apply segment_box_covers; auto);
  apply parts_of_box; eauto.
Qed.

Lemma multisegmental_constructed g : multisegmental g -> constructed g.
Proof. destruct g; cbn; tauto. Qed.
Lemma multisegmental_good g : multisegmental g -> non_crossing (parts g) -> good_result g.
Proof. intros M N. split; auto. destruct g; cbn in *; tauto. Qed.

Lemma subtract_multisegmental g s : multisegmental g -> proper_seg s ->
  Forall proper_seg (parts g) ->
  exists r, subtract_segment_from_multisegmental g s = Some r
  /\ (no_overlaps (parts g) -> forall p, on_geometry r p <->
       exists m, In m (parts g) /\ in_difference m s p)
  /\ (non_crossing (parts g) -> good_result r).
Proof.
  intros Mg Ns P. pose proof (multisegmental_constructed g Mg) as Cg.
  unfold subtract_segment_from_multisegmental.
  rewrite continuum_filters_complementary.
  destruct (do_boxes_have_common_continuum _ _) eqn:F; cbn [negb].
  - destruct (to_sorted_pair_proper s Ns) as (c & d & Es & M & Hs). rewrite Es.
    rewrite segments_parts.
    destruct (subtract_loop (parts g) s c d Ns M Hs P) as [(ls & A & B) C].
    destruct (collect_maybe (subtract_segment_from_segments (parts g)
      (segment_bounding_box s) c d)) as (r & E & Ep & G).
    exists r. split; auto. split.
    + intros O p. unfold on_geometry. rewrite Ep. apply C; auto.
    + intros N. apply G. rewrite B. apply (pieces_non_crossing (parts g)); auto.
  - exists g. split; auto. split; [|apply multisegmental_good; auto].
    intros O p. rewrite Forall_forall in P.
    assert (K : forall m, In m (parts g) -> (in_difference m s p <-> on_seg m p)).
    { intros m I. apply in_difference_no_continuum; auto.
      apply (no_continuum_filter g); auto. }
    split; intros (m & I & Q); exists m; split; auto.
    + apply (proj2 (K m I)). exact Q.
    + apply (proj1 (K m I)). exact Q.
Qed.
