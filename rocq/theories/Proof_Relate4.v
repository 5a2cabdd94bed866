(** [Segment.relate_to] for a multisegment. *)
From Coq Require Import QArith Qcanon Bool List ZArith Lia.
From Verif Require Import QcTac Model_Base Model_Geometry Model_Segment Model_Contour Model_Relate
  Spec_Base Spec_Segment Spec_Clip Spec_Relate Proof_Base Proof_Line Proof_SegRel Proof_SegOps Proof_SegOps2
  Proof_Relate Proof_Relate2 Proof_Relate3.
Import ListNotations.
Local Open Scope Qc_scope.

Lemma have_common_spec l m : have_common l m = true <-> exists w, In w l /\ In w m.
Proof.
  unfold have_common. rewrite existsb_exists. split.
  - intros (w & I & E). apply existsb_exists in E. destruct E as (w' & I' & E).
    apply qeqb_true in E. subst. eauto.
  - intros (w & I & I'). exists w. split; auto. apply existsb_exists. exists w. split; auto.
    apply qeqb_true. auto.
Qed.
Lemma lists_common l m :
  (match l, m with
   | [], _ | _, [] => false
   | l, m => if (length l <? length m)%nat then have_common l m else have_common m l
   end) = true <-> exists w, In w l /\ In w m.
Proof.
  destruct l as [|x l]; [split; [discriminate|intros (w & [] & _)]|].
  destruct m as [|y m]; [split; [discriminate|intros (w & _ & [])]|].
  destruct (_ <? _)%nat; rewrite have_common_spec; [tauto|].
  split; intros (w & A & B); eauto.
Qed.

Section Line.
Variables (a b : point).
Hypothesis L : lex_lt a b.
Notation base := (Seg a b).
Let N : a <> b := a_neq_b a b L.
Notation pair_at c := (lerp a b (fst c), lerp a b (snd c)).

Lemma min_start_at (c0 : Qc * Qc) (cs : list (Qc * Qc)) :
  exists m, min_component_start (pair_at c0) (map (fun c => pair_at c) cs) = lerp a b m /\
    (exists c, In c (c0 :: cs) /\ fst c = m) /\ forall c, In c (c0 :: cs) -> m <= fst c.
Proof.
  unfold min_component_start. cbn [fst].
  assert (G : forall acc, exists m,
    fold_left (fun p component => if point_gt p (fst component) then fst component else p)
      (map (fun c : Qc * Qc => pair_at c) cs) (lerp a b acc) = lerp a b m /\
    (m = acc \/ exists c, In c cs /\ fst c = m) /\ m <= acc /\ forall c, In c cs -> m <= fst c).
  { induction cs as [|c cs IH]; intros acc.
    - exists acc. cbn. repeat split; auto; [qlra|]. intros ? [].
    - cbn [map fold_left fst]. rewrite (point_gt_lt (lerp a b acc) (lerp a b (fst c))), (point_lt_lerp a b _ _ L).
      destruct (qltb (fst c) acc) eqn:E; [apply qltb_true in E|apply qltb_false in E].
      + destruct (IH (fst c)) as (m & M1 & M2 & M3 & M4). exists m. split; [exact M1|]. repeat split.
        * right. destruct M2 as [->|(c' & I & Q)]; [exists c|exists c']; cbn; auto.
        * qlra.
        * intros c' [<-|I]; auto.
      + destruct (IH acc) as (m & M1 & M2 & M3 & M4). exists m. split; [exact M1|]. repeat split.
        * destruct M2 as [->|(c' & I & Q)]; auto. right. exists c'; cbn; auto.
        * qlra.
        * intros c' [<-|I]; auto. qlra. }
  destruct (G (fst c0)) as (m & M1 & M2 & M3 & M4). exists m. split; [exact M1|]. split.
  - destruct M2 as [->|(c & I & Q)]; [exists c0|exists c]; cbn; auto.
  - intros c [<-|I]; auto.
Qed.
Lemma max_end_at (c0 : Qc * Qc) (cs : list (Qc * Qc)) :
  exists m, max_component_end (pair_at c0) (map (fun c => pair_at c) cs) = lerp a b m /\
    (exists c, In c (c0 :: cs) /\ snd c = m) /\ forall c, In c (c0 :: cs) -> snd c <= m.
Proof.
  unfold max_component_end. cbn [snd].
  assert (G : forall acc, exists m,
    fold_left (fun p component => if point_lt p (snd component) then snd component else p)
      (map (fun c : Qc * Qc => pair_at c) cs) (lerp a b acc) = lerp a b m /\
    (m = acc \/ exists c, In c cs /\ snd c = m) /\ acc <= m /\ forall c, In c cs -> snd c <= m).
  { induction cs as [|c cs IH]; intros acc.
    - exists acc. cbn. repeat split; auto; [qlra|]. intros ? [].
    - cbn [map fold_left snd]. rewrite (point_lt_lerp a b _ _ L).
      destruct (qltb acc (snd c)) eqn:E; [apply qltb_true in E|apply qltb_false in E].
      + destruct (IH (snd c)) as (m & M1 & M2 & M3 & M4). exists m. split; [exact M1|]. repeat split.
        * right. destruct M2 as [->|(c' & I & Q)]; [exists c|exists c']; cbn; auto.
        * qlra.
        * intros c' [<-|I]; auto.
      + destruct (IH acc) as (m & M1 & M2 & M3 & M4). exists m. split; [exact M1|]. repeat split.
        * destruct M2 as [->|(c' & I & Q)]; auto. right. exists c'; cbn; auto.
        * qlra.
        * intros c' [<-|I]; auto. qlra. }
  destruct (G (snd c0)) as (m & M1 & M2 & M3 & M4). exists m. split; [exact M1|]. split.
  - destruct M2 as [->|(c & I & Q)]; [exists c0|exists c]; cbn; auto.
  - intros c [<-|I]; auto.
Qed.

Definition chained (s : multisegment_state) : bool :=
  match ms_components s with
  | first :: rest =>
      point_eq (min_component_start first rest) (ms_start s)
      && point_eq (max_component_end first rest) (ms_end s)
      && forallb (fun component => existsb (point_eq (snd component)) (map fst (ms_components s))
                                   || point_eq (snd component) (max_component_end first rest))
           (ms_components s)
  | [] => point_eq (ms_start s) (ms_end s)
  end.

Record state_at (D : list segment) (s : multisegment_state) : Prop := {
  sa_superset : ms_superset s = true <-> forall t, In t D -> seg_subset t base;
  sa_overlap : ms_no_overlap s = true <-> forall t, In t D -> ~ share_continuum base t;
  sa_touch : ms_no_overlap s = true ->
    (ms_no_touch s = true <-> forall t, In t D -> ~ seg_relation_spec TOUCH base t);
  sa_cross : ms_no_overlap s = true ->
    (ms_no_cross s = true <-> forall t, In t D -> ~ seg_relation_spec CROSS base t);
  sa_ccw : ms_no_overlap s = true -> ms_no_cross s = true -> forall w, In w (ms_counterclockwise s) <->
    exists t, In t D /\ touches_mid a b t /\ the_scale a b t = w /\ 0 < area2 a b (the_free_end a b t);
  sa_cw : ms_no_overlap s = true -> ms_no_cross s = true -> forall w, In w (ms_clockwise s) <->
    exists t, In t D /\ touches_mid a b t /\ the_scale a b t = w /\ ~ 0 < area2 a b (the_free_end a b t);
  sa_intervals : exists x y cs, ms_start s = lerp a b x /\ ms_end s = lerp a b y /\
    ms_components s = map (fun c => pair_at c) cs /\ intervals a b D x y cs }.

Lemma chained_spec D s : Forall proper_seg D -> state_at D s ->
  if chained s then forall p, on_seg base p -> on_segs D p
  else ~ forall p, on_seg base p -> on_segs D p.
Proof.
  intros P S. destruct (sa_intervals D s S) as (x & y & cs & E1 & E2 & E3 & IV).
  pose proof (chain_or_gap a b L D x y cs P IV) as (G1 & G2).
  destruct IV as (A & B & C & E & _).
  unfold chained. rewrite E1, E2, E3. destruct cs as [|c0 cs].
  - cbn [map]. rewrite (point_eq_lerp a b _ _ L).
    destruct (qeqb x y) eqn:Q; [apply qeqb_true in Q; auto|].
    apply G2. intros Q'. apply qeqb_true in Q'. congruence.
  - change (if point_eq (min_component_start (pair_at c0) (map (fun c => pair_at c) cs)) (lerp a b x)
      && point_eq (max_component_end (pair_at c0) (map (fun c => pair_at c) cs)) (lerp a b y)
      && forallb (fun component => existsb (point_eq (snd component)) (map fst (map (fun c => pair_at c) (c0 :: cs)))
            || point_eq (snd component) (max_component_end (pair_at c0) (map (fun c => pair_at c) cs)))
           (map (fun c => pair_at c) (c0 :: cs))
      then (forall p, on_seg base p -> on_segs D p) else ~ forall p, on_seg base p -> on_segs D p).
    destruct (min_start_at c0 cs) as (m & -> & (cm & Im & Em) & Gm).
    destruct (max_end_at c0 cs) as (k & -> & (ck & Ik & Ek) & Gk).
    cbv zeta in G1, G2. remember (c0 :: cs) as all eqn:Eall.
    assert (Fin : (point_eq (lerp a b m) (lerp a b x) && point_eq (lerp a b k) (lerp a b y) &&
       forallb (fun component => existsb (point_eq (snd component)) (map fst (map (fun c => pair_at c) all))
          || point_eq (snd component) (lerp a b k)) (map (fun c => pair_at c) all)) = true <->
       ((exists c, In c all /\ fst c = x) /\ (exists c, In c all /\ snd c = y) /\
                   forall c, In c all -> snd c = y \/ exists c', In c' all /\ fst c' = snd c)).
    { rewrite !andb_true_iff, !(point_eq_lerp a b _ _ L), !qeqb_true, forallb_forall.
      split.
      - intros ((-> & ->) & F). split; [eauto|]. split; [eauto|]. intros c I.
        specialize (F (pair_at c)). rewrite orb_true_iff in F. destruct F as [F|F].
        + apply in_map_iff. eauto.
        + right. apply existsb_exists in F. destruct F as (q & Iq & Q). rewrite map_map in Iq.
          apply in_map_iff in Iq. destruct Iq as (c' & <- & I'). cbn [fst snd] in Q.
          rewrite (point_eq_lerp a b _ _ L) in Q. apply qeqb_true in Q. eauto.
        + left. cbn [snd] in F. rewrite (point_eq_lerp a b _ _ L) in F. apply qeqb_true in F. auto.
      - intros ((c1 & I1 & Q1) & (c2 & I2 & Q2) & F).
        assert (Mx : m = x).
        { specialize (Gm c1 I1). destruct (E cm Im) as (X & _). subst. apply Qcle_antisym; auto. }
        assert (Ky : k = y).
        { specialize (Gk c2 I2). destruct (E ck Ik) as (_ & _ & X). subst. apply Qcle_antisym; auto. }
        split; [auto|]. intros q Iq. apply in_map_iff in Iq. destruct Iq as (c & <- & I). cbn [fst snd].
        apply orb_true_iff. destruct (F c I) as [Q|(c' & I' & Q)].
        + right. rewrite (point_eq_lerp a b _ _ L). apply qeqb_true. congruence.
        + left. apply existsb_exists. exists (lerp a b (fst c')). split.
          * rewrite map_map. apply in_map_iff. exists c'. auto.
          * rewrite (point_eq_lerp a b _ _ L). apply qeqb_true. auto. }
    destruct (_ && _) eqn:Q.
    + apply G1. apply Fin. reflexivity.
    + apply G2. intros K. apply Fin in K. congruence.
Qed.

(** ** One step *)
Lemma state_app_apart D t s s' : state_at D s -> ~ share_continuum base t -> proper_seg t ->
  ms_start s' = ms_start s -> ms_end s' = ms_end s -> ms_components s' = ms_components s ->
  ms_superset s' = false -> ms_no_overlap s' = ms_no_overlap s ->
  (ms_no_overlap s = true ->
     (ms_no_touch s' = true <-> ms_no_touch s = true /\ ~ seg_relation_spec TOUCH base t) /\
     (ms_no_cross s' = true <-> ms_no_cross s = true /\ ~ seg_relation_spec CROSS base t) /\
     (ms_no_cross s' = true -> forall w, (In w (ms_counterclockwise s') <-> In w (ms_counterclockwise s) \/
        touches_mid a b t /\ the_scale a b t = w /\ 0 < area2 a b (the_free_end a b t)) /\
       (In w (ms_clockwise s') <-> In w (ms_clockwise s) \/
        touches_mid a b t /\ the_scale a b t = w /\ ~ 0 < area2 a b (the_free_end a b t)))) ->
  state_at (D ++ [t]) s'.
Proof.
  intros S NS P E1 E2 E3 E4 E5 H.
  assert (All : forall Q : segment -> Prop, (forall t', In t' (D ++ [t]) -> Q t') <-> (forall t', In t' D -> Q t') /\ Q t).
  { intros Q. split.
    - intros F. split; [intros t' I; apply F, in_app_iff; auto|apply F, in_app_iff; cbn; auto].
    - intros (F & G) t' I. apply in_app_iff in I. destruct I as [I|[<-|[]]]; auto. }
  assert (Ex : forall Q : segment -> Prop, (exists t', In t' (D ++ [t]) /\ Q t') <-> (exists t', In t' D /\ Q t') \/ Q t).
  { intros Q. split.
    - intros (t' & I & F). apply in_app_iff in I. destruct I as [I|[<-|[]]]; eauto.
    - intros [(t' & I & F)|F]; [exists t'|exists t]; rewrite in_app_iff; cbn; auto. }
  constructor.
  - rewrite E4, (All (fun t => seg_subset t base)). split; [discriminate|]. intros (_ & K). exfalso. apply NS.
    apply share_continuum_sym, subset_continuum; auto.
  - rewrite E5, (sa_overlap D s S), (All (fun t => ~ share_continuum base t)). tauto.
  - rewrite E5. intros O. destruct (H O) as (H1 & _). rewrite H1, (sa_touch D s S O).
    rewrite (All (fun t => ~ seg_relation_spec TOUCH base t)). tauto.
  - rewrite E5. intros O. destruct (H O) as (_ & H1 & _). rewrite H1, (sa_cross D s S O).
    rewrite (All (fun t => ~ seg_relation_spec CROSS base t)). tauto.
  - rewrite E5. intros O C w. destruct (H O) as (_ & H1 & H2). destruct (H2 C w) as (H3 & _). rewrite H3.
    rewrite (sa_ccw D s S O (proj1 (proj1 H1 C)) w). rewrite Ex. tauto.
  - rewrite E5. intros O C w. destruct (H O) as (_ & H1 & H2). destruct (H2 C w) as (_ & H3). rewrite H3.
    rewrite (sa_cw D s S O (proj1 (proj1 H1 C)) w). rewrite Ex. tauto.
  - rewrite E1, E2, E3. destruct (sa_intervals D s S) as (x & y & cs & F1 & F2 & F3 & IV).
    exists x, y, cs. repeat split; auto; try apply intervals_apart; auto; apply IV; auto.
Qed.

Lemma state_app_along D t s s' x y cs : state_at D s -> share_continuum base t ->
  (ms_superset s' = true <-> ms_superset s = true /\ seg_subset t base) -> ms_no_overlap s' = false ->
  ms_start s' = lerp a b x -> ms_end s' = lerp a b y -> ms_components s' = map (fun c => pair_at c) cs ->
  intervals a b (D ++ [t]) x y cs ->
  state_at (D ++ [t]) s'.
Proof.
  intros S SH E4 E5 E1 E2 E3 IV.
  assert (All : forall Q : segment -> Prop, (forall t', In t' (D ++ [t]) -> Q t') <-> (forall t', In t' D -> Q t') /\ Q t).
  { intros Q. split.
    - intros F. split; [intros t' I; apply F, in_app_iff; auto|apply F, in_app_iff; cbn; auto].
    - intros (F & G) t' I. apply in_app_iff in I. destruct I as [I|[<-|[]]]; auto. }
  constructor; try (rewrite E5; discriminate).
  - rewrite E4, (All (fun t => seg_subset t base)), (sa_superset D s S). tauto.
  - rewrite E5. rewrite (All (fun t => ~ share_continuum base t)). split; [discriminate|tauto].
  - eauto 10.
Qed.
End Line.
