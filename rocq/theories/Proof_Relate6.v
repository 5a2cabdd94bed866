(** [Segment.relate_to] for a multisegment: the relation found is the right one. *)
From Coq Require Import QArith Qcanon Bool List ZArith Lia.
From Verif Require Import QcTac Model_Base Model_Geometry Model_Segment Model_Contour Model_Relate
  Spec_Base Spec_Segment Spec_Clip Spec_Relate Proof_Base Proof_Line Proof_SegRel Proof_SegOps Proof_SegOps2
  Proof_Relate Proof_Relate2 Proof_Relate3 Proof_Relate4 Proof_Relate5.
Import ListNotations.
Local Open Scope Qc_scope.

Lemma tod_no_share s t : touch_or_disjoint s t -> ~ share_continuum s t.
Proof.
  intros [(p & K & _)|K]; [exact (only_common_no_continuum _ _ _ K)|].
  intros (p & q & _ & A & B & _). apply K. eauto.
Qed.
Lemma non_crossing_no_share l : non_crossing l -> no_share l.
Proof.
  intros (_ & H). unfold no_share. induction H; constructor; auto.
  eapply Forall_impl; [|eassumption]. intros ? K. apply tod_no_share; auto.
Qed.

Lemma non_crossing_pair l s t : non_crossing l -> In s l -> In t l -> s = t \/ touch_or_disjoint s t.
Proof.
  intros (_ & H). induction H as [|x l F H IH]; [intros []|].
  rewrite Forall_forall in F. intros [<-|I] [<-|J]; auto.
  right. apply touch_or_disjoint_sym. auto.
Qed.

Section Line.
Variables (a b : point).
Hypothesis L : lex_lt a b.
Notation base := (Seg a b).
Let N : a <> b := a_neq_b a b L.

(** On which side of the base a part is. *)
Lemma on_side t q : on_seg t q -> 0 < area2 a b q ->
  0 < area2 a b (seg_start t) \/ 0 < area2 a b (seg_end t).
Proof.
  intros (s & A & B & ->). rewrite area2_lerp.
  destruct (Qclt_le_dec 0 (area2 a b (seg_start t))) as [|X]; auto.
  destruct (Qclt_le_dec 0 (area2 a b (seg_end t))) as [|Y]; auto. intros K. exfalso.
  assert (s * (area2 a b (seg_end t)) <= 0) by qnra.
  assert ((1 - s) * (area2 a b (seg_start t)) <= 0) by qnra. qlra.
Qed.
Lemma on_side' t q : on_seg t q -> area2 a b q < 0 ->
  area2 a b (seg_start t) < 0 \/ area2 a b (seg_end t) < 0.
Proof.
  intros (s & A & B & ->). rewrite area2_lerp.
  destruct (Qclt_le_dec (area2 a b (seg_start t)) 0) as [|X]; auto.
  destruct (Qclt_le_dec (area2 a b (seg_end t)) 0) as [|Y]; auto. intros K. exfalso.
  assert (0 <= s * (area2 a b (seg_end t))) by qnra.
  assert (0 <= (1 - s) * (area2 a b (seg_start t))) by qnra. qlra.
Qed.

Lemma cross_sides t : proper_seg t -> seg_relation_spec CROSS base t ->
  exists p, inside_seg base p /\ on_seg t p /\
   ((0 < area2 a b (seg_start t) /\ area2 a b (seg_end t) < 0) \/
    (area2 a b (seg_start t) < 0 /\ 0 < area2 a b (seg_end t))).
Proof.
  intros P X. pose proof X as (p & (_ & O & _) & I & _). exists p. split; [auto|]. split; [auto|].
  destruct (to_sorted_pair_proper t P) as (c & d & _ & M & E).
  assert (X' : seg_relation_spec CROSS base (Seg c d)).
  { apply (seg_relation_spec_sorted CROSS base t a b c d); auto. }
  apply (cross_iff a b c d L M) in X'. destruct X' as ([K|K] & _); destruct E as [-> | ->]; cbn; tauto.
Qed.

(** A touching part through an inner point of the base ends there. *)
Lemma inner_touch t p : proper_seg t -> seg_relation_spec TOUCH base t -> inside_seg base p -> on_seg t p ->
  touches_mid a b t /\ lerp a b (the_scale a b t) = p /\ 0 < the_scale a b t /\ the_scale a b t < 1 /\
  (t = Seg p (the_free_end a b t) \/ t = Seg (the_free_end a b t) p).
Proof.
  intros P T I O. pose proof T as (q & (O1 & O2 & U) & Ends).
  assert (OB : on_seg base p) by (apply strictly_between_between; auto).
  assert (E : q = p) by (symmetry; apply U; auto). subst q.
  assert (Np : p <> a /\ p <> b).
  { destruct I as (w & A & B & ->). cbn. split; intros K.
    - assert (w = 0) by (apply (lerp_inj a b); auto; rewrite lerp_0; auto). qlra.
    - assert (w = 1) by (apply (lerp_inj a b); auto; rewrite lerp_1; auto). qlra. }
  assert (Oa : on_seg base a) by apply between_start. assert (Ob : on_seg base b) by apply between_end.
  assert (Os : on_seg t (seg_start t)) by apply between_start.
  assert (Oe : on_seg t (seg_end t)) by apply between_end.
  assert (TM : touches_mid a b t).
  { split; [auto|]. destruct Np as (Na & Nb).
    repeat split; intros K; [rewrite K in Os|rewrite K in Oe|rewrite K in Os|rewrite K in Oe];
      [apply Na|apply Na|apply Nb|apply Nb]; symmetry; apply U; auto. }
  split; [auto|]. destruct (mid_touch a b L t P TM) as (W0 & W1 & W2 & W3 & W4 & W5).
  assert (Ep : p = lerp a b (the_scale a b t)) by (apply W4; auto).
  destruct W5 as [(W5 & W6 & W7)|([W5|W5] & _)].
  - rewrite Ep. auto 6.
  - exfalso. apply (proj1 Np). rewrite Ep, W5. apply lerp_0.
  - exfalso. apply (proj2 Np). rewrite Ep, W5. apply lerp_1.
Qed.

Lemma crosses_iff l s : non_crossing l -> state_at a b l s -> ms_no_overlap s = true ->
  (ms_no_cross s && negb (match ms_clockwise s, ms_counterclockwise s with
            | [], _ | _, [] => false
            | clockwise, counterclockwise =>
                if (length clockwise <? length counterclockwise)%nat
                then have_common clockwise counterclockwise
                else have_common counterclockwise clockwise
            end)) = false <-> exists p, passes_through base l p.
Proof.
  intros NC S O. pose proof NC as (P & _). rewrite Forall_forall in P.
  match goal with |- (_ && negb ?x) = false <-> ?R => 
    enough (GG : forall c, (c = true <-> exists w, In w (ms_clockwise s) /\ In w (ms_counterclockwise s)) ->
      (ms_no_cross s && negb c = false <-> R)) by (apply GG; rewrite <- lists_common; destruct (ms_clockwise s), (ms_counterclockwise s); reflexivity) end.
  intros c LC. rewrite andb_false_iff, negb_false_iff, LC.
  assert (Dec : forall t, In t l -> seg_relation_spec CROSS base t \/ seg_relation_spec TOUCH base t \/ seg_relation_spec DISJOINT base t).
  { intros t I. apply not_share_cases; auto. apply (sa_overlap a b l s S); auto. }
  split.
  - intros H. destruct (ms_no_cross s) eqn:X.
    + destruct H as [H|H]; [discriminate|]. destruct H as (w & I1 & I2).
      apply (sa_cw a b l s S O X) in I1. apply (sa_ccw a b l s S O X) in I2.
      destruct I1 as (t & It & Tt & Wt & St). destruct I2 as (u & Iu & Tu & Wu & Su).
      destruct (mid_touch a b L t (P t It) Tt) as (A0 & A1 & A2 & A3 & A4 & A5).
      destruct (mid_touch a b L u (P u Iu) Tu) as (B0 & B1 & B2 & B3 & B4 & B5).
      rewrite Wt in *. rewrite Wu in *.
      destruct A5 as [(A5 & A6 & A7)|(A5 & A6 & A7)].
      * destruct B5 as [(B5 & B6 & B7)|(B5 & _)]; [|exfalso; destruct B5; qlra].
        exists (lerp a b w). split; [exists w; auto|].
        exists u, t, (the_free_end a b u), (the_free_end a b t).
        split; [auto|]. split; [auto|]. split; [auto|]. split; [auto|]. split; [|split; [auto|split]].
        -- destruct B7 as [E | E]; rewrite E at 1; [apply between_end|apply between_start].
        -- destruct A7 as [E | E]; rewrite E at 1; [apply between_end|apply between_start].
        -- cbn [seg_start seg_end]. qne; qlra.
      * destruct B5 as [(B5 & B6 & B7)|(_ & B6 & B7)]; [exfalso; destruct A5; qlra|]. exfalso.
        destruct (non_crossing_pair l t u NC It Iu) as [E|[K|K]].
        -- subst u. contradiction.
        -- destruct K as (q & (O1 & O2 & U) & Ends).
           assert (E : lerp a b w = q) by (apply U; auto). subst q.
           destruct Ends as [Ends|Ends].
           ++ apply (endpoint_not_inside t (lerp a b w)); auto.
           ++ apply (endpoint_not_inside u (lerp a b w)); auto.
        -- apply K. exists (lerp a b w). auto.
    + clear H. assert (Q : exists t, In t l /\ seg_relation_spec CROSS base t).
      { assert (D : forall k, (forall t, In t k -> In t l) -> (exists t, In t k /\ seg_relation_spec CROSS base t) \/
                   forall t, In t k -> ~ seg_relation_spec CROSS base t).
        { induction k as [|t k IH]; intros Sub; [right; intros ? []|].
          destruct IH as [(t' & I & K)|K]; [intros; apply Sub; cbn; auto|left; exists t'; cbn; auto|].
          destruct (segment_relate_total base t N (P t (Sub t (or_introl eq_refl)))) as (r & E).
          apply (segment_relate_spec base t r N (P t (Sub t (or_introl eq_refl)))) in E.
          destruct (relation_is_spec r CROSS) as [->|NX]; [left; exists t; cbn; auto|].
          right. intros t' [<-|I] K'; [|exact (K t' I K')]. apply NX.
          apply (seg_relation_exclusive base t); auto. apply P. apply Sub; cbn; auto. }
        destruct (D l (fun t I => I)) as [|K]; auto. apply (sa_cross a b l s S O) in K. congruence. }
      destruct Q as (t & I & K). destruct (cross_sides t (P t I) K) as (p & Q1 & Q2 & [(Q3 & Q4)|(Q3 & Q4)]).
      * exists p. split; auto. exists t, t, (seg_start t), (seg_end t). repeat split; auto; [apply between_start|apply between_end].
      * exists p. split; auto. exists t, t, (seg_end t), (seg_start t). repeat split; auto; [apply between_end|apply between_start].
  - intros (p & I & t & u & q & r & It & Iu & Ot & Ou & Oq & Aq & Or & Ar).
    destruct (ms_no_cross s) eqn:X; auto. right.
    pose proof (proj1 (sa_cross a b l s S O) X) as NX.
    assert (OB : on_seg base p) by (apply strictly_between_between; auto).
    destruct (Dec t It) as [K|[K|K]]; [exfalso; exact (NX t It K)| |exfalso; apply K; eauto].
    destruct (Dec u Iu) as [K'|[K'|K']]; [exfalso; exact (NX u Iu K')| |exfalso; apply K'; eauto].
    destruct (inner_touch t p (P t It) K I Ot) as (T1 & T2 & T3 & T4 & T5).
    destruct (inner_touch u p (P u Iu) K' I Ou) as (U1 & U2 & U3 & U4 & U5).
    assert (Zp : area2 a b p = 0) by (rewrite <- T2; apply area2_self_lerp).
    exists (the_scale a b t). split.
    + apply (sa_cw a b l s S O X). exists u. split; [auto|]. split; [auto|]. split.
      * apply (lerp_inj a b); auto. congruence.
      * destruct (on_side' u r Or Ar) as [H|H]; destruct U5 as [E|E]; rewrite E in H at 1; cbn in H; qlra.
    + apply (sa_ccw a b l s S O X). exists t. split; [auto|]. split; [auto|]. split; [auto|].
      destruct (on_side t q Oq Aq) as [H|H]; destruct T5 as [E|E]; rewrite E in H at 1; cbn in H; auto; qlra.
Qed.

Lemma sorted_relation l : non_crossing l -> (2 <= length l)%nat ->
  exists r, relate_to_multisegment_segments a b l = Some r /\ segment_list_relation_spec r base l.
Proof.
  intros NC Len. pose proof NC as (P & _). pose proof (non_crossing_no_share l NC) as NS.
  unfold relate_to_multisegment_segments.
  assert (G : point_gt a b = false).
  { rewrite point_gt_lt. destruct (point_lt_spec b a); auto. exfalso. apply (lex_asym a b); auto. }
  rewrite G.
  pose proof (loop_spec a b L l [] (MultisegmentState a b true true true true [] [] []) P NS (initial_state a b)) as H.
  destruct (relate_to_multisegment_loop a b l _) as [[s|]|]; [| |destruct H].
  - cbn [app] in H. exists (multisegment_relation s). split; auto.
    unfold multisegment_relation. cbv zeta.
    destruct (ms_no_overlap s) eqn:O.
    + pose proof (crosses_iff l s NC H O) as CX. pose proof (sa_overlap a b l s H) as OV.
      pose proof (sa_touch a b l s H O) as TO.
      assert (Share : ~ exists t, In t l /\ share_continuum base t).
      { intros (t & I & K). exact (proj1 OV O t I K). }
      destruct (ms_no_cross s && _) eqn:X.
      * assert (NX : ~ exists p, passes_through base l p) by (intros K; apply CX in K; discriminate).
        assert (XN : forall t, In t l -> ~ seg_relation_spec CROSS base t).
        { apply (sa_cross a b l s H O). apply andb_true_iff in X. tauto. }
        rewrite Forall_forall in P.
        destruct (ms_no_touch s) eqn:T; cbn [andb].
        -- cbn. intros (p & O1 & t & I & O2).
           destruct (not_share_cases base t N (P t I) (proj1 OV O t I)) as [K|[K|K]].
           ++ exact (XN t I K).
           ++ exact (proj1 TO eq_refl t I K).
           ++ apply K. eauto.
        -- cbn. split; [|auto]. clear CX NX.
           assert (Q : ~ forall t, In t l -> ~ seg_relation_spec TOUCH base t).
           { intros K. apply TO in K. discriminate. }
           clear -Q P OV XN N O. 
           assert (D : forall k, (forall t, In t k -> In t l) ->
              (exists p, on_seg base p /\ on_segs k p) \/ forall t, In t k -> ~ seg_relation_spec TOUCH base t).
           { induction k as [|t k IH]; intros Sub; [right; intros ? []|].
             destruct IH as [(p & I & K)|K]; [intros; apply Sub; cbn; auto| |].
             - left. exists p. split; auto. apply on_segs_cons. auto.
             - assert (It : In t l) by (apply Sub; cbn; auto).
               destruct (not_share_cases base t N (P t It) (proj1 OV O t It)) as [K'|[K'|K']].
               + exfalso. exact (XN t It K').
               + left. destruct K' as (p & (A & B & _) & _). exists p. split; auto. exists t. cbn; auto.
               + right. intros t' [<-|I]; [|exact (K t' I)].
                 intros (p & (A & B & _) & C). apply K'. eauto. }
           destruct (D l (fun t I => I)) as [|K]; auto. contradiction.
      * replace (ms_no_touch s && false) with false by (destruct (ms_no_touch s); auto).
        cbn. split; auto. apply CX. reflexivity.
    + pose proof (chained_spec a b L l s P H) as CH. pose proof (sa_superset a b l s H) as SU.
      assert (Sup : (forall p, on_segs l p -> on_seg base p) <-> ms_superset s = true).
      { rewrite SU. split.
        - intros K t I p Op. apply K. exists t; auto.
        - intros K p (t & I & Op). exact (K t I p Op). }
      match goal with |- segment_list_relation_spec ?r _ _ =>
        assert (ER : r = if chained s then (if ms_superset s then EQUAL else COMPONENT)
                         else (if ms_superset s then COMPOSITE else OVERLAP)) end.
      { unfold chained. destruct (ms_components s); auto. }
      rewrite ER. clear ER. destruct (chained s), (ms_superset s); cbn.
      * split; auto. apply Sup. auto.
      * split; auto. rewrite Sup. discriminate.
      * split; auto. apply Sup. auto.
      * split; [|split; auto; rewrite Sup; discriminate].
        assert (Q : ~ forall t, In t l -> ~ share_continuum base t).
        { intros K. apply (sa_overlap a b l s H) in K. congruence. }
        clear -Q P L N. rewrite Forall_forall in P.
        assert (D : forall k, (forall t, In t k -> In t l) -> (exists t, In t k /\ share_continuum base t) \/
                   forall t, In t k -> ~ share_continuum base t).
        { induction k as [|t k IH]; intros Sub; [right; intros ? []|].
          destruct IH as [(t' & I & K)|K]; [intros; apply Sub; cbn; auto|left; exists t'; cbn; auto|].
          destruct (part_cases a b L t (P t (Sub t (or_introl eq_refl)))) as [r R C SB|u v R K' U V UV|u v R K' UV|r R C SP NS].
          - left. exists t. split; [cbn; auto|]. apply subset_continuum; auto.
          - left. exists t. split; [cbn; auto|]. apply (coords_share a b L t u v K'); destruct K'; qlra.
          - left. exists t. split; [cbn; auto|]. apply (coords_share a b L t u v K'); destruct K', UV; qlra.
          - right. intros t' [<-|I]; auto. }
        destruct (D l (fun t I => I)) as [|K]; auto. contradiction.
  - cbn [app] in H. exists COMPONENT. split; auto. destruct H as (D & t & T & E & SB). cbn. split.
    + intros p O. exists t. split; auto. rewrite E. apply in_app_iff. cbn; auto.
    + intros Sup. subst l. destruct (no_share_app D t T NS) as (S1 & S2).
      rewrite Forall_forall in P.
      assert (X : exists t', In t' (D ++ t :: T) /\ (In t' D \/ In t' T)).
      { destruct D as [|d D]; [|exists d; cbn; auto].
        destruct T as [|d T]; [cbn in Len; lia|]. exists d. cbn; auto. }
      destruct X as (t' & I & X). assert (SU : seg_subset t' t).
      { intros p O. apply SB, Sup. exists t'; auto. }
      pose proof (subset_continuum t' t (P t' I) SU) as SH.
      destruct X as [X|X]; [exact (S1 t' X SH)|apply (S2 t' X), share_continuum_sym, SH].
Qed.
End Line.
