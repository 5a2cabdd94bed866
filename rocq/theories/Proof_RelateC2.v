(** [Segment.relate_to] for a contour: the loop and the result. *)
From Coq Require Import QArith Qcanon Bool List ZArith Lia.
From Verif Require Import QcTac Model_Base Model_Geometry Model_Segment Model_Contour Model_Relate
  Spec_Base Spec_Segment Spec_Clip Spec_Contour Spec_Relate Proof_Base Proof_Line Proof_SegRel Proof_SegOps Proof_SegOps2
  Proof_Bounds Proof_Edges Proof_Outline Proof_Relate Proof_Relate2 Proof_Relate3 Proof_Relate4 Proof_Relate5
  Proof_Relate6 Proof_Relate7 Proof_RelateC.
Import ListNotations.
Local Open Scope Qc_scope.

(** ** An edge that covers only a part of the segment leaves a part of it uncovered *)
Section Gap.
Variables (a b : point).
Hypothesis L : lex_lt a b.
Notation base := (Seg a b).
Variable es : list segment.
Hypothesis O : outline es.

Definition clear_around (f : segment) (w0 d : Qc) : Prop :=
  forall w, 0 <= w -> w <= 1 -> w0 - d < w -> w < w0 + d -> w <> w0 -> ~ on_seg f (lerp a b w).

Lemma clear_missed f w0 : proper_seg f -> ~ on_seg f (lerp a b w0) -> exists d, 0 < d /\ clear_around f w0 d.
Proof.
  intros P NO. pose proof (a_neq_b a b L) as N.
  assert (X : share_continuum base f \/ ~ share_continuum base f).
  { destruct (part_cases a b L f P) as [r R C SB|u v R K U V UV|u v R K UV|r R C SP NS]; auto; left.
    - apply subset_continuum; auto.
    - apply (coords_share a b L f u v K); destruct K; qlra.
    - apply (coords_share a b L f u v K); destruct K, UV; qlra. }
  destruct X as [X|X].
  - destruct (share_coords a b L f P X) as (u & v & K & _).
    rewrite (at_coords_on a b L f u v w0 K) in NO.
    destruct (Qclt_le_dec w0 u) as [U|U].
    + exists (u - w0). split; [qlra|]. intros w _ _ A B _ C. apply (at_coords_on a b L f u v w K) in C. qlra.
    + destruct (Qclt_le_dec v w0) as [V|V]; [|exfalso; apply NO; auto].
      exists (w0 - v). split; [qlra|]. intros w _ _ A B _ C. apply (at_coords_on a b L f u v w K) in C. qlra.
  - destruct (not_share_common base f N P X) as [(p & Op & Of & U)|E].
    + destruct (base_ex a b p Op) as (w1 & -> & W0 & W1).
      assert (D : w1 <> w0) by congruence.
      assert (Only : forall w, 0 <= w -> w <= 1 -> on_seg f (lerp a b w) -> w = w1).
      { intros w A B C. apply (lerp_inj a b); auto. apply U; auto. apply (on_base a b L); auto. }
      destruct (Qclt_le_dec w1 w0) as [M|M].
      * exists (w0 - w1). split; [qlra|]. intros w A B C E _ F. apply Only in F; auto. qlra.
      * exists (w1 - w0). split; [qne; qlra|]. intros w A B C E _ F. apply Only in F; auto. qlra.
    + exists 1. split; [qlra|]. intros w A B _ _ _ C. apply E. exists (lerp a b w). split; auto.
      apply (on_base a b L); auto.
Qed.

Lemma clear_others t w0 u v : In t es -> at_coords a b t u v -> w0 = u \/ w0 = v ->
  exists d, 0 < d /\ forall f, In f es -> f <> t -> clear_around f w0 d.
Proof.
  intros I K W. pose proof (a_neq_b a b L) as N.
  assert (PP : forall e, In e es -> proper_seg e) by (apply Forall_forall, (ou_proper es O)).
  assert (Ends : endpoint_of t (lerp a b w0)).
  { destruct K as (_ & [-> | ->]), W as [->| ->]; unfold endpoint_of; cbn; auto. }
  assert (Zt : area2 a b (seg_start t) = 0 /\ area2 a b (seg_end t) = 0).
  { destruct K as (_ & [-> | ->]); cbn; rewrite !area2_self_lerp; auto. }
  assert (One : forall f, In f es -> f <> t -> exists d, 0 < d /\ clear_around f w0 d).
  { intros f J D. destruct (on_seg_dec f (lerp a b w0)) as [OF|OF]; [|apply clear_missed; auto].
    exists 1. split; [qlra|]. intros w A B _ _ NW C.
    destruct (ou_meet es O f t (lerp a b w0) J I D OF) as (E1 & E2).
    { apply (at_coords_on a b L t u v w0 K). destruct K as (K & _). destruct W; split; qlra. }
    destruct (lines_meet_once a b (seg_start f) (seg_end f) (lerp a b w0) (lerp a b w)) as (Z1 & Z2); auto;
      try apply area2_self_lerp.
    { intros Q. apply NW. symmetry. apply (lerp_inj a b); auto. }
    destruct (outline_adjacent es f t (lerp a b w0) O J I D E1 E2) as [(X1 & X2)|(X1 & X2)].
    - apply (not_one_line a b N es O f t J I); [congruence|]. tauto.
    - apply (not_one_line a b N es O t f I J); [congruence|]. tauto. }
  assert (All : forall l, (forall f, In f l -> In f es) -> exists d, 0 < d /\ forall f, In f l -> f <> t -> clear_around f w0 d).
  { induction l as [|f l IH]; intros Sub.
    - exists 1. split; [qlra|]. intros f [].
    - destruct IH as (d & D1 & D2); [intros; apply Sub; cbn; auto|].
      assert (Dec : f = t \/ f <> t).
      { destruct f as [f1 f2], t as [t1 t2]. destruct (point_dec f1 t1), (point_dec f2 t2); subst; auto; right; congruence. }
      destruct Dec as [E|D].
      + exists d. split; auto. intros f' [<-|J] D'; [contradiction|auto].
      + destruct (One f (Sub f (or_introl eq_refl)) D) as (d' & D1' & D2').
        destruct (Qclt_le_dec d d') as [M|M].
        * exists d. split; auto. intros f' [<-|J] D'; [|auto].
          intros w A B C E F. apply D2'; auto; qlra.
        * exists d'. split; auto. intros f' [<-|J] D'; [auto|].
          intros w A B C E F. apply (D2 f' J D'); auto; qlra. }
  apply All. auto.
Qed.

Lemma partial_edge_gap t : In t es -> share_continuum base t -> ~ seg_subset base t ->
  ~ forall p, on_seg base p -> on_segs es p.
Proof.
  intros I S NS All. pose proof (a_neq_b a b L) as N.
  assert (P : proper_seg t) by (revert I; apply Forall_forall, (ou_proper es O)).
  destruct (share_coords a b L t P S) as (u & v & K & U1 & V0). pose proof (proj1 K) as UV.
  assert (Q : 0 < u \/ v < 1).
  { destruct (Qclt_le_dec 0 u); auto. destruct (Qclt_le_dec v 1); auto. exfalso. apply NS.
    intros p Op. destruct (base_ex a b p Op) as (w & -> & A & B). apply (at_coords_on a b L t u v w K). split; qlra. }
  assert (Conc : forall w0 w d, (forall f, In f es -> f <> t -> clear_around f w0 d) ->
    0 <= w -> w <= 1 -> w0 - d < w -> w < w0 + d -> w <> w0 -> ~ (u <= w /\ w <= v) -> False).
  { intros w0 w d D A B C E F G. destruct (All (lerp a b w)) as (f & J & OF); [apply (on_base a b L); auto|].
    apply (D f J) with (w := w); auto. intros ->. apply (at_coords_on a b L t u v w K) in OF. auto. }
  destruct Q as [Q|Q].
  - destruct (clear_others t u u v I K (or_introl eq_refl)) as (d & D1 & D2).
    assert (X : exists w, 0 <= w /\ u - d < w /\ w < u).
    { destruct (Qclt_le_dec d u) as [M|M].
      - exists (half (u - d) u). pose proof (half_twice (u - d) u) as H. revert H. generalize (half (u - d) u). intros h H.
        repeat split; qlra.
      - exists (half 0 u). pose proof (half_twice 0 u) as H. revert H. generalize (half 0 u). intros h H.
        repeat split; qlra. }
    destruct X as (w & W1 & W2 & W3). apply (Conc u w d D2); try qlra.
  - destruct (clear_others t v u v I K (or_intror eq_refl)) as (d & D1 & D2).
    assert (X : exists w, w <= 1 /\ v < w /\ w < v + d).
    { destruct (Qclt_le_dec (v + d) 1) as [M|M].
      - exists (half v (v + d)). pose proof (half_twice v (v + d)) as H. revert H. generalize (half v (v + d)). intros h H.
        repeat split; qlra.
      - exists (half v 1). pose proof (half_twice v 1) as H. revert H. generalize (half v 1). intros h H.
        repeat split; qlra. }
    destruct X as (w & W1 & W2 & W3). apply (Conc v w d D2); try qlra.
Qed.
End Gap.

Lemma partial_edge_gap_any s es t : proper_seg s -> outline es -> In t es -> share_continuum s t -> ~ seg_subset s t ->
  ~ forall p, on_seg s p -> on_segs es p.
Proof.
  intros P O I S NS All. destruct (to_sorted_pair_proper s P) as (a & b & _ & L & E).
  assert (EO : forall p, on_seg s p <-> on_seg (Seg a b) p) by (intros; apply on_seg_sorted; auto).
  apply (partial_edge_gap a b L es O t I).
  - destruct S as (p & q & N & A & B & C & D). exists p, q. rewrite <- !EO. auto 6.
  - intros K. apply NS. intros p Op. apply K, EO, Op.
  - intros p Op. apply All, EO, Op.
Qed.

(** ** The loop *)
Section Segment.
Variables (s0 s1 : point).
Notation s := (Seg s0 s1).
Hypothesis N : s0 <> s1.
Notation is r t := (seg_relation_spec r s t).
Notation rel t := (relate_to_segment_endpoints s0 s1 (seg_start t) (seg_end t)).
Notation bend := (bend s0 s1).

Record loop_state (D : list segment) (c : contour_state) : Prop := {
  ls_apart : forall t, In t D -> ~ share_continuum s t;
  ls_touch : cs_no_touch c = true <-> forall t, In t D -> ~ is TOUCH t;
  ls_touched : match cs_touched c with
    | None => cs_no_touch c = true
    | Some (i, p) => cs_no_touch c = false /\ exists l1 e l2, D = l1 ++ e :: l2 /\ length l1 = i /\ is TOUCH e /\ p = seg_start e /\
        forall f, In f l2 -> ~ is TOUCH f
    end;
  ls_cross : cs_no_cross c = false <-> (exists t, In t D /\ is CROSS t) \/
    exists l1 e f l2, D = l1 ++ e :: f :: l2 /\ is TOUCH e /\ is TOUCH f /\ bend e f = true }.

Lemma snoc_pairs (D : list segment) t (Q : segment -> segment -> Prop) :
  (exists l1 e f l2, D ++ [t] = l1 ++ e :: f :: l2 /\ Q e f) <->
  (exists l1 e f l2, D = l1 ++ e :: f :: l2 /\ Q e f) \/ (exists l1 e, D = l1 ++ [e] /\ Q e t).
Proof.
  split.
  - intros (l1 & e & f & l2 & E & K). destruct (list_eq_dec (fun x y : segment =>
      ltac:(decide equality; apply point_dec)) l2 []) as [->|NE].
    + right. exists l1, e. replace (l1 ++ [e; f]) with ((l1 ++ [e]) ++ [f]) in E by (rewrite <- app_assoc; auto).
      apply app_inj_tail in E. destruct E as (E1 & <-). auto.
    + left. destruct (exists_last NE) as (l2' & g & ->).
      replace (l1 ++ e :: f :: l2' ++ [g]) with ((l1 ++ e :: f :: l2') ++ [g]) in E by (rewrite <- app_assoc; auto).
      apply app_inj_tail in E. destruct E as (E1 & _). eauto 6.
  - intros [(l1 & e & f & l2 & -> & K)|(l1 & e & -> & K)].
    + exists l1, e, f, (l2 ++ [t]). rewrite <- app_assoc. auto.
    + exists l1, e, t, []. rewrite <- app_assoc. auto.
Qed.
Lemma snoc_in (D : list segment) t (Q : segment -> Prop) :
  (exists t', In t' (D ++ [t]) /\ Q t') <-> (exists t', In t' D /\ Q t') \/ Q t.
Proof.
  split.
  - intros (t' & I & F). apply in_app_iff in I. destruct I as [I|[<-|[]]]; eauto.
  - intros [(t' & I & F)|F]; [exists t'|exists t]; rewrite in_app_iff; cbn; auto.
Qed.
Lemma snoc_all (D : list segment) t (Q : segment -> Prop) :
  (forall t', In t' (D ++ [t]) -> Q t') <-> (forall t', In t' D -> Q t') /\ Q t.
Proof.
  split.
  - intros F. split; [intros t' I; apply F, in_app_iff; auto|apply F, in_app_iff; cbn; auto].
  - intros (F & G) t' I. apply in_app_iff in I. destruct I as [I|[<-|[]]]; auto.
Qed.

Lemma contour_step_spec D t c : proper_seg t -> loop_state D c ->
  match relate_to_contour_segment s0 s1 (length D) t c with
  | StepFails => False
  | Returns r => r = COMPONENT /\ seg_subset s t \/
                 r = OVERLAP /\ share_continuum s t /\ ~ seg_subset s t
  | Continues c' => loop_state (D ++ [t]) c'
  end.
Proof.
  intros P S. unfold relate_to_contour_segment. cbv zeta.
  destruct (segment_relate_total s t N P) as (r & R). pose proof (proj1 (rel_spec s0 s1 N t r P) R) as SP.
  change (segment_relate_to_segment s t) with (rel t) in R. rewrite R.
  assert (EX : forall r', is r' t -> r' = r).
  { intros r' K. apply (seg_relation_exclusive s t); auto. }
  destruct r; cbn in SP; try contradiction; auto.
  - left. split; auto. apply SP.
  - right. split; auto. split; [|apply SP]. apply share_continuum_sym, subset_continuum; auto. apply SP.
  - (* CROSS *)
    assert (NT : ~ is TOUCH t) by (intros K; specialize (EX TOUCH K); discriminate).
    constructor; cbn.
    + rewrite snoc_all. split; [apply (ls_apart D c S)|].
      destruct SP as (p & K & _). exact (only_common_no_continuum _ _ _ K).
    + rewrite (snoc_all D t (fun t => ~ is TOUCH t)), (ls_touch D c S). tauto.
    + pose proof (ls_touched D c S) as T. destruct (cs_touched c) as [(i & p)|]; auto.
      destruct T as (T0 & l1 & e & l2 & -> & T1 & T2 & T3 & T4). split; auto.
      exists l1, e, (l2 ++ [t]). rewrite <- app_assoc. repeat split; auto.
      rewrite (snoc_all l2 t (fun t => ~ is TOUCH t)). auto.
    + rewrite (snoc_in D t (fun t => is CROSS t)). tauto.
  - (* DISJOINT *)
    assert (NT : ~ is TOUCH t) by (intros K; specialize (EX TOUCH K); discriminate).
    assert (NX : ~ is CROSS t) by (intros K; specialize (EX CROSS K); discriminate).
    constructor.
    + rewrite snoc_all. split; [apply (ls_apart D c S)|].
      intros (p & q & _ & A & B & _). apply SP. eauto.
    + rewrite (snoc_all D t (fun t => ~ is TOUCH t)), (ls_touch D c S). tauto.
    + pose proof (ls_touched D c S) as T. destruct (cs_touched c) as [(i & p)|]; auto.
      destruct T as (T0 & l1 & e & l2 & -> & T1 & T2 & T3 & T4). split; auto.
      exists l1, e, (l2 ++ [t]). rewrite <- app_assoc. repeat split; auto.
      rewrite (snoc_all l2 t (fun t => ~ is TOUCH t)). auto.
    + rewrite (snoc_in D t (fun t => is CROSS t)), (snoc_pairs D t (fun e f => is TOUCH e /\ is TOUCH f /\ bend e f = true)).
      rewrite (ls_cross D c S). split; [tauto|]. intros [[K|K]|[K|(l1 & e & _ & _ & K & _)]]; tauto.
  - left. split; auto. intros p. apply SP.
  - right. split; auto. tauto.
  - (* TOUCH *)
    assert (NX : ~ is CROSS t) by (intros K; specialize (EX CROSS K); discriminate).
    assert (NSH : ~ share_continuum s t) by (destruct SP as (p & K & _); exact (only_common_no_continuum _ _ _ K)).
    assert (Mk : forall nc, (nc = false <-> cs_no_cross c = false \/ exists l1 e, D = l1 ++ [e] /\ is TOUCH e /\ bend e t = true) ->
      loop_state (D ++ [t]) (ContourState nc false (Some (length D, seg_start t)))).
    { intros nc H. constructor; cbn.
      - rewrite snoc_all. split; auto. apply (ls_apart D c S).
      - rewrite (snoc_all D t (fun t => ~ is TOUCH t)). split; [discriminate|]. intros (_ & K). exfalso. apply K. exact SP.
      - split; auto. exists D, t, []. repeat split; auto.
      - rewrite (snoc_in D t (fun t => is CROSS t)), (snoc_pairs D t (fun e f => is TOUCH e /\ is TOUCH f /\ bend e f = true)).
        rewrite H, (ls_cross D c S). split.
        + intros [[K|K]|(l1 & e & E & K1 & K2)]; auto. right; right. exists l1, e. repeat split; auto.
        + intros [[K|K]|[K|(l1 & e & E & K1 & _ & K2)]]; auto; [contradiction|]. right. eauto. }
    pose proof (ls_touched D c S) as T.
    destruct (cs_no_touch c) eqn:NT.
    + apply Mk. split; auto. intros [K|(l1 & e & -> & K & _)]; auto. exfalso.
      apply (proj1 (ls_touch _ c S) NT e); auto. apply in_app_iff. cbn; auto.
    + destruct (cs_no_cross c) eqn:X.
      * destruct (cs_touched c) as [(i & p)|]; [|discriminate].
        destruct T as (_ & l1 & e & l2 & E & T1 & T2 & T3 & T4). subst D p.
        assert (EQ : negb ((length (l1 ++ e :: l2) - i =? 1)%nat
               && differs_from_both s0 s1 (seg_start t) && differs_from_both s0 s1 (seg_end t)
               && orientation_is (orient s0 s1 (seg_start t)) COLLINEAR
               && point_vertex_line_divides_angle s0 (seg_start t) (seg_start e) (seg_end t))
             = negb ((length (l1 ++ e :: l2) - i =? 1)%nat && bend e t)).
        { unfold Proof_RelateC.bend. rewrite !andb_assoc. reflexivity. }
        rewrite EQ. apply Mk. rewrite negb_false_iff, andb_true_iff, Nat.eqb_eq, app_length. cbn [length]. split.
        -- intros (K1 & K2). right. assert (l2 = []) as -> by (destruct l2; auto; cbn in K1; lia).
           exists l1, e. auto.
        -- intros [K|(k1 & e' & E' & K1 & K2)]; [discriminate|].
           assert (l2 = [] \/ exists l2' g, l2 = l2' ++ [g]) as [->|(l2' & g & ->)].
           { destruct l2 as [|g l2]; auto. right. destruct (exists_last (l := g :: l2)) as (l2' & g' & Q); [discriminate|]. eauto. }
           ++ apply app_inj_tail in E'. destruct E' as (-> & ->). split; [cbn; lia|auto].
           ++ exfalso. replace (l1 ++ e :: l2' ++ [g]) with ((l1 ++ e :: l2') ++ [g]) in E' by (rewrite <- app_assoc; auto).
              apply app_inj_tail in E'. destruct E' as (_ & ->). apply (T4 e'); auto. apply in_app_iff; cbn; auto.
      * apply Mk. split; auto.
Qed.

Lemma contour_loop_spec T : forall D c, Forall proper_seg T -> loop_state D c ->
  match relate_to_contour_loop s0 s1 (length D) T c with
  | StepFails => False
  | Returns r => exists t, In t T /\ (r = COMPONENT /\ seg_subset s t \/
                 r = OVERLAP /\ share_continuum s t /\ ~ seg_subset s t)
  | Continues c' => loop_state (D ++ T) c'
  end.
Proof.
  induction T as [|t T IH]; intros D c P LS.
  - cbn. rewrite app_nil_r. auto.
  - inversion P; subst. cbn [relate_to_contour_loop].
    pose proof (contour_step_spec D t c ltac:(auto) LS) as H.
    destruct (relate_to_contour_segment s0 s1 (length D) t c) as [r|c'|]; auto.
    + exists t. split; [left; auto|auto].
    + specialize (IH (D ++ [t]) c'). rewrite <- app_assoc in IH. cbn [app] in IH.
      rewrite app_length in IH. cbn [length] in IH. rewrite Nat.add_1_r in IH.
      specialize (IH ltac:(auto) H).
      destruct (relate_to_contour_loop s0 s1 (S (length D)) T c') as [r|c''|]; auto.
      destruct IH as (t' & I & K). exists t'. split; [right; auto|auto].
Qed.

Lemma cross_sides_any t : proper_seg t -> is CROSS t ->
  exists p, inside_seg s p /\ on_seg t p /\
   ((0 < area2 s0 s1 (seg_start t) /\ area2 s0 s1 (seg_end t) < 0) \/
    (area2 s0 s1 (seg_start t) < 0 /\ 0 < area2 s0 s1 (seg_end t))).
Proof.
  intros P X. destruct (to_sorted_pair_proper s N) as (a & b & _ & L & [E|E]).
  - assert (a = s0 /\ b = s1) as (-> & ->) by (split; congruence). apply cross_sides; auto.
  - assert (a = s1 /\ b = s0) as (-> & ->) by (split; congruence).
    destruct (cross_sides s1 s0 L t P) as (p & A & B & C).
    { assert (Et : t = Seg (seg_start t) (seg_end t)) by (destruct t; auto).
      apply (seg_relation_spec_sorted CROSS (Seg s1 s0) t s1 s0 (seg_start t) (seg_end t)); auto.
      apply (seg_relation_spec_sorted CROSS s t s1 s0 (seg_start t) (seg_end t)); auto. }
    exists p. split; [apply (inside_seg_reverse s); exact A|]. split; auto.
    rewrite !(area2_swap s0 s1) in C. destruct C; [right|left]; split; qlra.
Qed.

Lemma initial_loop_state : loop_state [] (ContourState true true None).
Proof.
  constructor; cbn; auto; [split; auto|].
  split; [discriminate|]. intros [(t & [] & _)|([|] & e & f & l2 & E & _)]; discriminate.
Qed.

Lemma contour_relation es : outline es ->
  exists r, relate_to_contour_segments s0 s1 es = Some r /\ segment_list_relation_spec r s es.
Proof.
  intros O. unfold relate_to_contour_segments.
  pose proof (ou_length es O) as Len.
  assert (PP : forall e, In e es -> proper_seg e) by (apply Forall_forall, (ou_proper es O)).
  assert (NSup : ~ forall p, on_segs es p -> on_seg s p).
  { intros K. destruct es as [|e es'] eqn:Ees; [cbn in Len; lia|]. rewrite <- Ees in *.
    assert (I : In e es) by (rewrite Ees; cbn; auto).
    destruct (ou_next es O e I) as (f & J & E).
    assert (Z : forall g p, In g es -> on_seg g p -> area2 s0 s1 p = 0).
    { intros g p G Q. apply between_collinear. apply (K p). exists g; auto. }
    apply (not_one_line s0 s1 N es O e f I J E). 
    split; [apply (Z e); auto; apply between_start|]. split; [apply (Z e); auto; apply between_end|].
    apply (Z f); auto; apply between_end. }
  destruct es as [|first rest] eqn:Ees; [cbn in Len; lia|]. rewrite <- Ees in *.
  pose proof (contour_loop_spec es [] (ContourState true true None) (ou_proper es O) initial_loop_state) as H.
  cbn [length app] in H.
  destruct (relate_to_contour_loop s0 s1 0 es (ContourState true true None)) as [r|c|]; [| |destruct H].
  - exists r. split; auto. destruct H as (t & I & [(-> & SB)|(-> & SH & NS)]).
    + cbn. split; auto. intros p Op. exists t. auto.
    + cbn. split; [eauto|]. split; auto. apply (partial_edge_gap_any s es t); auto.
  - (* no share *)
    assert (NSh : ~ exists t, In t es /\ share_continuum s t).
    { intros (t & I & K). exact (ls_apart es c H t I K). }
    assert (Cases : forall t, In t es -> is CROSS t \/ is TOUCH t \/ is DISJOINT t).
    { intros t I. apply not_share_cases; auto. exact (ls_apart es c H t I). }
    set (fin := match cs_touched c with
            | Some (last_index, last_start) =>
                if negb (cs_no_touch c) && cs_no_cross c
                   && (last_index =? length es - 1)%nat
                   && differs_from_both s0 s1 (seg_start first)
                   && differs_from_both s0 s1 (seg_end first)
                   && orientation_is (orient s0 s1 (seg_start first)) COLLINEAR
                then negb (point_vertex_line_divides_angle s0 (seg_start first)
                             last_start (seg_end first))
                else cs_no_cross c
            | None => cs_no_cross c
            end).
    assert (FIN : fin = false <-> cs_no_cross c = false \/
              exists l1 e, es = l1 ++ [e] /\ is TOUCH e /\ bend e first = true).
    { unfold fin. pose proof (ls_touched es c H) as T. pose proof (ls_touch es c H) as TT.
      destruct (cs_touched c) as [(i & p)|].
      - destruct T as (T0 & l1 & e & l2 & E & T1 & T2 & T3 & T4). rewrite T0. cbn [negb andb].
        destruct (cs_no_cross c) eqn:X; cbn [andb]; [|tauto].
        assert (LI : (i =? length es - 1)%nat = true <-> l2 = []).
        { rewrite Nat.eqb_eq, E, app_length. cbn [length]. destruct l2; cbn [length]; split; intros; auto; try lia; discriminate. }
        assert (BE : (exists l1 e, es = l1 ++ [e] /\ is TOUCH e /\ bend e first = true) <->
                  l2 = [] /\ bend e first = true).
        { split.
          - intros (k1 & e' & E' & K1 & K2). rewrite E in E'.
            assert (l2 = [] \/ exists l2' g, l2 = l2' ++ [g]) as [->|(l2' & g & ->)].
            { destruct l2 as [|g l2]; auto. right. destruct (exists_last (l := g :: l2)) as (l2' & g' & Q); [discriminate|]. eauto. }
            + apply app_inj_tail in E'. destruct E' as (-> & ->). auto.
            + exfalso. replace (l1 ++ e :: l2' ++ [g]) with ((l1 ++ e :: l2') ++ [g]) in E' by (rewrite <- app_assoc; auto).
              apply app_inj_tail in E'. destruct E' as (_ & ->). apply (T4 e'); auto. apply in_app_iff; cbn; auto.
          - intros (-> & K). eauto. }
        rewrite BE. subst p. rewrite <- LI. unfold Proof_RelateC.bend.
        destruct (i =? length es - 1)%nat; [|split; [discriminate|intros [|(K & _)]; discriminate]].
        destruct (differs_from_both s0 s1 (seg_start first)); [|split; [discriminate|intros [|(_ & K)]; discriminate]].
        destruct (differs_from_both s0 s1 (seg_end first)); [|split; [discriminate|intros [|(_ & K)]; discriminate]].
        destruct (orientation_is (orient s0 s1 (seg_start first)) COLLINEAR); [|split; [discriminate|intros [|(_ & K)]; discriminate]].
        cbn [andb]. rewrite negb_false_iff. split; [auto|]. intros [|(_ & K)]; [discriminate|auto].
      - split; auto. intros [K|(l1 & e & E & K & _)]; auto. exfalso.
        apply (proj1 TT T e); auto. rewrite E. apply in_app_iff. cbn; auto. }
    assert (CX : fin = false <-> exists p, passes_through s es p).
    { rewrite FIN, (ls_cross es c H). split.
      - intros [[(t & I & K)|(l1 & e & f & l2 & E & K1 & K2 & K3)]|(l1 & e & E & K1 & K2)].
        + assert (Q : exists p, inside_seg s p /\ on_seg t p /\
             ((0 < area2 s0 s1 (seg_start t) /\ area2 s0 s1 (seg_end t) < 0) \/
              (area2 s0 s1 (seg_start t) < 0 /\ 0 < area2 s0 s1 (seg_end t)))).
          { apply cross_sides_any; auto. }
          destruct Q as (p & Q1 & Q2 & [(Q3 & Q4)|(Q3 & Q4)]).
          * exists p. split; auto. exists t, t, (seg_start t), (seg_end t). repeat split; auto; [apply between_start|apply between_end].
          * exists p. split; auto. exists t, t, (seg_end t), (seg_start t). repeat split; auto; [apply between_end|apply between_start].
        + exists (seg_start f). apply (bend_passes s0 s1 N es O e f); auto.
          * rewrite E. apply in_app_iff. cbn; auto.
          * rewrite E. apply in_app_iff. cbn; auto.
          * apply (ou_link es O l1 e f l2 E).
        + exists (seg_start first). destruct (ou_close es O first rest e Ees) as (C1 & C2).
          apply (bend_passes s0 s1 N es O e first); auto.
          * rewrite E. apply in_app_iff. cbn; auto.
          * rewrite Ees. cbn; auto.
          * rewrite <- C2. f_equal. rewrite E. symmetry. apply last_last.
      - intros (p & K).
        assert (Dec : forall k, (forall t, In t k -> In t es) -> (exists t, In t k /\ is CROSS t) \/
                   forall t, In t k -> is TOUCH t \/ is DISJOINT t).
        { induction k as [|t k IH]; intros Sub; [right; intros ? []|].
          destruct IH as [(t' & I & Q)|Q]; [intros; apply Sub; cbn; auto|left; exists t'; cbn; auto|].
          destruct (Cases t (Sub t (or_introl eq_refl))) as [R|R]; [left; exists t; cbn; auto|].
          right. intros t' [<-|I]; auto. }
        destruct (Dec es (fun t I => I)) as [Q|Q]; [auto|].
        destruct (passes_bend s0 s1 N es O p Q K) as (e & f & I & J & E & T1 & T2 & B).
        destruct (in_split e es I) as (l1 & l2 & S). destruct l2 as [|g l2].
        + right. exists l1, e. split; [auto|]. split; [auto|].
          destruct (ou_close es O first rest e Ees) as (C1 & C2).
          assert (EL : last es e = e) by (rewrite S; apply last_last). rewrite EL in C2.
          replace first with f; auto. apply (ou_starts es O); auto; [rewrite Ees; cbn; auto|congruence].
        + left; right. exists l1, e, g, l2. pose proof (ou_link es O l1 e g l2 S) as LK.
          assert (g = f) as ->.
          { apply (ou_starts es O); auto; [|congruence]. rewrite S. apply in_app_iff. cbn; auto. }
          auto. }
    exists (if fin then if cs_no_touch c then DISJOINT else TOUCH else CROSS). split; [subst fin; reflexivity|].
    destruct fin eqn:F.
    + assert (NX : ~ exists p, passes_through s es p) by (intros K; apply CX in K; discriminate).
      assert (XN : forall t, In t es -> ~ is CROSS t).
      { intros t I K. assert (Q : cs_no_cross c = false) by (apply (ls_cross es c H); eauto).
        assert (Q' : true = false) by (apply FIN; auto). discriminate. }
      destruct (cs_no_touch c) eqn:T.
      * cbn. intros (p & O1 & t & I & O2). destruct (Cases t I) as [K|[K|K]].
        -- exact (XN t I K).
        -- exact (proj1 (ls_touch es c H) T t I K).
        -- apply K. eauto.
      * cbn. split; [|auto]. pose proof (ls_touched es c H) as LT.
        destruct (cs_touched c) as [(i & p)|]; [|congruence].
        destruct LT as (_ & l1 & e & l2 & E & _ & (q & (A & B & _) & _) & _).
        exists q. split; auto. exists e. split; auto. rewrite E. apply in_app_iff. cbn; auto.
    + cbn. split; auto. apply CX. reflexivity.
Qed.
End Segment.
