(** Relating polygons, part 5: the loop over the events. *)
From Coq Require Import QArith Qcanon Bool List Arith Lia.
From Verif Require Import QcTac Model_Base Model_Utils Model_Linear Model_Mixed Model_Shaped Model_Relate Model_RelateLinear Model_RelateShaped
  Spec_Base Spec_Segment Spec_Clip Spec_Sweep
  Proof_Base Proof_Line Proof_Sweep Proof_Sweep2 Proof_Sweep3 Proof_Sweep4 Proof_Sweep5 Proof_Sweep6 Proof_Sweep7
  Proof_Sweep8 Proof_Sweep9 Proof_Sweep10 Proof_Sweep11 Proof_Sweep12 Proof_Sweep13 Proof_Sweep14 Proof_Sweep15 Proof_Parity
  Proof_Flags Proof_Flags2 Proof_Flags3 Proof_Flags6 Proof_Corner Proof_Region Proof_Select Proof_Nested Proof_Ray Proof_Orient Proof_Start Proof_Bridge
  Proof_Ready
  Proof_RelSweep Proof_RelSweep2 Proof_RelSweep3 Proof_RelSweep4 Proof_RelSweep5 Proof_RelSweep6 Proof_RelShaped1 Proof_RelShaped2 Proof_RelShaped3
  Proof_RelShaped4.
Import ListNotations.
Local Open Scope Qc_scope.

(** The queue and the starts play no part. *)
Section Same.
Variables s s1 : shaped_operation.
Hypothesis K : so_kinds s1 = so_kinds s.
Hypothesis Ot : so_other s1 = so_other s.
Hypothesis Lf : forall e, to_left_event (so s1) e = to_left_event (so s) e.
Hypothesis Ff : forall e, firstop (so s1) e = firstop (so s) e.
Lemma same_evfirst e : evfirst (so s1) e = evfirst (so s) e.
Proof. unfold is_event_from_first_operand. rewrite Lf. apply Ff. Qed.
Lemma same_kind e : kind_of s1 e = kind_of s e.
Proof. unfold kind_of. rewrite K. reflexivity. Qed.
Lemma same_other e : other_flag s1 e = other_flag s e.
Proof. unfold other_flag. rewrite Ot. reflexivity. Qed.
Lemma same_classify e : classify_event s1 e = classify_event s e.
Proof. unfold classify_event. rewrite Lf, same_kind, same_other. reflexivity. Qed.
Lemma same_cross L : forall a b, edges_cross_loop s1 L a b = edges_cross_loop s L a b.
Proof.
  induction L as [|e L IH]; intros a b; cbn [edges_cross_loop]; auto.
  rewrite Lf, same_kind, same_other, Ff. rewrite !IH.
  destruct (if firstop (so s) (to_left_event (so s) e) then b else a); auto.
Qed.
Lemma same_by_event r e : update_by_event s1 r e = update_by_event s r e.
Proof. unfold update_by_event. rewrite same_classify, same_evfirst. reflexivity. Qed.
Lemma same_fold L : forall r, fold_left (update_by_event s1) L r = fold_left (update_by_event s) L r.
Proof. induction L as [|e L IH]; intros r; cbn [fold_left]; auto. rewrite same_by_event. apply IH. Qed.
Lemma same_update L r : update_shaped s1 L r = update_shaped s L r.
Proof.
  unfold update_shaped. cbv zeta. rewrite same_classify, same_evfirst, same_fold. unfold has_edges_cross. rewrite same_cross.
  rewrite (map_ext _ _ same_evfirst). reflexivity.
Qed.
End Same.

Section Loop.
Variables (first second : list segment) (eps : Qc).
Notation c := (the_ctx first second eps).
Notation int := (map segment_flag first ++ map segment_flag second).
Hypothesis N1 : non_crossing first.
Hypothesis N2 : non_crossing second.
Hypothesis G : good c.
Hypothesis N : nc c.
Hypothesis Ee : evn c.
Hypothesis Or : ori c int.
Variable init : bool -> bool.
Notation sel := (fun _ _ _ => false).
Notation S' := (SX c). Notation E' := (EX c). Notation h := (hh c). Notation k := (kk c).
Notation EV := (EVX c).
Notation mates := (mates c). Notation inv := (inv c).
Notation described := (Proof_RelShaped2.described c init).
Notation flags := (flags c int sel).
Notation runs := (runs c int sel).
Notation on_op := (on_op first second).
Notation verdict := (verdict first second eps init).
Notation area := (area first second eps).
Notation finished_op := (finished_op first second eps).
Variables (shape : tree_shape) (min_max_x : Qc) (d : bool).
Hypothesis Bound : forall p, on_op d p -> px p <= min_max_x.

Lemma input_op i p : (i < length (c_ins c))%nat -> p = fst (input c i) \/ p = snd (input c i) -> on_op (opd c i) p.
Proof.
  intros Li Q. destruct (nth_some first second eps i Li) as (s & Es). destruct (input_lo first second eps i s Es) as [E1 E2].
  exists s. split; [exact (nth_operand first second eps i s Es)|]. rewrite E1, E2 in Q.
  assert (A : on_seg (Seg (lo s) (hi s)) p) by (destruct Q as [-> | ->]; [apply between_start|apply between_end]).
  destruct (lo_hi s) as [[A1 A2]|[A1 A2]]; rewrite A1, A2 in A; destruct s; cbn in *; auto. apply between_sym; auto.
Qed.
(** Where only one operand is left. *)
Lemma far_area o t e : wf c o -> core c o t -> In e (op_queue o) -> min_max_x < px (pt o e) -> evfirst o e = negb d -> area (minus (negb d)).
Proof.
  intros W C Ie Far Fe. pose proof (i_qsz _ _ _ C e Ie) as Le.
  destruct (event_on first second eps o e W Le) as [Ll _]. set (l := to_left_event o e) in *.
  assert (Ip : In (pt o e) (c_pts c)) by (apply event_pt; auto).
  assert (Dx : forall i, In i (idx c d) -> X c (snd (input c i)) < EV o e).
  { intros i Ii. apply idx_In in Ii. destruct Ii as [Li Oi]. destruct (g_ins c G i Li) as (_ & _ & I2).
    apply (X_lt c G); auto. left. pose proof (Bound (snd (input c i))) as B. rewrite <- Oi in B.
    specialize (B (input_op i _ Li (or_intror eq_refl))). qlra. }
  assert (Ex : exists t, generic c t /\ S' o l < t /\ t < E' o l /\ forall z, In z (map (X c) (c_pts c)) -> z < EV o e -> z < t).
  { destruct (is_event_left e) eqn:Re.
    - assert (El : l = e) by (unfold l, to_left_event; rewrite Re; reflexivity).
      pose proof (w_lt c o W l Ll) as Lt. destruct (free_start (map (X c) (c_pts c)) _ _ Lt) as (u & A & B & F). exists u.
      split; [intros p Ip' Q; assert (U : S' o l < X c p) by (rewrite Q; auto); pose proof (F _ (in_map _ _ _ Ip') U); qlra|].
      split; auto. split; auto. intros z _ L. rewrite El in A. unfold SX in A. unfold EVX in L. qlra.
    - assert (El : l = opp o e) by (unfold l, to_left_event; rewrite Re; reflexivity).
      assert (E1 : E' o l = EV o e).
      { unfold EX, EVX. rewrite El. f_equal. f_equal. apply (k_opp o (w_linked c o W) e Le). }
      destruct (column_below (map (X c) (c_pts c)) (EV o e)) as (u & A & F). destruct (qmid u (EV o e) A) as (u' & B1 & B2). exists u'.
      split; [intros p Ip' Q; assert (U : X c p < EV o e) by (rewrite Q; auto); pose proof (F _ (in_map (X c) _ _ Ip') U); qlra|].
      pose proof (w_lt c o W l Ll) as Lt.
      split; [|split; [qlra|intros z Iz L; pose proof (F z Iz L); qlra]].
      assert (U : S' o l < u) by (apply F; [exact (in_map (X c) _ _ (w_ptS c o W l Ll))|qlra]). qlra. }
  destruct Ex as (u & Gu & U1 & U2 & U3).
  pose proof (w_sid c o W l Ll) as Ls. destruct (w_in c o W l Ll) as [I1 I2].
  destruct (nth_some first second eps _ Ls) as (s & Es). destruct (input_lo first second eps _ s Es) as [A1 A2].
  assert (Of : opd c (sid o l) = negb d).
  { unfold opd. rewrite <- (firstop_sid c o l W). exact Fe. }
  pose proof (nth_operand first second eps _ s Es) as Is. rewrite Of in Is.
  assert (Pr : non_crossing (opf first second (negb d))) by (destruct (negb d); auto).
  destruct (flip eps (opf first second (negb d)) [] s u Pr Is) as (q & Xq & _ & Q).
  - rewrite app_nil_r. apply Forall_forall. intros x Ix. apply (operand_sound first second eps G (negb d) x Ix).
  - change (Xs eps (lo s)) with (X c (lo s)). rewrite <- A1. qlra.
  - change (Xs eps (hi s)) with (X c (hi s)). rewrite <- A2. qlra.
  - rewrite app_nil_r. intros v Iv. unfold ends_of in Iv. apply in_flat_map in Iv. destruct Iv as (x & Ix & Iv).
    apply (Gu v). apply (end_in first second eps G (negb d) x v Ix). apply end_of. destruct Iv as [<-|[<-|[]]]; auto.
  - exists u, (py q). split; auto.
    assert (Z : inp c u d (py q) = false).
    { apply xsum_false. intros i Ii. unfold bel. rewrite spans_false; auto. right.
      apply Qclt_le_weak, U3; [|apply Dx; auto]. apply in_map. apply idx_In in Ii. apply (g_ins c G i (proj1 Ii)). }
    assert (O1 : inp c u (negb d) (py q) = true).
    { rewrite (inp_below first second eps G). replace (spot eps u (py q)) with q; auto.
      unfold spot. rewrite <- Xq. unfold Xs. apply point_ext; cbn [px py]; ring. }
    unfold minus. destruct d; cbn [negb] in *; rewrite Z, O1; reflexivity.
Qed.

Definition gathered (o : operation) (t : Qc) (group : list event) : Prop :=
  forall e, In e group <-> (e < size o)%nat /\ ~ In e (op_queue o) /\ EV o e = t.
Lemma gathered_step o t e o' group : inv o t -> In e (op_queue o) -> EV o e = t -> stepping c o t e o' ->
  gathered o t group -> gathered o' t (group ++ [e]).
Proof.
  intros V Ie Et St Gm x. assert (C := v_core _ _ _ V). pose proof (i_qsz _ _ _ C e Ie) as Le. pose proof (st_size _ _ _ _ _ St) as Sz.
  rewrite in_app_iff, (Gm x). split.
  - intros [(A & B & E)|[<-|[]]].
    + split; [lia|]. rewrite (st_queue _ _ _ _ _ St) by auto. rewrite (st_EV c o t e o' St) by auto. tauto.
    + split; [lia|]. rewrite (st_queue _ _ _ _ _ St) by auto. rewrite (st_EV c o t e o' St) by auto. tauto.
  - intros (A & B & E). destruct (Nat.le_gt_cases (size o) x) as [Q|Q]; [destruct (B (st_fresh _ _ _ _ _ St x A Q))|].
    rewrite (st_EV c o t e o' St) in E by auto. rewrite (st_queue _ _ _ _ _ St) in B by auto.
    destruct (Nat.eq_dec x e) as [->|Ne]; [right; left; auto|left]. split; auto.
Qed.
Lemma gathered_next o t t' : inv o t -> t < t' -> gathered o t' [].
Proof.
  intros V Lt x. assert (C := v_core _ _ _ V). assert (W := i_wf _ _ _ C). split; [intros []|]. intros (A & B & E).
  destruct (is_event_left x) eqn:R.
  - assert (P : popped o x) by (split; [split; auto|auto]). pose proof (i_S _ _ _ C x P) as L. unfold SX in L. unfold EVX in E. qlra.
  - destruct (k_opp o (w_linked c o W) x A) as (Lo & Oo & Eo). rewrite R in Eo. cbn in Eo.
    assert (D : done o (opp o x)) by (split; [split; auto|rewrite Oo; auto]).
    pose proof (i_E _ _ _ C _ D) as L. unfold EX in L. rewrite Oo in L. unfold EVX in E. qlra.
Qed.
Lemma advance_inv o t e : inv o t -> least c o e -> inv o (EV o e).
Proof.
  intros V L. assert (C := v_core _ _ _ V). pose proof (i_q1 _ _ _ C e (proj1 L)) as Ge.
  destruct (Qcle_lt_or_eq _ _ Ge) as [Lt|Eq]; [|rewrite <- Eq; auto].
  pose proof (least_after c o e L) as Qu. constructor.
  - apply (next_core c o t (EV o e) C (v_line _ _ _ V) (v_th _ _ _ V) Lt Qu).
  - apply V.
  - apply (next_th c N o t (EV o e) C (v_line _ _ _ V) Lt Qu).
Qed.

Lemma shaped_loop_spec : forall fuel s t ev group r prev, runs s t ev -> gathered (so s) t group -> group <> [] ->
  In prev (c_pts c) -> X c prev = t -> described (so s) (view_of s) t r -> extreme r = false -> (work c (so s) < fuel)%nat ->
  exists r', shaped_relation_loop fuel shape min_max_x s prev group r = Relates (shaped_state_relation r') /\ verdict r'.
Proof.
  induction fuel as [|fuel IH]; intros s t ev group r prev Ru Gm Gn Ip Xp D Nx Wk; [lia|].
  pose proof (ru_inv _ _ _ _ _ _ Ru) as V. pose proof (ru_flags _ _ _ _ _ _ Ru) as Fl.
  assert (C := v_core _ _ _ V). assert (W := i_wf _ _ _ C).
  cbn [shaped_relation_loop]. destruct (op_queue (so s)) as [|e0 q0] eqn:Eq.
  - assert (Qt : forall x, In x (op_queue (so s)) -> t < EV (so s) x) by (rewrite Eq; intros x []).
    destruct (update_shaped_spec c G N int sel Ee init s t group V Gm Gn Qt Fl r D Nx) as (r' & U & D').
    rewrite U. cbn. exists r'. split; auto. assert (Lt : t < t + 1) by qlra. specialize (D' (t + 1) Lt).
    assert (Qu : forall e, In e (op_queue (so s)) -> t + 1 <= EV (so s) e) by (rewrite Eq; intros x []).
    assert (V1 : inv (so s) (t + 1)).
    { constructor.
      - apply (next_core c (so s) t (t + 1) C (v_line _ _ _ V) (v_th _ _ _ V) Lt Qu).
      - apply V.
      - apply (next_th c N (so s) t (t + 1) C (v_line _ _ _ V) Lt Qu). }
    assert (En : forall b, finished_op (so s) (t + 1) b).
    { intros b l Ll _. assert (Dl : done (so s) l) by (split; auto; rewrite Eq; intros []).
      pose proof (i_E _ _ _ C l Dl). qlra. }
    constructor.
    + intros b. apply (all_sub first second eps G N Ee Or init (so s) (t + 1) (view_of s) r' V1 Fl D'); auto.
    + apply (some_bad first second eps G N Ee Or init (so s) (t + 1) (view_of s) r' V1 Fl D').
    + apply (some_cont first second eps G N Ee Or init (so s) (t + 1) (view_of s) r' V1 Fl D').
    + intros _. apply (no_cont first second eps G N Ee Or init (so s) (t + 1) (view_of s) r' V1 Fl D' true); auto.
    + intros X0 b. apply (end_int first second eps G N Ee init (so s) (t + 1) (view_of s) r' V1 Fl D' true); auto.
    + intros X0. apply (end_bnd first second eps G init (so s) (t + 1) (view_of s) r' V1 D' true); auto.
  - assert (Qn : op_queue (so s) <> []) by (rewrite Eq; discriminate).
    destruct (one_shaped c G N int sel (fun _ _ _ => eq_refl) nothing_selected (fun _ _ => eq_refl) Ee Or shape s t ev Ru Qn)
      as (e & s1 & s' & Ep & Le & Ps & Pr & Pe & Pt' & _ & Ru').
    rewrite Ps. set (o := so s) in *.
    assert (Es1 : s1 = mark_start (with_base s (popping o e)) e).
    { unfold pop_shaped in Ps. fold o in Ps. rewrite Ep in Ps. congruence. }
    assert (Up : update_shaped s1 group r = update_shaped s group r) by (apply same_update; rewrite Es1; reflexivity).
    assert (Pe1 : to_event_start (so s1) e = pt o e) by (rewrite Es1; reflexivity).
    assert (Fe1 : evfirst (so s1) e = evfirst o e) by (rewrite Es1; reflexivity).
    rewrite Pe1, Up, Fe1. clear Up Pe1 Fe1 Es1.
    assert (B0 : base c (tick o)) by (apply (some_step_base c G o (tick o)); [apply step_tick|exact (core_base first second eps o t C)]).
    destruct (pop_steps c (tick o) e (popping o e) B0 Ep) as (St1 & Lez & Wk1 & _ & _).
    change (work c (tick o)) with (work c o) in Wk1.
    assert (B1 : base c (popping o e)) by (apply (some_step_base c G (tick o) _ St1 B0)).
    destruct (process_steps c G shape (popping o e) e (so s') B1 Lez Pe) as (St2 & Wk2).
    assert (Ie : In (pt o e) (c_pts c)) by (apply event_pt; auto).
    pose proof (ru_flags _ _ _ _ _ _ Ru') as Fl'.
    destruct (point_eq_spec (pt o e) prev) as [Q|Q].
    + rewrite Pr. assert (Et : EV o e = t) by (unfold EVX; rewrite Q; exact Xp). rewrite Et in Ru'.
      pose proof (stepping_nc c G N o t e (so s') shape V Le Et Pe) as St.
      apply (IH s' t (ev ++ [e]) (group ++ [e]) r prev); auto.
      * apply (gathered_step o t e (so s') group V (proj1 Le) Et St Gm).
      * destruct group; discriminate.
      * apply (shaped_step first second eps init o t e (so s') (view_of s) (view_of s') r V (proj1 Le) Et St Fl Fl' D).
      * lia.
    + assert (Lt : t < EV o e).
      { pose proof (i_q1 _ _ _ C e (proj1 Le)) as L. destruct (qltb_spec t (EV o e)) as [A|A]; auto.
        exfalso. apply Q. apply (Proof_RelSweep5.X_inj first second eps G); auto. change (X c (pt o e)) with (EV o e). rewrite Xp. qlra. }
      assert (Qt : forall x, In x (op_queue o) -> t < EV o x).
      { intros x I. pose proof (least_after c o e Le x I). qlra. }
      destruct (update_shaped_spec c G N int sel Ee init s t group V Gm Gn Qt Fl r D Nx) as (r' & U & D').
      rewrite U. specialize (D' (EV o e) Lt). fold o in D'.
      pose proof (advance_inv o t e V Le) as Ve.
      change (ss_has_continuous_intersection r' && negb (ss_first_is_subset r') && negb (ss_second_is_subset r')) with (extreme r').
      destruct (extreme r') eqn:Ea.
      { exists r'. split; auto. assert (Ea' := Ea). unfold extreme in Ea. apply andb_true_iff in Ea. destruct Ea as [Ea E2].
        apply andb_true_iff in Ea. destruct Ea as [Ea E1]. apply negb_true_iff in E1. apply negb_true_iff in E2.
        constructor; try congruence.
        - intros []; cbn; congruence.
        - apply (some_bad first second eps G N Ee Or init o (EV o e) (view_of s) r' Ve Fl D').
        - apply (some_cont first second eps G N Ee Or init o (EV o e) (view_of s) r' Ve Fl D'). }
      destruct (qltb_spec min_max_x (px (pt o e))) as [A|A].
      * eexists. split; [reflexivity|].
        assert (Far : forall x, In x (op_queue o) -> evfirst o x <> d).
        { intros x I F. pose proof (i_qsz _ _ _ C x I) as Lx.
          pose proof (event_on_op first second eps G o x W Lx) as Ox. rewrite F in Ox. apply Bound in Ox.
          pose proof (least_after c o e Le x I) as L.
          assert (px (pt o e) <= px (pt o x)) by (apply (px_mono first second eps G); auto; apply event_pt; auto). qlra. }
        assert (Fe : evfirst o e = negb d).
        { pose proof (Far e (proj1 Le)) as F. destruct (evfirst o e), d; try reflexivity; congruence. }
        pose proof (far_area o t e W C (proj1 Le) A Fe) as Ar.
        set (r2 := not_subset (evfirst o e) r').
        assert (Fr : forall b, sflag b r2 = if Bool.eqb b d then sflag b r' else false).
        { intros b. unfold r2. rewrite Fe. destruct d, b; reflexivity. }
        assert (Co : ss_has_continuous_intersection r2 = ss_has_continuous_intersection r') by (unfold r2; destruct (evfirst o e); reflexivity).
        assert (It : forall b, iflag b r2 = iflag b r') by (intros b; unfold r2; destruct (evfirst o e), b; reflexivity).
        assert (Bn : ss_boundaries_intersect r2 = ss_boundaries_intersect r') by (unfold r2; destruct (evfirst o e); reflexivity).
        clearbody r2.
        assert (En : finished_op o (EV o e) d).
        { intros l Ll Fll. assert (Dl : done o l).
          { split; auto. intros I. apply (Far _ I). rewrite (right_evfirst first second eps o l W Ll). auto. }
          pose proof (i_E _ _ _ C l Dl). qlra. }
        constructor.
        -- intros b F. rewrite Fr in F. destruct (Bool.eqb b d) eqn:Eb; [|discriminate]. apply Bool.eqb_prop in Eb. rewrite Eb in *.
           apply (all_sub first second eps G N Ee Or init o (EV o e) (view_of s) r' Ve Fl D'); auto.
        -- intros b F. rewrite Fr in F. destruct (Bool.eqb b d) eqn:Eb.
           ++ apply (some_bad first second eps G N Ee Or init o (EV o e) (view_of s) r' Ve Fl D'); auto.
           ++ right. replace b with (negb d) by (destruct b, d; try reflexivity; discriminate). exact Ar.
        -- rewrite Co. apply (some_cont first second eps G N Ee Or init o (EV o e) (view_of s) r' Ve Fl D').
        -- rewrite Co. intros _. apply (no_cont first second eps G N Ee Or init o (EV o e) (view_of s) r' Ve Fl D' d En).
        -- intros _ b. rewrite It. apply (end_int first second eps G N Ee init o (EV o e) (view_of s) r' Ve Fl D' d En b Ea).
        -- intros _. rewrite Bn. apply (end_bnd first second eps G init o (EV o e) (view_of s) r' Ve D' d En Ea).
      * rewrite Pr. pose proof (stepping_nc c G N o (EV o e) e (so s') shape Ve Le eq_refl Pe) as St.
        apply (IH s' (EV o e) (ev ++ [e]) [e] r' (pt o e)); auto.
        -- apply (gathered_step o (EV o e) e (so s') [] Ve (proj1 Le) eq_refl St). apply (gathered_next o t); auto.
        -- discriminate.
        -- apply (shaped_step first second eps init o (EV o e) e (so s') (view_of s) (view_of s') r' Ve (proj1 Le) eq_refl St Fl Fl' D').
        -- lia.
Qed.

(** The start. *)
Lemma shaped_verdict fuel : first ++ second <> [] -> (enough (length (first ++ second)) <= fuel)%nat ->
  exists s r, clip_shaped first second = Some s
    /\ shaped_to_relation fuel shape s (init true) (init false) min_max_x = Relates (shaped_state_relation r) /\ verdict r.
Proof.
  intros NE Fu. destruct (start_exists first second eps N1 N2 G) as (s & Es & Eo & Ei & _). exists s.
  assert (Qn : op_queue (from_segments_iterables first second) <> []).
  { rewrite init_queue. unfold operands. rewrite map_length. destruct (first ++ second); [congruence|]. cbn. discriminate. }
  destruct (start_runs first second eps N1 N2 G sel s Es Qn) as (t & Ru).
  assert (Qu : forall x, (x < size (so s))%nat -> In x (op_queue (so s))).
  { intros x Sx. rewrite Eo in *. rewrite init_queue. rewrite init_size in Sx. apply in_seq. lia. }
  rewrite <- Eo in Qn.
  pose proof (ru_inv _ _ _ _ _ _ Ru) as V. pose proof (ru_flags _ _ _ _ _ _ Ru) as Fl.
  assert (C := v_core _ _ _ V). assert (W := i_wf _ _ _ C).
  destruct (one_shaped c G N int sel (fun _ _ _ => eq_refl) nothing_selected (fun _ _ => eq_refl) Ee Or shape s t [] Ru Qn)
      as (e & s1 & s' & Ep & Le & Ps & Pr & Pe & Pt' & _ & Ru').
  pose proof (ru_flags _ _ _ _ _ _ Ru') as Fl'.
  unfold shaped_to_relation. rewrite Ps, Pr, Pt'.
  assert (Wi : (work c (so s) < enough (length (first ++ second)))%nat) by (rewrite Eo; apply init_work; exact G).
  set (o := so s) in *.
  assert (B0 : base c (tick o)) by (apply (some_step_base c G o (tick o)); [apply step_tick|exact (core_base first second eps o t C)]).
  destruct (pop_steps c (tick o) e (popping o e) B0 Ep) as (St1 & Lez & Wk1 & _ & _).
  change (work c (tick o)) with (work c o) in Wk1.
  assert (B1 : base c (popping o e)) by (apply (some_step_base c G (tick o) _ St1 B0)).
  destruct (process_steps c G shape (popping o e) e (so s') B1 Lez Pe) as (St2 & Wk2).
  pose proof (advance_inv o t e V Le) as Ve.
  pose proof (stepping_nc c G N o (EV o e) e (so s') shape Ve Le eq_refl Pe) as St.
  assert (NP : forall x, ~ popped o x) by (intros x [L I]; apply I, Qu, L).
  destruct (op_queue o) as [|q0 qs] eqn:Eq; [congruence|]. rewrite <- Eq in *. clear Eq q0 qs.
  destruct (shaped_loop_spec fuel s' (EV o e) ([] ++ [e]) [e] (ShapedState false false (init true) false false (init false)) (pt o e)) as (r & E & Vd); auto.
  - apply (gathered_step o (EV o e) e (so s') [] Ve (proj1 Le) eq_refl St). intros x. split; [intros []|].
    intros (A & B & _). apply B, Qu, A.
  - discriminate.
  - apply event_pt; auto.
  - apply (shaped_step first second eps init o (EV o e) e (so s') (view_of s) (view_of s') _ Ve (proj1 Le) eq_refl St Fl Fl').
    constructor.
    + intros []; cbn; (split; [intros A; split; [exact A|]; intros l P; destruct (NP l P)|intros [A _]; exact A]).
    + cbn. split; [discriminate|]. intros (l & P & _). destruct (NP l P).
    + intros _ []; cbn; (split; [discriminate|]; intros (l & P & _); destruct (NP l P)).
    + intros _. cbn. split; [discriminate|]. intros (x & y & Lx & _ & Qx & _). destruct (Qx (Qu x Lx)).
  - lia.
  - exists r. split; auto.
Qed.
End Loop.
