(** Relating multisegments and contours, part 6: the end of the sweep. *)
From Coq Require Import QArith Qcanon Bool List Arith Lia.
From Verif Require Import QcTac Model_Base Model_Geometry Model_Utils Model_Linear Model_Relate Model_RelateLinear
  Spec_Base Spec_Segment Spec_Clip Spec_Sweep Spec_Relate Spec_RelateLinear
  Proof_Base Proof_Line Proof_SegRel Proof_Sweep Proof_Sweep2 Proof_Sweep3 Proof_Sweep4 Proof_Sweep5 Proof_Sweep6 Proof_Sweep7
  Proof_Sweep8 Proof_Sweep9 Proof_Sweep10 Proof_Sweep11 Proof_Sweep12 Proof_Sweep13 Proof_Sweep14 Proof_Sweep15
  Proof_RelSweep Proof_RelSweep2 Proof_RelSweep3 Proof_RelSweep4 Proof_RelSweep5.
Import ListNotations.
Local Open Scope Qc_scope.

(** A crossing is an intersection. *)
Definition cross_ok (s : relation_state) : Prop := rs_has_crossing s = true -> rs_has_intersection s = true.
Lemma detect_keeps o : forall n groups s s', (length groups <= n)%nat ->
  detect_touch_or_overlap o groups s = Some s' -> rs_has_intersection s' = rs_has_intersection s.
Proof.
  induction n as [|n IH]; intros [|g groups] s s' L E; cbn [length] in L; cbn [detect_touch_or_overlap] in E; try lia; try congruence.
  destruct g as [|x [|y [|z g]]]; [| | |discriminate]; apply IH in E; try lia; rewrite E; auto.
  destruct (is_event_from_first_operand o x); reflexivity.
Qed.
Lemma update_cross o group s s' : update_state o group s = Some s' -> cross_ok s -> cross_ok s'.
Proof.
  unfold update_state, cross_ok. intros U K. destruct (has_intersection o group).
  - destruct (detect_touch_or_overlap _ _ _) as [s1|] eqn:E; [|discriminate]. injection U as <-.
    intros _. cbn. rewrite (detect_keeps o _ _ _ _ (le_n _) E). reflexivity.
  - destruct (is_event_from_first_operand o (hd O group)); injection U as <-; exact K.
Qed.

(** The queue plays no part. *)
Lemma update_popping o e group s : update_state (popping o e) group s = update_state o group s.
Proof.
  assert (Gb : forall l, group_by_end (popping o e) l = group_by_end o l).
  { induction l as [|x l IH]; [reflexivity|]. cbn [group_by_end]. rewrite IH. reflexivity. }
  assert (Dt : forall n l s, (length l <= n)%nat -> detect_touch_or_overlap (popping o e) l s = detect_touch_or_overlap o l s).
  { induction n as [|n IH]; intros [|g l] s0 L; cbn [length] in L; try lia; [reflexivity..|].
    cbn [detect_touch_or_overlap].
    destruct g as [|x [|y [|z g]]]; [apply IH; lia| |apply IH; lia|reflexivity]. rewrite IH by lia. reflexivity. }
  unfold update_state. rewrite Gb.
  change (has_intersection (popping o e) group) with (has_intersection o group).
  change (is_event_from_first_operand (popping o e) (hd O group)) with (is_event_from_first_operand o (hd O group)).
  destruct (has_intersection o group); auto. rewrite (Dt _ _ _ (le_n _)).
  destruct (detect_touch_or_overlap _ _ _) as [s1|]; auto.
Qed.

Section End.
Variables (first second : list segment) (eps : Qc).
Notation c := (the_ctx first second eps).
Hypothesis G : good c.
Hypothesis N : ncs c.
Variable init : bool -> bool.
Let Nc : nc c := ncs_nc c N.
Notation S' := (SX c). Notation E' := (EX c). Notation h := (hh c). Notation k := (kk c).
Notation EV := (EVX c).
Notation mates := (mates c). Notation through := (through c). Notation inv := (inv c).
Notation collected := (collected c).
Notation described := (described first second eps init).
Notation on_op := (on_op first second). Notation subset := (subset first second).
Notation common := (common first second). Notation overlaps := (overlaps first second).
Notation evfirst := is_event_from_first_operand.

(** What the state at the end says. *)
Record verdict (s : relation_state) : Prop := {
  f_sub : forall b, flag b s = true -> init b = true /\ subset b;
  f_notsub : forall b, flag b s = false -> init b = false \/ ~ subset b;
  f_over : rs_has_overlap s = true -> overlaps;
  f_notover : rs_has_overlap s = false -> ~ overlaps;
  f_common : rs_has_overlap s = false -> rs_has_intersection s = true -> common;
  f_notcommon : rs_has_overlap s = false -> rs_has_intersection s = false -> ~ common;
  f_cross : cross_ok s }.

Lemma op_input (b : bool) (s : segment) : In s (if b then first else second) ->
  exists i, nth_error (first ++ second) i = Some s /\ (i <? length first)%nat = b.
Proof.
  intros Is. destruct b.
  - destruct (In_nth_error first s Is) as (i & Ei). exists i.
    assert (Li : (i < length first)%nat) by (apply nth_error_Some; congruence).
    split; [rewrite nth_error_app1; auto|]. apply Nat.ltb_lt; auto.
  - destruct (In_nth_error second s Is) as (i & Ei). exists (length first + i)%nat.
    split; [rewrite nth_error_app2 by lia; replace (length first + i - length first)%nat with i by lia; auto|].
    apply Nat.ltb_ge; lia.
Qed.
Lemma on_line p q : X c p = X c q -> py p = py q -> p = q.
Proof. unfold X. intros E F. rewrite F in E. assert (px p = px q) by qlra. destruct p, q; cbn in *; congruence. Qed.
Lemma overlap_pieces o : wf c o -> overlaps -> exists Y Z u, left_of o Y /\ left_of o Z
  /\ firstop o Y = true /\ firstop o Z = false /\ S' o Y < u /\ u < E' o Y /\ S' o Z < u /\ u < E' o Z
  /\ h o Y u = h o Z u.
Proof.
  intros W (s & r & Is & Ir & p & q & NE & Ps & Pr & Qs & Qr).
  assert (X' : exists p q, X c p < X c q /\ on_seg s p /\ on_seg r p /\ on_seg s q /\ on_seg r q).
  { destruct (Qc_eq_dec (X c p) (X c q)) as [E|E].
    - exfalso. destruct (op_input true s Is) as (i & Ei & _).
      apply (input_X_on first second eps G i s Ei) in Ps. apply (input_X_on first second eps G i s Ei) in Qs.
      apply NE. apply on_line; auto. destruct Ps as (_ & _ & ->), Qs as (_ & _ & ->). rewrite E. reflexivity.
    - destruct (qltb_spec (X c p) (X c q)) as [L|L]; [exists p, q; auto|].
      exists q, p. split; auto. destruct (qltb_spec (X c q) (X c p)) as [L'|L']; auto. exfalso; apply E; qlra. }
  clear p q NE Ps Pr Qs Qr. destruct X' as (p & q & L & Ps & Pr & Qs & Qr).
  destruct (op_input true s Is) as (i & Ei & Fi). destruct (op_input false r Ir) as (j & Ej & Fj).
  apply (input_X_on first second eps G i s Ei) in Ps. apply (input_X_on first second eps G i s Ei) in Qs.
  apply (input_X_on first second eps G j r Ej) in Pr. apply (input_X_on first second eps G j r Ej) in Qr.
  destruct Ps as (A1 & A2 & A3), Qs as (B1 & B2 & B3), Pr as (C1 & C2 & C3), Qr as (D1 & D2 & D3).
  assert (Li : (i < length (c_ins c))%nat) by (rewrite ins_length; apply nth_error_Some; congruence).
  assert (Lj : (j < length (c_ins c))%nat) by (rewrite ins_length; apply nth_error_Some; congruence).
  destruct (free_start (map (X c) (c_pts c)) _ _ L) as (u & U1 & U2 & U3).
  assert (U3' : forall f, In f (c_pts c) -> X c f <> u).
  { intros f If E. assert (U : X c p < X c f) by (rewrite E; auto). pose proof (U3 _ (in_map _ _ _ If) U). qlra. }
  destruct (w_cover c o W i u Li) as (Y & LY & SY & Y1 & Y2); [qlra|qlra|].
  destruct (w_cover c o W j u Lj) as (Z & LZ & SZ & Z1 & Z2); [qlra|qlra|].
  assert (Lt : forall a b : Qc, a <= b -> a <> b -> a < b).
  { intros a b P Q. destruct (qltb_spec a b); auto. exfalso; apply Q; qlra. }
  exists Y, Z, u. split; auto. split; auto.
  split; [rewrite (firstop_sid c o Y W), SY; exact Fi|]. split; [rewrite (firstop_sid c o Z W), SZ; exact Fj|].
  split; [apply Lt; auto; apply U3'; apply (w_ptS c o W); auto|].
  split; [apply Lt; auto; intros Q; apply (U3' _ (w_ptE c o W Y LY)); symmetry; exact Q|].
  split; [apply Lt; auto; apply U3'; apply (w_ptS c o W); auto|].
  split; [apply Lt; auto; intros Q; apply (U3' _ (w_ptE c o W Z LZ)); symmetry; exact Q|].
  unfold hh. rewrite SY, SZ.
  pose proof (H_affine c i u (X c p)) as F1. pose proof (H_affine c i (X c q) (X c p)) as F2.
  pose proof (H_affine c j u (X c p)) as F3. pose proof (H_affine c j (X c q) (X c p)) as F4.
  assert (EK : K c i = K c j).
  { assert (E : (K c i - K c j) * (X c q - X c p) = 0).
    { replace ((K c i - K c j) * (X c q - X c p)) with (K c i * (X c q - X c p) - K c j * (X c q - X c p)) by ring.
      rewrite <- F2, <- F4, <- A3, <- B3, <- C3, <- D3. ring. }
    apply Qcmult_integral in E. destruct E as [E|E]; qlra. }
  rewrite EK in F1. rewrite <- A3 in F1. rewrite <- C3 in F3. qlra.
Qed.

Section Final.
Variables (o : operation) (t : Qc) (s : relation_state) (d : bool).
Hypothesis C : core c o t.
Hypothesis D : described o t s.
Hypothesis Cr : cross_ok s.
Hypothesis Dn : forall l, left_of o l -> firstop o l = d -> E' o l < t.
Hypothesis Sn : forall b, flag b s = true -> forall l, left_of o l -> firstop o l = b -> E' o l < t.
Let W := i_wf c o t C.

Lemma early_event x : (x < size o)%nat -> EV o x < t -> ~ In x (op_queue o).
Proof. intros L E I. pose proof (i_q1 _ _ _ C x I). qlra. Qed.
Lemma early_popped l : left_of o l -> S' o l < t -> popped o l.
Proof. intros L E. split; auto. apply early_event; [apply L|exact E]. Qed.

Lemma final : verdict s.
Proof.
  assert (P : forall Y Z u, left_of o Y -> left_of o Z -> firstop o Y = true -> firstop o Z = false ->
    S' o Y <= u -> u <= E' o Y -> S' o Z <= u -> u <= E' o Z -> u < t).
  { intros Y Z u LY LZ FY FZ Y1 Y2 Z1 Z2. pose proof (Dn Y LY). pose proof (Dn Z LZ).
    destruct d; [assert (E' o Y < t) by auto|assert (E' o Z < t) by auto]; qlra. }
  constructor.
  - intros b F. destruct (ds_sub _ _ _ _ _ _ _ D b F) as [A B]. split; auto. intros p Op.
    destruct (on_op_piece first second eps G o b p W Op) as (l & Ll & Fl & Ol).
    pose proof (Sn b F l Ll Fl) as El. pose proof (w_lt c o W l Ll) as Lt.
    assert (Sl : S' o l < t) by qlra. apply (B l); auto. apply early_popped; auto.
  - apply (ds_notsub _ _ _ _ _ _ _ D).
  - apply (ds_over _ _ _ _ _ _ _ D).
  - intros F O. destruct (overlap_pieces o W O) as (Y & Z & u & LY & LZ & FY & FZ & Y1 & Y2 & Z1 & Z2 & Eh).
    assert (Ut : u < t) by (apply (P Y Z u); auto; qlra).
    assert (PY : popped o Y) by (apply early_popped; auto; qlra).
    assert (PZ : popped o Z) by (apply early_popped; auto; qlra).
    assert (NE : Y <> Z) by (intros Q; rewrite Q in FY; congruence).
    destruct (i_V _ _ _ C Y Z u PY PZ NE Ut) as [[[Q|Q] _]|[M _]]; try qlra; auto.
    apply (ds_notover _ _ _ _ _ _ _ D F Y Z); auto. qlra.
  - intros _. apply (ds_common _ _ _ _ _ _ _ D).
  - intros _ F (p & O1 & O2).
    destruct (on_op_piece first second eps G o true p W O1) as (Y & LY & FY & OY).
    destruct (on_op_piece first second eps G o false p W O2) as (Z & LZ & FZ & OZ).
    apply (piece_X first second eps o Y p W LY) in OY. apply (piece_X first second eps o Z p W LZ) in OZ.
    destruct OY as (Y1 & Y2 & Y3), OZ as (Z1 & Z2 & Z3).
    assert (Ut : X c p < t) by (apply (P Y Z (X c p)); auto).
    assert (PY : popped o Y) by (apply early_popped; auto; qlra).
    assert (PZ : popped o Z) by (apply early_popped; auto; qlra).
    assert (NE : Y <> Z) by (intros Q; rewrite Q in FY; congruence).
    assert (Ev : forall l, left_of o l -> X c p = S' o l \/ X c p = E' o l ->
      exists x, (x < size o)%nat /\ ~ In x (op_queue o) /\ EV o x = X c p /\ evfirst o x = firstop o l).
    { intros l Ll [Q|Q].
      - exists l. split; [apply Ll|]. split; [apply early_event; [apply Ll|unfold EVX; unfold SX in Q; qlra]|].
        split; [symmetry; exact Q|apply left_evfirst; auto].
      - exists (opp o l). destruct (k_opp o (w_linked c o W) l (proj2 Ll)) as (Lo & _).
        split; auto. split; [apply early_event; [auto|unfold EVX; unfold EX in Q; qlra]|].
        split; [symmetry; exact Q|apply (right_evfirst first second eps o l W Ll)]. }
    assert (Fin : forall x y, (x < size o)%nat -> (y < size o)%nat -> ~ In x (op_queue o) -> ~ In y (op_queue o) ->
      EV o x = EV o y -> EV o x < t -> evfirst o x = true -> evfirst o y = false -> False).
    { intros x y A1 A2 A3 A4 A5 A6 A7 A8. pose proof (ds_notcommon _ _ _ _ _ _ _ D F x y A1 A2 A3 A4 A5 A6). congruence. }
    destruct (i_V _ _ _ C Y Z (X c p) PY PZ NE Ut) as [[EY EZ]|[M _]]; auto; [congruence| |].
    + destruct (Ev Y LY EY) as (x & A1 & A2 & A3 & A4). destruct (Ev Z LZ EZ) as (y & B1 & B2 & B3 & B4).
      apply (Fin x y); auto; congruence.
    + apply (Fin Y Z); [apply LY|apply LZ|apply PY|apply PZ|apply M| |rewrite left_evfirst; auto|rewrite left_evfirst; auto].
      change (EV o Y) with (S' o Y). qlra.
  - exact Cr.
Qed.
End Final.

(** A state that does not matter. *)
Lemma early s o t : described o t s -> cross_ok s -> rs_has_overlap s = true -> rs_first_is_subset s = false ->
  rs_second_is_subset s = false -> verdict s.
Proof.
  intros D Cr O F1 F2. constructor; try congruence; auto.
  - intros []; cbn; congruence.
  - apply (ds_notsub _ _ _ _ _ _ _ D).
  - apply (ds_over _ _ _ _ _ _ _ D).
Qed.

Definition alive (o : operation) : Prop := exists t ev, inv o t /\ recorded c o t ev.
Lemma core_base o t : core c o t -> base c o.
Proof.
  intros C. split; [apply (i_wf _ _ _ C)|]. split; [apply (i_qsz _ _ _ C)|].
  intros l I. apply (i_line _ _ _ C) in I. apply I.
Qed.

Section Loop.
Variables (shape : tree_shape) (min_max_x : Qc) (d : bool).
Hypothesis Bound : forall p, on_op d p -> px p <= min_max_x.

Lemma px_mono p q : In p (c_pts c) -> In q (c_pts c) -> X c p <= X c q -> px p <= px q.
Proof.
  intros Ip Iq L. destruct (qltb_spec (px q) (px p)) as [Q|Q]; [|qlra]. exfalso.
  assert (Lx : lex_lt q p) by (left; auto). pose proof (g_mono c G _ _ Iq Ip Lx). qlra.
Qed.

Lemma loop_spec : forall fuel o t group s prev, inv o t -> alive o -> why c o -> collected o t group ->
  group <> [] -> In prev (c_pts c) -> X c prev = t -> described o t s -> cross_ok s -> (work c o < fuel)%nat ->
  exists s', relation_loop fuel shape min_max_x o prev group s = Relates (state_relation s') /\ verdict s'.
Proof.
  induction fuel as [|fuel IH]; intros o t group s prev V Al Wy Co Gn Ip Xp D Cr Wk; [lia|].
  assert (C := v_core _ _ _ V). assert (W := i_wf _ _ _ C).
  cbn [relation_loop]. destruct (op_queue o) as [|e0 q0] eqn:Eq.
  - assert (Qt : forall x, In x (op_queue o) -> t < EV o x) by (rewrite Eq; intros x []).
    destruct (update_spec first second eps G N init o t group V Wy Co Gn Qt s D) as (s' & U & D').
    rewrite U. cbn. exists s'. split; auto.
    assert (Lt : t < t + 1) by qlra.
    assert (C1 : core c o (t + 1)).
    { apply (next_core c o t); auto; [apply (v_line _ _ _ V)|apply (v_th _ _ _ V)|]. rewrite Eq. intros x []. }
    assert (En : forall l, left_of o l -> E' o l < t + 1).
    { intros l Ll. assert (Dl : done o l) by (split; auto; rewrite Eq; intros []).
      pose proof (i_E _ _ _ C l Dl). qlra. }
    apply (final o (t + 1) s' true C1); auto.
    + apply (update_cross o group s s' U Cr).
  - assert (Qn : op_queue o <> []) by (rewrite Eq; discriminate).
    destruct Al as (ta & ev & Va & Ra).
    destruct (one_step c G Nc o ta ev shape Va Ra Qn) as (e & o' & Ep & Le & Pe & (t1 & V1 & R1) & _).
    assert (Al' : alive o') by (exists t1; eauto).
    rewrite Ep.
    assert (Pop : pop (tick o) = Some (e, popping o e)) by exact Ep.
    assert (B0 : base c (tick o)) by (apply (some_step_base c G o (tick o)); [apply step_tick|exact (core_base o t C)]).
    destruct (pop_steps c (tick o) e (popping o e) B0 Pop) as (St1 & Lez & Wk1 & _ & _).
    change (work c (tick o)) with (work c o) in Wk1.
    assert (B1 : base c (popping o e)) by (apply (some_step_base c G (tick o) _ St1 B0)).
    destruct (process_steps c G shape (popping o e) e o' B1 Lez Pe) as (St2 & Wk2).
    assert (Wy' : why c o').
    { apply (why_steps c G N (popping o e) o' St2 B1). apply (why_step c G N (tick o) _ St1 B0). exact Wy. }
    change (to_event_start (popping o e) e) with (pt o e).
    assert (Ie : In (pt o e) (c_pts c)) by (apply event_pt; auto).
    destruct (point_eq_spec (pt o e) prev) as [Q|Q].
    + rewrite Pe. assert (Et : EV o e = t) by (unfold EVX; rewrite Q; exact Xp).
      pose proof (stepping_of c G N o t e o' shape V Le Et Pe) as St.
      apply (IH o' t (group ++ [e]) s prev); auto.
      * apply (st_inv _ _ _ _ _ St).
      * apply (collected_step c G N o t e o' V Le Et St group Co).
      * destruct group; discriminate.
      * apply (described_step first second eps init o t e o' s V (proj1 Le) Et St D).
      * lia.
    + assert (Lt : t < EV o e).
      { pose proof (i_q1 _ _ _ C e (proj1 Le)) as L. destruct (qltb_spec t (EV o e)) as [A|A]; auto.
        exfalso. apply Q. apply (X_inj first second eps G); auto. change (X c (pt o e)) with (EV o e). rewrite Xp. qlra. }
      assert (Qt : forall x, In x (op_queue o) -> t < EV o x).
      { intros x I. pose proof (least_after c o e Le x I). qlra. }
      destruct (update_spec first second eps G N init o t group V Wy Co Gn Qt s D) as (s' & U & D').
      rewrite update_popping, U.
      pose proof (update_cross o group s s' U Cr) as Cr'. specialize (D' (EV o e) Lt).
      destruct (rs_has_overlap s' && negb (rs_first_is_subset s') && negb (rs_second_is_subset s')) eqn:Ea.
      { exists s'. split; auto. apply andb_true_iff in Ea. destruct Ea as [Ea E2]. apply andb_true_iff in Ea.
        destruct Ea as [Ea E1]. apply negb_true_iff in E1. apply negb_true_iff in E2.
        apply (early s' o (EV o e)); auto. }
      destruct (advance c Nc o ta e ev Va Ra Le) as (Ve & _).
      assert (Ce := v_core _ _ _ Ve).
      destruct (qltb_spec min_max_x (px (pt o e))) as [A|A].
      * change (is_event_from_first_operand (popping o e) e) with (is_event_from_first_operand o e).
        eexists. split; [reflexivity|].
        assert (Far : forall x, In x (op_queue o) -> evfirst o x <> d).
        { intros x I F. pose proof (i_qsz _ _ _ C x I) as Lx.
          pose proof (event_on_op first second eps G o x W Lx) as Ox. rewrite F in Ox. apply Bound in Ox.
          pose proof (least_after c o e Le x I) as L.
          assert (px (pt o e) <= px (pt o x)) by (apply px_mono; auto; apply event_pt; auto). qlra. }
        assert (Fe : evfirst o e = negb d).
        { pose proof (Far e (proj1 Le)) as F. destruct (evfirst o e), d; try reflexivity; congruence. }
        set (s2 := if evfirst o e then drop_first s' else drop_second s').
        assert (Fl : forall b, flag b s2 = true <-> flag b s' = true /\ b = d).
        { intros b. unfold s2. rewrite Fe. destruct d, b; cbn; intuition congruence. }
        assert (Ov : rs_has_overlap s2 = rs_has_overlap s') by (unfold s2; destruct (evfirst o e); reflexivity).
        assert (In2 : rs_has_intersection s2 = rs_has_intersection s') by (unfold s2; destruct (evfirst o e); reflexivity).
        assert (Cr2 : cross_ok s2) by (unfold s2; destruct (evfirst o e); exact Cr').
        clearbody s2.
        assert (En : forall l, left_of o l -> firstop o l = d -> E' o l < EV o e).
        { intros l Ll Fll. assert (Dl : done o l).
          { split; auto. intros I. apply (Far _ I). rewrite (right_evfirst first second eps o l W Ll). auto. }
          pose proof (i_E _ _ _ C l Dl). qlra. }
        apply (final o (EV o e) s2 d Ce); auto.
        -- constructor.
           ++ intros b F. apply Fl in F. apply (ds_sub _ _ _ _ _ _ _ D' b (proj1 F)).
           ++ intros b F. destruct (Bool.bool_dec b d) as [Eb|Nb].
              ** apply (ds_notsub _ _ _ _ _ _ _ D'). destruct (flag b s') eqn:Q'; auto.
                 rewrite (proj2 (Fl b)) in F; [discriminate|]. split; auto.
              ** right. intros Sub. pose proof (event_on_op first second eps G o e W (i_qsz _ _ _ C e (proj1 Le))) as Oe.
                 assert (Eb : evfirst o e = b) by (rewrite Fe; destruct b, d; try reflexivity; congruence).
                 rewrite Eb in Oe. apply Sub in Oe. assert (Ed : negb b = d) by (destruct b, d; try reflexivity; congruence).
                 rewrite Ed in Oe. apply Bound in Oe. qlra.
           ++ rewrite Ov. apply (ds_over _ _ _ _ _ _ _ D').
           ++ rewrite Ov. apply (ds_notover _ _ _ _ _ _ _ D').
           ++ rewrite In2. apply (ds_common _ _ _ _ _ _ _ D').
           ++ rewrite In2. apply (ds_notcommon _ _ _ _ _ _ _ D').
        -- intros b F l Ll Fll. apply Fl in F. apply En; auto. destruct F; congruence.
      * rewrite Pe. pose proof (stepping_of c G N o (EV o e) e o' shape Ve Le eq_refl Pe) as St.
        apply (IH o' (EV o e) [e] s' (pt o e)); auto.
        -- apply (st_inv _ _ _ _ _ St).
        -- apply (collected_step c G N o (EV o e) e o' Ve Le eq_refl St []). apply (collected_next c o t); auto.
        -- discriminate.
        -- apply (described_step first second eps init o (EV o e) e o' s' Ve (proj1 Le) eq_refl St D').
        -- lia.
Qed.

(** The start. *)
Lemma init_why : why c (from_segments_iterables first second).
Proof.
  set (o := from_segments_iterables first second).
  assert (W : wf c o) by (apply init_wf; exact G).
  assert (Inj : forall l m, left_of o l -> left_of o m -> sid o l = sid o m -> l = m).
  { assert (Sd : forall l, left_of o l -> sid o l = (l / 2)%nat).
    { intros l [E L]. unfold left_event_to_segment_id, left_event_to_position, o. rewrite init_ids.
      unfold o in L. rewrite init_size in L. rewrite seq_nth; [reflexivity|]. apply Nat.div_lt_upper_bound; lia. }
    intros l m Ll Lm E. rewrite !Sd in E by auto. destruct Ll as [A _], Lm as [B _].
    unfold is_event_left in A, B. apply Nat.even_spec in A. apply Nat.even_spec in B.
    destruct A as [a ->], B as [b ->]. rewrite !(Nat.mul_comm 2), !Nat.div_mul in E by lia. congruence. }
  intros l Ll. pose proof (w_sid c o W l Ll) as Si. destruct (w_in c o W l Ll) as [I1 I2].
  pose proof (w_lt c o W l Ll) as Lt. split; left.
  - destruct (w_cover c o W (sid o l) (X c (fst (input c (sid o l)))) Si) as (m & Lm & Em & A & B); [qlra|qlra|].
    rewrite <- (Inj l m Ll Lm (eq_sym Em)) in A. qlra.
  - destruct (w_cover c o W (sid o l) (X c (snd (input c (sid o l)))) Si) as (m & Lm & Em & A & B); [qlra|qlra|].
    rewrite <- (Inj l m Ll Lm (eq_sym Em)) in B. qlra.
Qed.

Lemma to_relation_verdict fuel : first ++ second <> [] -> (enough (length (first ++ second)) <= fuel)%nat ->
  exists s, to_relation fuel shape (from_segments_iterables first second) (init true) (init false) min_max_x
    = Relates (state_relation s) /\ verdict s.
Proof.
  intros NE Fu. set (o := from_segments_iterables first second).
  assert (W : wf c o) by (apply init_wf; exact G).
  assert (Qu : forall x, (x < size o)%nat -> In x (op_queue o)).
  { intros x Sx. unfold o in *. rewrite init_queue. rewrite init_size in Sx. apply in_seq. lia. }
  destruct (init_inv first second eps G) as (ta & Va & Ra). fold o in Va, Ra.
  assert (C := v_core _ _ _ Va).
  assert (Qn : op_queue o <> []).
  { unfold o. rewrite init_queue. unfold operands. rewrite map_length.
    destruct (first ++ second); [congruence|]. cbn. discriminate. }
  destruct (one_step c G Nc o ta [] shape Va Ra Qn) as (e & o' & Ep & Le & Pe & (t1 & V1 & R1) & _).
  assert (B0 : base c (tick o)) by (apply (some_step_base c G o (tick o)); [apply step_tick|exact (core_base o ta C)]).
  destruct (pop_steps c (tick o) e (popping o e) B0 Ep) as (St1 & Lez & Wk1 & _ & _).
  change (work c (tick o)) with (work c o) in Wk1.
  assert (B1 : base c (popping o e)) by (apply (some_step_base c G (tick o) _ St1 B0)).
  destruct (process_steps c G shape (popping o e) e o' B1 Lez Pe) as (St2 & Wk2).
  assert (Wy' : why c o').
  { apply (why_steps c G N (popping o e) o' St2 B1). apply (why_step c G N (tick o) _ St1 B0). exact init_why. }
  destruct (advance c Nc o ta e [] Va Ra Le) as (Ve & _).
  pose proof (stepping_of c G N o (EV o e) e o' shape Ve Le eq_refl Pe) as St.
  unfold to_relation. rewrite Ep, Pe.
  assert (Ee : to_event_start o' e = pt o e) by (apply (st_pt _ _ _ _ _ St); exact Lez).
  rewrite Ee.
  assert (NP : forall x, ~ popped o x) by (intros x [L I]; apply I, Qu, L).
  apply (loop_spec fuel o' (EV o e) [e] _ (pt o e)); auto.
  - apply (st_inv _ _ _ _ _ St).
  - exists t1. eauto.
  - apply (collected_step c G N o (EV o e) e o' Ve Le eq_refl St []). constructor.
    + intros x. split; [intros []|]. intros (A & B & _). apply B, Qu, A.
    + constructor.
    + intros Y Z [].
    + intros A T [].
  - discriminate.
  - apply event_pt; auto.
  - apply (described_step first second eps init o (EV o e) e o' _ Ve (proj1 Le) eq_refl St).
    constructor; cbn; try discriminate.
    + intros [] F; cbn in F; (split; [exact F|]); intros Y P; destruct (NP Y P).
    + intros [] F; cbn in F; left; exact F.
    + intros _ Y Z P. destruct (NP Y P).
    + intros _ x y Lx Ly Qx. destruct (Qx (Qu x Lx)).
  - discriminate.
  - pose proof (init_work first second eps G). fold o in H. lia.
Qed.
End Loop.
End End.
