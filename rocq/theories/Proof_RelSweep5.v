(** Relating multisegments and contours, part 5: the events with one start are taken into
    account. *)
From Coq Require Import QArith Qcanon Bool List Arith Lia.
From Verif Require Import QcTac Model_Base Model_Geometry Model_Utils Model_Linear Model_Relate Model_RelateLinear
  Spec_Base Spec_Segment Spec_Clip Spec_Sweep Spec_Relate Spec_RelateLinear
  Proof_Base Proof_Line Proof_SegRel Proof_Sweep Proof_Sweep2 Proof_Sweep3 Proof_Sweep5 Proof_Sweep6 Proof_Sweep7
  Proof_Sweep8 Proof_Sweep9 Proof_Sweep10 Proof_Sweep11 Proof_Sweep12 Proof_Sweep13 Proof_Sweep14 Proof_Sweep15
  Proof_RelSweep Proof_RelSweep2 Proof_RelSweep3 Proof_RelSweep4.
Import ListNotations.
Local Open Scope Qc_scope.

Section Update.
Variables (first second : list segment) (eps : Qc).
Notation c := (the_ctx first second eps).
Hypothesis G : good c.
Hypothesis N : ncs c.
Variable init : bool -> bool.
Let Nc : nc c := ncs_nc c N.
Notation S' := (SX c). Notation E' := (EX c). Notation h := (hh c). Notation k := (kk c).
Notation EV := (EVX c).
Notation mates := (mates c). Notation through := (through c). Notation inv := (inv c).
Notation collected := (collected c).
Notation lefts_of group := (filter is_event_left group).
Notation described := (described first second eps init).
Notation on_op := (on_op first second). Notation subset := (subset first second).
Notation common := (common first second). Notation overlaps := (overlaps first second).
Notation evfirst := is_event_from_first_operand.

Lemma X_inj p q : In p (c_pts c) -> In q (c_pts c) -> X c p = X c q -> p = q.
Proof.
  intros Ip Iq E. destruct (lex_total p q) as [[L|L]|L]; auto;
    [pose proof (g_mono c G _ _ Ip Iq L)|pose proof (g_mono c G _ _ Iq Ip L)]; qlra.
Qed.
Lemma EV_inj o x y : wf c o -> (x < size o)%nat -> (y < size o)%nat -> EV o x = EV o y -> pt o x = pt o y.
Proof. intros W Lx Ly E. apply X_inj; [apply event_pt; auto|apply event_pt; auto|exact E]. Qed.

Section At.
Variables (o : operation) (t : Qc) (group : list event).
Hypothesis V : inv o t.
Hypothesis Y : why c o.
Hypothesis Co : collected o t group.
Hypothesis Gn : group <> [].
Hypothesis Qt : forall x, In x (op_queue o) -> t < EV o x.
Let C := v_core c o t V.
Let W := i_wf c o t C.

Lemma popped_ev x : (x < size o)%nat -> ~ In x (op_queue o) -> EV o x <= t.
Proof.
  intros Lx Qx. destruct (event_pt c o x W Lx) as (_ & _ & E). rewrite E. destruct (is_event_left x) eqn:Ex.
  - apply (i_S _ _ _ C). split; auto. split; auto.
  - destruct (k_opp o (w_linked c o W) x Lx) as (L1 & O1 & E1). rewrite Ex in E1.
    apply (i_E _ _ _ C). split; [split; auto|rewrite O1; auto].
Qed.
Lemma not_queued l : left_of o l -> S' o l <= t -> popped o l.
Proof. intros L Sl. split; auto. intros I. pose proof (Qt l I). unfold EVX in *. unfold SX in *. qlra. Qed.
Lemma lefts_mem l : In l (lefts_of group) <-> popped o l /\ S' o l = t.
Proof.
  split.
  - intros I. destruct (in_lefts c o t group Co l I) as (A & B & D). split; auto. split; auto.
  - intros ((L & Q) & Sl). apply filter_In. split; [apply (g_mem _ _ _ _ Co); split; [apply L|split; auto]|apply L].
Qed.
Lemma lefts_mates x y : In x (lefts_of group) -> In y (lefts_of group) -> x <> y ->
  (to_event_end o x = to_event_end o y <-> mates o x y).
Proof.
  intros Ix Iy NE. pose proof (proj1 (lefts_mem x) Ix) as ((Lx & Qx) & Sx).
  pose proof (proj1 (lefts_mem y) Iy) as ((Ly & Qy) & Sy). split.
  - intros E. assert (EE : E' o x = E' o y) by (unfold EX; unfold to_event_end in E; rewrite E; auto).
    split; [|congruence].
    assert (St : pt o x = pt o y) by (apply EV_inj; auto; [apply Lx|apply Ly|unfold EVX; unfold SX in *; congruence]).
    apply (col_two c o x y t (E' o x)).
    + pose proof (w_lt c o W x Lx). unfold SX in *; unfold EX in *. intros Q. qlra.
    + pose proof (w_S c o W x Lx) as Q1. pose proof (w_S c o W y Ly) as Q2. rewrite Sx in Q1. rewrite Sy in Q2. congruence.
    + pose proof (w_E c o W x Lx) as Q1. pose proof (w_E c o W y Ly) as Q2. rewrite <- EE in Q2.
      unfold to_event_end in E. congruence.
  - intros M. pose proof (group_even c N o t group x y V Y Co Ix Iy NE M) as E.
    pose proof (piece_same first second eps G o x y W Lx Ly (proj2 M) E) as P. unfold piece in P. congruence.
Qed.
Lemma lefts_nd : NoDup (lefts_of group).
Proof. apply NoDup_filter. apply (g_nd _ _ _ _ Co). Qed.

Lemma paired_mates x : In x (lefts_of group) -> (paired o (lefts_of group) x <->
  exists y, popped o y /\ S' o y = t /\ y <> x /\ mates o x y).
Proof.
  intros Ix. split.
  - intros (y & Iy & NE & E). exists y. pose proof (proj1 (lefts_mem y) Iy) as (A & B).
    split; auto. split; auto. split; auto. apply lefts_mates; auto.
  - intros (y & Py & Sy & NE & M). assert (Iy : In y (lefts_of group)) by (apply lefts_mem; auto).
    exists y. split; auto. split; auto. symmetry. apply lefts_mates; auto.
Qed.

(** Where an operand is covered, its pieces that start here have companions. *)
Lemma subset_paired b x : subset b -> popped o x -> S' o x = t -> firstop o x = b ->
  exists y, popped o y /\ S' o y = t /\ y <> x /\ mates o x y.
Proof.
  intros Sub Px Sx Fx. assert (Lx := proj1 Px).
  assert (Lt : t < E' o x) by (pose proof (w_lt c o W x Lx); unfold SX in *; unfold EX in *; qlra).
  destruct (free_start (map (X c) (c_pts c)) t (E' o x) Lt) as (u & U1 & U2 & U3).
  assert (U3' : forall q, In q (c_pts c) -> t < X c q -> u < X c q).
  { intros q Iq. apply U3. apply in_map. auto. }
  set (p := Pt (u - eps * h o x u) (h o x u)).
  assert (Xp : X c p = u) by (unfold X, p; cbn; ring).
  assert (Op : on_seg (piece o x) p).
  { apply (piece_X first second eps o x p W Lx). rewrite Xp. split; [qlra|]. split; [qlra|reflexivity]. }
  pose proof (piece_on_op first second eps G o x p W Lx Op) as Ob. rewrite Fx in Ob.
  apply Sub in Ob. destruct (on_op_piece first second eps G o _ p W Ob) as (l & Ll & Fl & Ol).
  apply (piece_X first second eps o l p W Ll) in Ol. rewrite Xp in Ol. destruct Ol as (O1 & O2 & O3).
  destruct (event_pt c o l W (proj2 Ll)) as (Pl & _).
  assert (Sl : S' o l <= t).
  { destruct (qltb_spec t (S' o l)) as [Q|Q]; [|qlra]. pose proof (U3' _ Pl Q). unfold SX in *. qlra. }
  assert (Lo : (opp o l < size o)%nat) by (apply (k_opp o (w_linked c o W) l (proj2 Ll))).
  destruct (event_pt c o (opp o l) W Lo) as (Pe & _).
  assert (El : u < E' o l) by (apply (U3' _ Pe); unfold EX in *; qlra).
  assert (Pop : popped o l) by (apply not_queued; auto).
  assert (NE : l <> x).
  { intros ->. rewrite Fx in Fl. destruct b; discriminate. }
  assert (Cl : col c o x l).
  { apply (col_slope c o x l u); [|exact O3]. destruct (Qc_eq_dec (k o x) (k o l)) as [Q|Q]; auto. exfalso.
    destruct (g_cross c G (sid o x) (sid o l) u) as (f & If & Xf & _); auto.
    - apply (w_sid c o W x Lx).
    - apply (w_sid c o W l Ll).
    - assert (Q' : t < X c f) by (rewrite Xf; auto). pose proof (U3' f If Q'). qlra. }
  destruct (Qc_eq_dec (S' o l) t) as [Q|Q].
  - exists l. split; auto. split; auto. split; auto. split; [auto|congruence].
  - exfalso. assert (Th : through o t l) by (split; [|qlra]; destruct (qltb_spec (S' o l) t); [auto|]; exfalso; apply Q; qlra).
    assert (Nq : forall z, popped o z -> ~ (In z (op_queue o) \/ nobody z)).
    { intros z Pz [I|[]]. apply (proj2 Pz I). }
    destruct (v_th _ _ _ V l x Ll Lx (Nq l Pop) (Nq x Px) NE Th) as [(M & _)|(_ & z & Lz & [Qz|[]] & Sz & _)].
    + qlra.
    + qlra.
    + symmetry. apply Cl.
    + apply Q. rewrite <- Sx. apply M.
    + pose proof (Qt z Qz). unfold EVX in *. unfold SX in *. qlra.
Qed.

(** The point of the group is of both operands only if events of both are in the group. *)
Lemma group_point_alone e l : In e group -> left_of o l -> on_seg (piece o l) (pt o e) ->
  firstop o l <> evfirst o e -> exists e', In e' group /\ evfirst o e' = firstop o l.
Proof.
  intros Ie Ll Ol Nf. pose proof (proj1 (g_mem _ _ _ _ Co e) Ie) as (Le & Qe & Ee).
  apply (piece_X first second eps o l _ W Ll) in Ol. change (X c (pt o e)) with (EV o e) in Ol. rewrite Ee in Ol.
  destruct Ol as (O1 & O2 & O3). assert (Pl : popped o l) by (apply not_queued; auto).
  destruct (Qc_eq_dec (S' o l) t) as [Q1|Q1].
  { exists l. split; [apply (g_mem _ _ _ _ Co); split; [apply Ll|split; [apply Pl|exact Q1]]|apply left_evfirst; auto]. }
  destruct (Qc_eq_dec (E' o l) t) as [Q2|Q2].
  { destruct (k_opp o (w_linked c o W) l (proj2 Ll)) as (Lo & Oo & Eo).
    exists (opp o l). split; [|apply (right_evfirst first second eps); auto].
    apply (g_mem _ _ _ _ Co). split; auto. split; [|exact Q2]. intros I. pose proof (Qt _ I). unfold EVX in *. unfold EX in *. qlra. }
  exfalso. assert (Th : through o t l).
  { split; [destruct (qltb_spec (S' o l) t); auto; exfalso; apply Q1; qlra|].
    destruct (qltb_spec t (E' o l)); auto. exfalso; apply Q2; qlra. }
  destruct (event_on first second eps o e W Le) as [Lm Om]. set (m := to_left_event o e) in *.
  apply (piece_X first second eps o m _ W Lm) in Om. change (X c (pt o e)) with (EV o e) in Om. rewrite Ee in Om.
  destruct Om as (M1 & M2 & M3). assert (Pm : popped o m) by (apply not_queued; auto).
  assert (NE : l <> m). { intros Q. apply Nf. rewrite Q. reflexivity. }
  assert (Nq : forall z, popped o z -> ~ (In z (op_queue o) \/ nobody z)).
  { intros z Pz [I|[]]. apply (proj2 Pz I). }
  destruct (v_th _ _ _ V l m Ll Lm (Nq l Pl) (Nq m Pm) NE Th M1 M2) as [(M & Em)|(_ & z & Lz & [Qz|[]] & Sz & _)].
  - congruence.
  - destruct (event_pt c o e W Le) as (_ & _ & Ev). destruct Th as [Th1 Th2]. destruct M as [_ M].
    unfold m, to_left_event in *. destruct (is_event_left e) eqn:Q; rewrite Ee in Ev; qlra.
  - pose proof (Qt z Qz). unfold EVX in *. unfold SX in *. qlra.
Qed.

Variable s : relation_state.
Hypothesis D : described o t s.

Lemma overlap_of x y : popped o x -> popped o y -> x <> y -> mates o x y -> E' o x = E' o y -> overlaps.
Proof.
  intros Px Py NE M E. assert (Lx := proj1 Px). assert (Ly := proj1 Py).
  pose proof (piece_same first second eps G o x y W Lx Ly (proj2 M) E) as P.
  pose proof (mates_operands c N o t V x y Lx Ly NE M) as F.
  destruct (op_seg first second eps G o x W Lx) as (sx & Ix & Ox).
  destruct (op_seg first second eps G o y W Ly) as (sy & Iy & Oy). rewrite <- P in Oy.
  assert (Sh : forall p, on_seg (piece o x) p -> on_seg sx p /\ on_seg sy p) by auto.
  assert (A1 : on_seg (piece o x) (to_event_start o x)) by apply between_start.
  assert (A2 : on_seg (piece o x) (to_event_end o x)) by apply between_end.
  assert (Ne : to_event_start o x <> to_event_end o x).
  { intros Q. pose proof (w_lt c o W x Lx) as L. unfold to_event_end in Q. unfold SX, EX in L; rewrite <- Q in L.
    qlra. }
  destruct (firstop o x), (firstop o y); try congruence.
  - exists sx, sy. split; auto. split; auto. exists (to_event_start o x), (to_event_end o x).
    repeat (split; auto); apply Sh; auto.
  - exists sy, sx. split; auto. split; auto. exists (to_event_start o x), (to_event_end o x).
    repeat (split; auto); apply Sh; auto.
Qed.

Lemma update_spec : exists s', update_state o group s = Some s' /\ forall t', t < t' -> described o t' s'.
Proof.
  unfold update_state. destruct (has_intersection o group) eqn:HI.
  - set (s0 := RelationState (rs_first_is_subset s) (rs_second_is_subset s) (rs_has_crossing s) true (rs_has_overlap s)).
    destruct (detect_spec' o (length (lefts_of group)) (lefts_of group) s0) as (s1 & E1 & R).
    + auto.
    + apply lefts_nd.
    + intros x y z Ix Iy Iz N1 N2 N3 F1 F2.
      apply (mates_three c Nc o x y z W); auto; try (apply lefts_mem; assumption).
      * apply lefts_mates; auto.
      * apply lefts_mates; auto.
    + intros x y Ix Iy NE F. apply (g_adj _ _ _ _ Co); auto. apply lefts_mates; auto.
    + rewrite E1. eexists. split; [reflexivity|]. intros t' Ht.
      assert (Fl : forall b, flag b (detect_crossing o group s1) = true <->
        flag b s = true /\ forall x, In x (lefts_of group) -> evfirst o x = b -> paired o (lefts_of group) x).
      { intros []; [apply (ro_first _ _ _ _ R)|apply (ro_second _ _ _ _ R)]. }
      assert (Ov : rs_has_overlap (detect_crossing o group s1) = true <->
        rs_has_overlap s = true \/ exists x, In x (lefts_of group) /\ paired o (lefts_of group) x) by apply (ro_overlap _ _ _ _ R).
      assert (In1 : rs_has_intersection (detect_crossing o group s1) = true).
      { cbn. rewrite (ro_intersection _ _ _ _ R). reflexivity. }
      set (s2 := detect_crossing o group s1) in *. clearbody s2.
      constructor.
      * intros b Fb. apply Fl in Fb. destruct Fb as [Fb Pb]. destruct (ds_sub _ _ _ _ _ _ _ D b Fb) as [I1 I2].
        split; auto. intros Z PZ SZ FZ p Op.
        pose proof (i_S _ _ _ C Z PZ) as SZ'. destruct (Qc_eq_dec (S' o Z) t) as [Q|Q].
        -- assert (IZ : In Z (lefts_of group)) by (apply lefts_mem; auto).
           assert (Fz : evfirst o Z = b) by (rewrite (left_evfirst o Z (proj1 PZ)); auto).
           pose proof (proj1 (paired_mates Z IZ) (Pb Z IZ Fz)) as (y & Py & Sy & NE & M).
           assert (Iy : In y (lefts_of group)) by (apply lefts_mem; auto).
           pose proof (group_even c N o t group Z y V Y Co IZ Iy (not_eq_sym NE) M) as EE.
           pose proof (piece_same first second eps G o Z y W (proj1 PZ) (proj1 Py) (proj2 M) EE) as P.
           rewrite P in Op. pose proof (piece_on_op first second eps G o y p W (proj1 Py) Op) as On.
           pose proof (mates_operands c N o t V Z y (proj1 PZ) (proj1 Py) (not_eq_sym NE) M) as F.
           replace (negb b) with (firstop o y); auto. rewrite FZ in F. destruct b, (firstop o y); try reflexivity; congruence.
        -- apply (I2 Z); auto. destruct (qltb_spec (S' o Z) t); auto. exfalso; apply Q; qlra.
      * intros b Fb. destruct (flag b s) eqn:Fs; [|apply (ds_notsub _ _ _ _ _ _ _ D b Fs)].
        right. intros Sub. assert (flag b s2 = true); [|congruence]. apply Fl. split; auto.
        intros x Ix Fx. pose proof (proj1 (lefts_mem x) Ix) as (Px & Sx).
        apply (proj2 (paired_mates x Ix)). apply (subset_paired b); auto.
        rewrite <- (left_evfirst o x (proj1 Px)). auto.
      * intros F. apply Ov in F. destruct F as [F|(x & Ix & Pa)]; [apply (ds_over _ _ _ _ _ _ _ D F)|].
        pose proof (proj1 (paired_mates x Ix) Pa) as (y & Py & Sy & NE & M).
        pose proof (proj1 (lefts_mem x) Ix) as (Px & Sx). apply (overlap_of x y); auto.
        apply (group_even c N o t group); auto. apply lefts_mem; auto.
      * intros F Z Z' PZ PZ' SZ NE M.
        assert (F1 : rs_has_overlap s = false).
        { destruct (rs_has_overlap s) eqn:Q; auto. rewrite (proj2 Ov (or_introl eq_refl)) in F. discriminate. }
        pose proof (i_S _ _ _ C Z PZ) as SZ'. destruct (Qc_eq_dec (S' o Z) t) as [Q|Q].
        -- assert (IZ : In Z (lefts_of group)) by (apply lefts_mem; auto).
           assert (Pa : paired o (lefts_of group) Z).
           { apply (paired_mates Z IZ). exists Z'. split; auto. split; [|auto]. rewrite <- (proj2 M). auto. }
           rewrite (proj2 Ov (or_intror (ex_intro _ Z (conj IZ Pa)))) in F. discriminate.
        -- apply (ds_notover _ _ _ _ _ _ _ D F1 Z Z'); auto. destruct (qltb_spec (S' o Z) t); auto. exfalso; apply Q; qlra.
      * intros _. apply has_intersection_spec in HI. destruct HI as (x & y & Ix & Iy & Fx & Fy).
        pose proof (proj1 (g_mem _ _ _ _ Co x) Ix) as (Lx & _ & Ex).
        pose proof (proj1 (g_mem _ _ _ _ Co y) Iy) as (Ly & _ & Ey).
        exists (pt o x). split.
        -- rewrite <- Fx. apply (event_on_op first second eps G o x W Lx).
        -- rewrite <- Fy. rewrite (EV_inj o x y W Lx Ly) by congruence. apply (event_on_op first second eps G o y W Ly).
      * intros F. congruence.
  - assert (Same : forall x, In x group -> evfirst o x = evfirst o (hd O group)).
    { assert (Ih : In (hd O group) group) by (destruct group; [congruence|left; auto]).
      intros x Ix. destruct (evfirst o x) eqn:F1, (evfirst o (hd O group)) eqn:F2; auto.
      - assert (has_intersection o group = true); [|congruence]. apply has_intersection_spec. exists x, (hd O group); auto.
      - assert (has_intersection o group = true); [|congruence]. apply has_intersection_spec. exists (hd O group), x; auto. }
    assert (Ih : In (hd O group) group) by (destruct group; [congruence|left; auto]).
    set (b0 := evfirst o (hd O group)) in *.
    set (s' := if b0 then drop_first s else drop_second s).
    exists s'. split; [destruct b0; reflexivity|]. intros t' Ht.
    assert (Fl : forall b, flag b s' = true <-> flag b s = true /\ b <> b0).
    { intros b. unfold s'. destruct b0, b; cbn; intuition congruence. }
    assert (Ov : rs_has_overlap s' = rs_has_overlap s) by (unfold s'; destruct b0; reflexivity).
    assert (In1 : rs_has_intersection s' = rs_has_intersection s) by (unfold s'; destruct b0; reflexivity).
    clearbody s'.
    assert (Lt : forall x, x <= t -> x <> t -> x < t).
    { intros x A B. destruct (qltb_spec x t); auto. exfalso; apply B; qlra. }
    constructor.
    + intros b Fb. apply Fl in Fb. destruct Fb as [Fb Nb]. destruct (ds_sub _ _ _ _ _ _ _ D b Fb) as [I1 I2].
      split; auto. intros Z PZ SZ FZ p Op. pose proof (i_S _ _ _ C Z PZ) as SZ'.
      destruct (Qc_eq_dec (S' o Z) t) as [Q|Q]; [|apply (I2 Z); auto].
      exfalso. apply Nb. rewrite <- FZ, <- (left_evfirst o Z (proj1 PZ)). apply Same.
      apply (g_mem _ _ _ _ Co). destruct PZ as [PZ1 PZ2]. split; [apply PZ1|]. auto.
    + intros b Fb. destruct (flag b s) eqn:Fs; [|apply (ds_notsub _ _ _ _ _ _ _ D b Fs)].
      right. intros Sub. assert (Eb : b = b0).
      { destruct (Bool.bool_dec b b0) as [Q|Q]; auto. rewrite (proj2 (Fl b)) in Fb; [discriminate|auto]. }
      pose proof (proj1 (g_mem _ _ _ _ Co _) Ih) as (Le & Qe & Ee).
      pose proof (event_on_op first second eps G o _ W Le) as Oe. fold b0 in Oe. rewrite <- Eb in Oe.
      apply Sub in Oe. destruct (on_op_piece first second eps G o _ _ W Oe) as (l & Ll & Fll & Ol).
      destruct (group_point_alone _ l Ih Ll Ol) as (e' & Ie' & Fe').
      { rewrite Fll. fold b0. rewrite Eb. destruct b0; discriminate. }
      pose proof (Same e' Ie') as Q. rewrite Fe', Fll, Eb in Q. destruct b0; discriminate.
    + intros F. rewrite Ov in F. apply (ds_over _ _ _ _ _ _ _ D F).
    + intros F Z Z' PZ PZ' SZ NE M. rewrite Ov in F. pose proof (i_S _ _ _ C Z PZ) as SZ'.
      destruct (Qc_eq_dec (S' o Z) t) as [Q|Q]; [|apply (ds_notover _ _ _ _ _ _ _ D F Z Z'); auto].
      apply (mates_operands c N o t V Z Z' (proj1 PZ) (proj1 PZ') NE M).
      rewrite <- (left_evfirst o Z (proj1 PZ)), <- (left_evfirst o Z' (proj1 PZ')).
      rewrite (Same Z), (Same Z'); auto; apply (g_mem _ _ _ _ Co).
      * destruct PZ' as [PZ1 PZ2]. split; [apply PZ1|]. split; auto. pose proof (proj2 M). unfold EVX. unfold SX in *. congruence.
      * destruct PZ as [PZ1 PZ2]. split; [apply PZ1|]. auto.
    + intros F. rewrite In1 in F. apply (ds_common _ _ _ _ _ _ _ D F).
    + intros F x y Lx Ly Qx Qy E L. rewrite In1 in F. pose proof (popped_ev x Lx Qx) as Ex.
      destruct (Qc_eq_dec (EV o x) t) as [Q|Q]; [|apply (ds_notcommon _ _ _ _ _ _ _ D F x y); auto].
      rewrite (Same x), (Same y); auto; apply (g_mem _ _ _ _ Co); split; auto; split; auto; congruence.
Qed.
End At.
End Update.
