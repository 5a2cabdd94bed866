(** The sweep of a linear operand against a shaped one, part 8: what the selected pieces of a
    difference are, in terms of points only. *)
From Coq Require Import QArith Qcanon Bool List Arith Lia Permutation.
From Verif Require Import QcTac Model_Base Model_Utils Model_Geometry Model_Contour Model_Linear Model_Mixed Model_Shaped Spec_Base Spec_Segment Spec_Clip Spec_Contour
  Spec_Relate Spec_Sweep Spec_Shaped Spec_MixedDiff
  Proof_Base Proof_Line Proof_SegOps Proof_Contour Proof_Edges Proof_Locate Proof_Locate4 Proof_Sweep Proof_Sweep2 Proof_Sweep3 Proof_Sweep4 Proof_Sweep5 Proof_Sweep6 Proof_Sweep7
  Proof_Sweep8 Proof_Sweep9 Proof_Sweep10 Proof_Sweep11 Proof_Sweep12 Proof_Sweep13 Proof_Sweep14 Proof_Sweep15 Proof_Sweep17 Proof_Sweep18 Proof_Parity
  Proof_Flags Proof_Flags2 Proof_Flags3 Proof_Flags4 Proof_Flags5 Proof_Flags6 Proof_Corner Proof_Region Proof_Select
  Proof_Shaped Proof_Ray Proof_Orient Proof_Nested Proof_Nested2 Proof_Start Proof_Bridge Proof_RelateP Proof_Odd Proof_Clip Proof_RelShaped6
  Proof_Mix1 Proof_Mix2 Proof_Mix3 Proof_Mix4.
Import ListNotations.
Local Open Scope Qc_scope.


Lemma NoDup_app_intro2 {T} (l k : list T) : NoDup l -> NoDup k -> (forall x, In x l -> In x k -> False) -> NoDup (l ++ k).
Proof.
  intros Nl Nk D. induction l as [|x l IH]; cbn [app]; auto. inversion Nl as [|? ? Nx Nl']; subst. constructor.
  - intros I. apply in_app_or in I. destruct I as [I|I]; [contradiction|]. apply (D x); auto. left; auto.
  - apply IH; auto. intros y Iy. apply D. right; auto.
Qed.
Lemma NoDup_map_inj {T U} (g : T -> U) l : (forall x y, In x l -> In y l -> g x = g y -> x = y) -> NoDup l -> NoDup (map g l).
Proof.
  induction l as [|x l IH]; intros Inj Nd; cbn [map]; constructor; inversion Nd as [|? ? Nx Nl]; subst.
  - intros I. apply in_map_iff in I. destruct I as (y & E & I). apply Nx. rewrite <- (Inj y x); auto; [right|left]; auto.
  - apply IH; auto. intros a b Ia Ib. apply Inj; right; auto.
Qed.

Section Full2.
Variable f : bool.
Variables (A B : list segment) (kA kB : segment -> bool) (eps : Qc).
Notation X := (Xs eps).
Notation first := (filter kA A). Notation second := (filter kB B).
Notation c := (the_ctx first second eps).
Notation opf := (opf first second).
Notation full := (full A B). Notation keep := (keep kA kB).
Notation int := (map segment_flag first ++ map segment_flag second).
Hypothesis G : good c.
Hypothesis Snd : forall f, Forall (sound_edge eps) (full f).
Hypothesis Ev : even_ends (full (negb f)).
Hypothesis Side : forall e q, In e (full (negb f)) -> on_seg e q -> (forall v, In v (ends_of (full (negb f))) -> X v <> X q) ->
  xsum (below_seg eps q) (full (negb f)) = negb (segment_flag e).
Hypothesis Cov : forall f e g, In e (full f) -> In g (full (negb f)) -> X (lo e) < X (hi g) -> X (lo g) < X (hi e) -> keep f e = true.

(** A finished run. *)
Notation sel := (fun g x y => Bool.eqb g f && (negb x && negb y)).
Hypothesis N : nc c.
Variable rs : list (list point).
Hypothesis Ers : full (negb f) = outlines rs.
Hypothesis Keep : forall g, In g (full f) -> keep f g = true.
Variable limit : Qc.
Hypothesis Lim : forall g, In g (full f) -> px (hi g) <= limit.
Hypothesis Le : forall v w, In v (c_pts c) -> In w (c_pts c) \/ In w (ends_of (full f)) -> X v <= X w -> px v <= px w.
Variables (m : mixed_operation) (T : Qc) (ev : list event).
Hypothesis Fn : mfinished c sel f true limit m T ev.
Notation o := (mo m).
Notation v := (mview_of m).
Notation S' := (SX c). Notation E' := (EX c). Notation h := (hh c).
Let V : inv c o T := mn_inv _ _ _ _ _ _ _ _ Fn.
Let C : core c o T := v_core c o T V.
Let W : wf c o := i_wf _ _ _ C.
Let Fl : mflags c sel f o v := mn_flags _ _ _ _ _ _ _ _ Fn.

Lemma piece_input2 l : left_of o l -> exists g, nth_error (first ++ second) (sid o l) = Some g /\ In g (full (firstop o l))
  /\ (forall t, h o l t = height eps g t) /\ X (lo g) <= S' o l /\ E' o l <= X (hi g).
Proof.
  clear - G W. intros Ll. pose proof (w_sid c o W l Ll) as Ls. destruct (nth_some first second eps _ Ls) as (g & E). exists g. split; auto.
  split; [rewrite (firstop_opd c o l W); apply (retained A B kA kB), nth_operand; auto|].
  split; [intros t; unfold hh; apply (H_height first second eps); auto|].
  destruct (w_in c o W l Ll) as [J1 J2]. destruct (input_lo first second eps _ g E) as [E1 E2]. rewrite E1 in J1. rewrite E2 in J2. auto.
Qed.
Lemma on_input2 g q : In g (full true) \/ In g (full false) -> X (lo g) <= X q -> X q <= X (hi g) -> py q = height eps g (X q) -> on_seg g q.
Proof. intros I. apply between_on. destruct I as [I|I]; apply (sound A B eps Snd _ g I). Qed.
Lemma either2 b (g : segment) : In g (full b) -> In g (full true) \/ In g (full false).
Proof. destruct b; auto. Qed.
Lemma strict2 l t : generic c t -> left_of o l -> S' o l <= t -> t <= E' o l -> S' o l < t /\ t < E' o l.
Proof.
  intros Gt Ll L1 L2. pose proof (Gt _ (w_ptS c o W l Ll)). pose proof (Gt _ (w_ptE c o W l Ll)). unfold SX, EX in *.
  split; [apply Qcle_lt_or_eq in L1; destruct L1; auto; congruence|apply Qcle_lt_or_eq in L2; destruct L2; auto; congruence].
Qed.
(** Edges of the shaped operand at a generic column where a linear edge is. *)
Lemma meets_piece2 t r g : generic c t -> In g (full f) -> spanb eps t g = true -> X r = t -> on_segs (outlines rs) r ->
  exists w, left_of o w /\ firstop o w = negb f /\ sp c o w t = true /\ h o w t = py r.
Proof.
  intros Gt Ig Sg Er (e & Ie & Oe). rewrite <- Ers in Ie. rewrite <- (negb_involutive f) in Ig.
  assert (Se := sound A B eps Snd (negb f) e Ie). destruct (on_between eps e r Se Oe) as [B1 B2]. rewrite Er in B1, B2.
  assert (Gf := full_generic A B kA kB eps G Snd Cov (negb f) g t Ig Sg Gt).
  assert (Ee : X (lo e) <> t /\ X (hi e) <> t).
  { split; apply Gf; unfold ends_of; apply in_flat_map; exists e; (split; [auto|]); destruct (lo_hi e) as [[Q1 Q2]|[Q1 Q2]]; rewrite ?Q1, ?Q2; cbn; auto. }
  assert (Ke : keep (negb f) e = true).
  { apply spanb_true in Sg. apply (Cov (negb f) e g Ie Ig); [qlra|]. destruct Ee as [_ Ee]. apply Qcle_lt_or_eq in B2. destruct B2; [qlra|congruence]. }
  assert (Io : In e (opf (negb f))) by (rewrite (opf_filter A B kA kB); apply filter_In; auto).
  destruct (operand_nth first second eps (negb f) e Io) as (i & Ei & Oi). pose proof (some_lt first second eps i e Ei) as Li.
  destruct (input_lo first second eps i e Ei) as [Q1 Q2].
  destruct (w_cover c o W i t Li) as (w & Lw & Es & L1 & L2).
  { rewrite Q1. exact B1. } { rewrite Q2. exact B2. }
  exists w. split; auto. split; [rewrite (firstop_opd c o w W), Es; auto|]. split; [apply sp_true, strict2; auto|].
  unfold hh. rewrite Es, (H_height first second eps i e t Ei). rewrite <- Er. symmetry. apply on_height; auto.
Qed.
Lemma piece_meets2 t r w : left_of o w -> firstop o w = negb f -> sp c o w t = true -> X r = t -> h o w t = py r -> on_segs (outlines rs) r.
Proof.
  intros Lw Fw Sw Er Hw. destruct (piece_input2 w Lw) as (e & _ & Ie & He & L1 & L2). rewrite Fw in Ie. rewrite <- Ers. exists e. split; auto.
  apply sp_true in Sw. apply (on_input2 e r (either2 _ e Ie)); rewrite Er; try qlra. rewrite <- He. auto.
Qed.
Lemma parity_at2 t r g : generic c t -> In g (full f) -> spanb eps t g = true -> X r = t -> ~ on_segs (outlines rs) r ->
  inp c t (negb f) (py r) = xsum (fun vs => insideb vs r) rs.
Proof.
  intros Gt Ig Sg Er Off. rewrite <- (negb_involutive f) in Ig. assert (Gf := full_generic A B kA kB eps G Snd Cov (negb f) g t Ig Sg Gt).
  rewrite (insideb_outlines rs r Off). rewrite (parity_below eps); [|auto|rewrite <- Ers, Er; auto|rewrite <- Ers; auto].
  rewrite (inp_below first second eps G t (negb f)).
  rewrite (same_spanning A B kA kB eps Cov (negb f) g t); auto; [|intros x I; apply (below_span A B eps Snd (negb f)); auto].
  rewrite Ers. assert (Sp : spot eps t (py r) = r); [|rewrite Sp; auto]. rewrite <- Er. unfold spot, Xs. apply point_ext; cbn [px py]; ring.
Qed.


Let Ee : evn1 c f := the_evn1 f A B kA kB eps Snd Ev Cov.
Lemma piece_proper2 l : left_of o l -> proper_seg (piece o l).
Proof. intros Ll E. apply (Qclt_not_eq _ _ (w_lt c o W l Ll)). unfold SX, EX. f_equal. exact E. Qed.

(** All the events of the linear operand are dealt with. *)
Lemma linear_done l : left_of o l -> firstop o l = f -> popped o l /\ px (pt o l) <= limit
  /\ ~ In (opp o l) (op_queue o) /\ px (pt o (opp o l)) <= limit /\ E' o l <= T.
Proof.
  intros Ll Fo. destruct (piece_input2 l Ll) as (g & _ & Ig & _ & L1 & L2). rewrite Fo in Ig.
  assert (Q : px (pt o (opp o l)) <= limit).
  { apply Qcle_trans with (px (hi g)); [|auto]. apply Le; [apply (w_ptE c o W); auto| |exact L2].
    right. unfold ends_of. apply in_flat_map. exists g. split; auto. destruct (lo_hi g) as [[_ ->]|[_ ->]]; cbn; auto. }
  assert (Q0 : px (pt o l) <= limit).
  { apply Qcle_trans with (px (pt o (opp o l))); auto. apply Le; [apply (w_ptS c o W); auto|left; apply (w_ptE c o W); auto|].
    pose proof (w_lt c o W l Ll) as Lt. unfold SX, EX in Lt. change (X (pt o l) < X (pt o (opp o l))) in Lt. apply Qclt_le_weak. auto. }
  assert (N1 : ~ In l (op_queue o)) by (intros I; apply (mn_queue _ _ _ _ _ _ _ _ Fn) in I; qlra).
  assert (N2 : ~ In (opp o l) (op_queue o)) by (intros I; apply (mn_queue _ _ _ _ _ _ _ _ Fn) in I; qlra).
  split; [split; auto|]. repeat (split; auto). apply (i_E _ _ _ C). split; auto.
Qed.

(** The pieces of the result. *)
Definition outer : list event := filter (fun l => is_event_left l && wr v l) ev.
Lemma outer_In l : In l outer <-> left_of o l /\ firstop o l = f /\ wo v l = false /\ wk v l = false.
Proof.
  unfold outer. rewrite filter_In, (mn_ev _ _ _ _ _ _ _ _ Fn), andb_true_iff. split.
  - intros ((Sz & Nq & _ & _) & Lf & R). assert (P : popped o l) by (split; [split; auto|auto]).
    rewrite (mf_result _ _ _ _ _ Fl l P) in R. apply andb_true_iff in R. destruct R as [R1 R2]. apply andb_true_iff in R2. destruct R2 as [R2 R3].
    apply Bool.eqb_prop in R1. apply negb_true_iff in R2. apply negb_true_iff in R3. split; [split; auto|auto].
  - intros (Ll & Fo & R2 & R3). destruct (linear_done l Ll Fo) as (P & Q & _ & _ & _).
    split; [split; [apply Ll|split; [apply P|split; [left; auto|auto]]]|]. split; [apply Ll|].
    rewrite (mf_result _ _ _ _ _ Fl l P), Fo, R2, R3, Bool.eqb_reflx. auto.
Qed.

Lemma reduce_outer : Permutation (reduce_mixed m ev) (map (piece o) outer ++ map turned (map (piece o) outer)).
Proof.
  assert (K := k_opp o (w_linked c o W)).
  assert (E : map turned (map (piece o) outer) = map (piece o) (map (opp o) outer)).
  { rewrite !map_map. apply map_ext_in. intros l I. apply outer_In in I. destruct I as ((_ & Sz) & _). destruct (K l Sz) as (_ & Q & _).
    transitivity (Seg (pt o (opp o l)) (pt o (opp o (opp o l)))); [rewrite Q; reflexivity|reflexivity]. }
  rewrite E, <- map_app. unfold reduce_mixed.
  match goal with |- Permutation (map ?g ?l) _ => change (map g l) with (map (piece o) l) end.
  apply Permutation_map. apply NoDup_Permutation.
  - apply NoDup_filter, (mn_nd _ _ _ _ _ _ _ _ Fn).
  - apply NoDup_app_intro2.
    + apply NoDup_filter, (mn_nd _ _ _ _ _ _ _ _ Fn).
    + apply NoDup_map_inj; [|apply NoDup_filter, (mn_nd _ _ _ _ _ _ _ _ Fn)].
      intros x y Ix Iy Q. apply outer_In in Ix. apply outer_In in Iy. destruct Ix as ((_ & Sx) & _), Iy as ((_ & Sy) & _).
      destruct (K x Sx) as (_ & <- & _), (K y Sy) as (_ & <- & _). rewrite Q. reflexivity.
    + intros x Ix Iy. apply in_map_iff in Iy. destruct Iy as (y & <- & Iy). apply outer_In in Ix. apply outer_In in Iy.
      destruct Ix as ((Lx & _) & _), Iy as ((Ly & Sy) & _). destruct (K y Sy) as (_ & _ & Q). rewrite Lx, Ly in Q. discriminate.
  - intros x. rewrite filter_In, in_app_iff. split.
    + intros (I & R). assert (I' := I). apply (mn_ev _ _ _ _ _ _ _ _ Fn) in I'. destruct I' as (Sz & Nq & _ & Li).
      unfold to_left_event in R. destruct (is_event_left x) eqn:Lx.
      * left. unfold outer. rewrite filter_In, Lx. split; [auto|exact R].
      * right. destruct (K x Sz) as (Sz' & Q & Lx'). rewrite Lx in Lx'. cbn in Lx'.
        assert (Ll : left_of o (opp o x)) by (split; auto).
        assert (P : popped o (opp o x)).
        { split; auto. intros Iq. apply (i_q2 _ _ _ C) in Iq; auto. rewrite Q in Iq. contradiction. }
        apply in_map_iff. exists (opp o x). split; auto. apply outer_In.
        assert (R' : wr v (opp o x) = true) by exact R. rewrite (mf_result _ _ _ _ _ Fl _ P) in R'.
        apply andb_true_iff in R'. destruct R' as [R1 R2]. apply andb_true_iff in R2. destruct R2 as [R2 R3].
        apply Bool.eqb_prop in R1. apply negb_true_iff in R2. apply negb_true_iff in R3. auto.
    + intros [I|I].
      * assert (I' := I). unfold outer in I'. apply filter_In in I'. destruct I' as [I1 I2]. apply andb_true_iff in I2. destruct I2 as [I2 I3].
        split; auto. unfold to_left_event. rewrite I2. exact I3.
      * apply in_map_iff in I. destruct I as (l & <- & I). assert (I' := I). apply outer_In in I'. destruct I' as (Ll & Fo & _).
        destruct (linear_done l Ll Fo) as (P & _ & Nq & Li & _). assert (Ll' := Ll). destruct Ll' as [Lf Sz]. destruct (K l Sz) as (Sz' & Q & Lx').
        rewrite Lf in Lx'. cbn in Lx'.
        split; [apply (mn_ev _ _ _ _ _ _ _ _ Fn); split; auto; split; auto; split; [left; auto|auto]|].
        unfold to_left_event. rewrite Lx'.
        assert (W2 : wr v l = true) by (unfold outer in I; apply filter_In in I; destruct I as [_ I]; apply andb_true_iff in I; apply I).
        change (to_opposite_event o (opp o l)) with (opp o (opp o l)). rewrite Q. exact W2.
Qed.

(** ** Soundness *)
Lemma outer_generic l t r : In l outer -> generic c t -> sp c o l t = true -> X r = t -> py r = h o l t -> ~ covered rs r.
Proof.
  intros Il Gt Sl Er Hr Cv. apply outer_In in Il. destruct Il as (Ll & Fo & Wo & Wk).
  destruct (linear_done l Ll Fo) as (P & _ & _ & _ & El).
  destruct (piece_input2 l Ll) as (g & _ & Ig & Hg & L1 & L2). rewrite Fo in Ig. assert (Sl' := Sl). apply sp_true in Sl'.
  assert (Lt : t < T) by qlra.
  assert (Sg : spanb eps t g = true) by (apply spanb_true; split; qlra).
  destruct (on_segs_dec (outlines rs) r) as [O|Off].
  - destruct (meets_piece2 t r g Gt Ig Sg Er O) as (w & Lw & Fw & Sw & Hw).
    assert (Q : wk v l = true); [|congruence]. apply (over_marks c N sel f o T v V Fl t Lt l w); auto.
    + intros ->. rewrite Fo in Fw. destruct f; discriminate.
    + rewrite Hw, Hr. auto.
  - assert (Un : forall w, left_of o w -> firstop o w = negb f -> sp c o w t = true -> h o w t <> h o l t).
    { intros w Lw Fw Sw Q. apply Off. apply (piece_meets2 t r w); auto. rewrite Q, Hr. auto. }
    destruct Cv as [Cv|Cv]; [contradiction|].
    rewrite <- (parity_at2 t r g Gt Ig Sg Er Off), Hr in Cv.
    rewrite <- (parity_beside c G sel f Ee o T v V Fl t Gt Lt l Ll Fo Sl Un) in Cv. congruence.
Qed.
Lemma outer_piece l x : In l outer -> on_seg (piece o l) x -> x <> seg_start (piece o l) -> x <> seg_end (piece o l) -> ~ covered rs x.
Proof.
  intros Il Ox Ns Ne Cv. assert (Il' := Il). apply outer_In in Il'. destruct Il' as (Ll & Fo & Wo & Wk).
  destruct (linear_done l Ll Fo) as (P & _ & _ & _ & El).
  assert (Px := proj1 (piece_X first second eps o l x W Ll) Ox). destruct Px as (P1 & P2 & P3).
  change (S' o l <= X x) in P1. change (X x <= E' o l) in P2. change (py x = h o l (X x)) in P3.
  assert (S1 : S' o l < X x).
  { apply Qcle_lt_or_eq in P1. destruct P1 as [Q|Q]; auto. exfalso. apply Ns. apply (same_X first second eps); [symmetry; exact Q|].
    cbn [piece seg_start]. rewrite (w_S c o W l Ll), P3. f_equal. auto. }
  assert (S2 : X x < E' o l).
  { apply Qcle_lt_or_eq in P2. destruct P2 as [Q|Q]; auto. exfalso. apply Ne. apply (same_X first second eps); [exact Q|].
    cbn [piece seg_end]. change (to_event_end o l) with (pt o (opp o l)). rewrite (w_E c o W l Ll), P3. f_equal. auto. }
  destruct (on_segs_dec (outlines rs) x) as [(e & Ie & Oe)|Off].
  - rewrite <- Ers in Ie. assert (Se := sound A B eps Snd (negb f) e Ie). destruct (on_between eps e x Se Oe) as [B1 B2].
    destruct (piece_input2 l Ll) as (g & _ & Ig & Hg & L1 & L2). rewrite Fo in Ig. rewrite <- (negb_involutive f) in Ig.
    assert (Ke : keep (negb f) e = true) by (apply (Cov (negb f) e g Ie Ig); qlra).
    assert (Io : In e (opf (negb f))) by (rewrite (opf_filter A B kA kB); apply filter_In; auto).
    destruct (operand_nth first second eps (negb f) e Io) as (i & Ei & Oi). pose proof (some_lt first second eps i e Ei) as Li.
    destruct (input_lo first second eps i e Ei) as [Q1 Q2].
    destruct (w_cover c o W i (X x) Li) as (w & Lw & Es & M1 & M2).
    { rewrite Q1. exact B1. } { rewrite Q2. exact B2. }
    assert (Fw : firstop o w = negb f) by (rewrite (firstop_opd c o w W), Es; auto).
    assert (Pw : popped o w) by (apply (sp_popped c o T V (X x)); auto; qlra).
    assert (Nl : l <> w) by (intros ->; rewrite Fo in Fw; destruct f; discriminate).
    assert (Hw : h o w (X x) = h o l (X x)).
    { rewrite <- P3. unfold hh. rewrite Es, (H_height first second eps i e _ Ei). symmetry. apply on_height; auto. }
    destruct (i_V _ _ _ C l w (X x)) as [[[Q|Q] _]|[M _]]; auto; try qlra.
    assert (Q : wk v l = true); [|congruence]. apply (mf_over1 _ _ _ _ _ Fl l w); auto.
  - destruct Cv as [Cv|Cv]; [contradiction|].
    assert (Pr : proper_seg (piece o l)) by (apply piece_proper2; auto).
    assert (Sp : sound_edge eps (piece o l)).
    { unfold sound_edge. pose proof (sorted_pair_lt _ Pr) as L. fold (lo (piece o l)) (hi (piece o l)) in L. apply (g_mono c G); auto;
        destruct (lo_hi (piece o l)) as [[Q1 Q2]|[Q1 Q2]]; rewrite ?Q1, ?Q2; try (apply (w_ptS c o W l Ll)); try (apply (w_ptE c o W l Ll)). }
    assert (Sd : Forall (sound_edge eps) (outlines rs)) by (rewrite <- Ers; apply Snd).
    destruct (slide eps (outlines rs) (map (Proof_Sweep.X c) (c_pts c)) (piece o l) x Sp Ox Sd Off) as (x' & Ox' & Nx & Ms).
    assert (Gt : generic c (X x')) by (intros p Ip E; apply Nx; rewrite <- E; apply (in_map (Proof_Sweep.X c)); auto).
    assert (Px := proj1 (piece_X first second eps o l x' W Ll) Ox'). destruct Px as (P1' & P2' & P3').
    destruct (strict2 l (X x') Gt Ll P1' P2') as [P4 P5].
    apply (outer_generic l (X x') x' Il Gt); auto; [apply sp_true; auto|]. right.
    rewrite <- Cv. apply xsum_ext. intros vs I. unfold insideb. rewrite (api_not_crossing vs x x'); auto.
    intros y Oy Sy. apply (Ms y); auto. apply on_outlines. exists vs. auto.
Qed.

(** ** Completeness *)
Lemma outer_complete t g q : In g (full f) -> seg_subset t g -> proper_seg t -> on_seg t q -> (forall x, on_seg t x -> x <> q -> ~ covered rs x) ->
  exists l, In l outer /\ on_seg (piece o l) q.
Proof.
  intros Ig Sub Pt Oq Cv. assert (Sg := sound A B eps Snd f g Ig). fold (sound_edge eps g) in Sg.
  assert (Og := Sub q Oq).
  assert (Ww : exists w, on_seg t w /\ X w <> X q).
  { assert (O1 : on_seg t (seg_start t)) by apply between_start. assert (O2 : on_seg t (seg_end t)) by apply between_end.
    destruct (Qc_eq_dec (X (seg_start t)) (X q)) as [E1|E1]; [|exists (seg_start t); auto].
    exists (seg_end t). split; auto. intros E2. apply Pt. apply (same_X first second eps); [exact (eq_trans E1 (eq_sym E2))|].
    rewrite (on_height eps g _ Sg (Sub _ O1)), (on_height eps g _ Sg (Sub _ O2)), E1, E2. auto. }
  destruct Ww as (w & Ow & Nw).
  assert (Ex : exists u, generic c u /\ ((X q < u /\ u < X w) \/ (X w < u /\ u < X q))
    /\ forall p, In p (c_pts c) -> (X p < u -> X p <= X q) /\ (u < X p -> X q <= X p)).
  { destruct (Qclt_le_dec (X q) (X w)) as [L|L].
    - destruct (gap_exists c (X q)) as (u0 & U0).
      destruct (qmid (X q) (if qltb u0 (X w) then u0 else X w)) as (u & U1 & U2); [destruct (qltb u0 (X w)); [apply U0|auto]|].
      assert (Gu : gap c (X q) u) by (apply (gap_shrink c _ u0); auto; destruct (qltb_spec u0 (X w)); qlra).
      exists u. split; [intros p Ip; apply (gap_not c (X q)); auto|]. split; [left; split; auto; destruct (qltb_spec u0 (X w)); qlra|].
      intros p Ip. split; intros Q.
      + apply Qcnot_lt_le. intros Q'. pose proof (proj2 Gu p Ip Q') as Q2. change (u < X p) in Q2. qlra.
      + destruct Gu as [Gu _]. qlra.
    - assert (L' : X w < X q) by (apply Qcle_lt_or_eq in L; destruct L; [auto|congruence]).
      destruct (gap_below c (X q)) as (u0 & U0 & Gu).
      destruct (qmid (if qltb u0 (X w) then X w else u0) (X q)) as (u & U1 & U2); [destruct (qltb u0 (X w)); auto|].
      assert (M1 : u0 < u /\ X w < u) by (destruct (qltb_spec u0 (X w)); split; qlra).
      assert (Bl : forall p, In p (c_pts c) -> X p < X q -> X p < u) by (intros p Ip Q; pose proof (Gu p Ip Q) as Q2; change (X p < u0) in Q2; qlra).
      exists u. split; [|split; [right; split; auto; apply M1|]].
      + intros p Ip E. change (X p = u) in E. assert (Q : X p < X q) by qlra. pose proof (Bl p Ip Q). qlra.
      + intros p Ip. split; intros Q; [qlra|]. apply Qcnot_lt_le. intros Q'. pose proof (Bl p Ip Q'). qlra. }
  destruct Ex as (u & Gu & Bu & Gp).
  set (z := (u - X q) / (X w - X q)). set (r := lerp q w z).
  assert (Dz : X w - X q <> 0) by (intros E; apply Nw; qlra).
  assert (Er : X r = u).
  { unfold r. assert (E : X (lerp q w z) = X q + z * (X w - X q)) by (unfold Xs, lerp; cbn; ring). rewrite E. unfold z.
    set (a := X q) in *. set (b := X w) in *. clearbody a b. field. auto. }
  assert (Or : on_seg t r).
  { apply (between_trans _ _ q w r Oq Ow). exists z. unfold r. split; [|split; auto];
      unfold z; set (a := X q) in *; set (b := X w) in *; clearbody a b; clear - Bu Dz; destruct Bu as [[B1 B2]|[B1 B2]].
    - apply Qcmult_lt_0_le_reg_r with (b - a); [qlra|]. replace (0 * (b - a)) with 0 by ring. replace ((u - a) / (b - a) * (b - a)) with (u - a) by (field; auto). qlra.
    - apply Qcmult_lt_0_le_reg_r with (a - b); [qlra|]. replace (0 * (a - b)) with 0 by ring. replace ((u - a) / (b - a) * (a - b)) with (a - u) by (field; auto). qlra.
    - apply Qcmult_lt_0_le_reg_r with (b - a); [qlra|]. replace ((u - a) / (b - a) * (b - a)) with (u - a) by (field; auto). qlra.
    - apply Qcmult_lt_0_le_reg_r with (a - b); [qlra|]. replace ((u - a) / (b - a) * (a - b)) with (a - u) by (field; auto). qlra. }
  assert (Nrq : r <> q) by (intros E; rewrite E in Er; destruct Bu as [[B1 B2]|[B1 B2]]; qlra).
  assert (Ogr := Sub r Or). assert (Cr := Cv r Or Nrq).
  assert (Hr : py r = height eps g u) by (rewrite <- Er; apply on_height; auto).
  assert (Io : In g (opf f)) by (rewrite (opf_filter A B kA kB); apply filter_In; auto).
  destruct (operand_nth first second eps f g Io) as (i & Ei & Oi). pose proof (some_lt first second eps i g Ei) as Li.
  destruct (input_lo first second eps i g Ei) as [Q1 Q2].
  destruct (on_between eps g r Sg Ogr) as [Bg1 Bg2]. rewrite Er in Bg1, Bg2.
  destruct (w_cover c o W i u Li) as (l & Ll & Es & L1 & L2).
  { rewrite Q1. exact Bg1. } { rewrite Q2. exact Bg2. }
  destruct (strict2 l u Gu Ll L1 L2) as [S1 S2]. assert (Sl : sp c o l u = true) by (apply sp_true; auto).
  assert (Fo : firstop o l = f) by (rewrite (firstop_opd c o l W), Es; auto).
  assert (Hl : forall x, h o l x = height eps g x) by (intros x; unfold hh; rewrite Es; apply (H_height first second eps); auto).
  destruct (w_in c o W l Ll) as [J1 J2]. rewrite Es, Q1 in J1. rewrite Es, Q2 in J2.
  change (X (lo g) <= S' o l) in J1. change (E' o l <= X (hi g)) in J2.
  assert (Sgu : spanb eps u g = true) by (apply spanb_true; split; qlra).
  destruct (linear_done l Ll Fo) as (Pl & _ & _ & _ & El). assert (Lt : u < T) by qlra.
  exists l. split.
  - apply outer_In. split; auto. split; auto.
    assert (Off : ~ on_segs (outlines rs) r) by (intros O; apply Cr; left; auto).
    assert (Un : forall x, left_of o x -> firstop o x = negb f -> sp c o x u = true -> h o x u <> h o l u).
    { intros x Lx Fx Sx Q. apply Off. apply (piece_meets2 u r x); auto. rewrite Q, Hl. auto. }
    split.
    + rewrite (parity_beside c G sel f Ee o T v V Fl u Gu Lt l Ll Fo Sl Un).
      rewrite Hl, <- Hr, (parity_at2 u r g Gu Ig Sgu Er Off). apply not_true_iff_false. intros Q. apply Cr. right. auto.
    + apply not_true_iff_false. intros Q. destruct (over_beside c N sel f o T v V Fl u Lt l Ll Sl Q) as (x & Lx & Fx & Sx & Hx).
      apply (Un x Lx); auto. rewrite Fo in Fx. destruct (firstop o x), f; auto; congruence.
  - apply (piece_X first second eps o l q W Ll). change (S' o l <= X q /\ X q <= E' o l /\ py q = h o l (X q)).
    rewrite Hl. split; [|split; [|apply on_height; auto]].
    + apply (Gp (pt o l) (w_ptS c o W l Ll)). exact S1.
    + apply (Gp (pt o (opp o l)) (w_ptE c o W l Ll)). exact S2.
Qed.


(** ** The pieces do not cross *)
Lemma outer_apart i j : In i outer -> In j outer -> i <> j -> touch_or_disjoint (piece o i) (piece o j).
Proof.
  intros Ii Ij Ne. apply outer_In in Ii. apply outer_In in Ij. destruct Ii as (Li & Fi & _), Ij as (Lj & Fj & _).
  destruct (linear_done i Li Fi) as (Pi & _ & _ & _ & Ei). destruct (linear_done j Lj Fj) as (Pj & _ & _ & _ & Ej).
  apply meet_ends_tod; auto; try (apply piece_proper2; auto).
  intros p O1 O2. assert (P1 := proj1 (piece_X first second eps o i p W Li) O1). assert (P2 := proj1 (piece_X first second eps o j p W Lj) O2).
  destruct P1 as (A1 & A2 & A3), P2 as (B1 & B2 & B3). set (u := Proof_Sweep.X c p) in *.
  assert (D : (u = S' o i \/ u = E' o i) /\ (u = S' o j \/ u = E' o j)).
  { destruct (Qclt_le_dec u T) as [Lt|Ge]; [|split; right; qlra].
    destruct (i_V _ _ _ C i j u) as [D|[[M M3] _]]; auto; [congruence|]. exfalso.
    pose proof (w_lt c o W i Li). pose proof (w_lt c o W j Lj).
    apply (col_overlap c N o i j W); auto; try qlra. congruence. }
  split; apply (piece_end first second eps); auto; apply D.
Qed.
Lemma outer_nc : non_crossing (map (piece o) outer).
Proof.
  split.
  - apply Forall_forall. intros s I. apply in_map_iff in I. destruct I as (l & <- & I). apply outer_In in I. apply piece_proper2, I.
  - apply FOP_map; [apply NoDup_filter, (mn_nd _ _ _ _ _ _ _ _ Fn)|]. intros x y Ix Iy Ne. apply outer_apart; auto.
Qed.
Lemma outer_sub l : In l outer -> exists g, In g (full f) /\ seg_subset (piece o l) g.
Proof.
  intros Il. apply outer_In in Il. destruct Il as (Ll & Fo & _).
  destruct (piece_input2 l Ll) as (g & _ & Ig & Hg & L1 & L2). rewrite Fo in Ig. exists g. split; auto.
  intros x Ox. assert (Px := proj1 (piece_X first second eps o l x W Ll) Ox). destruct Px as (P1 & P2 & P3).
  change (Proof_Sweep.X c x) with (X x) in *. apply (on_input2 g x (either2 f g Ig)); try qlra. rewrite <- Hg. exact P3.
Qed.
End Full2.
