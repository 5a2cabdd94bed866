(** The sweep of a linear operand against a shaped one, part 4: what the selected pieces of an
    intersection are, in terms of points only. *)
From Coq Require Import QArith Qcanon Bool List Arith Lia Permutation.
From Verif Require Import QcTac Model_Base Model_Utils Model_Geometry Model_Contour Model_Linear Model_Mixed Model_Shaped Spec_Base Spec_Segment Spec_Clip Spec_Contour
  Spec_Relate Spec_Sweep Spec_Shaped
  Proof_Base Proof_Line Proof_SegOps Proof_Contour Proof_Edges Proof_Locate Proof_Locate4 Proof_Sweep Proof_Sweep2 Proof_Sweep3 Proof_Sweep4 Proof_Sweep5 Proof_Sweep6 Proof_Sweep7
  Proof_Sweep8 Proof_Sweep9 Proof_Sweep10 Proof_Sweep11 Proof_Sweep12 Proof_Sweep13 Proof_Sweep14 Proof_Sweep15 Proof_Sweep17 Proof_Sweep18 Proof_Parity
  Proof_Flags Proof_Flags2 Proof_Flags3 Proof_Flags4 Proof_Flags5 Proof_Flags6 Proof_Corner Proof_Region Proof_Select
  Proof_Shaped Proof_Ray Proof_Orient Proof_Nested Proof_Nested2 Proof_Start Proof_Bridge Proof_RelateP Proof_Odd Proof_Clip Proof_RelShaped6
  Proof_Mix1 Proof_Mix2 Proof_Mix3.
Import ListNotations.
Local Open Scope Qc_scope.

Lemma FOP_map {A B} (R : B -> B -> Prop) (g : A -> B) l : NoDup l -> (forall x y, In x l -> In y l -> x <> y -> R (g x) (g y)) ->
  ForallOrdPairs R (map g l).
Proof.
  induction l as [|x l IH]; intros Nd F; [constructor|]. inversion Nd as [|? ? Nx Nl]; subst. cbn [map]. constructor.
  - apply Forall_forall. intros y I. apply in_map_iff in I. destruct I as (z & <- & I). apply F; [left; auto|right; auto|intros ->; contradiction].
  - apply IH; auto. intros a b Ia Ib. apply F; right; auto.
Qed.
Lemma xsum_some {T} (g : T -> bool) l : xsum g l = true -> exists x, In x l /\ g x = true.
Proof.
  induction l as [|x l IH]; [discriminate|]. cbn [xsum]. destruct (g x) eqn:Q; [exists x; split; [left; auto|auto]|].
  rewrite xorb_false_l. intros E. destruct (IH E) as (y & I & Gy). exists y. split; [right; auto|auto].
Qed.

(** The points of a region, with its outlines. *)
Definition covered (rs : list (list point)) (x : point) : Prop :=
  on_segs (outlines rs) x \/ xsum (fun vs => insideb vs x) rs = true.

(** One operand is linear, the other one is shaped. *)
Section Full1.
Variable f : bool.
Variables (A B : list segment) (kA kB : segment -> bool) (eps : Qc).
Notation X := (Xs eps).
Notation first := (filter kA A). Notation second := (filter kB B).
Notation c := (the_ctx first second eps).
Notation opf := (opf first second).
Notation full := (full A B). Notation keep := (keep kA kB).
Notation int := (map segment_flag first ++ map segment_flag second).
Hypothesis G : good c.
Hypothesis Snd : forall f, Forall (sound_edge eps) (full f).
Hypothesis Ev : even_ends (full (negb f)).
Hypothesis Side : forall e q, In e (full (negb f)) -> on_seg e q -> (forall v, In v (ends_of (full (negb f))) -> X v <> X q) ->
  xsum (below_seg eps q) (full (negb f)) = negb (segment_flag e).
Hypothesis Cov : forall f e g, In e (full f) -> In g (full (negb f)) -> X (lo e) < X (hi g) -> X (lo g) < X (hi e) -> keep f e = true.

Lemma the_evn1 : evn1 c f.
Proof.
  intros i v Li Of L1 L2. destruct (nth_some first second eps i Li) as (g & Eg). destruct (input_lo first second eps i g Eg) as [E1 E2]. rewrite E1 in L1. rewrite E2 in L2.
  rewrite Of. assert (Ig : In g (full f)) by (rewrite <- Of; apply (retained A B kA kB), nth_operand; auto).
  rewrite <- (negb_involutive f) in Ig.
  rewrite <- Nat.negb_odd, count_odd, ends_parity.
  assert (Z : xsum (fun p => pointb p v) (ends_of (opf (negb f))) = xsum (fun p => pointb p v) (ends_of (full (negb f)))).
  { unfold ends_of. rewrite !xsum_flat, (opf_filter A B kA kB). apply xsum_keep. intros e I Ke. cbn [xsum]. rewrite xorb_false_r.
    rewrite !pointb_false; auto; intros Q; rewrite (vertex_kept A B kA kB eps Snd Cov (negb f) e g v) in Ke; auto; try discriminate; apply end_of; auto. }
  rewrite Z, Ev. auto.
Qed.
Lemma the_ori1 : ori1 c int f.
Proof.
  intros i j t Li Lj Of Op Gt Si Sj. destruct (nth_some first second eps i Li) as (g & Eg). destruct (nth_some first second eps j Lj) as (e & Ee).
  rewrite (spans_span first second eps i g t Eg) in Si. rewrite (spans_span first second eps j e t Ee) in Sj.
  rewrite (int_flag A B kA kB j e Ee). assert (Oj : opd c j = negb f) by (rewrite <- Of; destruct (opd c i), (opd c j); auto; destruct Op; auto).
  rewrite Oj.
  assert (Ie : In e (full (negb f))) by (rewrite <- Oj; apply (retained A B kA kB), nth_operand; auto).
  assert (Ig : In g (full (negb (negb f)))) by (rewrite negb_involutive, <- Of; apply (retained A B kA kB), nth_operand; auto).
  rewrite (H_height first second eps j e t Ee).
  change (xsum (fun m => bel c m t (height eps e t)) (idx c (negb f))) with (inp c t (negb f) (height eps e t)).
  rewrite (inp_below first second eps G t (negb f)).
  rewrite (same_spanning A B kA kB eps Cov (negb f) g t); auto; [|intros x I; apply (below_span A B eps Snd (negb f)); auto].
  rewrite (Side e (spot eps t (height eps e t))); auto; [destruct (segment_flag e); auto| |].
  - apply spanb_true in Sj. apply between_on with (eps := eps); [exact (sound A B eps Snd (negb f) e Ie)| | |]; rewrite spot_X; try qlra. reflexivity.
  - intros v Iv. rewrite spot_X. apply (full_generic A B kA kB eps G Snd Cov (negb f) g t); auto.
Qed.

(** A finished run. *)
Notation sel := (fun g x y => Bool.eqb g f && (x || y)).
Hypothesis N : nc c.
Variable rs : list (list point).
Hypothesis Ers : full (negb f) = outlines rs.
Hypothesis Keep : forall g, In g (full f) -> keep f g = true.
Variable limit : Qc.
Hypothesis Lim1 : (forall g, In g (full f) -> px (hi g) <= limit) \/ (forall e, In e (full (negb f)) -> px (hi e) <= limit).
Hypothesis Lim2 : forall g e z, In g (full f) -> In e (full (negb f)) -> z <= px (hi g) -> z <= px (hi e) -> z <= limit.
Hypothesis Up : forall p e, In p (c_pts c) -> In e (full true) \/ In e (full false) -> X p < X (hi e) -> px p <= px (hi e).
Variables (m : mixed_operation) (T : Qc) (ev : list event).
Hypothesis Fn : mfinished c sel f false limit m T ev.
Notation o := (mo m).
Notation v := (mview_of m).
Notation S' := (SX c). Notation E' := (EX c). Notation h := (hh c).
Let V : inv c o T := mn_inv _ _ _ _ _ _ _ _ Fn.
Let C : core c o T := v_core c o T V.
Let W : wf c o := i_wf _ _ _ C.
Let Fl : mflags c sel f o v := mn_flags _ _ _ _ _ _ _ _ Fn.

Lemma limits : (forall i, In i (idx c f) -> px (snd (input c i)) <= limit)
  \/ (forall i, In i (idx c (negb f)) -> px (snd (input c i)) <= limit).
Proof.
  assert (Q : forall b, (forall e, In e (full b) -> px (hi e) <= limit) -> forall i, In i (idx c b) -> px (snd (input c i)) <= limit).
  { clear - A. intros b L i I. apply idx_In in I. destruct I as [Li Oi]. destruct (nth_some first second eps i Li) as (e & E).
    destruct (input_lo first second eps i e E) as [_ ->]. apply L. rewrite <- Oi. apply (retained A B kA kB), nth_operand; auto. }
  destruct Lim1 as [L|L]; [left|right]; apply (Q _ L).
Qed.
Lemma piece_input l : left_of o l -> exists g, nth_error (first ++ second) (sid o l) = Some g /\ In g (full (firstop o l))
  /\ (forall t, h o l t = height eps g t) /\ X (lo g) <= S' o l /\ E' o l <= X (hi g).
Proof.
  clear - G W. intros Ll. pose proof (w_sid c o W l Ll) as Ls. destruct (nth_some first second eps _ Ls) as (g & E). exists g. split; auto.
  split; [rewrite (firstop_opd c o l W); apply (retained A B kA kB), nth_operand; auto|].
  split; [intros t; unfold hh; apply (H_height first second eps); auto|].
  destruct (w_in c o W l Ll) as [J1 J2]. destruct (input_lo first second eps _ g E) as [E1 E2]. rewrite E1 in J1. rewrite E2 in J2. auto.
Qed.
Lemma on_input g q : In g (full true) \/ In g (full false) -> X (lo g) <= X q -> X q <= X (hi g) -> py q = height eps g (X q) -> on_seg g q.
Proof. intros I. apply between_on. destruct I as [I|I]; apply (sound A B eps Snd _ g I). Qed.
Lemma either b (g : segment) : In g (full b) -> In g (full true) \/ In g (full false).
Proof. destruct b; auto. Qed.
Lemma strict l t : generic c t -> left_of o l -> S' o l <= t -> t <= E' o l -> S' o l < t /\ t < E' o l.
Proof.
  intros Gt Ll L1 L2. pose proof (Gt _ (w_ptS c o W l Ll)). pose proof (Gt _ (w_ptE c o W l Ll)). unfold SX, EX in *.
  split; [apply Qcle_lt_or_eq in L1; destruct L1; auto; congruence|apply Qcle_lt_or_eq in L2; destruct L2; auto; congruence].
Qed.
(** Edges of the shaped operand at a generic column where a linear edge is. *)
Lemma meets_piece t r g : generic c t -> In g (full f) -> spanb eps t g = true -> X r = t -> on_segs (outlines rs) r ->
  exists w, left_of o w /\ firstop o w = negb f /\ sp c o w t = true /\ h o w t = py r.
Proof.
  intros Gt Ig Sg Er (e & Ie & Oe). rewrite <- Ers in Ie. rewrite <- (negb_involutive f) in Ig.
  assert (Se := sound A B eps Snd (negb f) e Ie). destruct (on_between eps e r Se Oe) as [B1 B2]. rewrite Er in B1, B2.
  assert (Gf := full_generic A B kA kB eps G Snd Cov (negb f) g t Ig Sg Gt).
  assert (Ee : X (lo e) <> t /\ X (hi e) <> t).
  { split; apply Gf; unfold ends_of; apply in_flat_map; exists e; (split; [auto|]); destruct (lo_hi e) as [[Q1 Q2]|[Q1 Q2]]; rewrite ?Q1, ?Q2; cbn; auto. }
  assert (Ke : keep (negb f) e = true).
  { apply spanb_true in Sg. apply (Cov (negb f) e g Ie Ig); [qlra|]. destruct Ee as [_ Ee]. apply Qcle_lt_or_eq in B2. destruct B2; [qlra|congruence]. }
  assert (Io : In e (opf (negb f))) by (rewrite (opf_filter A B kA kB); apply filter_In; auto).
  destruct (operand_nth first second eps (negb f) e Io) as (i & Ei & Oi). pose proof (some_lt first second eps i e Ei) as Li.
  destruct (input_lo first second eps i e Ei) as [Q1 Q2].
  destruct (w_cover c o W i t Li) as (w & Lw & Es & L1 & L2).
  { rewrite Q1. exact B1. } { rewrite Q2. exact B2. }
  exists w. split; auto. split; [rewrite (firstop_opd c o w W), Es; auto|]. split; [apply sp_true, strict; auto|].
  unfold hh. rewrite Es, (H_height first second eps i e t Ei). rewrite <- Er. symmetry. apply on_height; auto.
Qed.
Lemma piece_meets t r w : left_of o w -> firstop o w = negb f -> sp c o w t = true -> X r = t -> h o w t = py r -> on_segs (outlines rs) r.
Proof.
  intros Lw Fw Sw Er Hw. destruct (piece_input w Lw) as (e & _ & Ie & He & L1 & L2). rewrite Fw in Ie. rewrite <- Ers. exists e. split; auto.
  apply sp_true in Sw. apply (on_input e r (either _ e Ie)); rewrite Er; try qlra. rewrite <- He. auto.
Qed.
Lemma parity_at t r g : generic c t -> In g (full f) -> spanb eps t g = true -> X r = t -> ~ on_segs (outlines rs) r ->
  inp c t (negb f) (py r) = xsum (fun vs => insideb vs r) rs.
Proof.
  intros Gt Ig Sg Er Off. rewrite <- (negb_involutive f) in Ig. assert (Gf := full_generic A B kA kB eps G Snd Cov (negb f) g t Ig Sg Gt).
  rewrite (insideb_outlines rs r Off). rewrite (parity_below eps); [|auto|rewrite <- Ers, Er; auto|rewrite <- Ers; auto].
  rewrite (inp_below first second eps G t (negb f)).
  rewrite (same_spanning A B kA kB eps Cov (negb f) g t); auto; [|intros x I; apply (below_span A B eps Snd (negb f)); auto].
  rewrite Ers. assert (Sp : spot eps t (py r) = r); [|rewrite Sp; auto]. rewrite <- Er. unfold spot, Xs. apply point_ext; cbn [px py]; ring.
Qed.

(** ** Soundness *)
Lemma sound_generic l t r : In l (chosen_of m ev) -> generic c t -> sp c o l t = true -> X r = t -> py r = h o l t -> covered rs r.
Proof.
  intros Il Gt Sl Er Hr.
  pose proof (chosen_of_E c G N sel f the_evn1 (fun _ _ _ => eq_refl) limit m T ev Fn limits l Il) as El.
  apply (chosen_of_In c sel f limit m T ev Fn) in Il. destruct Il as (P & R & Li). assert (Ll : left_of o l) by apply P.
  destruct (chosen_linear c sel f (fun _ _ _ => eq_refl) limit m T ev Fn l P R) as [Fo Kd].
  destruct (piece_input l Ll) as (g & _ & Ig & Hg & L1 & L2). rewrite Fo in Ig. assert (Sl' := Sl). apply sp_true in Sl'.
  assert (Lt : t < T) by qlra.
  assert (Sg : spanb eps t g = true) by (apply spanb_true; split; qlra).
  destruct (on_segs_dec (outlines rs) r) as [O|Off]; [left; auto|right].
  assert (Un : forall w, left_of o w -> firstop o w = negb f -> sp c o w t = true -> h o w t <> h o l t).
  { intros w Lw Fw Sw Q. apply Off. apply (piece_meets t r w); auto. rewrite Q, Hr. auto. }
  rewrite <- (parity_at t r g Gt Ig Sg Er Off), Hr.
  rewrite <- (parity_beside c G sel f the_evn1 o T v V Fl t Gt Lt l Ll Fo Sl Un).
  destruct Kd as [Kd|Kd]; auto. exfalso.
  destruct (over_beside c N sel f o T v V Fl t Lt l Ll Sl Kd) as (w & Lw & Fw & Sw & Hw).
  apply (Un w Lw); auto. rewrite Fo in Fw. destruct (firstop o w), f; auto; congruence.
Qed.
Lemma piece_proper l : left_of o l -> proper_seg (piece o l).
Proof.
  intros Ll E. apply (Qclt_not_eq _ _ (w_lt c o W l Ll)). unfold SX, EX. f_equal. exact E.
Qed.
Lemma sound_piece l x : In l (chosen_of m ev) -> on_seg (piece o l) x -> covered rs x.
Proof.
  intros Il Ox. assert (Il' := Il). apply (chosen_of_In c sel f limit m T ev Fn) in Il'. destruct Il' as (P & _ & _). assert (Ll : left_of o l) by apply P.
  destruct (on_segs_dec (outlines rs) x) as [O|Off]; [left; auto|right].
  destruct (xsum (fun vs => insideb vs x) rs) eqn:Q; auto. exfalso.
  assert (Sp : sound_edge eps (piece o l)).
  { pose proof (w_lt c o W l Ll) as Lt. unfold sound_edge. assert (Pr : proper_seg (piece o l)).
    { apply piece_proper; auto. }
    pose proof (sorted_pair_lt _ Pr) as L. fold (lo (piece o l)) (hi (piece o l)) in L. apply (g_mono c G); auto;
      destruct (lo_hi (piece o l)) as [[Q1 Q2]|[Q1 Q2]]; rewrite ?Q1, ?Q2; try (apply (w_ptS c o W l Ll)); try (apply (w_ptE c o W l Ll)). }
  assert (Sd : Forall (sound_edge eps) (outlines rs)) by (rewrite <- Ers; apply Snd).
  destruct (slide eps (outlines rs) (map (Proof_Sweep.X c) (c_pts c)) (piece o l) x Sp Ox Sd Off) as (x' & Ox' & Nx & Ms).
  assert (Gt : generic c (X x')) by (intros p Ip E; apply Nx; rewrite <- E; apply (in_map (Proof_Sweep.X c)); auto).
  assert (Px := proj1 (piece_X first second eps o l x' W Ll) Ox'). destruct Px as (P1 & P2 & P3).
  destruct (strict l (X x') Gt Ll P1 P2) as [P4 P5].
  destruct (sound_generic l (X x') x' Il Gt) as [O|O]; auto; [apply sp_true; auto| |].
  - apply (Ms x'); auto. apply between_end.
  - rewrite (xsum_ext _ (fun vs => insideb vs x)) in O; [congruence|]. intros vs I. unfold insideb. rewrite (api_not_crossing vs x x'); auto.
    intros y Oy Sy. apply (Ms y); auto. apply on_outlines. exists vs. auto.
Qed.

(** ** Completeness *)
Lemma complete t g q : In g (full f) -> seg_subset t g -> proper_seg t -> on_seg t q -> (forall x, on_seg t x -> x <> q -> covered rs x) ->
  exists l, In l (chosen_of m ev) /\ on_seg (piece o l) q.
Proof.
  intros Ig Sub Pt Oq Cv. assert (Sg := sound A B eps Snd f g Ig). fold (sound_edge eps g) in Sg.
  assert (Og := Sub q Oq).
  assert (Ww : exists w, on_seg t w /\ X w <> X q).
  { assert (O1 : on_seg t (seg_start t)) by apply between_start. assert (O2 : on_seg t (seg_end t)) by apply between_end.
    destruct (Qc_eq_dec (X (seg_start t)) (X q)) as [E1|E1]; [|exists (seg_start t); auto].
    exists (seg_end t). split; auto. intros E2. apply Pt. apply (same_X first second eps); [exact (eq_trans E1 (eq_sym E2))|].
    rewrite (on_height eps g _ Sg (Sub _ O1)), (on_height eps g _ Sg (Sub _ O2)), E1, E2. auto. }
  destruct Ww as (w & Ow & Nw).
  assert (Ex : exists u, generic c u /\ ((X q < u /\ u < X w) \/ (X w < u /\ u < X q))
    /\ forall p, In p (c_pts c) -> (X p < u -> X p <= X q) /\ (u < X p -> X q <= X p)).
  { destruct (Qclt_le_dec (X q) (X w)) as [L|L].
    - destruct (gap_exists c (X q)) as (u0 & U0).
      destruct (qmid (X q) (if qltb u0 (X w) then u0 else X w)) as (u & U1 & U2); [destruct (qltb u0 (X w)); [apply U0|auto]|].
      assert (Gu : gap c (X q) u) by (apply (gap_shrink c _ u0); auto; destruct (qltb_spec u0 (X w)); qlra).
      exists u. split; [intros p Ip; apply (gap_not c (X q)); auto|]. split; [left; split; auto; destruct (qltb_spec u0 (X w)); qlra|].
      intros p Ip. split; intros Q.
      + apply Qcnot_lt_le. intros Q'. pose proof (proj2 Gu p Ip Q') as Q2. change (u < X p) in Q2. qlra.
      + destruct Gu as [Gu _]. qlra.
    - assert (L' : X w < X q) by (apply Qcle_lt_or_eq in L; destruct L; [auto|congruence]).
      destruct (gap_below c (X q)) as (u0 & U0 & Gu).
      destruct (qmid (if qltb u0 (X w) then X w else u0) (X q)) as (u & U1 & U2); [destruct (qltb u0 (X w)); auto|].
      assert (M1 : u0 < u /\ X w < u) by (destruct (qltb_spec u0 (X w)); split; qlra).
      assert (Bl : forall p, In p (c_pts c) -> X p < X q -> X p < u) by (intros p Ip Q; pose proof (Gu p Ip Q) as Q2; change (X p < u0) in Q2; qlra).
      exists u. split; [|split; [right; split; auto; apply M1|]].
      + intros p Ip E. change (X p = u) in E. assert (Q : X p < X q) by qlra. pose proof (Bl p Ip Q). qlra.
      + intros p Ip. split; intros Q; [qlra|]. apply Qcnot_lt_le. intros Q'. pose proof (Bl p Ip Q'). qlra. }
  destruct Ex as (u & Gu & Bu & Gp).
  set (z := (u - X q) / (X w - X q)). set (r := lerp q w z).
  assert (Dz : X w - X q <> 0) by (intros E; apply Nw; qlra).
  assert (Er : X r = u).
  { unfold r. assert (E : X (lerp q w z) = X q + z * (X w - X q)) by (unfold Xs, lerp; cbn; ring). rewrite E. unfold z.
    set (a := X q) in *. set (b := X w) in *. clearbody a b. field. auto. }
  assert (Or : on_seg t r).
  { apply (between_trans _ _ q w r Oq Ow). exists z. unfold r. split; [|split; auto];
      unfold z; set (a := X q) in *; set (b := X w) in *; clearbody a b; clear - Bu Dz; destruct Bu as [[B1 B2]|[B1 B2]].
    - apply Qcmult_lt_0_le_reg_r with (b - a); [qlra|]. replace (0 * (b - a)) with 0 by ring. replace ((u - a) / (b - a) * (b - a)) with (u - a) by (field; auto). qlra.
    - apply Qcmult_lt_0_le_reg_r with (a - b); [qlra|]. replace (0 * (a - b)) with 0 by ring. replace ((u - a) / (b - a) * (a - b)) with (a - u) by (field; auto). qlra.
    - apply Qcmult_lt_0_le_reg_r with (b - a); [qlra|]. replace ((u - a) / (b - a) * (b - a)) with (u - a) by (field; auto). qlra.
    - apply Qcmult_lt_0_le_reg_r with (a - b); [qlra|]. replace ((u - a) / (b - a) * (a - b)) with (a - u) by (field; auto). qlra. }
  assert (Nrq : r <> q) by (intros E; rewrite E in Er; destruct Bu as [[B1 B2]|[B1 B2]]; qlra).
  assert (Ogr := Sub r Or). assert (Cr := Cv r Or Nrq).
  assert (Hr : py r = height eps g u) by (rewrite <- Er; apply on_height; auto).
  assert (Io : In g (opf f)) by (rewrite (opf_filter A B kA kB); apply filter_In; auto).
  destruct (operand_nth first second eps f g Io) as (i & Ei & Oi). pose proof (some_lt first second eps i g Ei) as Li.
  destruct (input_lo first second eps i g Ei) as [Q1 Q2].
  destruct (on_between eps g r Sg Ogr) as [Bg1 Bg2]. rewrite Er in Bg1, Bg2.
  destruct (w_cover c o W i u Li) as (l & Ll & Es & L1 & L2).
  { rewrite Q1. exact Bg1. } { rewrite Q2. exact Bg2. }
  destruct (strict l u Gu Ll L1 L2) as [S1 S2]. assert (Sl : sp c o l u = true) by (apply sp_true; auto).
  assert (Fo : firstop o l = f) by (rewrite (firstop_opd c o l W), Es; auto).
  assert (Hl : forall x, h o l x = height eps g x) by (intros x; unfold hh; rewrite Es; apply (H_height first second eps); auto).
  destruct (w_in c o W l Ll) as [J1 J2]. rewrite Es, Q1 in J1. rewrite Es, Q2 in J2.
  change (X (lo g) <= S' o l) in J1. change (E' o l <= X (hi g)) in J2.
  assert (Sgu : spanb eps u g = true) by (apply spanb_true; split; qlra).
  (* an edge of the shaped operand ends later *)
  assert (Ed : exists e, In e (full (negb f)) /\ u < X (hi e)).
  { destruct Cr as [O|O].
    - destruct (meets_piece u r g Gu Ig Sgu Er O) as (x & Lx & Fx & Sx & _). destruct (piece_input x Lx) as (e & _ & Ie & _ & _ & L4).
      rewrite Fx in Ie. exists e. split; auto. apply sp_true in Sx. qlra.
    - destruct (on_segs_dec (outlines rs) r) as [O'|Off].
      { destruct (meets_piece u r g Gu Ig Sgu Er O') as (x & Lx & Fx & Sx & _). destruct (piece_input x Lx) as (e & _ & Ie & _ & _ & L4).
        rewrite Fx in Ie. exists e. split; auto. apply sp_true in Sx. qlra. }
      rewrite <- (parity_at u r g Gu Ig Sgu Er Off), (inp_below first second eps G) in O. apply xsum_some in O. destruct O as (e & Ie & Be).
      assert (Ie' := retained A B kA kB (negb f) e Ie). exists e. split; auto.
      rewrite (below_height eps e _ (sound A B eps Snd (negb f) e Ie')), spot_X in Be.
      apply andb_true_iff in Be. destruct Be as [Be _]. apply andb_true_iff in Be. destruct Be as [_ Be]. apply qltb_true in Be. auto. }
  destruct Ed as (e & Ie & Lue).
  assert (Le : forall p, In p (c_pts c) -> X p <= u -> px p <= limit).
  { intros p Ip Q. apply (Lim2 g e); auto; apply (Up p); auto; try (apply (either f), Ig); try (apply (either (negb f)), Ie); qlra. }
  assert (Li2 : px (pt o l) <= limit) by (apply Le; [apply (w_ptS c o W); auto|]; unfold SX in S1; change (X (pt o l) < u) in S1; qlra).
  assert (Pl : popped o l).
  { split; auto. intros I. apply (mn_queue _ _ _ _ _ _ _ _ Fn) in I. qlra. }
  assert (Lt : u < T).
  { destruct (mn_last _ _ _ _ _ _ _ _ Fn) as [Q|(p & Ip & Xp & Np)].
    - assert (E' o l <= T) by (apply (i_E _ _ _ C); split; auto; rewrite Q; auto). qlra.
    - apply Qcnot_le_lt. intros Q. rewrite <- Xp in Q. pose proof (Le p Ip Q). qlra. }
  exists l. split.
  - apply (chosen_of_In c sel f limit m T ev Fn). split; auto. split; auto.
    rewrite (mf_result _ _ _ _ _ Fl l Pl), Fo, Bool.eqb_reflx. cbn [andb]. apply orb_true_iff.
    destruct (on_segs_dec (outlines rs) r) as [O|Off].
    + right. destruct (meets_piece u r g Gu Ig Sgu Er O) as (x & Lx & Fx & Sx & Hx).
      apply (over_marks c N sel f o T v V Fl u Lt l x); auto.
      * intros ->. rewrite Fo in Fx. destruct f; discriminate.
      * rewrite Hl, Hx, Hr. auto.
    + left. assert (Un : forall x, left_of o x -> firstop o x = negb f -> sp c o x u = true -> h o x u <> h o l u).
      { intros x Lx Fx Sx Q. apply Off. apply (piece_meets u r x); auto. rewrite Q, Hl. auto. }
      rewrite (parity_beside c G sel f the_evn1 o T v V Fl u Gu Lt l Ll Fo Sl Un).
      rewrite Hl, <- Hr, (parity_at u r g Gu Ig Sgu Er Off). destruct Cr as [O|O]; [contradiction|auto].
  - apply (piece_X first second eps o l q W Ll). change (S' o l <= X q /\ X q <= E' o l /\ py q = h o l (X q)).
    rewrite Hl. split; [|split; [|apply on_height; auto]].
    + apply (Gp (pt o l) (w_ptS c o W l Ll)). exact S1.
    + apply (Gp (pt o (opp o l)) (w_ptE c o W l Ll)). exact S2.
Qed.

(** ** The pieces do not cross *)
Lemma apart_pieces i j : In i (chosen_of m ev) -> In j (chosen_of m ev) -> i <> j -> touch_or_disjoint (piece o i) (piece o j).
Proof.
  intros Ii Ij Ne.
  assert (Pr : forall l, In l (chosen_of m ev) -> left_of o l /\ proper_seg (piece o l)).
  { intros l Il. apply (chosen_of_In c sel f limit m T ev Fn) in Il. destruct Il as (P & _). assert (Ll : left_of o l) by apply P. split; auto.
    apply piece_proper; auto. }
  destruct (Pr i Ii) as [Li Pi]. destruct (Pr j Ij) as [Lj Pj]. apply meet_ends_tod; auto.
  intros p O1 O2. assert (P1 := proj1 (piece_X first second eps o i p W Li) O1). assert (P2 := proj1 (piece_X first second eps o j p W Lj) O2).
  destruct P1 as (A1 & A2 & A3), P2 as (B1 & B2 & B3).
  destruct (chosen_of_meet c G N sel f the_evn1 (fun _ _ _ => eq_refl) limit m T ev Fn limits i j (Proof_Sweep.X c p) Ii Ij Ne A1 A2 B1 B2) as [D1 D2].
  { rewrite <- A3. exact B3. }
  split; apply (piece_end first second eps); auto.
Qed.
Lemma reduce_pieces : reduce_mixed m ev = map (piece o) (chosen_of m ev).
Proof.
  unfold reduce_mixed, chosen_of. assert (E : filter (fun e => flag (mo_result m) (left_event_to_position (to_left_event o e))) ev = filter (fun l => wr v l) ev).
  { apply filter_ext_in. intros a I. apply (mn_ev _ _ _ _ _ _ _ _ Fn) in I. destruct I as (_ & _ & [Q|Q] & _); [discriminate|].
    unfold to_left_event. rewrite Q. reflexivity. }
  rewrite E. apply map_ext. reflexivity.
Qed.
Lemma pieces_nc : non_crossing (map (piece o) (chosen_of m ev)).
Proof.
  split.
  - apply Forall_forall. intros s I. apply in_map_iff in I. destruct I as (l & <- & I). apply (chosen_of_In c sel f limit m T ev Fn) in I.
    destruct I as ((Ll & _) & _). apply piece_proper; auto.
  - apply FOP_map; [apply NoDup_filter, (mn_nd _ _ _ _ _ _ _ _ Fn)|]. intros x y Ix Iy Ne. apply apart_pieces; auto.
Qed.
Lemma piece_sub l : In l (chosen_of m ev) -> exists g, In g (full f) /\ seg_subset (piece o l) g.
Proof.
  intros Il. apply (chosen_of_In c sel f limit m T ev Fn) in Il. destruct Il as (P & R & _). assert (Ll : left_of o l) by apply P.
  destruct (chosen_linear c sel f (fun _ _ _ => eq_refl) limit m T ev Fn l P R) as [Fo _].
  destruct (piece_input l Ll) as (g & _ & Ig & Hg & L1 & L2). rewrite Fo in Ig. exists g. split; auto.
  intros x Ox. assert (Px := proj1 (piece_X first second eps o l x W Ll) Ox). destruct Px as (P1 & P2 & P3).
  change (Proof_Sweep.X c x) with (X x) in *. apply (on_input g x (either f g Ig)); try qlra. rewrite <- Hg. exact P3.
Qed.
End Full1.
