(** The clipping of two polygons, given what their segments and the filters satisfy. *)
From Coq Require Import QArith Qcanon Bool List Arith Lia Permutation Sorted.
From Verif Require Import QcTac Model_Base Model_Utils Model_Geometry Model_Contour Model_Linear Model_Mixed Model_Shaped Spec_Base Spec_Segment Spec_Clip Spec_Contour
  Spec_Relate Spec_Sweep Spec_Shaped
  Proof_Base Proof_Line Proof_Contour Proof_Edges Proof_Bounds Proof_Shrink Proof_Locate Proof_Locate4 Proof_Sweep Proof_Sweep2 Proof_Sweep3 Proof_Sweep4 Proof_Sweep5 Proof_Sweep6 Proof_Sweep7
  Proof_Sweep8 Proof_Sweep9 Proof_Sweep10 Proof_Sweep11 Proof_Sweep12 Proof_Sweep13 Proof_Sweep14 Proof_Sweep15 Proof_Sweep18 Proof_Parity
  Proof_Flags Proof_Flags2 Proof_Flags3 Proof_Flags4 Proof_Flags5 Proof_Flags6 Proof_Corner Proof_Region Proof_Select Proof_Draw Proof_Reduce Proof_Reduce2
  Proof_Shaped Proof_Ray Proof_Orient Proof_Nested Proof_Nested2 Proof_Start Proof_Bridge Proof_Limit Proof_Result Proof_Result2 Proof_RelateP Proof_Odd.
Import ListNotations.
Local Open Scope Qc_scope.

Lemma ends_edges vs v : In v (ends_of (edges vs)) -> In v vs.
Proof.
  unfold ends_of. rewrite in_flat_map. intros (e & I & J). apply edges_In in I. destruct I as [I1 I2]. destruct J as [<-|[<-|[]]]; auto.
Qed.

(** The parity below the selected pieces. *)
Section Below.
Variable c : ctx.
Hypothesis G : good c.
Variables (s : shaped_operation) (ev : list event).
Hypothesis W : wf c (so s).
Hypothesis Lf : forall l, In l (L s ev) -> left_of (so s) l.
Lemma inside_below q : inside_L c s ev (Xs (c_eps c) q) (py q) = xsum (fun l => below_seg (c_eps c) q (stretch s l)) (L s ev).
Proof.
  unfold inside_L. apply xsum_ext. intros l I. pose proof (Lf l I) as Ll. unfold below_seg, stretch; cbn [seg_start seg_end].
  pose proof (w_lt c _ W l Ll) as Lt. rewrite (below_line (c_eps c)); [|exact Lt].
  unfold sp. change (Xs (c_eps c) (to_event_start (so s) l)) with (SX c (so s) l).
  change (Xs (c_eps c) (to_event_start (so s) (to_opposite_event (so s) l))) with (EX c (so s) l).
  f_equal. f_equal. unfold line_at.
  change (Xs (c_eps c) (to_event_start (so s) l)) with (SX c (so s) l).
  change (Xs (c_eps c) (to_event_start (so s) (to_opposite_event (so s) l))) with (EX c (so s) l).
  pose proof (h_affine c (so s) l) as Af. pose proof (w_S c _ W l Ll) as Es. pose proof (w_E c _ W l Ll) as Ee.
  pose proof (Af (EX c (so s) l) (SX c (so s) l)) as E1. pose proof (Af (Xs (c_eps c) q) (SX c (so s) l)) as E2.
  rewrite <- Es in E1, E2. rewrite <- Ee in E1.
  set (a := SX c (so s) l) in *. set (b := EX c (so s) l) in *. set (t := Xs (c_eps c) q) in *. set (k := kk c (so s) l) in *.
  set (ya := py (to_event_start (so s) l)) in *. set (yb := py (to_event_start (so s) (to_opposite_event (so s) l))) in *.
  set (ht := hh c (so s) l t) in *. clearbody a b t k ya yb ht.
  assert (D : b - a <> 0) by (intros Z; qlra). rewrite E1. replace (k * (b - a) / (b - a) * (t - a)) with (k * (t - a)) by (field; auto).
  rewrite <- E2. ring.
Qed.
End Below.

(** The polygons that are collected. *)
Definition run_polygons (from_result : shaped_operation -> event -> bool) (fuel : nat) (shape : tree_shape) (limit : option Qc) (first second : list segment) : option (list polygon) :=
  match clip_shaped first second with
  | None => None
  | Some s =>
      match sweep_shaped from_result shape fuel limit s [] with
      | SweepsShaped s events => reduce_shaped s events
      | _ => None
      end
  end.
Lemma run_clips from_result collect fuel shape limit first second l : run_polygons from_result fuel shape limit first second = Some l ->
  clip_polygons from_result collect fuel shape limit first second = clip_of (collect l).
Proof.
  unfold run_polygons, clip_polygons. destruct (clip_shaped first second) as [s|]; [|discriminate].
  destruct (sweep_shaped from_result shape fuel limit s []) as [s' ev| |]; try discriminate. intros ->. auto.
Qed.

Lemma parity_outlines l q : parity (outlines l) q = xsum (fun vs => parity (edges vs) q) l.
Proof.
  induction l as [|vs l IH]; auto. cbn [xsum]. rewrite <- IH. unfold outlines. cbn [flat_map]. unfold parity. rewrite fold_right_app.
  set (z := fold_right _ false (flat_map edges l)). clearbody z. induction (edges vs) as [|e es IHe]; [destruct z; auto|]. cbn [fold_right]. rewrite IHe.
  symmetry. apply xorb_assoc.
Qed.
Lemma insideb_outlines l q : off_outlines l q -> xsum (fun vs => insideb vs q) l = parity (outlines l) q.
Proof.
  intros Off. rewrite parity_outlines. apply xsum_ext. intros vs I. apply insideb_parity. intros O. apply Off. apply on_outlines. exists vs. auto.
Qed.
Lemma even_outlines l : even_ends (outlines l).
Proof. apply even_flat. intros; apply even_edges. Qed.

Lemma final_points s b l v : In v (final s b l) -> exists x, In x l /\ v = to_event_start (so s) x.
Proof.
  intros I. assert (J : In v (shrink_collinear_vertices (outline_of s l))).
  { unfold final in I. cbv zeta in I. destruct b; auto. apply (same_cycle_permutation _ _ (rotate_same_cycle (shrink_collinear_vertices (outline_of s l)))) in I || 
      (eapply Permutation_in; [|exact I]; symmetry; apply same_cycle_permutation, rotate_same_cycle). }
  unfold outline_of in J. destruct l as [|y l]; [destruct J|]. cbn [map] in J.
  destruct (shrink_subsequence (to_event_start (so s) y) (map (to_event_start (so s)) l)) as (u & E & Sb). rewrite E in J.
  destruct J as [<-|J]; [exists y; split; auto; left; auto|]. apply (subsequence_in _ _ _ Sb) in J. apply in_map_iff in J. destruct J as (x & <- & I').
  exists x. split; auto. right; auto.
Qed.

Section Clip.
Variables (ra rb : list (list point)) (kA kB : segment -> bool).
Notation A := (outlines ra). Notation B := (outlines rb).
Notation first := (filter kA A). Notation second := (filter kB B).
Hypothesis NA : non_crossing A.
Hypothesis NB : non_crossing B.
(** The interior of each operand is on the left of its segments. *)
Hypothesis Side : forall (f : bool) eps, rising eps (ends_of (full A B f)) -> forall e q, In e (full A B f) -> on_seg e q ->
  (forall v, In v (ends_of (full A B f)) -> Xs eps v <> Xs eps q) -> xsum (below_seg eps q) (full A B f) = negb (segment_flag e).
Hypothesis Cov : forall (f : bool) e g, In e (full A B f) -> In g (full A B (negb f)) -> px (lo e) <= px (hi g) -> px (lo g) <= px (hi e) -> keep kA kB f e = true.
Variable op2 : bool -> bool -> bool.
Variable sel : bool -> bool -> overlap_kind -> bool.
Hypothesis Se : selects op2 sel.
Hypothesis Zero : forall f : bool, (forall e, In e (full A B f) -> keep kA kB f e = true) \/ (forall a, at2 op2 f a false = false).
Variable from_result : shaped_operation -> event -> bool.
Hypothesis FR : forall s e, from_result s e = sel (is_left_event_from_first_operand (so s) e) (other_flag s e) (kind_of s e).
Variable limit : option Qc.
Hypothesis Lim : match limit with None => True | Some m => exists f : bool,
  (forall a, (if f then op2 false a else op2 a false) = false) /\ forall e, In e (opf first second f) -> px (hi e) <= m end.
Variables (shape : tree_shape) (fuel : nat).
Hypothesis Fuel : (enough (length (first ++ second)) <= fuel)%nat.

Lemma proper_full f : Forall proper_seg (full A B f).
Proof. destruct f; [apply NA|apply NB]. Qed.
Lemma even_full f : even_ends (full A B f).
Proof. destruct f; apply even_outlines. Qed.
Notation points := (all_points (operands first second) ++ ends_of A ++ ends_of B).

Lemma run_near (q : point) : ~ In q points ->
  exists polygons, run_polygons from_result fuel shape limit first second = Some polygons
    /\ Forall nondegenerate (flat_map rings polygons)
    /\ (forall x, on_segs (outlines (flat_map rings polygons)) x -> on_segs A x \/ on_segs B x)
    /\ (~ on_segs A q -> ~ on_segs B q -> parity (outlines (flat_map rings polygons)) q = op2 (parity A q) (parity B q)).
Proof.
  intros Nq. destruct (eps_exists (q :: points)) as (eps & Pe & Mo).
  set (c := the_ctx first second eps).
  assert (Ri : rising eps (q :: points)) by (intros p r Ip Ir L; apply Mo; auto).
  assert (Gq : forall v, In v points -> Xs eps v <> Xs eps q).
  { intros v I E. assert (Nv : v <> q) by (intros ->; contradiction). destruct (lex_total v q) as [[L|L]|L]; [|congruence|].
    - pose proof (Ri v q (or_intror I) (or_introl eq_refl) L). qlra.
    - pose proof (Ri q v (or_introl eq_refl) (or_intror I) L). qlra. }
  assert (Pr : forall s, In s (operands first second) -> lex_lt (fst s) (snd s)).
  { intros s I. unfold operands in I. apply in_map_iff in I. destruct I as (x & <- & I). apply sorted_pair_lt.
    apply in_app_or in I. destruct I as [I|I]; apply filter_In in I; destruct I as [I _]; [pose proof (proj1 NA) as Q|pose proof (proj1 NB) as Q]; rewrite Forall_forall in Q; auto. }
  assert (G : good c).
  { apply good_rising; auto. intros p r Ip Ir. apply Ri; right; apply in_or_app; left; auto. }
  assert (Rf : forall f, rising eps (ends_of (full A B f))).
  { intros f p r Ip Ir. apply Ri; right; apply in_or_app; right; apply in_or_app; destruct f; auto. }
  assert (N1 : non_crossing first) by (apply non_crossing_filter; auto). assert (N2 : non_crossing second) by (apply non_crossing_filter; auto).
  assert (N : nc c) by (apply nc_holds; auto).
  assert (Snd : forall f, Forall (sound_edge eps) (full A B f)).
  { intros f. pose proof (proper_full f) as P. rewrite Forall_forall in *. intros e I. apply sound_proper; auto.
    intros p r Ip Ir. apply (Rf f); unfold ends_of; apply in_flat_map; exists e; auto. }
  assert (InE : forall f e, In e (full A B f) -> In (lo e) (ends_of (full A B f)) /\ In (hi e) (ends_of (full A B f))).
  { intros f e I. split; unfold ends_of; apply in_flat_map; exists e; (split; auto); destruct (lo_hi e) as [[Q1 Q2]|[Q1 Q2]]; [rewrite Q1|rewrite Q1|rewrite Q2|rewrite Q2]; cbn; auto. }
  assert (Cov' : forall (f : bool) e g, In e (full A B f) -> In g (full A B (negb f)) -> Xs eps (lo e) < Xs eps (hi g) -> Xs eps (lo g) < Xs eps (hi e) -> keep kA kB f e = true).
  { assert (Le : forall f g v w, In v (ends_of (full A B f)) -> In w (ends_of (full A B g)) -> Xs eps v < Xs eps w -> px v <= px w).
    { intros f g v w Iv Iw L. apply Qcnot_lt_le. intros Lt. assert (Q : lex_lt w v) by (left; auto).
      assert (J : forall f v, In v (ends_of (full A B f)) -> In v (q :: points)) by (clear; intros f v I; right; apply in_or_app; right; apply in_or_app; destruct f; auto).
      pose proof (Ri w v (J _ _ Iw) (J _ _ Iv) Q). qlra. }
    intros f e g Ie Ig L1 L2. apply (Cov f e g Ie Ig).
    - apply (Le f (negb f)); auto; [apply InE|apply InE]; auto.
    - apply (Le (negb f) f); auto; [apply InE|apply InE]; auto. }
  assert (Ee : evn c) by (apply the_evn; auto; apply even_full).
  assert (Or : ori c (map segment_flag first ++ map segment_flag second)) by (apply the_ori; auto).
  assert (Lim' : match limit with Some m => exists f : bool, (forall a, (if f then op2 false a else op2 a false) = false)
       /\ (forall i, In i (idx c f) -> px (snd (input c i)) <= m) | None => True end).
  { destruct limit as [m|]; auto. destruct Lim as (f & L1 & L2). exists f. split; auto. intros i I. apply idx_In in I. destruct I as [Li Oi].
    destruct (nth_some first second eps i Li) as (e & E). unfold c. rewrite (input_the_ctx first second eps i e E). change (px (hi e) <= m). apply L2.
    pose proof (nth_operand first second eps i e E) as Q. fold c in Q. rewrite Oi in Q. exact Q. }
  destruct (whole_run first second eps N1 N2 G sel (se_once _ _ Se) from_result FR Ee Or shape limit fuel Fuel) as (s & Es & s' & T & ev & Ew & Fn).
  set (int := map segment_flag first ++ map segment_flag second) in *.
  assert (Top0 := the_top A B kA kB eps G Snd even_full Cov' op2 Zero (se_none _ _ Se)).
  assert (Top : forall t, generic c t -> t < T -> op2 (xsum (fun i => spans c i t) (idx c true)) (xsum (fun i => spans c i t) (idx c false)) = false) by (intros t Gt _; apply Top0; auto).
  assert (Cross := cross_none c G N int sel op2 Se Ee Or limit s' T ev Fn Lim').
  destruct (reduce_gives c G N int sel op2 Se Ee Or limit s' T ev Fn Top Cross) as (polygons & cs & turned & Er & Cy & In_ & Nd & Pm & Ng & Un).
  exists polygons. split; [unfold run_polygons; rewrite Es, Ew; exact Er|].
  set (events := match sort_events (so s') (filter (is_event_from_result s') ev) with Some e => e | None => [] end) in *.
  assert (D : drawing (c_eps c) (hh c (so s')) (kk c (so s')) s' (L s' ev) events).
  { destruct (sort_spec c G N int sel limit s' T ev Fn (filter (is_event_from_result s') ev)) as (l' & E & P & So).
    - intros x I. apply filter_In in I. apply (fn_ev _ _ _ _ _ _ _ Fn), I.
    - apply NoDup_filter, (fn_nd _ _ _ _ _ _ _ Fn).
    - unfold events. rewrite E. apply (selected_drawing c G N int sel op2 Se Ee Or limit s' T ev Fn Top Cross); auto. }
  assert (W : wf c (so s')) by (apply (i_wf _ _ _ (v_core c _ T (fn_inv _ _ _ _ _ _ _ Fn)))).
  assert (Lf : forall l, In l (L s' ev) -> left_of (so s') l).
  { intros l I. apply (L_left c int sel limit s' T ev Fn) in I; auto. }

  assert (Cv : forall vs, In vs (flat_map rings polygons) -> exists i, (i < length cs)%nat /\ vs = final s' (turned i) (nth i cs [])).
  { intros vs I. change (flat_map rings polygons) with (flat_map (fun p => border p :: holes p) polygons) in I. apply (Permutation_in _ Pm) in I. apply in_map_iff in I.
    destruct I as (i & <- & I). apply in_seq in I. exists i. split; auto. lia. }
  assert (Pt' : forall l x, In l cs -> In x l -> In (to_event_start (so s') x) points /\ on_segs A (to_event_start (so s') x) \/ True) by auto. clear Pt'.
  assert (Piece : forall l x, In l cs -> In x l -> exists m, In m (L s' ev) /\ (x = m \/ x = to_opposite_event (so s') m)).
  { intros l x Il Ix. apply In_. apply in_flat_map. exists l. split; auto. apply pairs_In. exists x. auto. }
  assert (Ptx : forall x, (exists m, In m (L s' ev) /\ (x = m \/ x = to_opposite_event (so s') m)) -> In (to_event_start (so s') x) points).
  { intros x (m & Im & [-> | ->]); apply in_or_app; left; [apply (w_ptS c _ W)|apply (w_ptE c _ W)]; auto. }
  assert (Sub : forall x, on_segs (outlines (flat_map rings polygons)) x -> on_segs A x \/ on_segs B x).
  { intros x O. apply on_outlines in O. destruct O as (vs & I & O). destruct (Cv vs I) as (i & Li & ->).
    assert (Ic : In (nth i cs []) cs) by (apply nth_In; auto).
    apply (outline_on _ _ _ _ _ _ D) in O; [|apply Cy; auto]. destruct O as (y & Iy & O). destruct (Piece _ _ Ic Iy) as (m & Im & Q).
    assert (Om : on_seg (piece (so s') m) x).
    { unfold stretch in O. destruct Q as [-> | ->]; [exact O|]. rewrite (proj2 (proj2 (dr_op _ _ _ _ _ _ D m Im))) in O.
      unfold on_seg in *. cbn [seg_start seg_end piece] in *. apply between_sym. exact O. }
    pose proof (w_sid c _ W m (Lf m Im)) as Ls. destruct (nth_some first second eps _ Ls) as (e & E).
    assert (Oe : on_seg e x).
    { apply (piece_X first second eps (so s') m x W (Lf m Im)) in Om. destruct Om as (O1 & O2 & O3). fold c in O1, O2, O3.
      apply sorted_pair_on. rewrite <- (input_the_ctx first second eps _ e E). fold c. destruct (w_in c _ W m (Lf m Im)) as [I1 I2].
      apply (between_X c _ _ (left_event_to_segment_id (so s') m) x).
      - symmetry. apply H_start.
      - symmetry. apply H_end; auto.
      - apply input_X; auto.
      - split; [qlra|]. split; [qlra|]. exact O3. }
    apply nth_error_In in E. apply in_app_or in E. destruct E as [E|E]; apply filter_In in E; [left|right]; exists e; tauto. }
  split; [|split; auto].
  - apply Forall_forall. intros vs I. destruct (Cv vs I) as (i & Li & ->). assert (Ic : In (nth i cs []) cs) by (apply nth_In; auto).
    specialize (Ng _ Ic). unfold final. cbv zeta. destruct (turned i); auto. apply (same_cycle_nondegenerate (shrink_collinear_vertices (outline_of s' (nth i cs [])))); auto.
    apply rotate_same_cycle.
  - intros OA OB.
    assert (OR : ~ on_segs (outlines (flat_map rings polygons)) q) by (intros O; apply Sub in O; tauto).
    assert (Ge : forall x, In x events -> Xe (c_eps c) (to_event_start (so s') x) <> Xs (c_eps c) q).
    { intros x I. apply (Gq (to_event_start (so s') x)). apply Ptx. apply (dr_events _ _ _ _ _ _ D); auto. }
    assert (PB : forall f, ~ on_segs (full A B f) q -> parity (full A B f) q = xsum (below_seg eps q) (full A B f)).
    { intros f O. apply parity_below; [auto| |apply even_full]. intros v I. apply Gq. apply in_or_app; right; apply in_or_app; destruct f; auto. }
    pose proof (PB true OA) as PA. pose proof (PB false OB) as PBb. cbn [full] in PA, PBb. rewrite PA, PBb.
    transitivity (xsum (fun vs => xsum (below_seg eps q) (edges vs)) (flat_map rings polygons)).
    { rewrite parity_outlines. apply xsum_ext. intros vs I. apply parity_below; [|  |apply even_edges].
      - intros O. apply OR. apply on_outlines. exists vs. auto.
      - intros v Iv. apply ends_edges in Iv. destruct (Cv vs I) as (i & Li & ->). assert (Ic : In (nth i cs []) cs) by (apply nth_In; auto).
        apply Gq. apply (final_points s' (turned i)) in Iv. destruct Iv as (x & Ix & ->). apply Ptx. apply (Piece _ _ Ic Ix). }
    assert (Pm' : xsum (fun vs => xsum (below_seg eps q) (edges vs)) (flat_map rings polygons)
        = xsum (fun vs => xsum (below_seg eps q) (edges vs)) (map (fun i => final s' (turned i) (nth i cs [])) (seq 0 (length cs)))).
    { apply xsum_perm. exact Pm. }
    rewrite Pm'. etransitivity; [exact (cycles_below _ _ _ _ _ _ D q cs turned Cy Nd In_ Ge)|].
    etransitivity; [symmetry; exact (inside_below c s' ev W Lf q)|].
    assert (Gt : generic c (Xs eps q)).
    { intros p Ip. apply Gq. apply in_or_app. left. exact Ip. }
    etransitivity; [exact (inside_all c G N int sel op2 Se Ee Or limit s' T ev Fn Lim' (Xs eps q) (py q) Gt)|].
    etransitivity; [exact (region_full A B kA kB eps G Snd Cov' op2 Zero (Xs eps q) (py q))|].
    assert (Sp : spot eps (Xs eps q) (py q) = q) by (unfold spot, Xs; apply point_ext; cbn [px py]; ring).
    rewrite Sp. auto.
Qed.

Theorem run_all : exists polygons, run_polygons from_result fuel shape limit first second = Some polygons
  /\ Forall nondegenerate (flat_map rings polygons)
  /\ (forall x, on_segs (outlines (flat_map rings polygons)) x -> on_segs A x \/ on_segs B x)
  /\ forall q, off_outlines ra q -> off_outlines rb q ->
      xsum (fun vs => insideb vs q) (flat_map rings polygons) = op2 (xsum (fun vs => insideb vs q) ra) (xsum (fun vs => insideb vs q) rb).
Proof.
  destruct (shift [] points origin) as (q0 & N0 & _); [intros (x & [] & _)|].
  destruct (run_near q0 N0) as (polygons & Er & Ng & Sub & _). exists polygons. split; auto. split; auto. split; auto.
  intros q OA OB. destruct (shift (A ++ B) points q) as (q' & Nq & Ms).
  { intros O. apply on_segs_app in O. destruct O as [O|O]; [apply OA|apply OB]; auto. }
  destruct (run_near q' Nq) as (polygons' & Er' & _ & _ & E). assert (polygons' = polygons) by congruence. subst polygons'.
  assert (Mm : forall x, on_segs A x \/ on_segs B x -> ~ on_seg (Seg q q') x).
  { intros x [O|O]; destruct O as (e & I & O); apply (Ms e); auto; apply in_or_app; auto. }
  assert (OA' : ~ on_segs A q') by (intros O; apply (Mm q'); [auto|apply between_end]).
  assert (OB' : ~ on_segs B q') by (intros O; apply (Mm q'); [auto|apply between_end]).
  specialize (E OA' OB').
  assert (Same : forall l, (forall x, on_segs (outlines l) x -> on_segs A x \/ on_segs B x) -> xsum (fun vs => insideb vs q) l = parity (outlines l) q').
  { intros l S. rewrite <- insideb_outlines by (intros O; apply S in O; tauto). apply xsum_ext. intros vs I. unfold insideb.
    rewrite (api_not_crossing vs q q'); auto. intros x O. apply Mm, S. apply on_outlines. exists vs. auto. }
  rewrite (Same _ Sub), (Same ra), (Same rb); auto.
Qed.
End Clip.
