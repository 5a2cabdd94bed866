(** The sweep over two shaped operands, part 10: the selected events make a drawing, and what its
    reduction gives. *)
From Coq Require Import QArith Qcanon Bool List Arith Lia Permutation Sorted.
From Verif Require Import QcTac Model_Base Model_Utils Model_Linear Model_Geometry Model_Contour Model_Mixed Model_Shaped Spec_Base Spec_Contour
  Spec_Sweep Proof_Base Proof_Line Proof_Sweep Proof_Sweep2 Proof_Sweep3 Proof_Sweep5 Proof_Sweep7
  Proof_Sweep8 Proof_Sweep9 Proof_Sweep10 Proof_Sweep11 Proof_Sweep12 Proof_Sweep13 Proof_Mesh Proof_Parity
  Proof_Flags Proof_Flags2 Proof_Flags3 Proof_Flags6 Proof_Ring Proof_Loop Proof_Corner Proof_Corner2 Proof_Connect Proof_Region Proof_Select
  Proof_Draw Proof_Shrink Proof_Reduce Proof_Reduce2 Proof_Simple4.
Import ListNotations.
Local Open Scope Qc_scope.

Section Shaped.
Variable c : ctx.
Hypothesis G : good c.
Hypothesis N : nc c.
Variable int : list bool.
Variable sel : bool -> bool -> overlap_kind -> bool.
Variable op2 : bool -> bool -> bool.
Hypothesis Se : selects op2 sel.
Hypothesis Ee : evn c.
Hypothesis Or : ori c int.
Notation S' := (SX c). Notation E' := (EX c). Notation h := (hh c). Notation k := (kk c).
Notation EV := (EVX c). Notation core := (core c). Notation mates := (mates c). Notation qlt := (qlt c).
Variable limit : option Qc.
Variables (s : shaped_operation) (T : Qc) (ev : list event).
Hypothesis Fn : finished c int sel limit s T ev.
Notation o := (so s).
Notation v := (view_of s).
Let V : inv c o T := fn_inv _ _ _ _ _ _ _ Fn.
Let C : core o T := v_core c o T V.
Let W : wf c o := i_wf _ _ _ C.
Let Fl : flags c int sel o nobody v := fn_flags _ _ _ _ _ _ _ Fn.
Hypothesis Top : forall t, generic c t -> t < T ->
  op2 (xsum (fun i => spans c i t) (idx c true)) (xsum (fun i => spans c i t) (idx c false)) = false.
Hypothesis Cross : forall l, popped o l -> vr v l = true -> lim limit (pt o l) ->
  ~ In (opp o l) (op_queue o) /\ lim limit (pt o (opp o l)).
Notation L := (L s ev).

(** Sorting. *)
Lemma insert_spec e l : (e < size o)%nat -> (forall x, In x l -> (x < size o)%nat) -> ~ In e l -> StronglySorted (qlt o) l ->
  exists l', insert_event o e l = Some l' /\ Permutation (e :: l) l' /\ StronglySorted (qlt o) l'.
Proof.
  intros Le. induction l as [|x l IH]; intros B Ne So; cbn [insert_event].
  - exists [e]. split; auto. split; auto. constructor; constructor.
  - assert (Nx : e <> x) by (intros ->; apply Ne; left; auto).
    destruct (queue_key_spec c G N o e x W Le (B x (or_introl eq_refl)) Nx) as (b & -> & Qt & Qf). destruct b.
    + exists (e :: x :: l). split; auto. split; auto. constructor; auto. apply StronglySorted_inv in So. destruct So as [_ F].
      rewrite Forall_forall in F. apply Forall_forall. intros y [<-|I]; auto. apply (qlt_trans c o e x y); auto.
    + apply StronglySorted_inv in So. destruct So as [So F].
      destruct IH as (l' & -> & P & S1); auto; [intros y I; apply B; right; auto|intros I; apply Ne; right; auto|].
      exists (x :: l'). split; auto. split; [rewrite perm_swap; auto|]. constructor; auto.
      rewrite Forall_forall in *. intros y I. apply (Permutation_in _ (Permutation_sym P)) in I. destruct I as [<-|I]; auto.
Qed.
Lemma sort_spec l : (forall x, In x l -> (x < size o)%nat) -> NoDup l ->
  exists l', sort_events o l = Some l' /\ Permutation l l' /\ StronglySorted (qlt o) l'.
Proof.
  induction l as [|x l IH]; intros B Nd; cbn [sort_events].
  - exists []. repeat split; auto. constructor.
  - inversion Nd; subst. destruct IH as (l' & -> & P & So); auto; [intros y I; apply B; right; auto|].
    destruct (insert_spec x l') as (l2 & E & P2 & S2); auto.
    + apply B. left. auto.
    + intros y I. apply B. right. apply (Permutation_in _ (Permutation_sym P)); auto.
    + intros I. apply (Permutation_in _ (Permutation_sym P)) in I. contradiction.
    + exists l2. split; auto. split; auto. rewrite P. auto.
Qed.

Lemma selected_drawing events : Permutation (filter (is_event_from_result s) ev) events -> StronglySorted (qlt o) events ->
  drawing (c_eps c) (h o) (k o) s L events.
Proof.
  intros P So.
  assert (Pt : forall p, vertex L (pt o) (fun l => pt o (opp o l)) p -> In p (c_pts c)).
  { intros p (i & Ii & Q). apply (L_left c int sel limit s T ev Fn) in Ii. destruct Q as [-> | ->]; [apply (w_ptS c o W)|apply (w_ptE c o W)]; auto. }
  assert (Ei : forall x, In x events <-> exists l, In l L /\ (x = l \/ x = opp o l)).
  { intros x. rewrite <- (selected_In c G int sel limit s T ev Fn Cross). split; apply Permutation_in; [apply Permutation_sym|]; auto. }
  assert (Evs : forall x, In x events -> In x ev).
  { intros x I. apply (Permutation_in _ (Permutation_sym P)) in I. apply filter_In in I. apply I. }
  assert (NdE : NoDup events) by (apply (Permutation_NoDup P), NoDup_filter, (fn_nd _ _ _ _ _ _ _ Fn)).
  constructor.
  - apply (L_NoDup s ev).
  - apply (L_opp c int sel limit s T ev Fn).
  - intros l I. apply (w_lt c o W), (L_left c int sel limit s T ev Fn); auto.
  - intros l t u. unfold hh, kk. apply H_affine.
  - intros l I. symmetry. apply (w_S c o W), (L_left c int sel limit s T ev Fn); auto.
  - intros l I. symmetry. apply (w_E c o W), (L_left c int sel limit s T ev Fn); auto.
  - intros p q Ip Iq Q. apply (X_inj c G); auto.
  - intros i j u. apply (L_meet c N int sel op2 Se limit s T ev Fn Cross).
  - apply (L_degree c G N int sel op2 Se Ee Or limit s T ev Fn Top Cross).
  - auto.
  - auto.
  - (* the order *)
    assert (Dj : forall x y, In x events -> In y events -> x <> y -> pt o x = pt o y -> is_event_left x = is_event_left y -> skey c o x <> skey c o y).
    { intros x y Ix Iy Ne Q Ql Sk. apply Ei in Ix. apply Ei in Iy. destruct Ix as (l & Il & Dl), Iy as (m & Im & Dm).
      destruct (L_opp c int sel limit s T ev Fn l Il) as (A1 & A2 & A3). destruct (L_opp c int sel limit s T ev Fn m Im) as (B1 & B2 & B3).
      assert (lt' : forall i, In i L -> X c (pt o i) < X c (pt o (opp o i))) by (intros i I; apply (w_lt c o W), (L_left c int sel limit s T ev Fn); auto).
      assert (hA' : forall i, In i L -> h o i (X c (pt o i)) = py (pt o i)) by (intros i I; symmetry; apply (w_S c o W), (L_left c int sel limit s T ev Fn); auto).
      assert (hB' : forall i, In i L -> h o i (X c (pt o (opp o i))) = py (pt o (opp o i))) by (intros i I; symmetry; apply (w_E c o W), (L_left c int sel limit s T ev Fn); auto).
      assert (aff' : forall i t u, h o i t - h o i u = k o i * (t - u)) by (intros i t u; unfold hh, kk; apply H_affine).
      destruct Dl as [-> | ->], Dm as [-> | ->]; try congruence.
      - apply (slopes_start L (pt o) (fun l => pt o (opp o l)) (X c) (h o) (k o) lt' aff' hA' (L_meet c N int sel op2 Se limit s T ev Fn Cross) l m); auto.
        unfold skey in Sk. rewrite A1, B1 in Sk. auto.
      - assert (Nlm : l <> m) by (intros Q0; apply Ne; rewrite Q0; reflexivity).
        apply (slopes_end L (pt o) (fun l => pt o (opp o l)) (X c) (h o) (k o) lt' aff' hB' (L_meet c N int sel op2 Se limit s T ev Fn Cross) l m); auto.
        unfold skey in Sk. rewrite A2, B2, A3, B3 in Sk. qlra. }
    assert (Nd2 : StronglySorted (fun x y => qlt o x y /\ x <> y) events).
    { clear - So NdE. induction So as [|x l So IH F]; constructor; inversion NdE; subst; auto. rewrite Forall_forall in *. intros y I. split; auto.
      intros ->. contradiction. }
    apply (SS_impl (fun x y => qlt o x y /\ x <> y)); auto. intros x y Ix Iy [[Q|[Q R]] Ne]; [left; exact Q|]. right. split; [exact Q|].
    assert (Pxy : pt o x = pt o y).
    { apply (X_inj c G); auto; apply Pt; apply (Ei _) in Ix; apply (Ei _) in Iy.
      - destruct Ix as (l & Il & [-> | ->]); exists l; auto.
      - destruct Iy as (l & Il & [-> | ->]); exists l; auto. }
    destruct R as [R|[R1 [R2|(R2 & _)]]]; auto; [|exfalso; apply (Dj x y); auto].
    right. split; auto. unfold skey in R2. rewrite <- R1 in R2. destruct (is_event_left x); auto. qlra.
  - intros x I. apply (fn_ids _ _ _ _ _ _ _ Fn); auto.
  - intros x y I J. apply (fn_same _ _ _ _ _ _ _ Fn); auto.
  - intros l f Il Q. pose proof (L_opp c int sel limit s T ev Fn l Il) as (A1 & _). apply (L_In c int sel limit s T ev Fn) in Il. destruct Il as (Pl & Rl & Ll).
    destruct (fl_below _ _ _ _ _ _ Fl l f Pl) as (Pf & Rf & Pr).
    { exact Q. }
    assert (Lf : lim limit (pt o f)).
    { destruct (lim_dec c int sel limit s T ev Fn Cross (pt o f)) as [|Nf]; auto. exfalso.
      pose proof (lim_X c G int sel limit s T ev Fn Cross (pt o l) (pt o f) (w_ptS c o W l (proj1 Pl)) (w_ptS c o W f (proj1 Pf)) Ll Nf) as Lt.
      unfold precedes, SX in Pr. destruct Pr as [Pr|[Pr _]]; qlra. }
    split; [apply (L_In c int sel limit s T ev Fn); auto|].
    destruct Pr as [Pr|[Pr1 Pr2]]; [left; exact Pr|]. right. split; [exact Pr1|]. right.
    assert (A2 : is_event_left f = true) by apply Pf. rewrite A1, A2. auto.
Qed.

(** What the reduction gives. *)
Theorem reduce_gives : exists polygons cs (turned : nat -> bool),
  reduce_shaped s ev = Some polygons
  /\ (forall l, In l cs -> cycle (c_eps c) s (match sort_events o (filter (is_event_from_result s) ev) with Some e => e | None => [] end) l)
  /\ (forall x, In x (flat_map (pairs s) cs) <-> exists l, In l L /\ (x = l \/ x = opp o l))
  /\ NoDup (flat_map (pairs s) cs)
  /\ Permutation (flat_map (fun p => border p :: holes p) polygons)
       (map (fun i => final s (turned i) (nth i cs [])) (seq 0 (length cs)))
  /\ (forall l, In l cs -> nondegenerate (shrink_collinear_vertices (outline_of s l)))
  /\ (forall i j l1 l2, (i < j)%nat -> nth_error cs i = Some l1 -> nth_error cs j = Some l2 -> uncrossed (k o) s l1 l2).
Proof.
  unfold reduce_shaped. destruct (filter (is_event_from_result s) ev) as [|e0 es] eqn:Ef.
  - exists [], [], (fun _ => false). split; auto. split; [intros l []|]. split.
    + intros x. split; [intros []|]. intros Q. apply (selected_In c G int sel limit s T ev Fn Cross) in Q. rewrite Ef in Q. destruct Q.
    + split; [constructor|]. split; [auto|]. split; [intros l []|]. intros [|i] j l1 l2 _ Q; discriminate.
  - rewrite <- Ef.
    destruct (sort_spec (filter (is_event_from_result s) ev)) as (events & Es & Pe & So).
    { intros x I. apply filter_In in I. apply (fn_ev _ _ _ _ _ _ _ Fn), I. }
    { apply NoDup_filter, (fn_nd _ _ _ _ _ _ _ Fn). }
    rewrite Es. pose proof (selected_drawing events Pe So) as D.
    assert (Fa : forallb (fun e => match index_of (opp o e) events with None => false | Some _ => true end) events = true).
    { apply forallb_forall. intros x I. pose proof (ev_op _ _ _ _ _ _ D x I) as J. destruct (index_of_spec _ _ J) as (i & -> & _). auto. }
    rewrite Fa.
    destruct (loop_spec (c_eps c) (h o) (k o) s L events D) as (r & cs & Er & St).
    unfold start_state, Proof_Draw.conn in Er. rewrite Er.
    destruct (polygons_spec _ _ _ _ _ _ D r cs St) as [Ep Pp].
    exists (map (poly_at r) (tops r)), cs, (fun i => nth i (are_internal r) false). split; auto.
    split; [apply (st_cycles _ _ _ _ _ _ _ _ St)|]. split.
    { intros x. rewrite <- (dr_events _ _ _ _ _ _ D). split; intros I.
      - apply (flat_events _ _ _ _ _ _ D cs); auto. apply (st_cycles _ _ _ _ _ _ _ _ St).
      - apply mem_In. rewrite <- (st_proc _ _ _ _ _ _ _ _ St) by auto. apply (st_done _ _ _ _ _ _ _ _ St); auto. }
    split; [apply (st_nd _ _ _ _ _ _ _ _ St)|]. split.
    { rewrite flat_map_concat_map, map_map. 
      assert (Q : map (fun x => border (poly_at r x) :: holes (poly_at r x)) (tops r)
        = map (map (fun i => nth i (contours r) [])) (map (fun i => i :: nth i (hole_ids r) []) (tops r))).
      { rewrite map_map. apply map_ext. intros x. reflexivity. }
      rewrite Q, <- concat_map, <- flat_map_concat_map. etransitivity; [apply Permutation_map; exact Pp|].
      assert (Q2 : map (fun i => nth i (contours r) []) (seq 0 (length cs)) = map (fun i => final s (nth i (are_internal r) false) (nth i cs [])) (seq 0 (length cs))).
      { apply map_ext_in. intros i I. apply in_seq in I. apply (st_contours _ _ _ _ _ _ _ _ St). apply nth_error_nth'. lia. }
      rewrite Q2. auto. }
    split; [intros l I; apply (cycle_nondegenerate _ _ _ _ _ _ D); apply (st_cycles _ _ _ _ _ _ _ _ St); auto|].
    apply (found_uncrossed _ _ _ _ _ _ D r cs St).
Qed.
End Shaped.
