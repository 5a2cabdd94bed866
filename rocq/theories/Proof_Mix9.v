(** The sweep of a linear operand against a shaped one, part 9: the sweep of a difference. *)
From Coq Require Import QArith Qcanon Bool List Arith Lia Permutation.
From Verif Require Import QcTac Model_Base Model_Utils Model_Geometry Model_Contour Model_Linear Model_Mixed Model_Shaped Spec_Base Spec_Segment Spec_Clip Spec_Contour
  Spec_Relate Spec_Sweep Spec_Shaped Spec_MixedDiff
  Proof_Base Proof_Line Proof_SegOps Proof_Contour Proof_Edges Proof_Locate Proof_Locate4 Proof_Sweep Proof_Sweep2 Proof_Sweep3 Proof_Sweep4 Proof_Sweep5 Proof_Sweep6 Proof_Sweep7
  Proof_Sweep8 Proof_Sweep9 Proof_Sweep10 Proof_Sweep11 Proof_Sweep12 Proof_Sweep13 Proof_Sweep14 Proof_Sweep15 Proof_Sweep17 Proof_Sweep18 Proof_Parity
  Proof_Flags Proof_Flags2 Proof_Flags3 Proof_Flags4 Proof_Flags5 Proof_Flags6 Proof_Corner Proof_Region Proof_Select
  Proof_Shaped Proof_Ray Proof_Orient Proof_Nested Proof_Nested2 Proof_Start Proof_Bridge Proof_RelateP Proof_Odd Proof_Clip Proof_RelShaped6
  Proof_Mix1 Proof_Mix2 Proof_Mix3 Proof_Mix4 Proof_Mix8.
Import ListNotations.
Local Open Scope Qc_scope.

Section RunDiff.
Variable f : bool.
Variables (lin : list segment) (rs : list (list point)) (k : segment -> bool).
Notation B := (outlines rs).
Hypothesis NL : non_crossing lin.
Hypothesis NB : non_crossing B.
Hypothesis Side : forall eps, rising eps (ends_of B) -> forall e q, In e B -> on_seg e q ->
  (forall v, In v (ends_of B) -> Xs eps v <> Xs eps q) -> xsum (below_seg eps q) B = negb (segment_flag e).
Hypothesis Cov : forall e g, In e B -> In g lin -> px (lo e) <= px (hi g) -> px (lo g) <= px (hi e) -> k e = true.
Variable limit : Qc.
Hypothesis Lim : forall g, In g lin -> px (hi g) <= limit.
Variable from_result : mixed_operation -> event -> bool.
Hypothesis FR : forall m e, from_result m e
  = Bool.eqb (is_left_event_from_first_operand (mo m) e) f && (negb (m_other m e) && negb (m_over m e)).
Variables (shape : tree_shape) (fuel : nat).
Notation operand b := (if Bool.eqb b f then lin else B).
Notation kept b := (if Bool.eqb b f then fun _ : segment => true else k).
Notation A1 := (operand true). Notation A2 := (operand false).
Notation k1 := (kept true). Notation k2 := (kept false).
Notation first := (filter k1 A1). Notation second := (filter k2 A2).
Hypothesis Fuel : (enough (length (first ++ second)) <= fuel)%nat.

Lemma full_operandD b : full A1 A2 b = operand b. Proof. destruct b; auto. Qed.
Lemma keep_keptD b : keep k1 k2 b = kept b. Proof. destruct b; auto. Qed.
Lemma full_linD : full A1 A2 f = lin. Proof. rewrite full_operandD, Bool.eqb_reflx. auto. Qed.
Lemma full_shapedD : full A1 A2 (negb f) = B. Proof. rewrite full_operandD. destruct f; auto. Qed.
Lemma keep_linD : keep k1 k2 f = fun _ => true. Proof. rewrite keep_keptD, Bool.eqb_reflx. auto. Qed.
Lemma keep_shapedD : keep k1 k2 (negb f) = k. Proof. rewrite keep_keptD. destruct f; auto. Qed.
Lemma full_caseD (P : list segment -> Prop) b : P lin -> P B -> P (full A1 A2 b).
Proof. intros Q1 Q2. rewrite full_operandD. destruct (Bool.eqb b f); auto. Qed.

Theorem run_difference : exists m ev L, sweep_mixed from_result true shape fuel true limit (clip_mixed first second) [] = SweepsMixed m ev
  /\ Permutation (reduce_mixed m ev) (L ++ map turned L) /\ non_crossing L
  /\ (forall s, In s L -> (exists g, In g lin /\ seg_subset s g) /\ forall x, on_seg s x -> x <> seg_start s -> x <> seg_end s -> ~ covered rs x)
  /\ (forall t g q, In g lin -> seg_subset t g -> proper_seg t -> on_seg t q -> (forall x, on_seg t x -> x <> q -> ~ covered rs x) ->
    on_segs L q).
Proof.
  set (points := all_points (operands first second) ++ ends_of lin ++ ends_of B).
  destruct (eps_exists points) as (eps & Pe & Mo). set (c := the_ctx first second eps).
  assert (Ri : rising eps points) by (intros p r Ip Ir L; apply Mo; auto).
  assert (N1 : non_crossing first) by (apply non_crossing_filter; destruct (Bool.eqb true f); auto).
  assert (N2 : non_crossing second) by (apply non_crossing_filter; destruct (Bool.eqb false f); auto).
  assert (Pr : forall s, In s (operands first second) -> lex_lt (fst s) (snd s)).
  { intros s I. unfold operands in I. apply in_map_iff in I. destruct I as (x & <- & I). apply sorted_pair_lt.
    apply in_app_or in I. pose proof (proj1 N1) as Q1. pose proof (proj1 N2) as Q2. rewrite Forall_forall in Q1, Q2. destruct I; auto. }
  assert (G : good c).
  { apply good_rising; auto. intros p r Ip Ir. apply Ri; apply in_or_app; left; auto. }
  assert (N : nc c) by (apply nc_holds; auto).
  assert (EndP : forall b v, In v (ends_of (full A1 A2 b)) -> In v points).
  { intros b v. apply (full_caseD (fun l => In v (ends_of l) -> In v points)); intros I; apply in_or_app; right; apply in_or_app; auto. }
  assert (PrF : forall b, Forall proper_seg (full A1 A2 b)) by (intros b; apply full_caseD; [apply NL|apply NB]).
  assert (Snd : forall b, Forall (sound_edge eps) (full A1 A2 b)).
  { intros b. pose proof (PrF b) as P. rewrite Forall_forall in *. intros e I. apply sound_proper; auto.
    intros p r Ip Ir. apply Ri; apply (EndP b); unfold ends_of; apply in_flat_map; exists e; auto. }
  assert (InE : forall b e, In e (full A1 A2 b) -> In (lo e) (ends_of (full A1 A2 b)) /\ In (hi e) (ends_of (full A1 A2 b))).
  { intros b e I. split; unfold ends_of; apply in_flat_map; exists e; (split; auto); destruct (lo_hi e) as [[Q1 Q2]|[Q1 Q2]]; [rewrite Q1|rewrite Q1|rewrite Q2|rewrite Q2]; cbn; auto. }
  assert (Le : forall v w, In v points -> In w points -> Xs eps v < Xs eps w -> px v <= px w).
  { intros v w Iv Iw L. apply Qcnot_lt_le. intros Lt. assert (Q : lex_lt w v) by (left; auto). pose proof (Ri w v Iw Iv Q). qlra. }
  assert (Cov' : forall (b : bool) e g, In e (full A1 A2 b) -> In g (full A1 A2 (negb b)) -> Xs eps (lo e) < Xs eps (hi g) -> Xs eps (lo g) < Xs eps (hi e) -> keep k1 k2 b e = true).
  { intros b e g Ie Ig L1 L2. destruct (Bool.bool_dec b f) as [-> |Nb]; [rewrite keep_linD; auto|].
    assert (Eb : b = negb f) by (destruct b, f; auto; congruence). subst b. rewrite keep_shapedD.
    assert (Q1 : px (lo e) <= px (hi g)) by (apply Le; auto; [apply (EndP (negb f))|apply (EndP (negb (negb f)))]; apply InE; auto).
    assert (Q2 : px (lo g) <= px (hi e)) by (apply Le; auto; [apply (EndP (negb (negb f)))|apply (EndP (negb f))]; apply InE; auto).
    rewrite full_shapedD in Ie. rewrite negb_involutive, full_linD in Ig. apply (Cov e g); auto. }
  assert (Ev : even_ends (full A1 A2 (negb f))) by (rewrite full_shapedD; apply even_outlines).
  assert (Sd : forall e q, In e (full A1 A2 (negb f)) -> on_seg e q -> (forall v, In v (ends_of (full A1 A2 (negb f))) -> Xs eps v <> Xs eps q) ->
    xsum (below_seg eps q) (full A1 A2 (negb f)) = negb (segment_flag e)).
  { rewrite full_shapedD. apply Side. intros p r Ip Ir. apply Ri; apply in_or_app; right; apply in_or_app; auto. }
  assert (Ee := the_evn1 f A1 A2 k1 k2 eps Snd Ev Cov').
  assert (Or := the_ori1 f A1 A2 k1 k2 eps G Snd Sd Cov').
  destruct (whole_mixed first second eps N1 N2 G (fun g x y => Bool.eqb g f && (negb x && negb y)) f from_result FR Ee Or true shape limit fuel Fuel)
    as (m & T & ev & Es & Fn).
  assert (Keep : forall g, In g (full A1 A2 f) -> keep k1 k2 f g = true) by (intros g _; rewrite keep_linD; auto).
  assert (L1 : forall g, In g (full A1 A2 f) -> px (hi g) <= limit) by (rewrite full_linD; auto).
  assert (Le' : forall v w, In v (c_pts c) -> In w (c_pts c) \/ In w (ends_of (full A1 A2 f)) -> Xs eps v <= Xs eps w -> px v <= px w).
  { intros v w Iv Iw L. assert (Iv' : In v points) by (apply in_or_app; left; exact Iv).
    assert (Iw' : In w points) by (destruct Iw as [Iw|Iw]; [apply in_or_app; left; exact Iw|apply (EndP f); auto]).
    apply Qcnot_lt_le. intros Lt. assert (Q : lex_lt w v) by (left; auto). pose proof (Ri w v Iw' Iv' Q). qlra. }
  exists m, ev, (map (piece (mo m)) (outer m ev)). split; auto.
  split; [apply (reduce_outer f A1 A2 k1 k2 eps limit L1 Le' m T ev Fn)|].
  split; [apply (outer_nc f A1 A2 k1 k2 eps N limit L1 Le' m T ev Fn)|]. split.
  - intros s I. apply in_map_iff in I. destruct I as (l & <- & I). split.
    + destruct (outer_sub f A1 A2 k1 k2 eps Snd limit L1 Le' m T ev Fn l I) as (g & Ig & Sb). rewrite full_linD in Ig. exists g. auto.
    + intros x. apply (outer_piece f A1 A2 k1 k2 eps G Snd Ev Sd Cov' N rs full_shapedD Keep limit L1 Le' m T ev Fn l x I).
  - intros t g q Ig Sb Pt Oq Cv.
    destruct (outer_complete f A1 A2 k1 k2 eps G Snd Ev Sd Cov' N rs full_shapedD Keep limit L1 Le' m T ev Fn t g q) as (l & Il & O); auto.
    + rewrite full_linD. auto.
    + exists (piece (mo m) l). split; auto. apply in_map. auto.
Qed.
End RunDiff.
