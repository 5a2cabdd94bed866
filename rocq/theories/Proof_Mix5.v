(** The sweep of a linear operand against a shaped one, part 5: the sweep of an intersection. *)
From Coq Require Import QArith Qcanon Bool List Arith Lia Permutation.
From Verif Require Import QcTac Model_Base Model_Utils Model_Geometry Model_Contour Model_Linear Model_Mixed Model_Shaped Spec_Base Spec_Segment Spec_Clip Spec_Contour
  Spec_Relate Spec_Sweep Spec_Shaped
  Proof_Base Proof_Line Proof_SegOps Proof_Contour Proof_Edges Proof_Locate Proof_Locate4 Proof_Sweep Proof_Sweep2 Proof_Sweep3 Proof_Sweep4 Proof_Sweep5 Proof_Sweep6 Proof_Sweep7
  Proof_Sweep8 Proof_Sweep9 Proof_Sweep10 Proof_Sweep11 Proof_Sweep12 Proof_Sweep13 Proof_Sweep14 Proof_Sweep15 Proof_Sweep17 Proof_Sweep18 Proof_Parity
  Proof_Flags Proof_Flags2 Proof_Flags3 Proof_Flags4 Proof_Flags5 Proof_Flags6 Proof_Corner Proof_Region Proof_Select
  Proof_Shaped Proof_Ray Proof_Orient Proof_Nested Proof_Nested2 Proof_Start Proof_Bridge Proof_RelateP Proof_Odd Proof_Clip Proof_RelShaped6
  Proof_Mix1 Proof_Mix2 Proof_Mix3 Proof_Mix4.
Import ListNotations.
Local Open Scope Qc_scope.

(** [t] is a piece of the linear operand within the region. *)
Definition piece_within (lin : list segment) (rs : list (list point)) (t : segment) : Prop :=
  proper_seg t /\ (exists g, In g lin /\ seg_subset t g) /\ forall x, on_seg t x -> covered rs x.

Section Run.
Variable f : bool.
Variables (lin : list segment) (rs : list (list point)) (k : segment -> bool).
Notation B := (outlines rs).
Hypothesis NL : non_crossing lin.
Hypothesis NB : non_crossing B.
Hypothesis Side : forall eps, rising eps (ends_of B) -> forall e q, In e B -> on_seg e q ->
  (forall v, In v (ends_of B) -> Xs eps v <> Xs eps q) -> xsum (below_seg eps q) B = negb (segment_flag e).
Hypothesis Cov : forall e g, In e B -> In g lin -> px (lo e) <= px (hi g) -> px (lo g) <= px (hi e) -> k e = true.
Variable limit : Qc.
Hypothesis Lim1 : (forall g, In g lin -> px (hi g) <= limit) \/ (forall e, In e B -> px (hi e) <= limit).
Hypothesis Lim2 : forall g e z, In g lin -> In e B -> z <= px (hi g) -> z <= px (hi e) -> z <= limit.
Variable from_result : mixed_operation -> event -> bool.
Hypothesis FR : forall m e, from_result m e
  = Bool.eqb (is_left_event_from_first_operand (mo m) e) f && (m_other m e || m_over m e).
Variables (shape : tree_shape) (fuel : nat).
Notation operand b := (if Bool.eqb b f then lin else B).
Notation kept b := (if Bool.eqb b f then fun _ : segment => true else k).
Notation A1 := (operand true). Notation A2 := (operand false).
Notation k1 := (kept true). Notation k2 := (kept false).
Notation first := (filter k1 A1). Notation second := (filter k2 A2).
Hypothesis Fuel : (enough (length (first ++ second)) <= fuel)%nat.

Lemma full_operand b : full A1 A2 b = operand b. Proof. destruct b; auto. Qed.
Lemma keep_kept b : keep k1 k2 b = kept b. Proof. destruct b; auto. Qed.
Lemma full_lin : full A1 A2 f = lin. Proof. rewrite full_operand, Bool.eqb_reflx. auto. Qed.
Lemma full_shaped : full A1 A2 (negb f) = B. Proof. rewrite full_operand. destruct f; auto. Qed.
Lemma keep_lin : keep k1 k2 f = fun _ => true. Proof. rewrite keep_kept, Bool.eqb_reflx. auto. Qed.
Lemma keep_shaped : keep k1 k2 (negb f) = k. Proof. rewrite keep_kept. destruct f; auto. Qed.
Lemma full_case (P : list segment -> Prop) b : P lin -> P B -> P (full A1 A2 b).
Proof. intros Q1 Q2. rewrite full_operand. destruct (Bool.eqb b f); auto. Qed.

Theorem run_mixed : exists m ev, sweep_mixed from_result true shape fuel false limit (clip_mixed first second) [] = SweepsMixed m ev
  /\ non_crossing (reduce_mixed m ev)
  /\ (forall s, In s (reduce_mixed m ev) -> piece_within lin rs s)
  /\ (forall t g q, In g lin -> seg_subset t g -> proper_seg t -> on_seg t q -> (forall x, on_seg t x -> x <> q -> covered rs x) ->
    on_segs (reduce_mixed m ev) q).
Proof.
  set (points := all_points (operands first second) ++ ends_of lin ++ ends_of B).
  destruct (eps_exists points) as (eps & Pe & Mo). set (c := the_ctx first second eps).
  assert (Ri : rising eps points) by (intros p r Ip Ir L; apply Mo; auto).
  assert (N1 : non_crossing first) by (apply non_crossing_filter; destruct (Bool.eqb true f); auto).
  assert (N2 : non_crossing second) by (apply non_crossing_filter; destruct (Bool.eqb false f); auto).
  assert (Pr : forall s, In s (operands first second) -> lex_lt (fst s) (snd s)).
  { intros s I. unfold operands in I. apply in_map_iff in I. destruct I as (x & <- & I). apply sorted_pair_lt.
    apply in_app_or in I. pose proof (proj1 N1) as Q1. pose proof (proj1 N2) as Q2. rewrite Forall_forall in Q1, Q2. destruct I; auto. }
  assert (G : good c).
  { apply good_rising; auto. intros p r Ip Ir. apply Ri; apply in_or_app; left; auto. }
  assert (N : nc c) by (apply nc_holds; auto).
  assert (EndP : forall b v, In v (ends_of (full A1 A2 b)) -> In v points).
  { intros b v. apply (full_case (fun l => In v (ends_of l) -> In v points)); intros I; apply in_or_app; right; apply in_or_app; auto. }
  assert (PrF : forall b, Forall proper_seg (full A1 A2 b)) by (intros b; apply full_case; [apply NL|apply NB]).
  assert (Snd : forall b, Forall (sound_edge eps) (full A1 A2 b)).
  { intros b. pose proof (PrF b) as P. rewrite Forall_forall in *. intros e I. apply sound_proper; auto.
    intros p r Ip Ir. apply Ri; apply (EndP b); unfold ends_of; apply in_flat_map; exists e; auto. }
  assert (InE : forall b e, In e (full A1 A2 b) -> In (lo e) (ends_of (full A1 A2 b)) /\ In (hi e) (ends_of (full A1 A2 b))).
  { intros b e I. split; unfold ends_of; apply in_flat_map; exists e; (split; auto); destruct (lo_hi e) as [[Q1 Q2]|[Q1 Q2]]; [rewrite Q1|rewrite Q1|rewrite Q2|rewrite Q2]; cbn; auto. }
  assert (Le : forall v w, In v points -> In w points -> Xs eps v < Xs eps w -> px v <= px w).
  { intros v w Iv Iw L. apply Qcnot_lt_le. intros Lt. assert (Q : lex_lt w v) by (left; auto). pose proof (Ri w v Iw Iv Q). qlra. }
  assert (Cov' : forall (b : bool) e g, In e (full A1 A2 b) -> In g (full A1 A2 (negb b)) -> Xs eps (lo e) < Xs eps (hi g) -> Xs eps (lo g) < Xs eps (hi e) -> keep k1 k2 b e = true).
  { intros b e g Ie Ig L1 L2. destruct (Bool.bool_dec b f) as [-> |Nb]; [rewrite keep_lin; auto|].
    assert (Eb : b = negb f) by (destruct b, f; auto; congruence). subst b. rewrite keep_shaped.
    assert (Q1 : px (lo e) <= px (hi g)) by (apply Le; auto; [apply (EndP (negb f))|apply (EndP (negb (negb f)))]; apply InE; auto).
    assert (Q2 : px (lo g) <= px (hi e)) by (apply Le; auto; [apply (EndP (negb (negb f)))|apply (EndP (negb f))]; apply InE; auto).
    rewrite full_shaped in Ie. rewrite negb_involutive, full_lin in Ig. apply (Cov e g); auto. }
  assert (Ev : even_ends (full A1 A2 (negb f))) by (rewrite full_shaped; apply even_outlines).
  assert (Sd : forall e q, In e (full A1 A2 (negb f)) -> on_seg e q -> (forall v, In v (ends_of (full A1 A2 (negb f))) -> Xs eps v <> Xs eps q) ->
    xsum (below_seg eps q) (full A1 A2 (negb f)) = negb (segment_flag e)).
  { rewrite full_shaped. apply Side. intros p r Ip Ir. apply Ri; apply in_or_app; right; apply in_or_app; auto. }
  assert (Ee := the_evn1 f A1 A2 k1 k2 eps Snd Ev Cov').
  assert (Or := the_ori1 f A1 A2 k1 k2 eps G Snd Sd Cov').
  destruct (whole_mixed first second eps N1 N2 G (fun g x y => Bool.eqb g f && (x || y)) f from_result FR Ee Or false shape limit fuel Fuel)
    as (m & T & ev & Es & Fn).
  assert (Keep : forall g, In g (full A1 A2 f) -> keep k1 k2 f g = true) by (intros g _; rewrite keep_lin; auto).
  assert (L1 : (forall g, In g (full A1 A2 f) -> px (hi g) <= limit) \/ (forall e, In e (full A1 A2 (negb f)) -> px (hi e) <= limit))
    by (rewrite full_lin, full_shaped; auto).
  assert (L2 : forall g e z, In g (full A1 A2 f) -> In e (full A1 A2 (negb f)) -> z <= px (hi g) -> z <= px (hi e) -> z <= limit)
    by (rewrite full_lin, full_shaped; auto).
  assert (Up : forall p e, In p (c_pts c) -> In e (full A1 A2 true) \/ In e (full A1 A2 false) -> Xs eps p < Xs eps (hi e) -> px p <= px (hi e)).
  { intros p e Ip Ie. apply Le; [apply in_or_app; left; exact Ip|]. destruct Ie as [Ie|Ie]; eapply EndP, InE, Ie. }
  exists m, ev. split; auto.
  rewrite (reduce_pieces f A1 A2 k1 k2 eps limit m T ev Fn).
  split; [|split].
  - apply (pieces_nc f A1 A2 k1 k2 eps G Snd Ev Cov' N limit L1 m T ev Fn).
  - intros s I. apply in_map_iff in I. destruct I as (l & <- & I). split; [|split].
    + apply (piece_proper f A1 A2 k1 k2 eps limit m T ev Fn). apply (chosen_of_In c _ f limit m T ev Fn) in I. apply I.
    + destruct (piece_sub f A1 A2 k1 k2 eps Snd limit m T ev Fn l I) as (g & Ig & Sb). rewrite full_lin in Ig. exists g. auto.
    + intros x Ox. apply (sound_piece f A1 A2 k1 k2 eps G Snd Ev Sd Cov' N rs full_shaped Keep limit L1 L2 m T ev Fn l x I Ox).
  - intros t g q Ig Sb Pt Oq Cv.
    destruct (complete f A1 A2 k1 k2 eps G Snd Ev Sd Cov' N rs full_shaped Keep limit L1 L2 Up m T ev Fn t g q) as (l & Il & O); auto.
    + rewrite full_lin. auto.
    + exists (piece (mo m) l). split; auto. apply in_map. auto.
Qed.
End Run.
