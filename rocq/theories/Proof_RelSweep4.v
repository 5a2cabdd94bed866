(** Relating multisegments and contours, part 4: what the state says about the operands. *)
From Coq Require Import QArith Qcanon Bool List Arith Lia.
From Verif Require Import QcTac Model_Base Model_Geometry Model_Utils Model_Linear Model_Relate Model_RelateLinear
  Spec_Base Spec_Segment Spec_Clip Spec_Sweep Spec_Relate Spec_RelateLinear
  Proof_Base Proof_Line Proof_SegRel Proof_Sweep Proof_Sweep2 Proof_Sweep3 Proof_Sweep5 Proof_Sweep6 Proof_Sweep7
  Proof_Sweep8 Proof_Sweep9 Proof_Sweep10 Proof_Sweep11 Proof_Sweep12 Proof_Sweep13 Proof_Sweep14 Proof_Sweep15
  Proof_RelSweep Proof_RelSweep2 Proof_RelSweep3.
Import ListNotations.
Local Open Scope Qc_scope.

(** Between two numbers there is one before which there is none of finitely many. *)
Lemma free_start (l : list Qc) a b : a < b -> exists u, a < u /\ u < b /\ forall x, In x l -> a < x -> u < x.
Proof.
  intros L. induction l as [|y l (u & U1 & U2 & U3)].
  - destruct (middle a b L) as (u & A & B). exists u. split; auto. split; auto. intros x [].
  - destruct (qltb_spec a y) as [Q|Q].
    + set (m := if qltb u y then u else y).
      assert (M : a < m /\ m <= u /\ m <= y) by (unfold m; destruct (qltb_spec u y); repeat split; qlra).
      destruct M as (M1 & M2 & M3). destruct (middle a m M1) as (v & V1 & V2).
      exists v. split; auto. split; [qlra|]. intros x [<-|I] Ax; [qlra|]. specialize (U3 x I Ax). qlra.
    + exists u. split; auto. split; auto. intros x [<-|I] Ax; [qlra|]. auto.
Qed.

Section Meaning.
Variables (first second : list segment) (eps : Qc).
Notation c := (the_ctx first second eps).
Hypothesis G : good c.
Notation inputs := (first ++ second).
Notation S' := (SX c). Notation E' := (EX c). Notation h := (hh c). Notation k := (kk c).
Notation EV := (EVX c).

Lemma ncs_holds : joined first -> joined second -> ncs c.
Proof.
  intros N1 N2 i j t Li Lj Nij Op A1 A2 B1 B2 E.
  rewrite ins_length in Li, Lj. apply nth_error_Some in Li. apply nth_error_Some in Lj.
  destruct (nth_error inputs i) as [s|] eqn:Ei; [|congruence].
  destruct (nth_error inputs j) as [u|] eqn:Ej; [|congruence].
  set (p := Pt (t - eps * H c i t) (H c i t)).
  assert (Xp : X c p = t) by (unfold X, p; cbn; ring).
  assert (Os : on_seg s p).
  { apply (input_X_on first second eps G i s Ei). rewrite Xp. split; [qlra|split; [qlra|reflexivity]]. }
  assert (Ou : on_seg u p).
  { apply (input_X_on first second eps G j u Ej). rewrite Xp. split; [qlra|split; [qlra|exact E]]. }
  assert (Es : endpoint_of s p).
  { destruct (nth_error_side first second i j s u) as (r & i' & j' & Er & Ne & F1 & F2); auto.
    assert (J : joined r) by (destruct Er as [-> | ->]; auto). destruct J as [_ J].
    destruct (Nat.lt_total i' j') as [Q|[Q|Q]]; [|congruence|].
    - apply (FOP_nth_error _ r J i' j' s u Q F1 F2 p Os Ou).
    - apply (FOP_nth_error _ r J j' i' u s Q F2 F1 p Ou Os). }
  apply (input_X_end first second eps i s p Ei) in Es. rewrite Xp in Es. destruct Es; qlra.
Qed.

Hypothesis N : ncs c.
Let Nc : nc c := ncs_nc c N.
Notation mates := (mates c). Notation through := (through c). Notation inv := (inv c).
Notation collected := (collected c).
Notation lefts_of group := (filter is_event_left group).

(** The points of an operand. *)
Definition on_op (b : bool) (p : point) : Prop := on_segs (if b then first else second) p.

Lemma c_first_length : c_first c = length first.
Proof. reflexivity. Qed.
Lemma piece_on_op o l p : wf c o -> left_of o l -> on_seg (piece o l) p -> on_op (firstop o l) p.
Proof.
  intros W L O. apply (piece_X first second eps o l p W L) in O. destruct O as (O1 & O2 & O3).
  pose proof (w_sid c o W l L) as Si. pose proof (w_in c o W l L) as [I1 I2].
  rewrite (firstop_sid c o l W), c_first_length.
  assert (Si' := Si). rewrite ins_length in Si'. apply nth_error_Some in Si'.
  destruct (nth_error inputs (sid o l)) as [s|] eqn:Es; [|congruence].
  assert (On : on_seg s p).
  { apply (input_X_on first second eps G (sid o l) s Es). split; [qlra|]. split; [qlra|]. exact O3. }
  exists s. split; auto. destruct (Nat.ltb_spec (sid o l) (length first)) as [Q|Q].
  - rewrite nth_error_app1 in Es by auto. apply nth_error_In in Es. auto.
  - rewrite nth_error_app2 in Es by auto. apply nth_error_In in Es. auto.
Qed.
Lemma on_op_piece o b p : wf c o -> on_op b p -> exists l, left_of o l /\ firstop o l = b /\ on_seg (piece o l) p.
Proof.
  intros W (s & Is & Os).
  assert (E : exists i, nth_error inputs i = Some s /\ (i <? length first)%nat = b).
  { destruct b.
    - destruct (In_nth_error first s Is) as (i & Ei). exists i.
      assert (Li : (i < length first)%nat) by (apply nth_error_Some; congruence).
      split; [rewrite nth_error_app1; auto|]. apply Nat.ltb_lt; auto.
    - destruct (In_nth_error second s Is) as (i & Ei). exists (length first + i)%nat.
      split; [rewrite nth_error_app2 by lia; replace (length first + i - length first)%nat with i by lia; auto|].
      apply Nat.ltb_ge; lia. }
  destruct E as (i & Ei & Fi).
  apply (input_X_on first second eps G i s Ei) in Os. destruct Os as (O1 & O2 & O3).
  assert (Li : (i < length (c_ins c))%nat) by (rewrite ins_length; apply nth_error_Some; congruence).
  destruct (w_cover c o W i (X c p) Li O1 O2) as (l & L & Sl & A & B).
  exists l. split; auto. split; [rewrite (firstop_sid c o l W), c_first_length, Sl; auto|].
  apply (piece_X first second eps o l p W L). split; auto. split; auto. unfold hh. rewrite Sl. auto.
Qed.
Lemma op_seg o l : wf c o -> left_of o l -> exists s, In s (if firstop o l then first else second)
  /\ forall p, on_seg (piece o l) p -> on_seg s p.
Proof.
  intros W L. pose proof (w_sid c o W l L) as Si. pose proof (w_in c o W l L) as [I1 I2].
  rewrite (firstop_sid c o l W), c_first_length.
  assert (Si' := Si). rewrite ins_length in Si'. apply nth_error_Some in Si'.
  destruct (nth_error inputs (sid o l)) as [s|] eqn:Es; [|congruence].
  exists s. split.
  - destruct (Nat.ltb_spec (sid o l) (length first)) as [Q|Q].
    + rewrite nth_error_app1 in Es by auto. apply nth_error_In in Es. auto.
    + rewrite nth_error_app2 in Es by auto. apply nth_error_In in Es. auto.
  - intros p O. apply (piece_X first second eps o l p W L) in O. destruct O as (O1 & O2 & O3).
    apply (input_X_on first second eps G (sid o l) s Es). split; [qlra|]. split; [qlra|]. exact O3.
Qed.

Definition subset (b : bool) : Prop := forall p, on_op b p -> on_op (negb b) p.
Definition common : Prop := exists p, on_op true p /\ on_op false p.
Definition overlaps : Prop := exists s t, In s first /\ In t second /\ share_continuum s t.
Definition flag (b : bool) (s : relation_state) : bool :=
  if b then rs_first_is_subset s else rs_second_is_subset s.

Variable init : bool -> bool.
(** What is known when all the events before [t] were taken into account. *)
Record described (o : operation) (t : Qc) (s : relation_state) : Prop := {
  ds_sub : forall b, flag b s = true -> init b = true /\
    forall Y, popped o Y -> S' o Y < t -> firstop o Y = b ->
      forall p, on_seg (piece o Y) p -> on_op (negb b) p;
  ds_notsub : forall b, flag b s = false -> init b = false \/ ~ subset b;
  ds_over : rs_has_overlap s = true -> overlaps;
  ds_notover : rs_has_overlap s = false ->
    forall Y Z, popped o Y -> popped o Z -> S' o Y < t -> Y <> Z -> ~ mates o Y Z;
  ds_common : rs_has_intersection s = true -> common;
  ds_notcommon : rs_has_intersection s = false ->
    forall x y, (x < size o)%nat -> (y < size o)%nat -> ~ In x (op_queue o) -> ~ In y (op_queue o) ->
      EV o x = EV o y -> EV o x < t ->
      is_event_from_first_operand o x = is_event_from_first_operand o y }.

(** The points of the events. *)
Lemma event_on o x : wf c o -> (x < size o)%nat ->
  left_of o (to_left_event o x) /\ on_seg (piece o (to_left_event o x)) (pt o x).
Proof.
  intros W L. pose proof (to_left_left c o x W L) as Ll. split; auto.
  unfold to_left_event in *. destruct (is_event_left x); unfold on_seg, piece, to_event_end; cbn.
  - apply between_start.
  - rewrite (proj1 (proj2 (k_opp o (w_linked c o W) x L))). apply between_end.
Qed.
Lemma event_pt_in o x : wf c o -> (x < size o)%nat -> In (pt o x) (c_pts c).
Proof. intros W L. apply (event_pt c o x W L). Qed.
Lemma event_on_op o x : wf c o -> (x < size o)%nat -> on_op (is_event_from_first_operand o x) (pt o x).
Proof.
  intros W L. destruct (event_on o x W L) as [Ll On]. apply (piece_on_op o _ _ W Ll On).
Qed.
Lemma left_evfirst o l : left_of o l -> is_event_from_first_operand o l = firstop o l.
Proof. intros [E _]. unfold is_event_from_first_operand, to_left_event. rewrite E. auto. Qed.
Lemma right_evfirst o l : wf c o -> left_of o l -> is_event_from_first_operand o (opp o l) = firstop o l.
Proof.
  intros W L. unfold is_event_from_first_operand, to_left_event.
  destruct (k_opp o (w_linked c o W) l (proj2 L)) as (_ & E1 & E2). rewrite E2, (proj1 L), E1. auto.
Qed.

(** The processing of an event at [t] changes nothing before [t]. *)
Lemma described_step o t e o' s : inv o t -> (In e (op_queue o)) -> EV o e = t -> stepping c o t e o' ->
  described o t s -> described o' t s.
Proof.
  intros V Qe Et St D. assert (C := v_core _ _ _ V). assert (W := i_wf _ _ _ C).
  assert (C' := v_core _ _ _ (st_inv _ _ _ _ _ St)). assert (W' := i_wf _ _ _ C').
  assert (Old : forall x, (x < size o')%nat -> ~ In x (op_queue o') -> EV o' x < t ->
    (x < size o)%nat /\ ~ In x (op_queue o) /\ EV o' x = EV o x).
  { intros x A B L. destruct (Nat.le_gt_cases (size o) x) as [Q|Q].
    - destruct (B (st_fresh _ _ _ _ _ St x A Q)).
    - pose proof (st_EV c o t e o' St x Q) as Ev. split; auto. split; auto. intros I.
      pose proof (i_q1 _ _ _ C x I). qlra. }
  assert (OldP : forall Y, popped o' Y -> S' o' Y < t -> popped o Y /\ S' o Y < t).
  { intros Y [LY QY] L. destruct (Old Y (proj2 LY) QY L) as (A & B & E).
    split; [split; [split; [apply LY|auto]|auto]|]. unfold EVX in E. unfold SX in *. rewrite <- E. auto. }
  constructor.
  - intros b Fb. destruct (ds_sub _ _ _ D b Fb) as [A B]. split; auto.
    intros Y PY SY FY p Op. destruct (OldP Y PY SY) as [PY' SY']. assert (LY := proj1 PY').
    apply (B Y); auto.
    + rewrite <- (st_firstop c o t e o' V St Y LY). auto.
    + apply (piece_X first second eps o' Y p W' (proj1 PY)) in Op. destruct Op as (O1 & O2 & O3).
      apply (piece_X first second eps o Y p W LY).
      rewrite (st_S c o t e o' St Y LY) in O1. rewrite (st_h c o t e o' St Y _ LY) in O3.
      pose proof (st_E _ _ _ _ _ St Y LY). split; auto. split; auto. qlra.
  - apply (ds_notsub _ _ _ D).
  - apply (ds_over _ _ _ D).
  - intros F Y Z PY PZ SY NE M. assert (SZ : S' o' Z < t) by (destruct M as [_ M]; rewrite <- M; auto).
    destruct (OldP Y PY SY) as [PY' SY']. destruct (OldP Z PZ SZ) as [PZ' SZ'].
    apply (ds_notover _ _ _ D F Y Z); auto. apply (st_mates c o t e o' St); [apply PY'|apply PZ'|auto].
  - apply (ds_common _ _ _ D).
  - intros F x y Lx Ly Qx Qy E L.
    assert (L' : EV o' y < t) by congruence.
    destruct (Old x Lx Qx L) as (Lx0 & Qx0 & Ex). destruct (Old y Ly Qy L') as (Ly0 & Qy0 & Ey).
    assert (Ev : forall z, (z < size o)%nat -> ~ In z (op_queue o) ->
      is_event_from_first_operand o' z = is_event_from_first_operand o z).
    { intros z Lz Qz. pose proof (to_left_left c o z W Lz) as Ll.
      unfold is_event_from_first_operand.
      destruct (is_event_left z) eqn:Ez.
      - unfold to_left_event in *. rewrite Ez in *. apply (st_firstop c o t e o' V St z Ll).
      - unfold to_left_event in *. rewrite Ez in *.
        pose proof (proj1 (proj2 (k_opp o (w_linked c o W) z Lz))) as Oo.
        assert (Dn : done o (opp o z)) by (split; [auto|rewrite Oo; auto]).
        pose proof (st_done _ _ _ _ _ St _ Dn) as Q. rewrite Oo in Q.
        assert (Q' : opp o' z = opp o z).
        { pose proof (st_size _ _ _ _ _ St). assert (Lt : (opp o z < size o')%nat) by (destruct Ll; lia).
          pose proof (proj1 (proj2 (k_opp o' (w_linked c o' W') _ Lt))) as Q2. rewrite Q in Q2. exact Q2. }
        rewrite Q'. apply (st_firstop c o t e o' V St _ Ll). }
    rewrite !Ev by auto. apply (ds_notcommon _ _ _ D F x y); auto; congruence.
Qed.
End Meaning.
