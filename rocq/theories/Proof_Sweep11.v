(** The plane sweep, part 11: processing a right event. *)
From Coq Require Import QArith Qcanon Bool List Arith Lia.
From Verif Require Import QcTac Model_Base Model_Utils Model_Linear Spec_Base Spec_Sweep
  Proof_Base Proof_Line Proof_Sweep Proof_Sweep2 Proof_Sweep3 Proof_Sweep5 Proof_Sweep7
  Proof_Sweep8 Proof_Sweep9 Proof_Sweep10.
Import ListNotations.
Local Open Scope Qc_scope.

Lemma drop_event_iff e l x : NoDup l -> (In x (drop_event e l) <-> In x l /\ x <> e).
Proof.
  intros Nd. split.
  - intros I. split; [apply (drop_event_In e l x I)|]. intros ->. apply (drop_event_NoDup e l Nd), I.
  - intros [I NE]. apply drop_event_keep; auto.
Qed.

(** The state between the pop of [e] and its processing, and with another line. *)
Definition popping (o : operation) (e : event) : operation :=
  set_queue (tick o) (drop_event e (op_queue o)).
Definition relined (o : operation) (e : event) (line : list event) : operation :=
  set_line (popping o e) line.

Section Pops.
Variable c : ctx.
Hypothesis G : good c.
Hypothesis N : nc c.
Notation S' := (SX c). Notation E' := (EX c). Notation h := (hh c). Notation k := (kk c).
Notation EV := (EVX c). Notation col := (col c). Notation below := (below c).
Notation d := (dd c).
Notation core := (core c). Notation th := (th c). Notation mates := (mates c).
Notation dpair := (dpair c). Notation through := (through c).

Record inv (o : operation) (t : Qc) : Prop := {
  v_core : core o t;
  v_line : dline c o (op_line o);
  v_th : th o t nobody }.

(** The queue holds nothing before [t], and [e] is the next event. *)
Definition least (o : operation) (e : event) : Prop :=
  In e (op_queue o) /\ forall y, In y (op_queue o) -> y = e \/ qlt c o e y.

Lemma line_compare o t x y : core o t -> before (op_line o) x y ->
  line_key_lt o x y = true /\ line_key_lt o y x = false.
Proof.
  intros C B. pose proof (before_In _ _ _ B) as [Ix Iy].
  apply (i_line _ _ _ C) in Ix. apply (i_line _ _ _ C) in Iy.
  apply (lt_spec c o t x y (i_wf _ _ _ C)); try apply Ix; try apply Iy.
  - apply (i_ord _ _ _ C); auto.
  - apply (active_S _ _ _ _ C Ix).
  - apply (active_S _ _ _ _ C Iy).
  - apply (active_E _ _ _ _ C Ix).
  - apply (active_E _ _ _ _ C Iy).
Qed.

Lemma lookup_present o t o0 l l1 l2 shape i : core o t -> op_line o = l1 ++ l :: l2 ->
  op_line o0 = op_line o -> (forall x y, line_key_lt o0 x y = line_key_lt o x y) ->
  lookup shape i o0 l = (l1, Some l, l2).
Proof.
  intros C El E0 Cmp. unfold lookup. rewrite E0, El. change (l1 ++ l :: l2) with (l1 ++ [l] ++ l2).
  assert (Il : active o l).
  { apply (i_line _ _ _ C). rewrite El. apply in_or_app; right; left; auto. }
  rewrite (search_spec (shape (op_clock o0) i) o0 l (length (l1 ++ [l] ++ l2)) l1 [l] l2); auto.
  - rewrite Cmp. apply (line_key_irrefl c o l (i_wf _ _ _ C)), Il.
  - intros x I. rewrite !Cmp. apply (line_compare o t x l C). rewrite El.
    apply in_split in I. destruct I as (u & v & ->). exists u, v, l2. rewrite <- app_assoc. reflexivity.
  - intros x I. rewrite !Cmp. apply (line_compare o t l x C). rewrite El.
    apply in_split in I. destruct I as (u & v & ->). exists l1, u, v. reflexivity.
Qed.

(** Active pieces are never found to overlap within an operand. *)
Lemma detect_active o t Y Z : core o t -> active o Y -> active o Z -> Y <> Z ->
  exists o', detect_intersection o Y Z = Some o' /\ cuts c Y Z o o' /\ dpair o' Y Z.
Proof.
  intros C AY AZ NE. assert (W := i_wf _ _ _ C).
  assert (LY : left_of o Y) by apply AY. assert (LZ : left_of o Z) by apply AZ.
  pose proof (detect_spec c G o Y Z W LY LZ NE) as Q.
  pose proof (active_S _ _ _ _ C AY). pose proof (active_S _ _ _ _ C AZ).
  pose proof (active_E _ _ _ _ C AY). pose proof (active_E _ _ _ _ C AZ).
  destruct (detect_intersection o Y Z) as [o'|]; cbn in Q.
  - exists o'. split; auto. destruct Q as [Q1 Q2]. split; auto.
    destruct Q2 as [Q2|(Q2 & Q3 & Q4 & Q5)]; [left; auto|right]. split; auto. split; auto.
    apply (col_slope c o' Y Z (S' o' Y)); auto. rewrite Q5. congruence.
  - exfalso. destruct Q as (Q1 & Q2 & Q3 & Q4 & Q5).
    apply (col_overlap c N o Y Z W LY LZ NE); auto.
    + apply (col_slope c o Y Z (S' o Z)); auto.
    + assert (S' o Y <= E' o Z) by qlra. destruct (Qcle_lt_or_eq _ _ H3); auto. exfalso; auto.
    + assert (S' o Z <= E' o Y) by qlra. destruct (Qcle_lt_or_eq _ _ H3); auto. contradiction.
Qed.

Section RightPop.
Variables (o : operation) (t : Qc) (e : event).
Hypothesis V : inv o t.
Hypothesis Le : least o e.
Hypothesis Re : is_event_left e = false.
Hypothesis Et : EV o e = t.

Let C := v_core o t V.
Let W := i_wf _ _ _ C.
Notation l := (opp o e).

Lemma rp_lt : (e < size o)%nat.
Proof. apply (i_qsz _ _ _ C), Le. Qed.
Lemma rp_opp : opp o l = e.
Proof. apply (k_opp o (w_linked c o W)), rp_lt. Qed.
Lemma rp_left : left_of o l.
Proof.
  destruct (k_opp o (w_linked c o W) e rp_lt) as (Q1 & Q2 & Q3). split; auto. rewrite Q3, Re. reflexivity.
Qed.
Lemma rp_E : E' o l = t.
Proof. unfold EX. rewrite rp_opp. exact Et. Qed.
Lemma rp_active : active o l.
Proof.
  split; [apply rp_left|]. split; [|rewrite rp_opp; apply Le].
  intros I. apply (i_q1 _ _ _ C) in I. pose proof (w_lt c o W l rp_left) as Q. rewrite rp_E in Q.
  unfold EVX, SX in *. qlra.
Qed.
Lemma rp_split : exists l1 l2, op_line o = l1 ++ l :: l2.
Proof. apply in_split. apply (i_line _ _ _ C), rp_active. Qed.
Lemma rp_queue x : In x (op_queue (popping o e)) <-> In x (op_queue o) /\ x <> e.
Proof. apply drop_event_iff, (i_qnd _ _ _ C). Qed.
Lemma rp_left_queue x : left_of o x -> (In x (op_queue (popping o e)) <-> In x (op_queue o)).
Proof.
  intros Lx. rewrite rp_queue. split; [tauto|]. intros I. split; auto. intros ->.
  destruct Lx as [Lx _]. congruence.
Qed.
Lemma opp_right x : left_of o x -> is_event_left (opp o x) = false.
Proof. intros [Lx Sx]. destruct (k_opp o (w_linked c o W) x Sx) as (_ & _ & ->). rewrite Lx. reflexivity. Qed.
Lemma rp_right_queue x : left_of o x ->
  (In (opp o x) (op_queue (popping o e)) <-> In (opp o x) (op_queue o) /\ x <> l).
Proof.
  intros Lx. rewrite rp_queue. split; intros [I Q]; split; auto.
  - intros ->. apply Q, rp_opp.
  - intros Q'. apply Q. rewrite <- Q'. symmetry. apply (core_opp c o t x C Lx).
Qed.

Section Lines.
Variables (l1 l2 : list event).
Hypothesis El : op_line o = l1 ++ l :: l2.
Notation o1 := (relined o e (l1 ++ l2)).

Lemma rp_popped x : popped o1 x <-> popped o x.
Proof.
  unfold popped. change (left_of o1 x) with (left_of o x).
  change (op_queue o1) with (op_queue (popping o e)). split; intros [Lx I]; split; auto; intros Q; apply I;
    apply rp_left_queue; auto.
Qed.
Lemma rp_active1 x : active o1 x <-> active o x /\ x <> l.
Proof.
  unfold active. change (left_of o1 x) with (left_of o x). change (opp o1 x) with (opp o x).
  change (op_queue o1) with (op_queue (popping o e)). split.
  - intros (Lx & I & J). apply rp_right_queue in J; auto. destruct J as [J NE].
    split; auto. split; auto. split; auto. intros Q; apply I. apply rp_left_queue; auto.
  - intros ((Lx & I & J) & NE). split; auto. split.
    + intros Q; apply I. apply rp_left_queue in Q; auto.
    + apply rp_right_queue; auto.
Qed.
Lemma rp_done1 x : done o1 x <-> done o x \/ x = l.
Proof.
  unfold done. change (left_of o1 x) with (left_of o x). change (opp o1 x) with (opp o x).
  change (op_queue o1) with (op_queue (popping o e)). split.
  - intros [Lx J]. destruct (Nat.eq_dec x l) as [|NE]; auto. left. split; auto.
    intros Q; apply J. apply rp_right_queue; auto.
  - intros [[Lx J]| ->].
    + split; auto. intros Q; apply rp_right_queue in Q; auto. tauto.
    + split; [apply rp_left|]. intros Q; apply rp_right_queue in Q; [tauto|apply rp_left].
Qed.
Lemma rp_In x : In x (l1 ++ l2) <-> In x (op_line o) /\ x <> l.
Proof.
  rewrite El. split.
  - intros I. assert (I' : In x (l1 ++ l :: l2)) by (apply in_app_or in I; apply in_or_app; cbn; tauto).
    split; auto. intros ->. apply in_app_or in I. destruct I as [I|I]; apply in_split in I; destruct I as (u & v & ->).
    + apply (line_irrefl c o t l C). rewrite El. exists u, v, l2. rewrite <- app_assoc. reflexivity.
    + apply (line_irrefl c o t l C). rewrite El. exists l1, u, v. reflexivity.
  - intros [I NE]. apply in_app_or in I. apply in_or_app. destruct I as [I|[I|I]]; auto. congruence.
Qed.

Lemma rp_core : core o1 t.
Proof.
  assert (Sp : same_pieces o o1) by (repeat split).
  constructor.
  - apply (same_wf c o o1 Sp W).
  - intros x I. apply rp_queue in I. apply (i_qsz _ _ _ C), I.
  - apply drop_event_NoDup, (i_qnd _ _ _ C).
  - intros x I. apply rp_queue in I. apply (i_q1 _ _ _ C), I.
  - intros x Lx I. apply rp_left_queue in I; auto. apply rp_right_queue; auto. split.
    + apply (i_q2 _ _ _ C); auto.
    + intros ->. apply rp_active in I. auto.
  - intros x. change (op_line o1) with (l1 ++ l2). rewrite rp_In, rp_active1, (i_line _ _ _ C). reflexivity.
  - intros x P. apply rp_popped in P. apply (i_S _ _ _ C x P).
  - intros x P. apply rp_done1 in P. destruct P as [P| ->].
    + apply (i_E _ _ _ C x P).
    + change (E' o1 l) with (E' o l). rewrite rp_E. apply Qcle_refl.
  - intros Y Z B. change (op_line o1) with (l1 ++ l2) in B.
    pose proof (before_drop l1 l2 l Y Z B) as B'. rewrite <- El in B'.
    destruct (i_ord _ _ _ C Y Z B') as [B1 B2 B3]. constructor; auto.
  - intros Y Z u PY PZ. apply rp_popped in PY. apply rp_popped in PZ. apply (i_V _ _ _ C Y Z u PY PZ).
Qed.
Lemma rp_th : th o1 t nobody.
Proof.
  intros Y Z LY LZ PY PZ NE Ty A3 A4 Eh.
  destruct (v_th o t V Y Z LY LZ) as [Q|(Q & x & Lx & [Ix|[]] & Sx & Cx)]; auto.
  - intros [I|[]]; apply PY. left. apply rp_left_queue; auto.
  - intros [I|[]]; apply PZ. left. apply rp_left_queue; auto.
  - right. split; auto. exists x. split; auto. split; [left; apply rp_left_queue; auto|]. split; auto.
Qed.
Lemma rp_dpair Y Z : dpair o Y Z -> dpair o1 Y Z.
Proof.
  intros [A|(M & Q)]; [left; exact A|right]. split; [exact M|].
  destruct Q as [Q|(x & Lx & Ix & Q)]; [left; exact Q|right].
  exists x. split; auto. split; [apply rp_left_queue; auto|exact Q].
Qed.

(** What processing [e] amounts to. *)
Lemma rp_process shape : process_event shape (popping o e) e =
  detect_optional o1 (hd_error (rev l1)) (hd_error l2).
Proof.
  assert (Lk : forall i, lookup shape i (popping o e) l = (l1, Some l, l2)).
  { intros i. apply (lookup_present o t); auto. }
  unfold process_event, is_event_right. rewrite <- Nat.negb_even.
  change (Nat.even e) with (is_event_left e). rewrite Re. cbn [negb].
  change (opp (popping o e) e) with l. rewrite (proj1 rp_left).
  unfold find_event. rewrite Lk. unfold above_event, below_event, remove_event. rewrite !Lk.
  reflexivity.
Qed.

Definition stepped (o2 : operation) : Prop :=
  (o2 = o1 /\ (hd_error (rev l1) = None \/ hd_error l2 = None))
  \/ exists b a, hd_error (rev l1) = Some b /\ hd_error l2 = Some a /\ b <> a
       /\ frame c o1 o2 t b a /\ dpair o2 b a.

Lemma rp_step shape : exists o2, process_event shape (popping o e) e = Some o2
  /\ inv o2 t /\ stepped o2
  /\ (forall x, active o2 x <-> active o1 x) /\ (forall x, done o2 x <-> done o1 x).
Proof.
  rewrite rp_process. assert (C1 := rp_core). assert (T1 := rp_th).
  assert (Dl : dline c o (op_line o)) by apply (v_line _ _ V). rewrite El in Dl.
  assert (Dl1 : forall Y Z, adj l1 Y Z \/ adj l2 Y Z -> dpair o1 Y Z).
  { intros Y Z [A|A]; apply rp_dpair, Dl; [apply adj_app_l; auto|].
    change (l1 ++ l :: l2) with (l1 ++ [l] ++ l2). rewrite app_assoc. apply adj_app_r; auto. }
  assert (None1 : hd_error (rev l1) = None \/ hd_error l2 = None -> inv o1 t).
  { intros Q. constructor; auto. intros Y Z A. change (op_line o1) with (l1 ++ l2) in A.
    apply adj_app in A. destruct A as [A|[A|[A1 A2]]]; auto. destruct Q; congruence. }
  destruct (hd_error (rev l1)) as [b|] eqn:Eb; cbn [detect_optional].
  2: { exists o1. split; auto. split; auto. split; [left; auto|]. split; intros; reflexivity. }
  destruct (hd_error l2) as [a|] eqn:Ea; cbn [detect_optional].
  2: { exists o1. split; auto. split; auto. split; [left; auto|]. split; intros; reflexivity. }
  assert (Ib : In b (op_line o1)) by (apply in_or_app; left; apply last_In; auto).
  assert (Ia : In a (op_line o1)) by (apply in_or_app; right; apply hd_error_In; auto).
  apply (i_line _ _ _ C1) in Ib. apply (i_line _ _ _ C1) in Ia.
  assert (Ad : adj (op_line o1) b a).
  { destruct l2 as [|a' r]; [discriminate|]. injection Ea as ->. apply last_adj; auto. }
  assert (NE : b <> a) by (intros ->; apply (line_irrefl c o1 t a C1), adj_before, Ad).
  destruct (detect_active o1 t b a C1 Ib Ia NE) as (o2 & D & Cs & Dp).
  destruct (cuts_frame c b a o1 o2 t Cs C1 Ib Ia NE) as (C2 & F & Dps & Ths & Ac & Dn).
  exists o2. split; auto. split; [|split; [|split; auto]].
  - constructor; auto.
    + intros Y Z A. rewrite (f_line _ _ _ _ _ _ F) in A. pose proof (adj_In _ _ _ A) as [IY IZ].
      assert (NYZ : Y <> Z) by (intros ->; apply (line_irrefl c o1 t Z C1), adj_before, A).
      apply (i_line _ _ _ C1) in IY. apply (i_line _ _ _ C1) in IZ.
      change (op_line o1) with (l1 ++ l2) in A. apply adj_app in A.
      destruct A as [A|[A|[A1 A2]]].
      * apply Dps; auto; [apply IY|apply IZ].
      * apply Dps; auto; [apply IY|apply IZ].
      * rewrite Eb in A1. rewrite Ea in A2. injection A1 as ->. injection A2 as ->. auto.
    + apply Ths; auto. intros x [].
  - right. exists b, a. split; auto.
Qed.
End Lines.
End RightPop.
End Pops.
