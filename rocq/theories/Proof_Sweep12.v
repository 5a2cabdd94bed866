(** The plane sweep, part 12: processing a left event. *)
From Coq Require Import QArith Qcanon Bool List Arith Lia.
From Verif Require Import QcTac Model_Base Model_Utils Model_Linear Spec_Base Spec_Sweep
  Proof_Base Proof_Line Proof_Sweep Proof_Sweep2 Proof_Sweep3 Proof_Sweep5 Proof_Sweep7
  Proof_Sweep8 Proof_Sweep9 Proof_Sweep10 Proof_Sweep11.
Import ListNotations.
Local Open Scope Qc_scope.

Lemma split_down {A} (P : A -> bool) (l : list A) :
  (forall x y, before l x y -> P y = true -> P x = true) ->
  exists l1 l2, l = l1 ++ l2 /\ (forall x, In x l1 -> P x = true) /\ (forall x, In x l2 -> P x = false).
Proof.
  induction l as [|a l IH]; intros D.
  - exists [], []. split; auto. split; intros x [].
  - destruct (P a) eqn:Ea.
    + destruct IH as (l1 & l2 & -> & P1 & P2).
      { intros x y (u & v & w & ->) Q. apply (D x y); auto. exists (a :: u), v, w. reflexivity. }
      exists (a :: l1), l2. split; auto. split; auto. intros x [<-|I]; auto.
    + exists [], (a :: l). split; auto. split; [intros x []|]. intros x [<-|I]; auto.
      destruct (P x) eqn:Ex; auto. apply in_split in I. destruct I as (u & v & ->).
      rewrite <- Ea. symmetry. apply (D a x); auto. exists [], u, v. reflexivity.
Qed.

Section LeftPops.
Variable c : ctx.
Hypothesis G : good c.
Hypothesis N : nc c.
Notation S' := (SX c). Notation E' := (EX c). Notation h := (hh c). Notation k := (kk c).
Notation EV := (EVX c). Notation col := (col c). Notation below := (below c).
Notation d := (dd c).
Notation core := (core c). Notation th := (th c). Notation mates := (mates c).
Notation dpair := (dpair c). Notation through := (through c). Notation inv := (inv c).
Notation least := (least c).

Section LeftPop.
Variables (o : operation) (t : Qc) (e : event).
Hypothesis V : inv o t.
Hypothesis Le : least o e.
Hypothesis Re : is_event_left e = true.
Hypothesis Et : EV o e = t.

Let C := v_core c o t V.
Let W := i_wf _ _ _ C.

Lemma lp_left : left_of o e.
Proof. split; auto. apply (i_qsz _ _ _ C), Le. Qed.
Lemma lp_S : S' o e = t.
Proof. exact Et. Qed.
Lemma lp_E : t < E' o e.
Proof. rewrite <- lp_S. apply (w_lt c o W), lp_left. Qed.
Lemma lp_queue x : In x (op_queue (popping o e)) <-> In x (op_queue o) /\ x <> e.
Proof. apply drop_event_iff, (i_qnd _ _ _ C). Qed.
Lemma lp_opp_right x : left_of o x -> is_event_left (opp o x) = false.
Proof. intros [Lx Sx]. destruct (k_opp o (w_linked c o W) x Sx) as (_ & _ & ->). rewrite Lx. reflexivity. Qed.
Lemma lp_right_queue x : left_of o x ->
  (In (opp o x) (op_queue (popping o e)) <-> In (opp o x) (op_queue o)).
Proof.
  intros Lx. rewrite lp_queue. split; [tauto|]. intros I. split; auto. intros Q.
  pose proof (lp_opp_right x Lx). congruence.
Qed.
(** No piece ends at [t] any more. *)
Lemma lp_beyond x : active o x -> t < E' o x.
Proof.
  intros A. pose proof (active_E _ _ _ _ C A) as Q. destruct (Qcle_lt_or_eq _ _ Q) as [|Eq]; auto. exfalso.
  destruct A as (Lx & I & J). destruct (proj2 Le _ J) as [Q'|[Q'|(Q1 & Q2)]].
  - pose proof (lp_opp_right x Lx). congruence.
  - unfold EX in Eq. unfold EVX in *. rewrite Et, <- Eq in Q'. qlra.
  - rewrite (lp_opp_right x Lx), Re in Q2. destruct Q2 as [[? ?]|[? _]]; discriminate.
Qed.
Lemma lp_not_active : ~ active o e.
Proof. intros (_ & I & _). apply I, Le. Qed.

(** ** The place of [e] *)
Definition lowerb (x : event) : bool :=
  qltb (h o x t) (h o e t)
  || (qeqb (h o x t) (h o e t) &&
      (qltb (k o x) (k o e)
       || (qeqb (k o x) (k o e) && firstop o x && negb (firstop o e)))).

Lemma lower_below x : active o x -> lowerb x = true -> below o t x e.
Proof.
  intros A Q. pose proof (active_S _ _ _ _ C A) as Sx. unfold lowerb in Q.
  assert (Mx : mx (S' o x) (S' o e) = t) by (rewrite lp_S; apply mx_eq_r; auto).
  assert (Q' : 0 <= d o x e t /\ (d o x e t = 0 -> 0 < ds c o x e \/ (ds c o x e = 0 /\ firstop o x = true /\ firstop o e = false))).
  { unfold dd, ds. apply orb_true_iff in Q. destruct Q as [Q|Q].
    - apply qltb_true in Q. split; [qlra|]. intros Q'. exfalso; qlra.
    - apply andb_true_iff in Q. destruct Q as [Q1 Q2]. apply qeqb_true in Q1. split; [qlra|]. intros _.
      apply orb_true_iff in Q2. destruct Q2 as [Q2|Q2].
      + left. apply qltb_true in Q2. qlra.
      + right. rewrite !andb_true_iff in Q2. destruct Q2 as [[Q2 Q3] Q4]. apply qeqb_true in Q2.
        apply negb_true_iff in Q4. split; auto. rewrite Q2. ring. }
  destruct Q' as [Q1 Q2]. constructor; rewrite ?Mx; auto.
  intros _ Q3. destruct (Q2 Q3) as [Q4|Q4]; auto.
Qed.
Lemma upper_below x : active o x -> lowerb x = false -> below o t e x.
Proof.
  intros A Q. pose proof (active_S _ _ _ _ C A) as Sx. unfold lowerb in Q.
  assert (Mx : mx (S' o e) (S' o x) = t) by (rewrite lp_S; apply mx_eq_l; auto).
  assert (Q' : 0 <= d o e x t /\ (d o e x t = 0 -> 0 < ds c o e x \/ (ds c o e x = 0 /\ firstop o e = true /\ firstop o x = false))).
  { unfold dd, ds. apply orb_false_iff in Q. destruct Q as [Q1 Q2]. apply qltb_false in Q1.
    split; [qlra|]. intros Q3. assert (Eh : h o x t = h o e t) by qlra.
    rewrite (proj2 (qeqb_true _ _) Eh) in Q2. cbn [andb] in Q2. apply orb_false_iff in Q2.
    destruct Q2 as [Q2 Q4]. apply qltb_false in Q2. destruct (Qcle_lt_or_eq _ _ Q2) as [L|Ek].
    - left. qlra.
    - right. rewrite (proj2 (qeqb_true _ _) (eq_sym Ek)) in Q4. split; [rewrite Ek; ring|].
      assert (Op : firstop o x <> firstop o e).
      { apply (col_overlap c N o x e W); auto; try apply A; try apply lp_left.
        - intros ->. apply lp_not_active, A.
        - apply (col_slope c o x e t); auto.
        - pose proof lp_E. qlra.
        - rewrite lp_S. apply lp_beyond; auto. }
      destruct (firstop o x), (firstop o e); cbn in Q4; try discriminate; try congruence; auto. }
  destruct Q' as [Q1 Q2]. constructor; rewrite ?Mx; auto.
  intros _ Q3. destruct (Q2 Q3) as [Q4|Q4]; auto.
Qed.

(** The order of pieces tied at [t], all of which go on. *)
Lemma tied_order x y : before (op_line o) x y -> h o x t = h o y t ->
  k o x < k o y \/ (k o x = k o y /\ firstop o x = true /\ firstop o y = false).
Proof.
  intros B Eh. pose proof (before_In _ _ _ B) as [Ix Iy].
  apply (i_line _ _ _ C) in Ix. apply (i_line _ _ _ C) in Iy.
  assert (NE : x <> y) by (intros ->; apply (line_irrefl c o t y C B)).
  pose proof (active_S _ _ _ _ C Ix) as Sx. pose proof (active_S _ _ _ _ C Iy) as Sy.
  pose proof (lp_beyond x Ix) as Ex. pose proof (lp_beyond y Iy) as Ey.
  pose proof (i_ord _ _ _ C x y B) as [B1 B2 B3].
  assert (Z0 : d o x y t = 0) by (apply d_zero; auto).
  assert (Z1 : d o x y (mx (S' o x) (S' o y)) = 0).
  { destruct (Qcle_lt_or_eq _ _ Sx) as [Tx|Tx].
    - destruct (v_th c o t V x y) as [[M _]|[Nt _]]; auto; try apply Ix; try apply Iy.
      + intros [I|[]]. apply Ix; auto.
      + intros [I|[]]. apply Iy; auto.
      + split; auto.
      + qlra.
      + apply mates_d; auto.
      + destruct (Qcle_lt_or_eq _ _ Sy) as [Ty|Ty]; [exfalso; apply Nt; split; auto|].
        rewrite Ty. rewrite mx_eq_r; auto.
    - rewrite Tx. rewrite mx_eq_l; auto. }
  unfold ds in B3. destruct (B3 Z1 Z0) as [[_ Q]|[Q1 Q2]]; [left; qlra|right]. split; auto. qlra.
Qed.

Lemma lower_down x y : before (op_line o) x y -> lowerb y = true -> lowerb x = true.
Proof.
  intros B Q. pose proof (be_t _ _ _ _ _ (i_ord _ _ _ C x y B)) as Bt. unfold dd in Bt.
  unfold lowerb in *. destruct (qltb (h o x t) (h o e t)) eqn:E1; auto. cbn [orb].
  apply qltb_false in E1. apply orb_true_iff in Q. destruct Q as [Q|Q].
  - apply qltb_true in Q. exfalso; qlra.
  - apply andb_true_iff in Q. destruct Q as [Q1 Q2]. apply qeqb_true in Q1.
    assert (Eh : h o x t = h o y t) by qlra.
    rewrite (proj2 (qeqb_true _ _) (eq_trans Eh Q1)). cbn [andb].
    destruct (tied_order x y B Eh) as [K1|(K1 & F1 & F2)]; apply orb_true_iff; apply orb_true_iff in Q2;
      destruct Q2 as [Q2|Q2].
    + left. apply qltb_true. apply qltb_true in Q2. qlra.
    + left. rewrite !andb_true_iff in Q2. destruct Q2 as [[Q2 _] _]. apply qeqb_true in Q2. apply qltb_true. qlra.
    + left. apply qltb_true. apply qltb_true in Q2. qlra.
    + rewrite !andb_true_iff in Q2. destruct Q2 as [[_ Q2] _]. congruence.
Qed.

Lemma lp_split : exists l1 l2, op_line o = l1 ++ l2
  /\ (forall x, In x l1 -> lowerb x = true) /\ (forall x, In x l2 -> lowerb x = false).
Proof. apply split_down. exact lower_down. Qed.

Section Lines.
Variables (l1 l2 : list event).
Hypothesis El : op_line o = l1 ++ l2.
Hypothesis P1 : forall x, In x l1 -> lowerb x = true.
Hypothesis P2 : forall x, In x l2 -> lowerb x = false.
Notation o1 := (relined o e (l1 ++ e :: l2)).

Lemma lp_In1 x : In x l1 -> active o x.
Proof. intros I. apply (i_line _ _ _ C). rewrite El. apply in_or_app; auto. Qed.
Lemma lp_In2 x : In x l2 -> active o x.
Proof. intros I. apply (i_line _ _ _ C). rewrite El. apply in_or_app; auto. Qed.

Lemma lp_popped x : popped o1 x <-> popped o x \/ x = e.
Proof.
  unfold popped. change (left_of o1 x) with (left_of o x).
  change (op_queue o1) with (op_queue (popping o e)). rewrite lp_queue. split.
  - intros [Lx I]. destruct (Nat.eq_dec x e) as [|NE]; auto. left. split; auto.
  - intros [[Lx I]| ->]; split; auto; try tauto. apply lp_left.
Qed.
Lemma lp_active x : active o1 x <-> active o x \/ x = e.
Proof.
  split.
  - intros (Lx & I & J). change (left_of o1 x) with (left_of o x) in Lx. change (opp o1 x) with (opp o x) in J.
    assert (P : popped o1 x) by (split; auto). apply lp_popped in P. destruct P as [[_ P]|P]; auto.
    left. split; auto. split; auto. apply lp_right_queue; auto.
  - intros Q. assert (P : popped o1 x).
    { apply lp_popped. destruct Q as [Q|Q]; auto. left. apply active_popped; auto. }
    assert (Lx : left_of o x) by (destruct Q as [Q| ->]; [apply Q|apply lp_left]).
    split; auto. split; [apply P|]. change (opp o1 x) with (opp o x).
    apply lp_right_queue; auto. destruct Q as [Q| ->]; [apply Q|]. apply (i_q2 _ _ _ C); auto. apply Le.
Qed.
Lemma lp_done x : done o1 x <-> done o x.
Proof.
  unfold done. change (left_of o1 x) with (left_of o x). change (opp o1 x) with (opp o x).
  change (op_queue o1) with (op_queue (popping o e)).
  split; intros [Lx J]; split; auto; intros Q; apply J; apply lp_right_queue; auto.
Qed.
Lemma lp_before x y : before (l1 ++ e :: l2) x y -> below o t x y.
Proof.
  intros B. apply before_app_cons in B. destruct B as [B|[[-> I]|[-> I]]].
  - rewrite <- El in B. apply (i_ord _ _ _ C); auto.
  - apply lower_below; [apply lp_In1; auto|apply P1; auto].
  - apply upper_below; [apply lp_In2; auto|apply P2; auto].
Qed.

Lemma lp_core : core o1 t.
Proof.
  assert (Sp : same_pieces o o1) by (repeat split).
  constructor.
  - apply (same_wf c o o1 Sp W).
  - intros x I. apply lp_queue in I. apply (i_qsz _ _ _ C), I.
  - apply drop_event_NoDup, (i_qnd _ _ _ C).
  - intros x I. apply lp_queue in I. apply (i_q1 _ _ _ C), I.
  - intros x Lx I. change (left_of o1 x) with (left_of o x) in Lx.
    apply lp_queue in I. change (opp o1 x) with (opp o x). apply lp_right_queue; auto.
    apply (i_q2 _ _ _ C); auto. apply I.
  - intros x. rewrite lp_active, <- (i_line _ _ _ C), El. change (op_line o1) with (l1 ++ e :: l2).
    rewrite !in_app_iff. cbn. intuition.
  - intros x P. apply lp_popped in P. destruct P as [P| ->]; [apply (i_S _ _ _ C x P)|].
    change (S' o1 e) with (S' o e). rewrite lp_S. apply Qcle_refl.
  - intros x P. apply lp_done in P. apply (i_E _ _ _ C x P).
  - intros Y Z B. destruct (lp_before Y Z B) as [B1 B2 B3]. constructor; auto.
  - intros Y Z u PY PZ NE Lu A1 A2 A3 A4. apply lp_popped in PY. apply lp_popped in PZ.
    destruct PY as [PY| ->]; [destruct PZ as [PZ| ->]|].
    + apply (i_V _ _ _ C Y Z u PY PZ NE Lu A1 A2 A3 A4).
    + change (S' o1 e) with (S' o e) in A3. rewrite lp_S in A3. intros _; exfalso; qlra.
    + change (S' o1 e) with (S' o e) in A1. rewrite lp_S in A1. intros _; exfalso; qlra.
Qed.
Lemma lp_th : th o1 t (fun x => x = e).
Proof.
  assert (Q : forall x, In x (op_queue o1) \/ x = e <-> In x (op_queue o)).
  { intros x. change (op_queue o1) with (op_queue (popping o e)). rewrite lp_queue. split.
    - intros [I| ->]; [apply I|apply Le].
    - intros I. destruct (Nat.eq_dec x e); auto. }
  intros Y Z LY LZ PY PZ NE Ty A3 A4 Eh. rewrite Q in PY, PZ.
  destruct (v_th c o t V Y Z LY LZ) as [R|(R & x & Lx & [Ix|[]] & Sx & Cx)]; auto.
  - intros [I|[]]; auto.
  - intros [I|[]]; auto.
  - right. split; auto. exists x. split; auto. split; [apply Q; auto|]. split; auto.
Qed.
(** The pieces on the line go beyond [t], hence [e] is no witness for them. *)
Lemma lp_dpair_active Y Z : active o Y -> active o Z -> dpair o Y Z -> dpair o1 Y Z.
Proof.
  intros AY AZ [A|(M & Q)]; [left; exact A|right]. split; [exact M|].
  destruct Q as [Q|(x & Lx & Ix & Q)]; [left; exact Q|right]. exists x. split; auto. split; [|exact Q].
  apply lp_queue. split; auto. intros ->. rewrite lp_S in Q.
  pose proof (lp_beyond Y AY). pose proof (lp_beyond Z AZ).
  destruct Q as [(_ & Q & _)|(_ & Q & _)]; rewrite <- Q in *; qlra.
Qed.

(** ** Processing *)
Lemma lp_lookup shape i : lookup shape i (popping o e) e = (l1, None, l2).
Proof.
  unfold lookup. change (op_line (popping o e)) with (op_line o). rewrite El.
  assert (Q : forall x y, line_key_lt (popping o e) x y = line_key_lt o x y) by reflexivity.
  change (l1 ++ l2) with (l1 ++ [] ++ l2).
  rewrite (search_spec (shape (op_clock (popping o e)) i) (popping o e) e (length (l1 ++ [] ++ l2)) l1 [] l2); auto.
  - rewrite Q. apply (line_key_irrefl c o e W lp_left).
  - intros x I. rewrite !Q. pose proof (lp_In1 x I) as A. apply (lt_spec c o t x e W); try apply A; try apply lp_left.
    + apply lower_below; auto.
    + apply (active_S _ _ _ _ C A).
    + rewrite lp_S. apply Qcle_refl.
    + apply (active_E _ _ _ _ C A).
    + pose proof lp_E; qlra.
  - intros x I. rewrite !Q. pose proof (lp_In2 x I) as A. apply (lt_spec c o t e x W); try apply A; try apply lp_left.
    + apply upper_below; auto.
    + rewrite lp_S. apply Qcle_refl.
    + apply (active_S _ _ _ _ C A).
    + pose proof lp_E; qlra.
    + apply (active_E _ _ _ _ C A).
Qed.
Lemma lp_lookup1 shape i : lookup shape i o1 e = (l1, Some e, l2).
Proof. apply (lookup_present c o1 t); auto. apply lp_core. Qed.

Lemma lp_process shape : process_event shape (popping o e) e =
  match detect_optional o1 (Some e) (hd_error l2) with
  | None => None
  | Some o2 => detect_optional o2 (hd_error (rev l1)) (Some e)
  end.
Proof.
  unfold process_event, is_event_right. rewrite <- Nat.negb_even.
  change (Nat.even e) with (is_event_left e). rewrite Re. cbn [negb].
  unfold find_event, add_event. rewrite !lp_lookup.
  change (set_line (popping o e) (l1 ++ e :: l2)) with o1. cbv zeta.
  unfold above_event, below_event. rewrite !lp_lookup1. reflexivity.
Qed.

(** A detection against a possible neighbour. *)
Definition maybe (o' o2 : operation) (x : option event) (flip : bool) : Prop :=
  match x with
  | None => o2 = o'
  | Some x => x <> e /\ active o' x /\ (if flip then frame c o' o2 t x e else frame c o' o2 t e x) /\ dpair o2 e x
  end.

Lemma lp_steps shape : exists o2 o3, process_event shape (popping o e) e = Some o3
  /\ core o3 t /\ th o3 t (fun x => x = e) /\ dline c o3 (l1 ++ e :: l2) /\ op_line o3 = l1 ++ e :: l2
  /\ maybe o1 o2 (hd_error l2) false /\ maybe o2 o3 (hd_error (rev l1)) true
  /\ core o2 t
  /\ (forall x, active o2 x <-> active o1 x) /\ (forall x, done o2 x <-> done o1 x)
  /\ (forall x, active o3 x <-> active o1 x) /\ (forall x, done o3 x <-> done o1 x).
Proof.
  rewrite lp_process. assert (C1 := lp_core). assert (T1 := lp_th).
  assert (Ae : active o1 e) by (apply lp_active; auto).
  assert (Dl : dline c o (op_line o)) by apply (v_line _ _ _ V). rewrite El in Dl.
  assert (Act : forall Y Z, adj (l1 ++ e :: l2) Y Z -> Y <> Z /\ active o1 Y /\ active o1 Z).
  { intros Y Z A. split.
    - intros ->. apply (line_irrefl c o1 t Z C1), adj_before, A.
    - change (l1 ++ e :: l2) with (op_line o1) in A. apply adj_In in A.
      rewrite !(i_line _ _ _ C1) in A. exact A. }
  assert (Dl1 : forall Y Z, adj l1 Y Z \/ adj l2 Y Z -> dpair o1 Y Z).
  { intros Y Z A. assert (I : active o Y /\ active o Z).
    { destruct A as [A|A]; apply adj_In in A; destruct A as [A1 A2]; split;
        solve [apply lp_In1; assumption | apply lp_In2; assumption]. }
    apply lp_dpair_active; try apply I. apply Dl. destruct A; [apply adj_app_l|apply adj_app_r]; auto. }
  assert (Ex : forall x : event, x = e -> (x < size o1)%nat) by (intros x ->; apply lp_left).
  (* the neighbour above *)
  assert (Step1 : exists o2, detect_optional o1 (Some e) (hd_error l2) = Some o2
    /\ maybe o1 o2 (hd_error l2) false /\ core o2 t /\ th o2 t (fun x => x = e)
    /\ op_line o2 = op_line o1 /\ (size o1 <= size o2)%nat
    /\ (forall x, left_of o1 x -> left_of o2 x)
    /\ (forall Y Z, left_of o1 Y -> left_of o1 Z -> Y <> Z -> dpair o1 Y Z -> dpair o2 Y Z)
    /\ (forall x, active o2 x <-> active o1 x) /\ (forall x, done o2 x <-> done o1 x)).
  { destruct (hd_error l2) as [a|] eqn:Ea; cbn [detect_optional maybe].
    - assert (Ad : adj (l1 ++ e :: l2) e a) by (apply hd_adj; auto).
      destruct (Act _ _ Ad) as (NE & _ & Aa).
      destruct (detect_active c G N o1 t e a C1 Ae Aa NE) as (o2 & D & Cs & Dp).
      destruct (cuts_frame c e a o1 o2 t Cs C1 Ae Aa NE) as (C2 & F & Dps & Ths & Ac & Dn).
      exists o2. split; auto. split; [split; auto|]. split; auto. split; [apply Ths; auto|].
      split; [apply (f_line _ _ _ _ _ _ F)|]. split; [apply (f_size _ _ _ _ _ _ F)|].
      split; [intros x; apply (frame_left c o1 o2 t e a x F)|]. auto.
    - exists o1. split; auto. split; auto. split; auto. split; auto. split; auto. split; [lia|].
      split; auto. split; auto. split; intros; reflexivity. }
  destruct Step1 as (o2 & D2 & M2 & C2 & T2 & L2 & Sz2 & Lf2 & Dp2 & Ac2 & Dn2). rewrite D2.
  assert (Ae2 : active o2 e) by (apply Ac2; auto).
  assert (Dp12 : forall Y Z, adj l1 Y Z \/ adj l2 Y Z \/ (Y = e /\ hd_error l2 = Some Z) -> dpair o2 Y Z).
  { intros Y Z A. destruct A as [A|[A|[-> A]]].
    - destruct (Act Y Z) as (NE & AY & AZ); [apply adj_app_l; auto|].
      apply Dp2; auto; [apply AY|apply AZ].
    - destruct (Act Y Z) as (NE & AY & AZ).
      { change (l1 ++ e :: l2) with (l1 ++ [e] ++ l2). rewrite app_assoc. apply adj_app_r; auto. }
      apply Dp2; auto; [apply AY|apply AZ].
    - rewrite A in M2. apply M2. }
  assert (Adj : forall Y Z, adj (l1 ++ e :: l2) Y Z -> (adj l1 Y Z \/ adj l2 Y Z \/ (Y = e /\ hd_error l2 = Some Z))
     \/ (Z = e /\ hd_error (rev l1) = Some Y)).
  { intros Y Z A. apply adj_app in A. destruct A as [A|[A|[A1 A2]]]; auto.
    - change (e :: l2) with ([e] ++ l2) in A. apply adj_app in A.
      destruct A as [(u & v & A)|[A|[A1 A2]]]; auto.
      + exfalso. destruct u as [|? [|? ?]]; discriminate.
      + cbn in A1. injection A1 as <-. auto.
    - cbn in A2. injection A2 as <-. auto. }
  destruct (hd_error (rev l1)) as [b|] eqn:Eb; cbn [detect_optional maybe].
  - assert (Ad : adj (l1 ++ e :: l2) b e) by (apply last_adj; auto).
    destruct (Act _ _ Ad) as (NE & Ab & _). assert (Ab2 : active o2 b) by (apply Ac2; auto).
    destruct (detect_active c G N o2 t b e C2 Ab2 Ae2 NE) as (o3 & D & Cs & Dp).
    destruct (cuts_frame c b e o2 o3 t Cs C2 Ab2 Ae2 NE) as (C3 & F & Dps & Ths & Ac & Dn).
    exists o2, o3. split; auto. split; auto. split; [apply Ths; auto; intros x Q; apply Ex in Q; lia|].
    split; [|split; [rewrite (f_line _ _ _ _ _ _ F), L2; reflexivity|]].
    + intros Y Z A. destruct (Act Y Z A) as (NYZ & AY & AZ). apply Adj in A. destruct A as [A|[-> A]].
      * apply Dps; auto; [apply Ac2, AY|apply Ac2, AZ].
      * injection A as <-. exact Dp.
    + split; auto. split; [split; [auto|split; [auto|split; auto; apply dpair_sym; auto]]|].
      split; auto. split; auto. split; auto. split; intros x; [rewrite Ac|rewrite Dn]; auto.
  - exists o2, o2. split; auto. split; auto. split; auto. split; [|split; auto].
    + intros Y Z A. apply Adj in A. destruct A as [A|[_ A]]; [apply Dp12; auto|discriminate].
    + repeat (split; [solve [auto]|]). auto.
Qed.
End Lines.

(** Whatever [e] has cut, no piece goes through its point unmarked. *)
Section Final.
Variables (l1 l2 : list event) (o2 o3 : operation).
Hypothesis El : op_line o = l1 ++ l2.
Hypothesis P1 : forall x, In x l1 -> lowerb x = true.
Hypothesis P2 : forall x, In x l2 -> lowerb x = false.
Notation o1 := (relined o e (l1 ++ e :: l2)).
Hypothesis C3 : core o3 t.
Hypothesis T3 : th o3 t (fun x => x = e).
Hypothesis D3 : dline c o3 (l1 ++ e :: l2).
Hypothesis M2 : maybe o1 o2 (hd_error l2) false.
Hypothesis M3 : maybe o2 o3 (hd_error (rev l1)) true.
Hypothesis Ac3 : forall x, active o3 x <-> active o1 x.

(** What stays the same for the pieces there were. *)
Lemma fin_maybe o' o'' x f : maybe o' o'' x f ->
  (size o' <= size o'')%nat /\ (forall y, left_of o' y -> S' o'' y = S' o' y)
  /\ (forall y u, left_of o' y -> h o'' y u = h o' y u) /\ (forall y, left_of o' y -> k o'' y = k o' y)
  /\ (forall y, left_of o' y -> firstop o'' y = firstop o' y)
  /\ (linked o' -> forall y, left_of o' y -> E' o'' y <= E' o' y)
  /\ (forall y, (y < size o')%nat -> (In y (op_queue o'') <-> In y (op_queue o'))).
Proof.
  assert (Fr : forall a b, frame c o' o'' t a b ->
    (size o' <= size o'')%nat /\ (forall y, left_of o' y -> S' o'' y = S' o' y)
  /\ (forall y u, left_of o' y -> h o'' y u = h o' y u) /\ (forall y, left_of o' y -> k o'' y = k o' y)
  /\ (forall y, left_of o' y -> firstop o'' y = firstop o' y)
  /\ (linked o' -> forall y, left_of o' y -> E' o'' y <= E' o' y)
  /\ (forall y, (y < size o')%nat -> (In y (op_queue o'') <-> In y (op_queue o')))).
  { intros a b F. split; [apply (f_size _ _ _ _ _ _ F)|]. split; [apply (fr_S c o' o'' t a b F)|].
    split; [apply (fr_h c o' o'' t a b F)|]. split; [apply (fr_k c o' o'' t a b F)|].
    split; [apply (fr_first c o' o'' t a b F)|].
    split; [intros K y; apply (frame_E c o' o'' t a b y F K)|]. apply (f_queue _ _ _ _ _ _ F). }
  destruct x as [x|]; cbn.
  - intros (_ & _ & F & _). destruct f; apply (Fr _ _ F).
  - intros ->. split; [lia|]. split; auto. split; auto. split; auto. split; auto.
    split; [intros; apply Qcle_refl|]. intros; reflexivity.
Qed.
Lemma fin_all : (size o <= size o3)%nat /\ (forall y, left_of o y -> S' o3 y = S' o y)
  /\ (forall y u, left_of o y -> h o3 y u = h o y u) /\ (forall y, left_of o y -> k o3 y = k o y)
  /\ (forall y, left_of o y -> firstop o3 y = firstop o y)
  /\ (linked o2 -> forall y, left_of o y -> E' o3 y <= E' o y)
  /\ (forall y, (y < size o)%nat -> (In y (op_queue o3) <-> In y (op_queue o) /\ y <> e)).
Proof.
  destruct (fin_maybe _ _ _ _ M2) as (A1 & A2 & A3 & A4 & A5 & A6 & A7).
  destruct (fin_maybe _ _ _ _ M3) as (B1 & B2 & B3 & B4 & B5 & B6 & B7).
  change (size o1) with (size o) in *.
  assert (Lf : forall y, left_of o y -> left_of o2 y) by (intros y [Ly Sy]; split; auto; lia).
  split; [lia|]. split; [intros y Ly; rewrite (B2 y (Lf y Ly)); apply (A2 y Ly)|].
  split; [intros y u Ly; rewrite (B3 y u (Lf y Ly)); apply (A3 y u Ly)|].
  split; [intros y Ly; rewrite (B4 y (Lf y Ly)); apply (A4 y Ly)|].
  split; [intros y Ly; rewrite (B5 y (Lf y Ly)); apply (A5 y Ly)|].
  split.
  - intros K2 y Ly. pose proof (B6 K2 y (Lf y Ly)) as Q1.
    pose proof (A6 (w_linked c o1 (i_wf c o1 t (lp_core l1 l2 El P1 P2))) y Ly) as Q2. change (E' o1 y) with (E' o y) in Q2. qlra.
  - intros y Sy. rewrite B7 by lia. rewrite (A7 y Sy). change (op_queue o1) with (op_queue (popping o e)).
    apply lp_queue.
Qed.

Hypothesis K2 : linked o2.

(** The neighbour of [e] towards a tied piece. *)
Lemma fin_neighbour Y : active o Y -> h o e t = h o Y t -> exists U,
  dpair o3 e U /\ active o U /\ h o U t = h o e t /\
  (U = Y \/ ((before (op_line o) U Y /\ below o t e U) \/ (before (op_line o) Y U /\ below o t U e))).
Proof.
  intros AY Eh. assert (IY : In Y (op_line o)) by (apply (i_line _ _ _ C); auto). rewrite El in IY.
  apply in_app_or in IY. destruct IY as [IY|IY].
  - destruct (rev l1) as [|U r] eqn:Er.
    { exfalso. rewrite (in_rev l1 Y), Er in IY. destruct IY. }
    assert (E1 : l1 = rev r ++ [U]) by (rewrite <- (rev_involutive l1), Er; reflexivity).
    exists U. assert (IU : In U l1) by (rewrite E1; apply in_or_app; right; left; auto).
    assert (AU := lp_In1 l1 l2 El U IU).
    split; [apply dpair_sym, D3; apply last_adj; rewrite Er; reflexivity|]. split; auto.
    assert (BU : below o t U e) by (apply lower_below; auto).
    destruct (Nat.eq_dec U Y) as [->|NE]; [split; auto|].
    assert (B : before (op_line o) Y U).
    { rewrite El, E1. rewrite E1 in IY. apply in_app_or in IY. destruct IY as [IY|[IY|[]]]; [|contradiction].
      apply in_split in IY. destruct IY as (u & v & ->). exists u, v, l2. rewrite <- !app_assoc. reflexivity. }
    split; [|right; right; auto].
    pose proof (be_t _ _ _ _ _ BU) as Q1. pose proof (be_t _ _ _ _ _ (i_ord _ _ _ C _ _ B)) as Q2.
    unfold dd in *. qlra.
  - destruct l2 as [|U r] eqn:Er; [destruct IY|].
    exists U. assert (AU : active o U) by (apply (lp_In2 l1 (U :: r) El); left; auto).
    split; [apply D3; apply hd_adj; reflexivity|]. split; auto.
    assert (BU : below o t e U) by (apply upper_below; auto; apply P2; left; auto).
    destruct (Nat.eq_dec U Y) as [->|NE]; [split; auto|].
    assert (B : before (op_line o) U Y).
    { rewrite El. destruct IY as [IY|IY]; [contradiction|].
      apply in_split in IY. destruct IY as (u & v & ->). exists l1, u, v. reflexivity. }
    split; [|right; left; auto].
    pose proof (be_t _ _ _ _ _ BU) as Q1. pose proof (be_t _ _ _ _ _ (i_ord _ _ _ C _ _ B)) as Q2.
    unfold dd in *. qlra.
Qed.

(** A piece still going through [t] is not adjacent to [e]. *)
Lemma fin_apart Y : active o Y -> S' o Y < t -> t < E' o3 Y -> h o e t = h o Y t -> dpair o3 e Y -> False.
Proof.
  intros AY Sy Ey Eh [Ap|[[_ M] _]]; destruct fin_all as (_ & FS & Fh & _).
  - assert (LY : left_of o Y) by apply AY.
    destruct (Ap t) as [_ [Q|Q]].
    + rewrite (FS e lp_left), lp_S. apply Qcle_refl.
    + assert (A3 : active o3 e) by (apply Ac3, (lp_active l1 l2); auto). apply (active_E _ _ _ _ C3 A3).
    + rewrite (FS Y LY). qlra.
    + qlra.
    + rewrite (Fh e t lp_left), (Fh Y t LY). auto.
    + rewrite (FS Y LY) in Q. qlra.
    + rewrite <- Q in Ey. qlra.
  - rewrite (FS e lp_left), (FS Y (proj1 AY)), lp_S in M. qlra.
Qed.

Lemma th_o Y Z : active o Y -> active o Z -> Y <> Z -> S' o Y < t -> h o Y t = h o Z t ->
  mates o Y Z \/ (S' o Z = t /\ exists x, left_of o x /\ In x (op_queue o) /\ S' o x = t /\ col o x Y).
Proof.
  intros AY AZ NE Sy Eh. pose proof (active_S _ _ _ _ C AZ). pose proof (lp_beyond Z AZ).
  destruct (v_th c o t V Y Z) as [[M _]|(Nt & x & Lx & [Ix|[]] & Q)]; auto; try apply AY; try apply AZ.
  - intros [I|[]]. apply AY; auto.
  - intros [I|[]]. apply AZ; auto.
  - split; auto. apply lp_beyond; auto.
  - qlra.
  - right. split; [|exists x; auto]. destruct (Qcle_lt_or_eq _ _ H); auto. exfalso. apply Nt; split; auto.
Qed.

(** A: [e] is not collinear with a piece still going through. *)
Lemma fin_A Y : active o Y -> S' o Y < t -> t < E' o3 Y -> col o e Y -> False.
Proof.
  intros AY Sy Ey Ce. assert (Eh : h o e t = h o Y t) by apply Ce.
  destruct (fin_neighbour Y AY Eh) as (U & Dp & AU & EU & Q).
  destruct (Nat.eq_dec U Y) as [->|NE]; [apply (fin_apart Y AY Sy Ey Eh Dp)|].
  destruct Q as [Q|Q]; [contradiction|].
  assert (Lel := lp_left). assert (LY : left_of o Y) by apply AY. assert (LU : left_of o U) by apply AU.
  assert (NeY : e <> Y) by (intros Q'; rewrite <- Q' in AY; apply lp_not_active; auto).
  assert (NeU : e <> U) by (intros Q'; rewrite <- Q' in AU; apply lp_not_active; auto).
  pose proof lp_E as Ee. pose proof (lp_beyond Y AY) as EY. pose proof (lp_beyond U AU) as EU'.
  pose proof (active_S _ _ _ _ C AU) as SU. pose proof lp_S as Se.
  destruct (Qcle_lt_or_eq _ _ SU) as [Lu|Eu].
  - destruct (th_o Y U AY AU) as [M|[Q' _]]; auto; [congruence| |qlra].
    apply (col_three c N o Y U e W LY LU Lel); auto; try qlra; [apply M|apply col_sym; auto].
  - (* the order of slopes *)
    destruct Ce as [Ck _].
    assert (Mx : forall Z, S' o Z <= t -> mx (S' o U) (S' o Z) = t /\ mx (S' o Z) (S' o U) = t).
    { intros Z Q'. rewrite Eu. split; [apply mx_eq_l; auto|apply mx_eq_r; auto]. }
    assert (SY : S' o Y <= t) by qlra. assert (SE : S' o e <= t) by (rewrite Se; apply Qcle_refl).
    destruct (Mx Y SY) as [M1 M1']. destruct (Mx e SE) as [M4 M4'].
    assert (ZUY : d o U Y t = 0) by (unfold dd; rewrite EU, Eh; ring).
    assert (ZYU : d o Y U t = 0) by (unfold dd; rewrite EU, Eh; ring).
    assert (ZUe : d o U e t = 0) by (unfold dd; rewrite EU; ring).
    assert (ZeU : d o e U t = 0) by (unfold dd; rewrite EU; ring).
    destruct Q as [[B Be]|[B Be]]; pose proof (be_tie _ _ _ _ _ (i_ord _ _ _ C _ _ B)) as B3;
      pose proof (be_tie _ _ _ _ _ Be) as B4; rewrite ?M1, ?M1' in B3; rewrite ?M4, ?M4' in B4; unfold ds in *.
    + destruct (B3 ZUY ZUY) as [[_ Q1]|(Q1 & Q2 & Q3)]; destruct (B4 ZeU ZeU) as [[_ Q4]|(Q4 & Q5 & Q6)];
        try qlra; congruence.
    + destruct (B3 ZYU ZYU) as [[_ Q1]|(Q1 & Q2 & Q3)]; destruct (B4 ZUe ZUe) as [[_ Q4]|(Q4 & Q5 & Q6)];
        try qlra; congruence.
Qed.

(** The old view of a piece that is active afterwards and goes through. *)
Lemma fin_old Y : left_of o3 Y -> ~ In Y (op_queue o3) -> Y <> e -> t < E' o3 Y -> active o Y /\ left_of o Y.
Proof.
  intros LY IY NE Ey. assert (A3 : active o3 Y).
  { apply (beyond_active c o3 t Y C3); auto. split; auto. }
  apply Ac3 in A3. apply (lp_active l1 l2) in A3. destruct A3 as [A3|A3]; [|contradiction].
  split; auto. apply A3.
Qed.

Lemma fin_col x Y : left_of o Y -> col o3 e Y -> x = e -> col o e Y.
Proof.
  intros LY [Q1 Q2] _. destruct fin_all as (_ & _ & Fh & Fk & _). split.
  - rewrite <- (Fk e lp_left), <- (Fk Y LY). auto.
  - intros u. rewrite <- (Fh e u lp_left), <- (Fh Y u LY). auto.
Qed.

(** A witness for [Y] in the old or the new sense is one in the new queue. *)
Lemma fin_witness Y : active o Y -> S' o Y < t -> t < E' o3 Y ->
  (exists x, left_of o x /\ In x (op_queue o) /\ S' o x = t /\ col o x Y) ->
  exists x, left_of o3 x /\ (In x (op_queue o3) \/ nobody x) /\ S' o3 x = t /\ col o3 x Y.
Proof.
  intros AY Sy Ey (x & Lx & Ix & Sx & Cx). destruct fin_all as (Sz & FS & Fh & Fk & _ & _ & Fq).
  destruct (Nat.eq_dec x e) as [->|NE]; [exfalso; apply (fin_A Y AY Sy Ey Cx)|].
  exists x. split; [split; [apply Lx|destruct Lx; lia]|]. split; [left; apply Fq; auto; apply Lx|].
  split; [rewrite (FS x Lx); auto|]. destruct Cx as [C1 C2'].
  assert (LY : left_of o Y) by apply AY. split.
  - rewrite (Fk x Lx), (Fk Y LY). auto.
  - intros u. rewrite (Fh x u Lx), (Fh Y u LY). auto.
Qed.

Lemma lp_final : th o3 t nobody.
Proof.
  intros Y Z LY LZ PY PZ NE [T1 T2] A3 A4 Eh.
  destruct fin_all as (Sz & FS & Fh & Fk & Ff & FE & Fq).
  assert (NY : Y <> e).
  { intros ->. rewrite (FS e lp_left), lp_S in T1. qlra. }
  destruct (fin_old Y LY) as [AY LYo]; auto.
  assert (Sy : S' o Y < t) by (rewrite <- (FS Y LYo); auto).
  destruct (Nat.eq_dec Z e) as [->|NZ].
  - assert (Eh' : h o e t = h o Y t) by (rewrite <- (Fh e t lp_left), <- (Fh Y t LYo); auto).
    right. split; [intros [Q _]; rewrite (FS e lp_left), lp_S in Q; qlra|].
    destruct (fin_neighbour Y AY Eh') as (U & Dp & AU & EU & Q).
    destruct (Nat.eq_dec U Y) as [->|NE']; [exfalso; apply (fin_apart Y AY Sy T2 Eh' Dp)|]. clear Q.
    destruct (th_o Y U AY AU) as [M|[Q' Wt]]; auto; [congruence| |].
    2: { apply (fin_witness Y AY Sy T2 Wt). }
    (* U a mate of Y, cut at t *)
    assert (LUo : left_of o U) by apply AU.
    assert (SU : S' o U < t) by (destruct M as [_ M]; rewrite <- M; auto).
    assert (A3U : active o3 U) by (apply Ac3, (lp_active l1 l2); auto).
    assert (NUe : U <> e) by (intros ->; apply lp_not_active; auto).
    assert (EU3 : E' o3 U = t).
    { pose proof (active_E _ _ _ _ C3 A3U) as Q. destruct (Qcle_lt_or_eq _ _ Q) as [Q'|]; auto. exfalso.
      apply (fin_apart U AU SU Q'); auto. }
    destruct (T3 Y U LY (proj1 A3U)) as [[_ Q]|(_ & x & Lx & Ix & Sx & Cx)]; auto.
    + intros [I|I]; auto.
    + intros [I|I]; auto. apply A3U; auto.
    + split; auto.
    + rewrite (FS U LUo). qlra.
    + rewrite EU3. apply Qcle_refl.
    + rewrite (Fh Y t LYo), (Fh U t LUo), EU. auto.
    + exfalso. rewrite EU3 in Q. qlra.
    + destruct Ix as [Ix| ->]; [exists x; split; auto|]. exfalso.
      apply (fin_A Y AY Sy T2). apply (fin_col e Y LYo Cx); auto.
  - destruct (T3 Y Z LY LZ) as [Q|(Q & x & Lx & Ix & Sx & Cx)]; auto.
    + intros [I|I]; auto.
    + intros [I|I]; auto.
    + split; auto.
    + right. split; auto. destruct Ix as [Ix| ->]; [exists x; split; auto|]. exfalso.
      apply (fin_A Y AY Sy T2). apply (fin_col e Y LYo Cx); auto.
Qed.
End Final.
End LeftPop.
End LeftPops.
