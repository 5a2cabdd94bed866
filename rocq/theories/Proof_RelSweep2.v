(** Relating multisegments and contours, part 2: the events with one start. *)
From Coq Require Import QArith Qcanon Bool List Arith Lia.
From Verif Require Import QcTac Model_Base Model_Utils Model_Linear Spec_Base Spec_Sweep
  Proof_Base Proof_Line Proof_Sweep Proof_Sweep2 Proof_Sweep3 Proof_Sweep5 Proof_Sweep7
  Proof_Sweep8 Proof_Sweep9 Proof_Sweep10 Proof_Sweep11 Proof_Sweep12 Proof_Sweep13 Proof_Sweep14 Proof_RelSweep.
Import ListNotations.
Local Open Scope Qc_scope.

Section Groups.
Variable c : ctx.
Hypothesis G : good c.
Hypothesis N : ncs c.
Let Nc : nc c := ncs_nc c N.
Notation S' := (SX c). Notation E' := (EX c). Notation h := (hh c). Notation k := (kk c).
Notation EV := (EVX c). Notation col := (col c).
Notation mates := (mates c). Notation through := (through c). Notation inv := (inv c).
Notation least := (least c).

Notation lefts_of group := (filter is_event_left group).
(** [group] holds the events at [t] that were popped. *)
Record collected (o : operation) (t : Qc) (group : list event) : Prop := {
  g_mem : forall e, In e group <-> (e < size o)%nat /\ ~ In e (op_queue o) /\ EV o e = t;
  g_nd : NoDup group;
  g_adj : forall Y Z, In Y (lefts_of group) -> In Z (lefts_of group) -> Y <> Z -> mates o Y Z ->
    adj (lefts_of group) Y Z \/ adj (lefts_of group) Z Y;
  g_pend : forall A T, In A (lefts_of group) -> left_of o T -> In T (op_queue o) -> S' o T = t ->
    mates o A T -> hd_error (rev (lefts_of group)) = Some A
    /\ forall x, left_of o x -> In x (op_queue o) -> S' o x = t -> x <> T -> k o A < k o x }.

(** What the processing of [e] leaves. *)
Record stepping (o : operation) (t : Qc) (e : event) (o' : operation) : Prop := {
  st_size : (size o <= size o')%nat;
  st_pt : forall x, (x < size o)%nat -> pt o' x = pt o x;
  st_sid : forall x, left_of o x -> sid o' x = sid o x;
  st_queue : forall x, (x < size o)%nat -> (In x (op_queue o') <-> In x (op_queue o) /\ x <> e);
  st_fresh : forall x, (x < size o')%nat -> (size o <= x)%nat -> In x (op_queue o');
  st_E : forall x, left_of o x -> E' o' x <= E' o x;
  st_done : forall x, done o x -> opp o' x = opp o x;
  st_inv : inv o' t }.

Lemma frame_fresh o o' t a b : frame c o o' t a b -> linked o' ->
  (forall l, left_of o l -> l = a \/ l = b -> In (opp o' l) (op_queue o')) -> linked o ->
  forall x, (x < size o')%nat -> (size o <= x)%nat -> In x (op_queue o').
Proof.
  intros F K' Ac K x Lx Ge. destruct (is_event_left x) eqn:Ex.
  - apply (f_fresh _ _ _ _ _ _ F); auto. split; auto.
  - destruct (k_opp o' K' x Lx) as (Lo & Oo & Eo). rewrite Ex in Eo. cbn in Eo.
    assert (Ll : left_of o' (opp o' x)) by (split; auto).
    destruct (Nat.le_gt_cases (size o) (opp o' x)) as [Q|Q].
    + pose proof (proj2 (f_fresh _ _ _ _ _ _ F _ Ll Q)) as I. rewrite Oo in I. auto.
    + assert (L0 : left_of o (opp o' x)) by (split; auto).
      destruct (f_opp _ _ _ _ _ _ F _ L0) as [Q1|(Q1 & _)].
      * rewrite Oo in Q1. pose proof (proj1 (k_opp o K _ Q)) as Q2. rewrite <- Q1 in Q2. lia.
      * specialize (Ac _ L0 Q1). rewrite Oo in Ac. auto.
Qed.

Lemma stepping_of o t e o' shape : inv o t -> least o e -> EV o e = t ->
  process_event shape (popping o e) e = Some o' -> stepping o t e o'.
Proof.
  intros V L Et P. assert (C := v_core _ _ _ V). assert (W := i_wf _ _ _ C).
  assert (K := w_linked c o W).
  destruct (is_event_left e) eqn:Re.
  - destruct (lp_split c o t e V L Re Et) as (l1 & l2 & El & P1 & P2).
    destruct (lp_steps c G Nc o t e V L Re Et l1 l2 El P1 P2 shape)
      as (o2 & o3 & P' & C3 & T3 & D3 & L3 & M2 & M3 & C2 & Ac2 & Dn2 & Ac3 & Dn3).
    assert (o3 = o') by congruence. subst o3.
    assert (C1 := lp_core c Nc o t e V L Re Et l1 l2 El P1 P2).
    assert (K1 := w_linked c _ (i_wf _ _ _ C1)).
    assert (K2 := w_linked c o2 (i_wf _ _ _ C2)).
    assert (K3 := w_linked c o' (i_wf _ _ _ C3)).
    assert (V3 : inv o' t).
    { constructor; auto.
      - rewrite L3. exact D3.
      - apply (lp_final c Nc o t e V L Re Et l1 l2 o2 o' El P1 P2 C3 T3 D3 M2 M3 Ac3). }
    assert (Ae1 : active (relined o e (l1 ++ e :: l2)) e).
    { apply (lp_active c o t e V L Re). auto. }
    set (o1 := relined o e (l1 ++ e :: l2)) in *.
    assert (Q : forall oa ob x f, maybe c t e oa ob x f -> linked oa -> linked ob ->
      (forall y, active oa y <-> active ob y) -> active oa e ->
      (size oa <= size ob)%nat /\ (forall y, (y < size oa)%nat -> pt ob y = pt oa y)
      /\ (forall y, left_of oa y -> sid ob y = sid oa y)
      /\ (forall y, (y < size oa)%nat -> (In y (op_queue ob) <-> In y (op_queue oa)))
      /\ (forall y, (y < size ob)%nat -> (size oa <= y)%nat -> In y (op_queue ob))
      /\ (forall y, left_of oa y -> E' ob y <= E' oa y)
      /\ (forall y, done oa y -> opp ob y = opp oa y)).
    { intros oa ob x f M Ka Kb Ac Ae. destruct x as [x|]; cbn in M.
      - destruct M as (NE & Ax & F & _).
        assert (Q : forall l, left_of oa l -> l = x \/ l = e -> In (opp ob l) (op_queue ob)).
        { intros l _ [-> | ->]; [apply (Ac x); auto|apply (Ac e); auto]. }
        destruct f.
        + split; [apply (f_size _ _ _ _ _ _ F)|]. split; [apply (f_pt _ _ _ _ _ _ F)|].
          split; [apply (f_sid _ _ _ _ _ _ F)|]. split; [apply (f_queue _ _ _ _ _ _ F)|].
          split; [apply (frame_fresh oa ob t x e F Kb); auto|].
          split; [intros y Ly; apply (frame_E c oa ob t x e y F Ka Ly)|].
          intros y Dy. apply (fr_E_other c oa ob t x e F y Ka (proj1 Dy)); intros ->;
            [apply (active_not_done oa x Ax Dy)|apply (active_not_done oa e Ae Dy)].
        + split; [apply (f_size _ _ _ _ _ _ F)|]. split; [apply (f_pt _ _ _ _ _ _ F)|].
          split; [apply (f_sid _ _ _ _ _ _ F)|]. split; [apply (f_queue _ _ _ _ _ _ F)|].
          split; [apply (frame_fresh oa ob t e x F Kb); auto; intros l A [B|B]; apply Q; auto|].
          split; [intros y Ly; apply (frame_E c oa ob t e x y F Ka Ly)|].
          intros y Dy. apply (fr_E_other c oa ob t e x F y Ka (proj1 Dy)); intros ->;
            [apply (active_not_done oa e Ae Dy)|apply (active_not_done oa x Ax Dy)].
      - subst ob. split; auto. split; auto. split; auto. split; [tauto|]. split; [intros y A B; lia|].
        split; [intros y _; apply Qcle_refl|auto]. }
    destruct (Q o1 o2 _ _ M2 K1 K2) as (S1 & Pt1 & Si1 & Qu1 & Fr1 & En1 & Dn1); auto.
    { intros y. symmetry. apply Ac2. }
    destruct (Q o2 o' _ _ M3 K2 K3) as (S2 & Pt2 & Si2 & Qu2 & Fr2 & En2 & Dn2'); auto.
    { intros y. rewrite Ac2. symmetry. apply Ac3. }
    { apply Ac2; auto. }
    change (size o1) with (size o) in *. change (pt o1) with (pt o) in *.
    constructor; auto.
    + lia.
    + intros x Lx. rewrite Pt2, Pt1; auto. lia.
    + intros x Lx. rewrite Si2, Si1; auto. destruct Lx; split; auto; lia.
    + intros x Lx. rewrite Qu2, Qu1 by lia. apply (lp_queue c o t e V x).
    + intros x Lx Ge. destruct (Nat.lt_ge_cases x (size o2)) as [A|A]; [|apply Fr2; auto].
      apply Qu2; auto.
    + intros x Lx. apply (Qcle_trans _ (E' o2 x)); [apply En2|apply En1; exact Lx].
      destruct Lx; split; auto; lia.
    + intros x Dx.
      assert (Dx1 : done o1 x) by (apply (lp_done c o t e V Re l1 l2); auto).
      rewrite Dn2', Dn1; auto. apply Dn2; auto.
  - destruct (rp_split c o t e V L Re Et) as (l1 & l2 & El).
    destruct (rp_step c G Nc o t e V L Re Et l1 l2 El shape) as (o2 & P' & V2 & St & Ac & Dn).
    assert (o2 = o') by congruence. subst o2.
    assert (C1 := rp_core c o t e V L Re Et l1 l2 El).
    assert (K1 := w_linked c _ (i_wf _ _ _ C1)).
    assert (K3 := w_linked c o' (i_wf _ _ _ (v_core _ _ _ V2))).
    destruct St as [[-> _]|(b & a & Eb & Ea & NE & F & _)].
    + constructor; auto.
      * intros x Lx. apply (rp_queue c o t e V x).
      * intros x A B. unfold relined, popping, size in *. cbn in *. lia.
      * intros x _. apply Qcle_refl.
    + constructor; auto.
      * apply (f_size _ _ _ _ _ _ F).
      * apply (f_pt _ _ _ _ _ _ F).
      * apply (f_sid _ _ _ _ _ _ F).
      * intros x Lx. rewrite (f_queue _ _ _ _ _ _ F) by auto. apply (rp_queue c o t e V x).
      * apply (frame_fresh _ o' t b a F K3); auto.
        intros l _ [-> | ->].
        -- apply (Ac b). apply (i_line _ _ _ C1). apply in_or_app; left; apply last_In; auto.
        -- apply (Ac a). apply (i_line _ _ _ C1). apply in_or_app; right; apply hd_error_In; auto.
      * intros x Lx. apply (frame_E c _ o' t b a x F K1 Lx).
      * intros x Dx.
        assert (Ab : active (relined o e (l1 ++ l2)) b).
        { apply (i_line _ _ _ C1). apply in_or_app; left; apply last_In; auto. }
        assert (Aa : active (relined o e (l1 ++ l2)) a).
        { apply (i_line _ _ _ C1). apply in_or_app; right; apply hd_error_In; auto. }
        assert (Dx1 : done (relined o e (l1 ++ l2)) x) by (apply (rp_done1 c o t e V L Re); auto).
        change (opp o x) with (opp (relined o e (l1 ++ l2)) x).
        apply (fr_E_other c _ o' t b a F x K1 (proj1 Dx1)); intros ->;
          [apply (active_not_done _ b Ab Dx1)|apply (active_not_done _ a Aa Dx1)].
Qed.

Section Step.
Variables (o : operation) (t : Qc) (e : event) (o' : operation).
Hypothesis V : inv o t.
Hypothesis Le : least o e.
Hypothesis Et : EV o e = t.
Hypothesis St : stepping o t e o'.
Let C := v_core c o t V.
Let W := i_wf c o t C.
Let V' := st_inv _ _ _ _ St.
Let C' := v_core c o' t V'.
Let W' := i_wf c o' t C'.

Lemma st_left x : left_of o x -> left_of o' x.
Proof. intros [A B]. split; auto. pose proof (st_size _ _ _ _ St). lia. Qed.
Lemma st_S x : left_of o x -> S' o' x = S' o x.
Proof. intros [_ A]. unfold SX. rewrite (st_pt _ _ _ _ St); auto. Qed.
Lemma st_h x u : left_of o x -> h o' x u = h o x u.
Proof. intros A. unfold hh. rewrite (st_sid _ _ _ _ St); auto. Qed.
Lemma st_k x : left_of o x -> k o' x = k o x.
Proof. intros A. unfold kk. rewrite (st_sid _ _ _ _ St); auto. Qed.
Lemma st_EV x : (x < size o)%nat -> EV o' x = EV o x.
Proof. intros A. unfold EVX. rewrite (st_pt _ _ _ _ St); auto. Qed.
Lemma st_firstop x : left_of o x -> firstop o' x = firstop o x.
Proof. intros A. rewrite !(firstop_sid c) by auto. rewrite (st_sid _ _ _ _ St); auto. Qed.
Lemma st_mates x y : left_of o x -> left_of o y -> (mates o' x y <-> mates o x y).
Proof.
  intros A B. unfold Proof_Sweep9.mates, Proof_Sweep8.col. rewrite !st_k, !st_S by auto.
  split; intros [[P Q] R]; (split; [split|]; auto); intros u; specialize (Q u);
    rewrite ?st_h in *; auto.
Qed.

(** A new piece that starts here goes on from a piece through here. *)
Lemma new_through x : left_of o' x -> (size o <= x)%nat -> S' o' x = t ->
  exists U, left_of o U /\ sid o U = sid o' x /\ through o t U.
Proof.
  intros Lx Ge Sx. pose proof (w_lt c o' W' x Lx) as Lt. rewrite Sx in Lt.
  destruct (w_in c o' W' x Lx) as [I1 I2].
  destruct (middle t (E' o' x) Lt) as (u & U1 & U2).
  pose proof (w_sid c o' W' x Lx) as Si.
  destruct (w_cover c o W (sid o' x) u Si) as (U & LU & SU & A & B); try qlra.
  assert (NE : x <> U) by (intros ->; destruct LU; lia).
  assert (Same : sid o' x = sid o' U) by (rewrite (st_sid _ _ _ _ St U LU); auto).
  destruct (w_disj c o' W' x U Lx (st_left U LU) NE Same) as [D|D].
  - rewrite st_S in D by auto. qlra.
  - exists U. split; auto. split; auto. split; [|qlra].
    pose proof (w_lt c o' W' U (st_left U LU)) as Lt2. rewrite st_S in Lt2 by auto. qlra.
Qed.

(** It is in the point of every piece that starts here. *)
Lemma same_height A x U : left_of o A -> S' o A = t -> left_of o' x -> S' o' x = t ->
  left_of o U -> sid o U = sid o' x -> h o U t = h o A t.
Proof.
  intros LA SA Lx Sx LU SU.
  pose proof (w_S c o W A LA) as Q1. pose proof (w_S c o' W' x Lx) as Q2.
  assert (E : pt o A = pt o' x).
  { apply (X_inj c G); [apply (w_ptS c o W A LA)|apply (w_ptS c o' W' x Lx)|]. unfold SX in *. congruence. }
  rewrite SA in Q1. rewrite Sx in Q2. rewrite E in Q1. unfold hh in *. rewrite SU. congruence.
Qed.

(** What starts here is not of the operand of a piece through here. *)
Lemma other_operand A U : left_of o A -> S' o A = t -> left_of o U -> through o t U ->
  h o U t = h o A t -> firstop o A <> firstop o U.
Proof.
  intros LA SA LU [T1 T2] Eh F. apply (only_through c N o U A t W LU LA); auto.
  - intros ->. rewrite SA in T1. qlra.
  - rewrite SA; qlra.
  - pose proof (w_lt c o W A LA). rewrite SA in *. qlra.
Qed.
Lemma mates_operands A T : left_of o A -> left_of o T -> A <> T -> mates o A T -> firstop o A <> firstop o T.
Proof.
  intros LA LT NE [Co Sm]. pose proof (w_lt c o W A LA). pose proof (w_lt c o W T LT).
  apply (col_overlap c Nc o A T W LA LT NE Co); rewrite ?Sm in *; auto.
Qed.
Lemma no_new A T x : left_of o A -> left_of o T -> A <> T -> mates o A T -> S' o A = t ->
  left_of o' x -> (size o <= x)%nat -> S' o' x = t -> False.
Proof.
  intros LA LT NE M SA Lx Ge Sx. destruct (new_through x Lx Ge Sx) as (U & LU & SU & TU).
  assert (ST : S' o T = t) by (destruct M; congruence).
  pose proof (other_operand A U LA SA LU TU (same_height A x U LA SA Lx Sx LU SU)) as F1.
  pose proof (other_operand T U LT ST LU TU (same_height T x U LT ST Lx Sx LU SU)) as F2.
  pose proof (mates_operands A T LA LT NE M) as F3.
  destruct (firstop o A), (firstop o T), (firstop o U); congruence.
Qed.
(** Nothing popped that starts here has a new mate. *)
Lemma no_new_mate A T : popped o A -> S' o A = t -> left_of o' T -> (size o <= T)%nat -> S' o' T = t ->
  mates o' A T -> False.
Proof.
  intros [LA QA] SA LT Ge ST M. destruct (new_through T LT Ge ST) as (U & LU & SU & TU).
  pose proof (same_height A T U LA SA LT ST LU SU) as Eh.
  pose proof (other_operand A U LA SA LU TU Eh) as F1.
  assert (QU : ~ In U (op_queue o)).
  { intros I. pose proof (i_q1 _ _ _ C U I) as Q. destruct TU as [TU _]. unfold EVX, SX in *. qlra. }
  pose proof (w_lt c o W A LA) as LtA.
  assert (NUA : U <> A) by (intros ->; destruct TU as [TU _]; rewrite SA in TU; qlra).
  assert (A1 : S' o A <= t) by (rewrite SA; apply Qcle_refl).
  assert (A2 : t <= E' o A) by (rewrite SA in LtA; qlra).
  assert (A3 : ~ (In U (op_queue o) \/ nobody U)) by (intros [I|[]]; auto).
  assert (A4 : ~ (In A (op_queue o) \/ nobody A)) by (intros [I|[]]; auto).
  destruct (v_th _ _ _ V U A LU LA A3 A4 NUA TU A1 A2 Eh) as [[[_ Sm] _]|(_ & x0 & Lx0 & [Qx0|[]] & Sx0 & Co0)].
  - destruct TU as [TU _]. rewrite Sm, SA in TU. qlra.
  - assert (F2 : firstop o x0 <> firstop o U).
    { apply other_operand; auto. rewrite <- (proj2 Co0 t). auto. }
    assert (Ne : A <> x0) by (intros ->; auto).
    assert (Co : col o A x0).
    { apply (col_trans c o A U x0); [|apply col_sym; auto]. destruct M as [[M1 M2] _]. split.
      - rewrite st_k in M1 by auto. rewrite M1. unfold kk. rewrite SU. auto.
      - intros u. specialize (M2 u). rewrite st_h in M2 by auto. rewrite M2. unfold hh. rewrite SU. auto. }
    assert (F3 : firstop o A <> firstop o x0).
    { apply mates_operands; auto. split; auto. congruence. }
    destruct (firstop o A), (firstop o x0), (firstop o U); congruence.
Qed.
Lemma least_k x : is_event_left e = true -> left_of o x -> In x (op_queue o) -> S' o x = t -> x <> e -> k o e <= k o x.
Proof.
  intros Re Lx Qx Sx Ne. destruct (proj2 Le x Qx) as [->|[Q|(_ & [[Q _]|(_ & Q)])]]; try congruence.
  - change (EV o x) with (S' o x) in Q. rewrite Et, Sx in Q. qlra.
  - unfold skey in Q. rewrite Re, (proj1 Lx) in Q. destruct Q as [Q|[Q _]]; [qlra|rewrite Q; apply Qcle_refl].
Qed.
Lemma tied_col x y : left_of o x -> left_of o y -> S' o x = t -> S' o y = t -> k o x = k o y -> mates o x y.
Proof.
  intros Lx Ly Sx Sy Ek. split; [|congruence]. apply (col_slope c o x y t Ek).
  pose proof (w_S c o W x Lx) as Q1. pose proof (w_S c o W y Ly) as Q2.
  assert (E : pt o x = pt o y).
  { apply (X_inj c G); [apply (w_ptS c o W x Lx)|apply (w_ptS c o W y Ly)|]. unfold SX in *. congruence. }
  rewrite Sx in Q1. rewrite Sy in Q2. congruence.
Qed.

Variable group : list event.
Hypothesis Co : collected o t group.

Lemma in_lefts A : In A (lefts_of group) -> left_of o A /\ ~ In A (op_queue o) /\ S' o A = t.
Proof.
  intros I. apply filter_In in I. destruct I as [I El]. apply (g_mem _ _ _ Co) in I.
  destruct I as (I1 & I2 & I3). split; [split; auto|]. auto.
Qed.
Lemma st_new_or_old x : left_of o' x -> In x (op_queue o') -> (left_of o x /\ In x (op_queue o) /\ x <> e) \/ (size o <= x)%nat.
Proof.
  intros Lx Q. destruct (Nat.le_gt_cases (size o) x) as [A|A]; auto. left.
  assert (left_of o x) by (split; [apply Lx|auto]). split; auto. apply (st_queue _ _ _ _ St) in Q; auto.
Qed.
Lemma least_three x T : is_event_left e = true -> left_of o x -> left_of o T -> x <> e -> T <> e -> x <> T ->
  S' o x = t -> mates o e T -> k o e = k o x -> False.
Proof.
  intros Re Lx LT N1 N2 N3 Sx M Ek.
  assert (Lo : left_of o e) by (split; [auto|apply (i_qsz _ _ _ C e (proj1 Le))]).
  apply (mates_three c Nc o e T x W Lo LT Lx); auto. apply tied_col; auto.
Qed.

Lemma collected_step : collected o' t (group ++ [e]).
Proof.
  assert (Ls : (e < size o)%nat) by apply (i_qsz _ _ _ C e (proj1 Le)).
  assert (Eg : ~ In e group).
  { intros I. apply (g_mem _ _ _ Co) in I. destruct I as (_ & I & _). apply I, Le. }
  constructor.
  - intros x. rewrite in_app_iff. split.
    + intros [I|[<-|[]]].
      * apply (g_mem _ _ _ Co) in I. destruct I as (A & B & D). split; [pose proof (st_size _ _ _ _ St); lia|].
        rewrite (st_queue _ _ _ _ St) by auto. rewrite st_EV by auto. tauto.
      * split; [pose proof (st_size _ _ _ _ St); lia|]. rewrite (st_queue _ _ _ _ St) by auto.
        rewrite st_EV by auto. split; [tauto|auto].
    + intros (A & B & D). destruct (Nat.le_gt_cases (size o) x) as [Q|Q].
      * destruct (B (st_fresh _ _ _ _ St x A Q)).
      * rewrite (st_queue _ _ _ _ St) in B by auto. rewrite st_EV in D by auto.
        destruct (Nat.eq_dec x e) as [->|Ne]; [right; left; auto|]. left. apply (g_mem _ _ _ Co). tauto.
  - apply NoDup_app_snoc; auto. apply (g_nd _ _ _ Co).
  - rewrite filter_app. cbn [filter]. destruct (is_event_left e) eqn:Re.
    + intros Y Z IY IZ NE M.
      assert (Lo : left_of o e) by (split; auto).
      assert (P : forall A, In A (lefts_of group) -> mates o' A e -> adj (lefts_of group ++ [e]) A e).
      { intros A IA MA. destruct (in_lefts A IA) as (LA & QA & SA).
        rewrite st_mates in MA by auto.
        destruct (g_pend _ _ _ Co A e IA Lo (proj1 Le)) as [La _]; auto. apply last_adj; auto. }
      rewrite in_app_iff in IY, IZ. destruct IY as [IY|[<-|[]]], IZ as [IZ|[<-|[]]].
      * destruct (in_lefts Y IY) as (LY & _). destruct (in_lefts Z IZ) as (LZ & _).
        rewrite st_mates in M by auto.
        destruct (g_adj _ _ _ Co Y Z IY IZ NE M); [left|right]; apply adj_app_l; auto.
      * left. apply P; auto.
      * right. apply P; auto. apply mates_sym; auto.
      * congruence.
    + rewrite app_nil_r. intros Y Z IY IZ NE M.
      destruct (in_lefts Y IY) as (LY & _). destruct (in_lefts Z IZ) as (LZ & _).
      rewrite st_mates in M by auto. apply (g_adj _ _ _ Co); auto.
  - rewrite filter_app. cbn [filter]. intros A T IA LT QT ST M.
    destruct (is_event_left e) eqn:Re.
    + rewrite rev_app_distr. cbn [rev app hd_error].
      assert (Lo : left_of o e) by (split; auto).
      rewrite in_app_iff in IA. destruct IA as [IA|[<-|[]]].
      * exfalso. destruct (in_lefts A IA) as (LA & QA & SA).
        destruct (st_new_or_old T LT QT) as [(LT0 & QT0 & Ne)|Ge].
        -- rewrite st_mates in M by auto. rewrite st_S in ST by auto.
           destruct (g_pend _ _ _ Co A T IA LT0 QT0 ST M) as [_ Q].
           specialize (Q e Lo (proj1 Le) Et (not_eq_sym Ne)).
           pose proof (least_k T Re LT0 QT0 ST Ne) as Q2. destruct M as [[Mk _] _]. qlra.
        -- apply (no_new_mate A T); auto. split; auto.
      * split; auto. intros x Lx Qx Sx Nx. rewrite st_k by auto.
        destruct (st_new_or_old T LT QT) as [(LT0 & QT0 & NeT)|GeT];
        destruct (st_new_or_old x Lx Qx) as [(Lx0 & Qx0 & Nex)|Gex].
        -- rewrite st_mates in M by auto. rewrite st_S in Sx, ST by auto. rewrite st_k by auto.
           pose proof (least_k x Re Lx0 Qx0 Sx Nex) as Q. apply Qcle_lt_or_eq in Q. destruct Q as [Q|Q]; auto.
           exfalso. apply (least_three x T); auto.
        -- exfalso. rewrite st_mates in M by auto. rewrite st_S in ST by auto.
           apply (no_new e T x); auto.
        -- rewrite st_S in Sx by auto. rewrite st_k by auto.
           pose proof (least_k x Re Lx0 Qx0 Sx Nex) as Q. apply Qcle_lt_or_eq in Q. destruct Q as [Q|Q]; auto.
           exfalso. apply (no_new e x T); auto. apply tied_col; auto.
        -- exfalso. destruct (new_through T LT GeT ST) as (U & LU & SU & TU).
           destruct (new_through x Lx Gex Sx) as (U2 & LU2 & SU2 & TU2).
           pose proof (same_height e T U Lo Et LT ST LU SU) as H1.
           pose proof (same_height e x U2 Lo Et Lx Sx LU2 SU2) as H2.
           pose proof (other_operand e U Lo Et LU TU H1) as F1.
           pose proof (other_operand e U2 Lo Et LU2 TU2 H2) as F2.
           destruct (Nat.eq_dec U U2) as [<-|NU].
           ++ destruct (w_disj c o' W' x T Lx LT Nx) as [D|D]; [congruence| |].
              ** pose proof (w_lt c o' W' x Lx). rewrite Sx, ST in *. qlra.
              ** pose proof (w_lt c o' W' T LT). rewrite Sx, ST in *. qlra.
           ++ apply (only_through c N o U U2 t W LU LU2 NU); try apply TU.
              ** destruct (firstop o e), (firstop o U), (firstop o U2); congruence.
              ** apply Qclt_le_weak, TU2.
              ** apply Qclt_le_weak, TU2.
              ** congruence.
    + rewrite app_nil_r in IA |- *. destruct (in_lefts A IA) as (LA & QA & SA).
      destruct (st_new_or_old T LT QT) as [(LT0 & QT0 & Ne)|Ge].
      * rewrite st_mates in M by auto. rewrite st_S in ST by auto.
        destruct (g_pend _ _ _ Co A T IA LT0 QT0 ST M) as [La Q]. split; auto.
        intros x Lx Qx Sx Nx. rewrite st_k by auto.
        destruct (st_new_or_old x Lx Qx) as [(Lx0 & Qx0 & Nex)|Gex].
        -- rewrite st_k by auto. rewrite st_S in Sx by auto. apply Q; auto.
        -- exfalso. apply (no_new A T x); auto. intros ->; auto.
      * exfalso. apply (no_new_mate A T); auto. split; auto.
Qed.
End Step.

(** Moving on. *)
Lemma collected_next o t t' : inv o t -> t < t' -> collected o t' [].
Proof.
  intros V Lt. assert (C := v_core _ _ _ V). assert (W := i_wf _ _ _ C). constructor; try (intros; contradiction).
  - intros x. split; [intros []|]. intros (A & B & D). exfalso.
    destruct (event_pt c o x W A) as (_ & _ & Q). rewrite D in Q. destruct (is_event_left x) eqn:Ex.
    + assert (P : popped o x) by (split; [split|]; auto).
      pose proof (i_S _ _ _ C x P). rewrite <- Q in *. qlra.
    + assert (Ll := to_left_left c o x W A). unfold to_left_event in Ll. rewrite Ex in Ll.
      assert (Dn : done o (opp o x)).
      { split; auto. rewrite (proj1 (proj2 (k_opp o (w_linked c o W) x A))). auto. }
      pose proof (i_E _ _ _ C _ Dn). rewrite <- Q in *. qlra.
  - constructor.
Qed.

(** Pieces with one start and direction have one end. *)
Lemma group_even o t group Y Z : inv o t -> why c o -> collected o t group ->
  In Y (lefts_of group) -> In Z (lefts_of group) -> Y <> Z -> mates o Y Z -> E' o Y = E' o Z.
Proof.
  intros V Wy Co IY IZ NE M. assert (C := v_core _ _ _ V). assert (W := i_wf _ _ _ C).
  assert (Q : forall A, In A (lefts_of group) -> left_of o A /\ active o A).
  { intros A IA. apply filter_In in IA. destruct IA as [IA EA]. apply (g_mem _ _ _ Co) in IA.
    destruct IA as (A1 & A2 & A3). assert (L : left_of o A) by (split; auto). split; auto.
    apply (beyond_active c o t A C); [split; auto|]. rewrite <- A3. apply (w_lt c o W A L). }
  destruct (Q Y IY) as [LY AY]. destruct (Q Z IZ) as [LZ AZ].
  assert (Adj : adj (op_line o) Y Z \/ adj (op_line o) Z Y).
  { destruct (before_total (op_line o) Y Z) as [B|B]; auto; try (apply (i_line _ _ _ C); auto).
    - left. destruct (before_next _ _ _ B) as (w & Aw & [-> |Bw]); auto.
      exfalso. apply (between_mates c Nc o t Y w Z C M); auto. apply adj_before; auto.
    - right. destruct (before_next _ _ _ B) as (w & Aw & [-> |Bw]); auto.
      exfalso. apply (between_mates c Nc o t Z w Y C (mates_sym c o _ _ M)); auto. apply adj_before; auto. }
  apply (dpair_even c N o Y Z W Wy LY LZ NE); auto.
  destruct Adj as [A|A]; [apply (v_line _ _ _ V); auto|apply dpair_sym, (v_line _ _ _ V); auto].
Qed.
End Groups.
