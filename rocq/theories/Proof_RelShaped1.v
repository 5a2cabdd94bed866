(** Relating polygons, part 1: the attributes of handled pieces stay, and the pieces at a point
    of one operand only have the same attributes. *)
From Coq Require Import QArith Qcanon Bool List Arith Lia.
From Verif Require Import QcTac Model_Base Model_Utils Model_Linear Model_Mixed Model_Shaped Spec_Base Spec_Sweep
  Proof_Base Proof_Line Proof_Sweep Proof_Sweep2 Proof_Sweep3 Proof_Sweep5 Proof_Sweep7
  Proof_Sweep8 Proof_Sweep9 Proof_Sweep10 Proof_Sweep11 Proof_Sweep12 Proof_Sweep13 Proof_Sweep14 Proof_Parity
  Proof_Flags Proof_Flags2 Proof_Flags3 Proof_Region Proof_Select Proof_RelSweep2.
Import ListNotations.
Local Open Scope Qc_scope.

Lemma qltb_lt a b : qltb a b = true <-> a < b.
Proof. destruct (qltb_spec a b) as [A|A]; split; intros B; auto; try discriminate; exfalso; qlra. Qed.
Lemma qeqb_eq a b : qeqb a b = true <-> a = b.
Proof. destruct (qeqb_spec a b) as [A|A]; split; intros B; auto; try discriminate; contradiction. Qed.
Section Stepping.
Variable c : ctx.
Hypothesis G : good c.
Hypothesis Nc : nc c.
Notation S' := (SX c). Notation E' := (EX c). Notation h := (hh c). Notation k := (kk c).
Notation EV := (EVX c).
Notation mates := (mates c). Notation inv := (inv c). Notation least := (least c).
Notation stepping := (stepping c).
Lemma stepping_nc o t e o' shape : inv o t -> least o e -> EV o e = t ->
  process_event shape (popping o e) e = Some o' -> stepping o t e o'.
Proof.
  intros V L Et P. assert (C := v_core _ _ _ V). assert (W := i_wf _ _ _ C).
  assert (K := w_linked c o W).
  destruct (is_event_left e) eqn:Re.
  - destruct (lp_split c o t e V L Re Et) as (l1 & l2 & El & P1 & P2).
    destruct (lp_steps c G Nc o t e V L Re Et l1 l2 El P1 P2 shape)
      as (o2 & o3 & P' & C3 & T3 & D3 & L3 & M2 & M3 & C2 & Ac2 & Dn2 & Ac3 & Dn3).
    assert (o3 = o') by congruence. subst o3.
    assert (C1 := lp_core c Nc o t e V L Re Et l1 l2 El P1 P2).
    assert (K1 := w_linked c _ (i_wf _ _ _ C1)).
    assert (K2 := w_linked c o2 (i_wf _ _ _ C2)).
    assert (K3 := w_linked c o' (i_wf _ _ _ C3)).
    assert (V3 : inv o' t).
    { constructor; auto.
      - rewrite L3. exact D3.
      - apply (lp_final c Nc o t e V L Re Et l1 l2 o2 o' El P1 P2 C3 T3 D3 M2 M3 Ac3). }
    assert (Ae1 : active (relined o e (l1 ++ e :: l2)) e).
    { apply (lp_active c o t e V L Re). auto. }
    set (o1 := relined o e (l1 ++ e :: l2)) in *.
    assert (Q : forall oa ob x f, maybe c t e oa ob x f -> linked oa -> linked ob ->
      (forall y, active oa y <-> active ob y) -> active oa e ->
      (size oa <= size ob)%nat /\ (forall y, (y < size oa)%nat -> pt ob y = pt oa y)
      /\ (forall y, left_of oa y -> sid ob y = sid oa y)
      /\ (forall y, (y < size oa)%nat -> (In y (op_queue ob) <-> In y (op_queue oa)))
      /\ (forall y, (y < size ob)%nat -> (size oa <= y)%nat -> In y (op_queue ob))
      /\ (forall y, left_of oa y -> E' ob y <= E' oa y)
      /\ (forall y, done oa y -> opp ob y = opp oa y)).
    { intros oa ob x f M Ka Kb Ac Ae. destruct x as [x|]; cbn in M.
      - destruct M as (NE & Ax & F & _).
        assert (Q : forall l, left_of oa l -> l = x \/ l = e -> In (opp ob l) (op_queue ob)).
        { intros l _ [-> | ->]; [apply (Ac x); auto|apply (Ac e); auto]. }
        destruct f.
        + split; [apply (f_size _ _ _ _ _ _ F)|]. split; [apply (f_pt _ _ _ _ _ _ F)|].
          split; [apply (f_sid _ _ _ _ _ _ F)|]. split; [apply (f_queue _ _ _ _ _ _ F)|].
          split; [apply (frame_fresh c oa ob t x e F Kb); auto|].
          split; [intros y Ly; apply (frame_E c oa ob t x e y F Ka Ly)|].
          intros y Dy. apply (fr_E_other c oa ob t x e F y Ka (proj1 Dy)); intros ->;
            [apply (active_not_done oa x Ax Dy)|apply (active_not_done oa e Ae Dy)].
        + split; [apply (f_size _ _ _ _ _ _ F)|]. split; [apply (f_pt _ _ _ _ _ _ F)|].
          split; [apply (f_sid _ _ _ _ _ _ F)|]. split; [apply (f_queue _ _ _ _ _ _ F)|].
          split; [apply (frame_fresh c oa ob t e x F Kb); auto; intros l A [B|B]; apply Q; auto|].
          split; [intros y Ly; apply (frame_E c oa ob t e x y F Ka Ly)|].
          intros y Dy. apply (fr_E_other c oa ob t e x F y Ka (proj1 Dy)); intros ->;
            [apply (active_not_done oa e Ae Dy)|apply (active_not_done oa x Ax Dy)].
      - subst ob. split; auto. split; auto. split; auto. split; [tauto|]. split; [intros y A B; lia|].
        split; [intros y _; apply Qcle_refl|auto]. }
    destruct (Q o1 o2 _ _ M2 K1 K2) as (S1 & Pt1 & Si1 & Qu1 & Fr1 & En1 & Dn1); auto.
    { intros y. symmetry. apply Ac2. }
    destruct (Q o2 o' _ _ M3 K2 K3) as (S2 & Pt2 & Si2 & Qu2 & Fr2 & En2 & Dn2'); auto.
    { intros y. rewrite Ac2. symmetry. apply Ac3. }
    { apply Ac2; auto. }
    change (size o1) with (size o) in *. change (pt o1) with (pt o) in *.
    constructor; auto.
    + lia.
    + intros x Lx. rewrite Pt2, Pt1; auto. lia.
    + intros x Lx. rewrite Si2, Si1; auto. destruct Lx; split; auto; lia.
    + intros x Lx. rewrite Qu2, Qu1 by lia. apply (lp_queue c o t e V x).
    + intros x Lx Ge. destruct (Nat.lt_ge_cases x (size o2)) as [A|A]; [|apply Fr2; auto].
      apply Qu2; auto.
    + intros x Lx. apply (Qcle_trans _ (E' o2 x)); [apply En2|apply En1; exact Lx].
      destruct Lx; split; auto; lia.
    + intros x Dx.
      assert (Dx1 : done o1 x) by (apply (lp_done c o t e V Re l1 l2); auto).
      rewrite Dn2', Dn1; auto. apply Dn2; auto.
  - destruct (rp_split c o t e V L Re Et) as (l1 & l2 & El).
    destruct (rp_step c G Nc o t e V L Re Et l1 l2 El shape) as (o2 & P' & V2 & St & Ac & Dn).
    assert (o2 = o') by congruence. subst o2.
    assert (C1 := rp_core c o t e V L Re Et l1 l2 El).
    assert (K1 := w_linked c _ (i_wf _ _ _ C1)).
    assert (K3 := w_linked c o' (i_wf _ _ _ (v_core _ _ _ V2))).
    destruct St as [[-> _]|(b & a & Eb & Ea & NE & F & _)].
    + constructor; auto.
      * intros x Lx. apply (rp_queue c o t e V x).
      * intros x A B. unfold relined, popping, size in *. cbn in *. lia.
      * intros x _. apply Qcle_refl.
    + constructor; auto.
      * apply (f_size _ _ _ _ _ _ F).
      * apply (f_pt _ _ _ _ _ _ F).
      * apply (f_sid _ _ _ _ _ _ F).
      * intros x Lx. rewrite (f_queue _ _ _ _ _ _ F) by auto. apply (rp_queue c o t e V x).
      * apply (frame_fresh c _ o' t b a F K3); auto.
        intros l _ [-> | ->].
        -- apply (Ac b). apply (i_line _ _ _ C1). apply in_or_app; left; apply last_In; auto.
        -- apply (Ac a). apply (i_line _ _ _ C1). apply in_or_app; right; apply hd_error_In; auto.
      * intros x Lx. apply (frame_E c _ o' t b a x F K1 Lx).
      * intros x Dx.
        assert (Ab : active (relined o e (l1 ++ l2)) b).
        { apply (i_line _ _ _ C1). apply in_or_app; left; apply last_In; auto. }
        assert (Aa : active (relined o e (l1 ++ l2)) a).
        { apply (i_line _ _ _ C1). apply in_or_app; right; apply hd_error_In; auto. }
        assert (Dx1 : done (relined o e (l1 ++ l2)) x) by (apply (rp_done1 c o t e V L Re); auto).
        change (opp o x) with (opp (relined o e (l1 ++ l2)) x).
        apply (fr_E_other c _ o' t b a F x K1 (proj1 Dx1)); intros ->;
          [apply (active_not_done _ b Ab Dx1)|apply (active_not_done _ a Aa Dx1)].
Qed.
End Stepping.

Section Pieces.
Variable c : ctx.
Hypothesis G : good c.
Hypothesis N : nc c.
Variable int : list bool.
Variable sel : bool -> bool -> overlap_kind -> bool.
Hypothesis Ee : evn c.
Notation S' := (SX c). Notation E' := (EX c). Notation h := (hh c). Notation k := (kk c).
Notation EV := (EVX c).
Notation mates := (mates c). Notation inv := (inv c). Notation least := (least c).
Notation through := (through c).
Notation stepping := (stepping c).
Notation flags := (flags c int sel).
Notation evfirst := is_event_from_first_operand.

Lemma popped_dec' o l : {popped o l} + {~ popped o l}.
Proof.
  unfold popped, left_of. destruct (is_event_left l); [|right; intros [[A _] _]; discriminate].
  destruct (lt_dec l (size o)) as [A|A]; [|right; intros [[_ B] _]; auto].
  destruct (in_dec Nat.eq_dec l (op_queue o)) as [B|B]; [right; intros [_ D]; auto|left]. split; auto.
Qed.
Lemma mate_dec o l : (exists m, popped o m /\ m <> l /\ mates o l m) \/ (forall m, popped o m -> m <> l -> ~ mates o l m).
Proof.
  assert (D : (exists m, In m (lefts o) /\ popped o m /\ m <> l /\ mates o l m)
    \/ (forall m, In m (lefts o) -> popped o m -> m <> l -> ~ mates o l m)).
  { induction (lefts o) as [|m r IH]; [right; intros m []|]. destruct IH as [(x & A1 & A2)|IH].
    - left. exists x. split; [right; auto|auto].
    - destruct (popped_dec' o m) as [P|P]; [|right; intros x [<-|Ix] Px; [contradiction|auto]].
      destruct (Nat.eq_dec m l) as [Q|Q]; [right; intros x [<-|Ix] Px Nx; [contradiction|auto]|].
      destruct (mates_dec c o l m) as [M|M]; [left; exists m; split; [left; auto|auto]|right].
      intros x [<-|Ix] Px Nx; auto. }
  destruct D as [(m & _ & A)|D]; [left; exists m; auto|right]. intros m P. apply D; auto. apply lefts_In. apply P.
Qed.

Lemma kind_at_sid o o' x y : sid o' x = sid o x -> sid o' y = sid o y -> kind_at int o' x y = kind_at int o x y.
Proof. intros A B. unfold kind_at. rewrite A, B. reflexivity. Qed.
(** The attributes of a piece that started before the event stay. *)
Lemma attributes_stay o t e o' v v' l : inv o t -> EV o e = t -> In e (op_queue o) -> stepping o t e o' ->
  flags o nobody v -> flags o' nobody v' -> popped o l -> S' o l < t ->
  popped o' l /\ vo v' l = vo v l /\ vk v' l = vk v l.
Proof.
  intros V Et Ie St Fl Fl' Pl Sl. assert (C := v_core _ _ _ V). assert (C' := v_core _ _ _ (st_inv _ _ _ _ _ St)).
  assert (Ll := proj1 Pl). assert (Ll' : left_of o' l) by (apply (st_left c o t e o' St); auto).
  assert (Pl' : popped o' l).
  { split; auto. rewrite (st_queue _ _ _ _ _ St l (proj2 Ll)). intros [A _]. apply (proj2 Pl A). }
  assert (SE : S' o' l = S' o l) by (apply (st_S c o t e o' St); auto).
  assert (Old : forall m, popped o' m -> S' o' m < t -> popped o m).
  { intros m [[Lm Sm] Qm] Tm. destruct (Nat.lt_ge_cases m (size o)) as [A|A].
    - split; [split; auto|]. intros I. apply Qm. apply (st_queue _ _ _ _ _ St m A). split; auto. intros ->.
      rewrite (st_S c o t e o' St) in Tm by (split; auto). unfold SX, EVX in *. qlra.
    - exfalso. apply Qm. apply (st_fresh _ _ _ _ _ St); auto. }
  split; auto. split.
  - destruct (gap_exists c (S' o l)) as (u & U).
    assert (NL : forall o1, core c o1 t -> S' o1 l < t -> ~ later c o1 l).
    { intros o1 C1 S1 (_ & x & Lx & Qx & _ & M). apply (i_q1 _ _ _ C1) in Qx. destruct M as [_ M]. unfold EVX in Qx. unfold SX in *. qlra. }
    rewrite (fl_other _ _ _ _ _ _ Fl l u Pl (NL o C Sl) U).
    rewrite (fl_other _ _ _ _ _ _ Fl' l u Pl'); [|apply NL; auto; rewrite SE; auto|rewrite SE; auto].
    rewrite (st_sid _ _ _ _ _ St l Ll). reflexivity.
  - destruct (mate_dec o l) as [(m & Pm & Nm & M)|Nn].
    + assert (Lm := proj1 Pm). assert (Sm : S' o m < t) by (destruct M as [_ M]; rewrite <- M; auto).
      assert (Pm' : popped o' m).
      { split; [apply (st_left c o t e o' St); auto|]. rewrite (st_queue _ _ _ _ _ St m (proj2 Lm)). intros [A _]. apply (proj2 Pm A). }
      rewrite (fl_kind1 _ _ _ _ _ _ Fl l m Pl Pm (not_eq_sym Nm) M).
      rewrite (fl_kind1 _ _ _ _ _ _ Fl' l m Pl' Pm' (not_eq_sym Nm)); [|apply (st_mates c o t e o' St); auto].
      apply kind_at_sid; apply (st_sid _ _ _ _ _ St); auto.
    + rewrite (fl_kind2 _ _ _ _ _ _ Fl l Pl Nn). apply (fl_kind2 _ _ _ _ _ _ Fl' l Pl').
      intros m Pm Nm M. assert (Sm : S' o' m < t) by (destruct M as [_ M]; rewrite <- M, SE; auto).
      assert (Pm0 := Old m Pm Sm). apply (Nn m Pm0 Nm). apply (st_mates c o t e o' St); auto. apply Pm0.
Qed.

(** ** The pieces at one point *)
Section At.
Variables (o : operation) (t : Qc) (group : list event).
Hypothesis V : inv o t.
Hypothesis Gm : forall e, In e group <-> (e < size o)%nat /\ ~ In e (op_queue o) /\ EV o e = t.
Hypothesis Qt : forall x, In x (op_queue o) -> t < EV o x.
Let C := v_core c o t V.
Let W := i_wf c o t C.
Lemma at_popped l : left_of o l -> S' o l <= t -> popped o l.
Proof. intros Ll L. split; auto. intros I. apply Qt in I. unfold EVX, SX in *. qlra. Qed.
Lemma right_first l : left_of o l -> evfirst o (opp o l) = firstop o l.
Proof.
  intros Ll. destruct (k_opp o (w_linked c o W) l (proj2 Ll)) as (Lo & Oo & Eo).
  unfold is_event_from_first_operand, to_left_event. rewrite Eo, (proj1 Ll). cbn. rewrite Oo. reflexivity.
Qed.
Lemma left_first l : left_of o l -> evfirst o l = firstop o l.
Proof. intros Ll. unfold is_event_from_first_operand, to_left_event. rewrite (proj1 Ll). reflexivity. Qed.
(** The piece of an event of the group. *)
Lemma group_piece e : In e group -> left_of o (to_left_event o e) /\ popped o (to_left_event o e)
  /\ S' o (to_left_event o e) <= t /\ t <= E' o (to_left_event o e) /\ h o (to_left_event o e) t = py (pt o e)
  /\ ((is_event_left e = true /\ S' o (to_left_event o e) = t) \/ (is_event_left e = false /\ E' o (to_left_event o e) = t)).
Proof.
  intros Ie. destruct (proj1 (Gm e) Ie) as (Le & Qe & Te).
  assert (D : left_of o (to_left_event o e) /\ ((is_event_left e = true /\ S' o (to_left_event o e) = t /\ h o (to_left_event o e) t = py (pt o e))
    \/ (is_event_left e = false /\ E' o (to_left_event o e) = t /\ h o (to_left_event o e) t = py (pt o e)))).
  { unfold to_left_event. destruct (is_event_left e) eqn:Re.
    - split; [split; auto|]. left. assert (Ll : left_of o e) by (split; auto).
      split; auto. split; [exact Te|]. rewrite (w_S c o W e Ll). change (S' o e) with (EV o e). rewrite Te. reflexivity.
    - destruct (k_opp o (w_linked c o W) e Le) as (Lo & Oo & Eo). rewrite Re in Eo. cbn in Eo.
      assert (Ll : left_of o (opp o e)) by (split; auto). split; auto. right. split; auto.
      assert (Q : E' o (opp o e) = t) by (unfold EX; rewrite Oo; exact Te). split; auto.
      rewrite <- Q. rewrite <- (w_E c o W (opp o e) Ll). rewrite Oo. reflexivity. }
  destruct D as (Ll & D). pose proof (w_lt c o W _ Ll) as Lt. set (l := to_left_event o e) in *. clearbody l.
  assert (Q : S' o l <= t /\ t <= E' o l /\ h o l t = py (pt o e)).
  { destruct D as [(_ & A & B)|(_ & A & B)]; rewrite <- A at 1 2; (split; [|split; auto]); rewrite ?A; try apply Qcle_refl; qlra. }
  destruct Q as (Q1 & Q2 & Q3). split; auto. split; [apply at_popped; auto|]. split; auto. split; auto. split; auto.
  destruct D as [(A & B & _)|(A & B & _)]; auto.
Qed.
(** A piece through the point of an event has an event in the group. *)
Lemma group_meets e l : In e group -> left_of o l -> S' o l <= t -> t <= E' o l -> h o l t = py (pt o e) ->
  firstop o l <> evfirst o e -> exists e', In e' group /\ to_left_event o e' = l /\ evfirst o e' = firstop o l.
Proof.
  intros Ie Ll L1 L2 Lh Nf. assert (Pl : popped o l) by (apply at_popped; auto).
  destruct (Qc_eq_dec (S' o l) t) as [Q1|Q1].
  { exists l. split; [apply Gm; split; [apply Ll|split; [apply Pl|exact Q1]]|]. split; [|apply left_first; auto].
    unfold to_left_event. rewrite (proj1 Ll). reflexivity. }
  destruct (Qc_eq_dec (E' o l) t) as [Q2|Q2].
  { destruct (k_opp o (w_linked c o W) l (proj2 Ll)) as (Lo & Oo & Eo).
    exists (opp o l). split; [|split; [unfold to_left_event; rewrite Eo, (proj1 Ll); exact Oo|apply right_first; auto]].
    apply Gm. split; auto. split; [|exact Q2]. intros I. pose proof (Qt _ I). unfold EVX in *. unfold EX in *. qlra. }
  exfalso. assert (Th : through o t l).
  { split; [destruct (qltb_spec (S' o l) t); auto; exfalso; apply Q1; qlra|].
    destruct (qltb_spec t (E' o l)); auto. exfalso; apply Q2; qlra. }
  destruct (group_piece e Ie) as (Lm & Pm & M1 & M2 & M3 & Em).
  assert (Fm : evfirst o e = firstop o (to_left_event o e)) by reflexivity. set (m := to_left_event o e) in *. clearbody m.
  assert (NE : l <> m). { intros Q. apply Nf. rewrite Q. auto. }
  assert (Nq : forall z, popped o z -> ~ (In z (op_queue o) \/ nobody z)).
  { intros z Pz [I|[]]. apply (proj2 Pz I). }
  assert (Lh' : h o l t = h o m t) by congruence.
  destruct (v_th _ _ _ V l m Ll Lm (Nq l Pl) (Nq m Pm) NE Th M1 M2 Lh') as [(M & Et)|(_ & z & Lz & [Qz|[]] & Sz & _)].
  - destruct Th as [Th1 Th2]. destruct M as [_ M]. destruct Em as [[_ Em]|[_ Em]]; qlra.
  - pose proof (Qt z Qz). unfold EVX in *. unfold SX in *. qlra.
Qed.

(** All events of the group are of one operand. *)
Variable f : bool.
Hypothesis Same : forall e, In e group -> evfirst o e = f.
Variable v : view.
Hypothesis Fl : flags o nobody v.
Lemma alone_kind e : In e group -> vk v (to_left_event o e) = NO_OVERLAP.
Proof.
  intros Ie. destruct (group_piece e Ie) as (Ll & Pl & L1 & L2 & L3 & El).
  assert (Fm : firstop o (to_left_event o e) = f) by (apply (Same e Ie)).
  set (l := to_left_event o e) in *. clearbody l.
  apply (fl_kind2 _ _ _ _ _ _ Fl l Pl). intros m Pm Nm M. assert (Lm := proj1 Pm).
  assert (Nf : firstop o m <> f).
  { intros Q. pose proof (w_lt c o W l Ll) as Ll'. pose proof (w_lt c o W m Lm) as Lm'. destruct M as [[M1 M2] M3].
    apply (col_overlap c N o l m W Ll Lm (not_eq_sym Nm)); [split; auto|qlra|qlra|congruence]. }
  assert (Tm : t <= E' o m).
  { destruct M as [[M1 M2] M3]. pose proof (w_lt c o W m Lm) as Lm'. pose proof (w_lt c o W l Ll) as Ll'.
    apply Qcnot_lt_le. intros Lt.
    destruct (middle (S' o m) (E' o m) Lm') as (w & W1 & W2).
    destruct (i_V _ _ _ C l m w Pl Pm (not_eq_sym Nm)) as [[[A|A] _]|[_ A]]; auto; try qlra.
    destruct A as [A|[A1 A2]]; qlra. }
  destruct (group_meets e m Ie Lm) as (e' & Ie' & _ & Fe').
  - destruct M as [_ M]. rewrite <- M. auto.
  - auto.
  - destruct M as [[_ M2] _]. rewrite <- M2. auto.
  - rewrite (Same e Ie). auto.
  - rewrite (Same e' Ie') in Fe'. auto.
Qed.

(** The other operand near the point of the group. *)
Lemma lgap_order u i j : u < t -> (forall p, In p (c_pts c) -> X c p < t -> X c p < u) ->
  (i < length (c_ins c))%nat -> (j < length (c_ins c))%nat -> H c i t < H c j t -> H c i u < H c j u.
Proof.
  intros Lt B Li Lj L. apply Qcnot_le_lt. intros Q.
  destruct (Qc_eq_dec (K c i) (K c j)) as [Ek|Nk].
  - pose proof (H_affine c i u t). pose proof (H_affine c j u t). rewrite Ek in *. qlra.
  - pose proof (H_affine c i) as A1. pose proof (H_affine c j) as A2.
    pose (dd := fun x => H c j x - H c i x).
    assert (Ad : forall x z, dd x - dd z = (K c j - K c i) * (x - z)).
    { intros x z. unfold dd. specialize (A1 x z). specialize (A2 x z).
      replace ((K c j - K c i) * (x - z)) with (K c j * (x - z) - K c i * (x - z)) by ring. qlra. }
    pose proof (aff_const_sign dd _ u t Ad) as W0. assert (W' : 0 < dd u <-> 0 < dd t).
    { apply W0; [qlra|]. intros w W1 W2 Z. destruct (g_cross c G i j w Li Lj Nk) as (p & Ip & Xp & _).
      { unfold dd in Z. qlra. }
      destruct (Qcle_lt_or_eq _ _ W2) as [W3|W3].
      - rewrite <- Xp in W1, W3. specialize (B p Ip W3). qlra.
      - unfold dd in Z. rewrite W3 in Z. qlra. }
    unfold dd in W'. assert (0 < H c j t - H c i t) by qlra. apply W' in H. qlra.
Qed.
Definition near (y : Qc) : bool := xsum (fun j => spans c j t && qltb (H c j t) y) (idx c (negb f)).
Lemma no_other e j : In e group -> In j (idx c (negb f)) -> X c (fst (input c j)) <= t -> t <= X c (snd (input c j)) ->
  H c j t <> py (pt o e).
Proof.
  intros Ie Ij J1 J2 Q. apply idx_In in Ij. destruct Ij as [Lj Oj].
  destruct (w_cover c o W j t Lj J1 J2) as (m & Lm & Es & M1 & M2).
  assert (Fm : firstop o m = negb f) by (rewrite (firstop_opd c o m W), Es; auto).
  destruct (group_meets e m Ie Lm M1 M2) as (e' & Ie' & _ & Fe').
  - unfold hh. rewrite Es. auto.
  - rewrite (Same e Ie), Fm. destruct f; discriminate.
  - rewrite (Same e' Ie'), Fm in Fe'. destruct f; discriminate.
Qed.
Lemma alone_other e : In e group -> vo v (to_left_event o e) = near (py (pt o e)).
Proof.
  intros Ie. destruct (group_piece e Ie) as (Ll & Pl & L1 & L2 & L3 & El).
  assert (Fm : firstop o (to_left_event o e) = f) by (apply (Same e Ie)).
  set (l := to_left_event o e) in *. clearbody l.
  assert (Oi : opd c (sid o l) = f) by (rewrite <- (firstop_opd c o l W); auto).
  assert (Li : (sid o l < length (c_ins c))%nat) by (apply (w_sid c o W); auto).
  assert (Pe : In (pt o e) (c_pts c)) by (apply event_pt; auto; apply Gm; auto).
  assert (Te : X c (pt o e) = t) by (apply Gm; auto).
  (* the columns [u] next to the point *)
  assert (Key : forall u, (forall j, In j (idx c (negb f)) -> (spans c j u = true <-> spans c j t = true)) ->
    (forall i j, (i < length (c_ins c))%nat -> (j < length (c_ins c))%nat -> H c i t < H c j t -> H c i u < H c j u) ->
    oth c (sid o l) u = near (py (pt o e))).
  { intros u Sp Or. unfold oth, near, cnt. rewrite Oi. apply xsum_ext. intros j Ij. apply bool_iff.
    assert (Lj := proj1 (proj1 (idx_In c _ j) Ij)).
    unfold term. rewrite andb_true_iff, andb_true_iff, (Sp j Ij). rewrite <- L3. unfold hh.
    split; intros [A B]; (split; [exact A|]).
    - assert (Ne : H c j t <> H c (sid o l) t).
      { unfold spans in A. apply andb_true_iff in A. destruct A as [A1 A2]. apply qltb_lt in A1. apply qltb_lt in A2.
        unfold hh in L3. rewrite L3. apply (no_other e j Ie Ij); qlra. }
      destruct (qltb_spec (H c j t) (H c (sid o l) t)) as [Q|Q]; auto. exfalso.
      assert (Lt : H c (sid o l) t < H c j t) by (destruct (Qcle_lt_or_eq _ _ (Qcnot_lt_le _ _ Q)) as [D|D]; auto; congruence).
      apply (Or _ _ Li Lj) in Lt. apply orb_true_iff in B. rewrite andb_true_iff in B. rewrite qltb_lt in B. rewrite qeqb_eq in B.
      destruct B as [B|[B _]]; qlra.
    - apply qltb_lt in B. apply orb_true_iff. left. apply qltb_lt. apply Or; auto. }
  assert (End : forall j, In j (idx c (negb f)) -> X c (fst (input c j)) <> t /\ X c (snd (input c j)) <> t).
  { intros j Ij. assert (Lj := proj1 (proj1 (idx_In c _ j) Ij)). pose proof (input_X c G j Lj) as Lx.
    destruct (input_pts c G j Lj) as [P1 P2]. split; intros Q.
    - apply (no_other e j Ie Ij); [rewrite Q; apply Qcle_refl|qlra|].
      assert (fst (input c j) = pt o e) as E1 by (apply (Proof_Sweep.X_inj c G); auto; congruence).
      rewrite <- Q, H_start, E1. reflexivity.
    - apply (no_other e j Ie Ij); [qlra|rewrite Q; apply Qcle_refl|].
      assert (snd (input c j) = pt o e) as E1 by (apply (Proof_Sweep.X_inj c G); auto; congruence).
      rewrite <- Q, H_end, E1 by auto. reflexivity. }
  destruct El as [[_ Sl]|[_ Sl]].
  - destruct (gap_exists c t) as (u & U). rewrite (fl_other _ _ _ _ _ _ Fl l u Pl).
    + apply Key.
      * intros j Ij. destruct (End j Ij) as [E1 E2]. assert (Lj := proj1 (proj1 (idx_In c _ j) Ij)).
        destruct (input_pts c G j Lj) as [P1 P2]. unfold spans. rewrite !andb_true_iff, !qltb_lt. destruct U as [U1 U2].
        pose proof (U2 _ P1). pose proof (U2 _ P2).
        split; intros [A B]; split; try qlra; auto.
        -- destruct (Qclt_le_dec t (X c (fst (input c j)))) as [D|D]; [apply H in D; qlra|].
           destruct (Qcle_lt_or_eq _ _ D) as [D'|D']; auto. congruence.
      * intros i j Hi Hj. apply (gap_order c G); auto.
    + intros (_ & x & Lx & Qx & _ & M). apply Qt in Qx. destruct M as [_ M]. unfold EVX in Qx. unfold SX in *. qlra.
    + rewrite Sl. auto.
  - destruct (gap_below c t) as (u0 & U1 & U2). pose proof (w_lt c o W l Ll) as Lt.
    assert (Su0 : S' o l < u0) by (apply U2; [apply (w_ptS c o W); auto|rewrite <- Sl; exact Lt]).
    rewrite (other_at c G int sel Ee o t v V Fl u0).
    + apply Key.
      * intros j Ij. destruct (End j Ij) as [E1 E2]. assert (Lj := proj1 (proj1 (idx_In c _ j) Ij)).
        destruct (input_pts c G j Lj) as [P1 P2]. unfold spans. rewrite !andb_true_iff, !qltb_lt.
        pose proof (U2 _ P1). pose proof (U2 _ P2).
        split; intros [A B]; split; try qlra; auto.
        destruct (Qclt_le_dec (X c (snd (input c j))) t) as [D|D]; [apply H0 in D; qlra|].
        destruct (Qcle_lt_or_eq _ _ D) as [D'|D']; auto. congruence.
      * intros i j Hi Hj. apply lgap_order; auto.
    + intros p Ip Q. assert (X c p < t) by (rewrite Q; auto). apply U2 in H; auto. qlra.
    + auto.
    + auto.
    + apply sp_true. split; auto. rewrite Sl. auto.
Qed.
End At.
End Pieces.
