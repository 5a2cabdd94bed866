(** The sweep over two shaped operands, part 8: the parity of the selected pieces below a point. *)
From Coq Require Import QArith Qcanon Bool List Arith Lia Permutation.
From Verif Require Import QcTac Model_Base Model_Utils Model_Linear Model_Mixed Model_Shaped Spec_Base
  Spec_Sweep Proof_Base Proof_Line Proof_Sweep Proof_Sweep2 Proof_Sweep3 Proof_Sweep5 Proof_Sweep7
  Proof_Sweep8 Proof_Sweep9 Proof_Sweep10 Proof_Sweep11 Proof_Sweep12 Proof_Sweep13 Proof_Parity
  Proof_Flags Proof_Flags2 Proof_Flags3 Proof_Corner.
Import ListNotations.
Local Open Scope Qc_scope.

Lemma xsum_one {T} (f : T -> bool) (l : list T) x : NoDup l -> In x l -> (forall y, In y l -> y <> x -> f y = false) -> xsum f l = f x.
Proof.
  induction l as [|z l IH]; intros Nd I O; [destruct I|]. inversion Nd; subst. cbn [xsum]. destruct I as [->|I].
  - rewrite xsum_false, xorb_false_r; auto. intros y Iy. apply O; [right; auto|]. intros ->; contradiction.
  - rewrite IH; auto; [|intros; apply O; auto; right; auto]. rewrite (O z); [apply xorb_false_l|left; auto|]. intros ->; contradiction.
Qed.
Lemma xsum_two {T} (f : T -> bool) (l : list T) x y : NoDup l -> In x l -> In y l -> x <> y ->
  (forall z, In z l -> z <> x -> z <> y -> f z = false) -> xsum f l = xorb (f x) (f y).
Proof.
  induction l as [|z l IH]; intros Nd Ix Iy Ne O; [destruct Ix|]. inversion Nd; subst. cbn [xsum]. destruct Ix as [->|Ix].
  - f_equal. destruct Iy as [|Iy]; [congruence|]. apply xsum_one; auto. intros w Iw Nw. apply O; auto; [right; auto|]. intros ->; contradiction.
  - destruct Iy as [->|Iy].
    + rewrite xorb_comm. f_equal. apply xsum_one; auto. intros w Iw Nw. apply O; auto; [right; auto|]. intros ->; contradiction.
    + rewrite IH; auto; [|intros; apply O; auto; right; auto]. rewrite (O z); [apply xorb_false_l|left; auto| |]; intros ->; contradiction.
Qed.
Lemma max_of {T} (f : T -> Qc) (l : list T) : l <> [] -> exists x, In x l /\ forall y, In y l -> f y <= f x.
Proof.
  induction l as [|x l IH]; [congruence|]. intros _. destruct l as [|y l].
  - exists x. split; [left; auto|]. intros z [<-|[]]. apply Qcle_refl.
  - destruct IH as (m & Im & M); [discriminate|]. destruct (Qclt_le_dec (f m) (f x)) as [L|L].
    + exists x. split; [left; auto|]. intros z [<-|Iz]; [apply Qcle_refl|]. specialize (M z Iz). qlra.
    + exists m. split; [right; auto|]. intros z [<-|Iz]; auto.
Qed.

(** What selects the pieces of the set operation [op]. *)
Record selects (op : bool -> bool -> bool) (sel : bool -> bool -> overlap_kind -> bool) : Prop := {
  se_none : op false false = false;
  se_first : forall a b, sel true b NO_OVERLAP = xorb (op (negb a) b) (op a b);
  se_second : forall a b, sel false a NO_OVERLAP = xorb (op a (negb b)) (op a b);
  se_both : forall a b x, sel false x (if Bool.eqb a b then SAME_ORIENTATION else DIFFERENT_ORIENTATION)
    = xorb (op (negb a) (negb b)) (op a b);
  se_once : forall x q, q <> NO_OVERLAP -> sel true x q = false }.

Section Region.
Variable c : ctx.
Hypothesis G : good c.
Hypothesis N : nc c.
Variable int : list bool.
Variable sel : bool -> bool -> overlap_kind -> bool.
Variable op2 : bool -> bool -> bool.
Hypothesis Se : selects op2 sel.
Hypothesis Ee : evn c.
Hypothesis Or : ori c int.
Notation S' := (SX c). Notation E' := (EX c). Notation h := (hh c). Notation k := (kk c).
Notation EV := (EVX c). Notation col := (col c).
Notation core := (core c). Notation mates := (mates c).
Variables (o : operation) (T : Qc) (v : view).
Hypothesis V : inv c o T.
Hypothesis Fl : flags c int sel o nobody v.
Let C : core o T := v_core c o T V.
Let W : wf c o := i_wf _ _ _ C.

Definition lefts (o : operation) : list event := filter is_event_left (seq 0 (size o)).
Lemma lefts_In l : In l (lefts o) <-> left_of o l.
Proof. unfold lefts, left_of. rewrite filter_In, in_seq. intuition lia. Qed.
Lemma lefts_NoDup : NoDup (lefts o).
Proof. apply NoDup_filter, seq_NoDup. Qed.
Definition sp (l : event) (t : Qc) : bool := qltb (S' o l) t && qltb t (E' o l).
Lemma sp_true l t : sp l t = true <-> S' o l < t /\ t < E' o l.
Proof. unfold sp. rewrite andb_true_iff, !qltb_true. tauto. Qed.

Lemma mates_dec x y : {mates o x y} + {~ mates o x y}.
Proof.
  destruct (Qc_eq_dec (S' o x) (S' o y)) as [E1|N1]; [|right; intros [_ Q]; contradiction].
  destruct (Qc_eq_dec (k o x) (k o y)) as [E2|N2]; [|right; intros [[Q _] _]; contradiction].
  destruct (Qc_eq_dec (h o x 0) (h o y 0)) as [E3|N3]; [left|right; intros [[_ Q] _]; apply N3, Q].
  split; auto. apply (col_slope c o x y 0); auto.
Qed.

Section At.
Variable t : Qc.
Hypothesis Gen : forall p, In p (c_pts c) -> X c p <> t.
Hypothesis Lt : t < T.

Lemma sp_popped l : left_of o l -> S' o l <= t -> popped o l.
Proof. intros Ll Q. split; auto. intros I. apply (i_q1 _ _ _ C) in I. unfold EVX in I. unfold SX in Q. qlra. Qed.
(** Pieces at the same height. *)
Lemma sp_same l m : left_of o l -> left_of o m -> l <> m -> sp l t = true -> sp m t = true -> h o l t = h o m t ->
  mates o l m /\ firstop o l <> firstop o m.
Proof.
  intros Ll Lm Ne Sl Sm Q. apply sp_true in Sl. apply sp_true in Sm.
  assert (M : mates o l m).
  { destruct (i_V _ _ _ C l m t) as [[[A|A] _]|[A _]]; auto; try (apply sp_popped; auto); qlra. }
  split; auto. apply (col_overlap c N o l m W); auto; [apply M|qlra|qlra].
Qed.

(** The parity of the other operand below a piece. *)
Lemma other_at l : left_of o l -> sp l t = true -> vo v l = oth c (sid o l) t.
Proof.
  intros Ll Sl. apply sp_true in Sl. assert (Pl : popped o l) by (apply sp_popped; auto; qlra).
  destruct (gap_exists c (S' o l)) as (u0 & U0).
  assert (Ex : exists u, gap c (S' o l) u /\ u < t).
  { destruct (qmid (S' o l) (if qltb u0 t then u0 else t)) as (u & U1 & U2).
    - destruct (qltb u0 t); [apply U0|apply Sl].
    - exists u. destruct (qltb_spec u0 t) as [Q|Q]; split; try qlra; apply (gap_shrink c _ u0); auto; qlra. }
  destruct Ex as (u & U & Ut). rewrite (fl_other _ _ _ _ _ _ Fl l u Pl); auto.
  2: { intros (_ & x & Lx & Qx & _ & M). apply (i_q1 _ _ _ C) in Qx. destruct M as [_ M]. unfold EVX in Qx. unfold SX in M, Sl. qlra. }
  destruct (w_in c o W l Ll) as [In1 In2]. pose proof (proj1 U) as U1.
  unfold oth. apply (window c G (negb (opd c (sid o l))) _ u t (H c (sid o l)) (K c (sid o l))); auto.
  - intros x z. apply H_affine.
  - intros p Ip. apply (gap_not c (S' o l)); auto.
  - intros p P1 P2. apply (Ee (sid o l)); [apply (w_sid c o W); auto|qlra|qlra].
  - intros i Ii. apply idx_In in Ii. destruct Ii as [Li Oi].
    assert (D : (exists m, In m (lefts o) /\ sid o m = i /\ mates o l m) \/ (forall m, In m (lefts o) -> sid o m = i -> ~ mates o l m)).
    { induction (lefts o) as [|m r IH]; [right; intros m []|]. destruct IH as [(x & A1 & A2 & A3)|IH].
      - left. exists x. split; [right; auto|auto].
      - destruct (Nat.eq_dec (sid o m) i) as [Q|Q].
        + destruct (mates_dec l m) as [M|M]; [left; exists m; split; [left; auto|auto]|right].
          intros x [<-|Ix]; auto.
        + right. intros x [<-|Ix]; auto. }
    assert (Ne : forall m, sid o m = i -> l <> m) by (intros m Q <-; rewrite Q in Oi; destruct (opd c i); discriminate).
    destruct D as [(m & Im & Es & M)|D].
    + right. right. apply lefts_In in Im. destruct (w_in c o W m Im) as [J1 J2]. rewrite Es in *. destruct M as [[M1 M2] M3].
      assert (Mid : exists w, S' o l < w /\ w < t /\ w < E' o m).
      { destruct (qmid (S' o l) (if qltb t (E' o m) then t else E' o m)) as (w & W1 & W2).
        - destruct (qltb_spec t (E' o m)); [qlra|]. rewrite M3. apply (w_lt c o W); auto.
        - exists w. destruct (qltb_spec t (E' o m)); split; auto; split; qlra. }
      destruct Mid as (w & W1 & W2 & W3).
      destruct (i_V _ _ _ C l m w) as [[[A|A] _]|[_ A]]; auto; try qlra.
      * apply sp_popped; auto. qlra.
      * split; [qlra|]. split; [destruct A as [A|[A1 A2]]; qlra|].
        intros z. pose proof (M2 z) as Mz. unfold hh in Mz. rewrite Es in Mz. symmetry. exact Mz.
    + left. intros z Z1 Z2 Z3 Z4 Q. destruct (w_cover c o W i z Li Z3 Z4) as (m & Lm & Es & M1 & M2).
      destruct (i_V _ _ _ C l m z) as [[[A|A] _]|[A _]]; auto; try qlra.
      * apply sp_popped; auto. qlra.
      * unfold hh. rewrite Es. auto.
      * apply (D m); auto. apply lefts_In; auto.
Qed.

(** Counts of pieces. *)
Definition low_of (g : event -> bool) (y : Qc) : bool :=
  xsum (fun l => sp l t && qltb (h o l t) y && g l) (lefts o).
Definition inp (f : bool) (y : Qc) : bool := xsum (fun i => bel c i t y) (idx c f).
Lemma inp_low f y : inp f y = low_of (fun l => Bool.eqb (firstop o l) f) y.
Proof.
  symmetry. apply (xsum_bij _ _ (sid o)); [apply lefts_NoDup|apply idx_NoDup| | |].
  - intros l Il Q. apply lefts_In in Il. apply andb_true_iff in Q. destruct Q as [Q Q3]. apply andb_true_iff in Q. destruct Q as [Q1 Q2].
    apply sp_true in Q1. apply qltb_true in Q2. apply Bool.eqb_prop in Q3. rewrite (firstop_opd c o l W) in Q3.
    split; [apply idx_In; split; auto; apply (w_sid c o W); auto|]. apply bel_true. destruct (w_in c o W l Il). split; auto. split; qlra.
  - intros x z Ix Iz Q1 Q2 Q. apply lefts_In in Ix. apply lefts_In in Iz.
    destruct (Nat.eq_dec x z) as [|Ne]; auto. exfalso. apply andb_true_iff in Q1. destruct Q1 as [Q1 _]. apply andb_true_iff in Q1. destruct Q1 as [Q1 _].
    apply andb_true_iff in Q2. destruct Q2 as [Q2 _]. apply andb_true_iff in Q2. destruct Q2 as [Q2 _].
    apply sp_true in Q1. apply sp_true in Q2. destruct (w_disj c o W x z Ix Iz Ne Q); qlra.
  - intros i Ii Q. apply idx_In in Ii. destruct Ii as [Li Oi]. apply bel_true in Q. destruct Q as [[Q1 Q2] Q3].
    destruct (w_cover c o W i t Li) as (l & Ll & Es & L1 & L2); try qlra. exists l. split; [apply lefts_In; auto|]. split; auto.
    apply andb_true_iff. split; [apply andb_true_iff; split|].
    + apply sp_true. pose proof (Gen _ (w_ptS c o W l Ll)). pose proof (Gen _ (w_ptE c o W l Ll)). unfold SX, EX in *.
      split; [apply Qcle_lt_or_eq in L1; destruct L1; auto; congruence|apply Qcle_lt_or_eq in L2; destruct L2; auto; congruence].
    + apply qltb_true. unfold hh. rewrite Es. auto.
    + rewrite (firstop_opd c o l W), Es, Oi. apply Bool.eqb_reflx.
Qed.

Lemma qltb_split a y z : z < y -> qltb a y = true -> (a <= z)%Qc -> qltb a y = xorb (qltb a z) (qeqb a z).
Proof.
  intros L Q Le. rewrite Q. destruct (qltb_spec a z), (qeqb_spec a z); auto; exfalso; try qlra. apply Qcle_lt_or_eq in Le. destruct Le; auto.
Qed.
Lemma low_split g y z : z < y -> (forall l, left_of o l -> sp l t = true -> h o l t < y -> h o l t <= z) ->
  low_of g y = xorb (low_of g z) (xsum (fun l => sp l t && qeqb (h o l t) z && g l) (lefts o)).
Proof.
  intros L M. unfold low_of. rewrite <- xsum_xor. apply xsum_ext. intros l Il. apply lefts_In in Il.
  destruct (sp l t) eqn:Sl; cbn [andb]; auto. destruct (qltb_spec (h o l t) y) as [Q|Q].
  - pose proof (M l Il Sl Q) as Le. destruct (qltb_spec (h o l t) z) as [P1|P1], (qeqb_spec (h o l t) z) as [P2|P2]; cbn [andb];
      try (exfalso; qlra).
    + rewrite xorb_false_r. auto.
    + rewrite xorb_false_l. auto.
    + exfalso. apply Qcle_lt_or_eq in Le. tauto.
  - cbn [andb]. destruct (qltb_spec (h o l t) z) as [P1|P1], (qeqb_spec (h o l t) z) as [P2|P2]; cbn [andb]; auto; exfalso; qlra.
Qed.

Definition chosen (y : Qc) : bool := low_of (vr v) y.

Lemma kinds_no l : left_of o l -> sp l t = true -> (forall m, left_of o m -> m <> l -> sp m t = true -> h o m t <> h o l t) ->
  vk v l = NO_OVERLAP.
Proof.
  intros Ll Sl Al. apply sp_true in Sl. assert (Pl : popped o l) by (apply sp_popped; auto; qlra).
  apply (fl_kind2 _ _ _ _ _ _ Fl); auto. intros m Pm Nm M. assert (Lm : left_of o m) by apply Pm.
  destruct M as [[M1 M2] M3]. apply (Al m Lm Nm); [|symmetry; apply M2]. apply sp_true. split; [rewrite <- M3; apply Sl|].
  pose proof (w_lt c o W m Lm) as Lw.
  destruct (qmid (S' o l) (if qltb t (E' o m) then t else E' o m)) as (w & W1 & W2).
  { destruct (qltb_spec t (E' o m)); [apply Sl|]. rewrite M3. auto. }
  destruct (i_V _ _ _ C l m w) as [[[A|A] _]|[_ A]]; auto; try (destruct (qltb_spec t (E' o m)); qlra).
  destruct A as [A|[A1 A2]]; qlra.
Qed.

(** The parity of the selected pieces below a point tells the set operation. *)
Theorem chosen_region : forall y, chosen y = op2 (inp true y) (inp false y).
Proof.
  assert (Ind : forall n y, length (filter (fun l => sp l t && qltb (h o l t) y) (lefts o)) = n ->
    chosen y = op2 (inp true y) (inp false y)).
  2: { intros y. apply (Ind _ y eq_refl). }
  induction n as [n IH] using lt_wf_ind. intros y En.
  set (Ls := filter (fun l => sp l t && qltb (h o l t) y) (lefts o)) in *.
  assert (LsI : forall l, In l Ls <-> left_of o l /\ sp l t = true /\ h o l t < y).
  { intros l. unfold Ls. rewrite filter_In, lefts_In, andb_true_iff, qltb_true. tauto. }
  destruct Ls as [|l0 r0] eqn:ELs.
  - assert (Z : forall g, low_of g y = false).
    { intros g. apply xsum_false. intros l Il. apply lefts_In in Il. destruct (sp l t && qltb (h o l t) y) eqn:Q; auto.
      apply andb_true_iff in Q. rewrite qltb_true in Q. exfalso. apply (proj2 (LsI l)); tauto. }
    unfold chosen. rewrite !inp_low, !Z. symmetry. apply Se.
  - destruct (max_of (fun l => h o l t) Ls) as (l & Il & Ml); [rewrite ELs; discriminate|]. rewrite ELs in Il. 
    assert (Il' := Il). apply LsI in Il'. destruct Il' as (Ll & Sl & Ly). set (z := h o l t) in *.
    assert (Mz : forall m, left_of o m -> sp m t = true -> h o m t < y -> h o m t <= z).
    { intros m Lm Sm Q. apply Ml. rewrite ELs. apply LsI; auto. }
    assert (IHz : chosen z = op2 (inp true z) (inp false z)).
    { apply (IH (length (filter (fun l => sp l t && qltb (h o l t) z) (lefts o)))); auto. rewrite <- En. rewrite <- ELs.
      assert (Q : forall m, In m (filter (fun l => sp l t && qltb (h o l t) z) (lefts o)) -> In m Ls /\ m <> l).
      { intros m Im. apply filter_In in Im. destruct Im as [Im Q]. apply andb_true_iff in Q. destruct Q as [Q1 Q2]. apply qltb_true in Q2.
        split; [rewrite ELs; apply LsI; split; [apply lefts_In; auto|split; auto; qlra]|]. intros ->. fold z in Q2. qlra. }
      assert (Nd : NoDup (filter (fun l => sp l t && qltb (h o l t) z) (lefts o))) by (apply NoDup_filter, lefts_NoDup).
      apply Nat.lt_le_trans with (length (l :: filter (fun l => sp l t && qltb (h o l t) z) (lefts o))); [cbn; lia|].
      apply NoDup_incl_length.
      - constructor; auto. intros I. apply Q in I. tauto.
      - intros m [<-|Im]; [rewrite ELs; auto|apply Q; auto]. }
    assert (Sp2 : forall g, low_of g y = xorb (low_of g z) (xsum (fun m => sp m t && qeqb (h o m t) z && g m) (lefts o))).
    { intros g. apply low_split; auto. }
    assert (Il2 : In l (lefts o)) by (apply lefts_In; auto).
    assert (Pl : popped o l) by (apply sp_popped; auto; apply sp_true in Sl; qlra).
    assert (Zl : qeqb (h o l t) z = true) by (apply qeqb_true; reflexivity).
    assert (D : (exists m, left_of o m /\ m <> l /\ sp m t = true /\ h o m t = z)
      \/ forall m, left_of o m -> m <> l -> sp m t = true -> h o m t <> z).
    { assert (Q : forall r, (exists m, In m r /\ m <> l /\ sp m t = true /\ h o m t = z) \/ forall m, In m r -> m <> l -> sp m t = true -> h o m t <> z).
      { induction r as [|m r [(x & A1 & A2)|A]]; [right; intros m []|left; exists x; split; [right; auto|auto]|].
        destruct (Nat.eq_dec m l) as [Q1|Q1]; [right; intros x [<-|Ix]; [contradiction|auto]|].
        destruct (sp m t) eqn:Q2; [|right; intros x [<-|Ix]; [congruence|auto]].
        destruct (Qc_eq_dec (h o m t) z) as [Q3|Q3]; [left; exists m; split; [left; auto|auto]|right; intros x [<-|Ix]; auto]. }
      destruct (Q (lefts o)) as [(m & A1 & A2)|A]; [left; exists m; split; [apply lefts_In|]; auto|right].
      intros m Lm. apply A. apply lefts_In; auto. }
    (* the parity of the other operand *)
    assert (Ot : forall m, left_of o m -> sp m t = true -> h o m t = z -> forall f, firstop o m = negb f ->
      (forall w, left_of o w -> sp w t = true -> h o w t = z -> firstop o w = f -> False) -> vo v m = inp f z).
    { intros m Lm Sm Hm f Fm Un. rewrite (other_at m Lm Sm). unfold oth, cnt, inp.
      rewrite (firstop_opd c o m W) in Fm. rewrite Fm, negb_involutive. apply xsum_ext. intros i Ii.
      apply bool_iff. rewrite term_true, bel_true. change (H c (sid o m) t) with (h o m t). rewrite Hm.
      split; intros [Q1 Q2]; split; auto. destruct Q2 as [Q2|[Q2 Q3]]; auto. exfalso. apply idx_In in Ii. destruct Ii as [Li Oi].
      destruct (w_cover c o W i t Li) as (w & Lw & Es & L1 & L2); try qlra. apply (Un w Lw).
      - apply sp_true. pose proof (Gen _ (w_ptS c o W w Lw)). pose proof (Gen _ (w_ptE c o W w Lw)). unfold SX, EX in *.
        split; [apply Qcle_lt_or_eq in L1; destruct L1; auto; congruence|apply Qcle_lt_or_eq in L2; destruct L2; auto; congruence].
      - unfold hh. rewrite Es. auto.
      - rewrite (firstop_opd c o w W), Es. auto. }
    destruct D as [(m & Lm & Nm & Sm & Hm)|Al].
    + (* two pieces *)
      destruct (sp_same l m Ll Lm (fun q => Nm (eq_sym q)) Sl Sm (eq_sym Hm)) as [M Fo].
      assert (Two : forall g, xsum (fun m => sp m t && qeqb (h o m t) z && g m) (lefts o) = xorb (g l) (g m)).
      { intros g. rewrite (xsum_two _ _ l m lefts_NoDup Il2); auto.
        - rewrite Sl, Zl, Sm. cbn [andb]. rewrite (proj2 (qeqb_true _ _) Hm). auto.
        - apply lefts_In; auto.
        - intros w Iw N1 N2. apply lefts_In in Iw. destruct (sp w t) eqn:Q1; auto. destruct (qeqb_spec (h o w t) z) as [Q2|Q2]; auto. exfalso.
          destruct (sp_same l w Ll Iw (fun q => N1 (eq_sym q)) Sl Q1 (eq_sym Q2)) as [M2 _].
          apply (mates_three c N o l m w W); auto. }
      (* the first operand's piece and the second's *)
      assert (Gl : forall x y', left_of o x -> left_of o y' -> x <> y' -> sp x t = true -> sp y' t = true -> h o x t = z -> h o y' t = z ->
        firstop o x = true -> firstop o y' = false -> mates o x y' ->
        xorb (vr v x) (vr v y') = xorb (op2 (negb (inp true z)) (negb (inp false z))) (op2 (inp true z) (inp false z))).
      { intros x w Lx Lw Ne Sx Sw Hx Hw Fx Fw Mx.
        assert (Px : popped o x) by (apply sp_popped; auto; apply sp_true in Sx; qlra).
        assert (Pw : popped o w) by (apply sp_popped; auto; apply sp_true in Sw; qlra).
        assert (Mw : mates o w x). { destruct Mx as [[M1 M2] M3]. split; [split; auto|auto]. }
        assert (Kx := fl_kind1 _ _ _ _ _ _ Fl x w Px Pw Ne Mx). assert (Kw := fl_kind1 _ _ _ _ _ _ Fl w x Pw Px (fun q => Ne (eq_sym q)) Mw).
        rewrite (fl_result _ _ _ _ _ _ Fl x Px), (fl_result _ _ _ _ _ _ Fl w Pw), Fx, Fw, Kw.
        rewrite (se_once _ _ Se) by (rewrite Kx; unfold kind_at; destruct (Bool.eqb _ _); discriminate). rewrite xorb_false_l.
        assert (Ox : opd c (sid o x) = true) by (rewrite <- (firstop_opd c o x W); auto).
        assert (Ow : opd c (sid o w) = false) by (rewrite <- (firstop_opd c o w W); auto).
        assert (Sx' : spans c (sid o x) t = true).
        { apply spans_true. apply sp_true in Sx. destruct (w_in c o W x Lx). split; qlra. }
        assert (Sw' : spans c (sid o w) t = true).
        { apply spans_true. apply sp_true in Sw. destruct (w_in c o W w Lw). split; qlra. }
        assert (Ix : nth (sid o x) int false = negb (inp true z)).
        { rewrite (Or (sid o w) (sid o x) t); auto; try (apply (w_sid c o W); auto); [|congruence]. rewrite Ox.
          change (H c (sid o x) t) with (h o x t). rewrite Hx. auto. }
        assert (Iw : nth (sid o w) int false = negb (inp false z)).
        { rewrite (Or (sid o x) (sid o w) t); auto; try (apply (w_sid c o W); auto); [|congruence]. rewrite Ow.
          change (H c (sid o w) t) with (h o w t). rewrite Hw. auto. }
        unfold kind_at. rewrite Ix, Iw. rewrite <- (se_both _ _ Se (inp true z) (inp false z) (vo v w)).
        destruct (inp true z), (inp false z); reflexivity. }
      unfold chosen in *. rewrite Sp2, IHz, !inp_low, !Sp2, !Two, <- !inp_low.
      destruct (firstop o l) eqn:Fo1, (firstop o m) eqn:Fo2; try congruence.
      * cbn [Bool.eqb xorb]. rewrite (Gl l m); auto. destruct (inp true z), (inp false z); cbn [xorb negb];
          destruct (op2 true true), (op2 true false), (op2 false true), (op2 false false); reflexivity.
      * cbn [Bool.eqb xorb]. rewrite (xorb_comm (vr v l)), (Gl m l); auto.
        -- destruct (inp true z), (inp false z); cbn [xorb negb];
          destruct (op2 true true), (op2 true false), (op2 false true), (op2 false false); reflexivity.
        -- destruct M as [[M1 M2] M3]. split; [split; auto|auto].
    + (* one piece *)
      assert (One : forall g, xsum (fun m => sp m t && qeqb (h o m t) z && g m) (lefts o) = g l).
      { intros g. rewrite (xsum_one _ _ l lefts_NoDup Il2); auto.
        - rewrite Sl, Zl. auto.
        - intros w Iw N1. apply lefts_In in Iw. destruct (sp w t) eqn:Q1; auto. destruct (qeqb_spec (h o w t) z) as [Q2|Q2]; auto.
          exfalso. apply (Al w); auto. }
      assert (Kl : vk v l = NO_OVERLAP) by (apply kinds_no; auto).
      assert (Un : forall f, firstop o l = negb f -> vo v l = inp f z).
      { intros f Ff. apply Ot; auto. intros w Lw Sw Hw Fw. destruct (Nat.eq_dec w l) as [->|Nw]; [rewrite Ff in Fw; destruct f; discriminate|].
        apply (Al w); auto. }
      unfold chosen in *. rewrite Sp2, IHz, !inp_low, !Sp2, !One, <- !inp_low.
      rewrite (fl_result _ _ _ _ _ _ Fl l Pl), Kl. destruct (firstop o l) eqn:Fo1.
      * rewrite (Un false) by auto. rewrite (se_first _ _ Se (inp true z)). cbn [Bool.eqb].
        destruct (inp true z), (inp false z); cbn [xorb negb];
          destruct (op2 true true), (op2 true false), (op2 false true), (op2 false false); reflexivity.
      * rewrite (Un true) by auto. rewrite (se_second _ _ Se (inp true z) (inp false z)). cbn [Bool.eqb].
        destruct (inp true z), (inp false z); cbn [xorb negb];
          destruct (op2 true true), (op2 true false), (op2 false true), (op2 false false); reflexivity.
Qed.
End At.
End Region.
