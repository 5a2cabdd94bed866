(** Relating polygons, part 4: the end of the sweep. *)
From Coq Require Import QArith Qcanon Bool List Arith Lia.
From Verif Require Import QcTac Model_Base Model_Utils Model_Linear Model_Mixed Model_Shaped Model_Relate Model_RelateLinear Model_RelateShaped
  Spec_Base Spec_Segment Spec_Clip Spec_Sweep
  Proof_Base Proof_Line Proof_Sweep Proof_Sweep2 Proof_Sweep3 Proof_Sweep4 Proof_Sweep5 Proof_Sweep6 Proof_Sweep7
  Proof_Sweep8 Proof_Sweep9 Proof_Sweep10 Proof_Sweep11 Proof_Sweep12 Proof_Sweep13 Proof_Sweep14 Proof_Sweep15 Proof_Parity
  Proof_Flags Proof_Flags2 Proof_Flags3 Proof_Flags6 Proof_Corner Proof_Region Proof_Select Proof_Nested Proof_Ray Proof_Orient Proof_Start Proof_Bridge
  Proof_Ready
  Proof_RelSweep Proof_RelSweep2 Proof_RelSweep3 Proof_RelSweep4 Proof_RelSweep5 Proof_RelSweep6 Proof_RelShaped1 Proof_RelShaped2 Proof_RelShaped3.
Import ListNotations.
Local Open Scope Qc_scope.

Section End.
Variables (first second : list segment) (eps : Qc).
Notation c := (the_ctx first second eps).
Notation int := (map segment_flag first ++ map segment_flag second).
Hypothesis N1 : non_crossing first.
Hypothesis N2 : non_crossing second.
Hypothesis G : good c.
Hypothesis N : nc c.
Hypothesis Ee : evn c.
Hypothesis Or : ori c int.
Variable init : bool -> bool.
Notation sel := (fun _ _ _ => false).
Notation S' := (SX c). Notation E' := (EX c). Notation h := (hh c). Notation k := (kk c).
Notation EV := (EVX c).
Notation mates := (mates c). Notation inv := (inv c).
Notation described := (Proof_RelShaped2.described c init).
Notation flags := (flags c int sel).
Notation runs := (runs c int sel).
Notation on_op := (on_op first second).

(** The processing of an event at [t] changes nothing before [t]. *)
Lemma shaped_step o t e o' v v' r : inv o t -> In e (op_queue o) -> EV o e = t -> stepping c o t e o' ->
  flags o nobody v -> flags o' nobody v' -> described o v t r -> described o' v' t r.
Proof.
  intros V Qe Et St Fl Fl' D. assert (C := v_core _ _ _ V). assert (W := i_wf _ _ _ C).
  assert (Old : forall x, (x < size o')%nat -> ~ In x (op_queue o') -> EV o' x < t ->
    (x < size o)%nat /\ ~ In x (op_queue o) /\ EV o' x = EV o x).
  { intros x A B L. destruct (Nat.le_gt_cases (size o) x) as [Q|Q].
    - destruct (B (st_fresh _ _ _ _ _ St x A Q)).
    - pose proof (st_EV c o t e o' St x Q) as Ev. split; auto. split; auto. intros I.
      pose proof (i_q1 _ _ _ C x I). qlra. }
  assert (Sm : forall l, popped o l -> S' o l < t -> popped o' l /\ S' o' l < t /\ firstop o' l = firstop o l
    /\ vo v' l = vo v l /\ vk v' l = vk v l).
  { intros l P L. destruct (attributes_stay c int sel o t e o' v v' l V Et Qe St Fl Fl' P L) as (P' & A & B).
    split; auto. split; [rewrite (st_S c o t e o' St l (proj1 P)); auto|]. split; auto. apply (st_firstop c o t e o' V St l (proj1 P)). }
  assert (OldP : forall l, popped o' l -> S' o' l < t -> popped o l /\ S' o l < t).
  { intros Y [LY QY] L. destruct (Old Y (proj2 LY) QY L) as (A & B & E).
    split; [split; [split; [apply LY|auto]|auto]|]. unfold EVX in E. unfold SX in *. rewrite <- E. auto. }
  assert (Ev : forall z, (z < size o)%nat -> ~ In z (op_queue o) -> evfirst o' z = evfirst o z).
  { intros z Lz Qz. pose proof (to_left_left c o z W Lz) as Ll.
    unfold is_event_from_first_operand.
    destruct (is_event_left z) eqn:Ez.
    - unfold to_left_event in *. rewrite Ez in *. apply (st_firstop c o t e o' V St z Ll).
    - unfold to_left_event in *. rewrite Ez in *.
      pose proof (proj1 (proj2 (k_opp o (w_linked c o W) z Lz))) as Oo.
      assert (Dn : done o (opp o z)) by (split; [auto|rewrite Oo; auto]).
      pose proof (st_done _ _ _ _ _ St _ Dn) as Ed. rewrite Oo in Ed.
      assert (C' := v_core _ _ _ (st_inv _ _ _ _ _ St)). assert (W' := i_wf _ _ _ C').
      assert (Lz' : (z < size o')%nat) by (pose proof (st_size _ _ _ _ _ St); lia).
      assert (Lo' : (opp o z < size o')%nat) by (pose proof (st_size _ _ _ _ _ St); pose proof (proj2 Ll); lia).
      pose proof (proj1 (proj2 (k_opp o' (w_linked c o' W') (opp o z) Lo'))) as Ez'. rewrite Ed in Ez'. rewrite Ez'.
      apply (st_firstop c o t e o' V St _ Ll). }
  constructor.
  - intros b. rewrite (d_sub _ _ _ _ _ _ D b). split; intros [I B]; (split; [exact I|]); intros l P L.
    + destruct (OldP l P L) as [P0 L0]. destruct (Sm l P0 L0) as (_ & _ & F & A1 & A2). specialize (B l P0 L0).
      unfold bad, within, without in *. rewrite F, A1, A2. exact B.
    + destruct (Sm l P L) as (P0 & L0 & F & A1 & A2). specialize (B l P0 L0).
      unfold bad, within, without in *. rewrite F, A1, A2 in B. exact B.
  - rewrite (d_cont _ _ _ _ _ _ D). split; intros (l & P & L & B); exists l.
    + destruct (Sm l P L) as (P0 & L0 & F & A1 & A2). split; auto. split; auto. unfold meet, within in *. rewrite A1, A2. exact B.
    + destruct (OldP l P L) as [P0 L0]. destruct (Sm l P0 L0) as (_ & _ & F & A1 & A2). split; auto. split; auto.
      unfold meet, within in *. rewrite A1, A2 in B. exact B.
  - intros X0 b. rewrite (d_int _ _ _ _ _ _ D X0 b). split; intros (l & P & L & F0 & B); exists l.
    + destruct (Sm l P L) as (P0 & L0 & F & A1 & A2). split; auto. split; auto. split; [congruence|]. unfold within in *. rewrite A1, A2. exact B.
    + destruct (OldP l P L) as [P0 L0]. destruct (Sm l P0 L0) as (_ & _ & F & A1 & A2). split; auto. split; auto. split; [congruence|].
      unfold within in *. rewrite A1, A2 in B. exact B.
  - intros X0. rewrite (d_bnd _ _ _ _ _ _ D X0). split; intros (x & y & Lx & Ly & Qx & Qy & E1 & E2 & F1 & F2); exists x, y.
    + pose proof (st_size _ _ _ _ _ St) as Sz. rewrite !(st_EV c o t e o' St) by auto. rewrite !Ev by auto.
      split; [lia|]. split; [lia|]. split; [rewrite (st_queue _ _ _ _ _ St) by auto; tauto|].
      split; [rewrite (st_queue _ _ _ _ _ St) by auto; tauto|]. auto.
    + assert (E2' : EV o' y < t) by congruence. destruct (Old x Lx Qx E2) as (A1 & A2 & A3). destruct (Old y Ly Qy E2') as (B1 & B2 & B3).
      rewrite Ev in F1, F2 by auto. split; auto. split; auto. split; auto. split; auto. split; [congruence|]. split; [congruence|]. auto.
Qed.

(** What the state at the end says. *)
Definition area (f : bool -> bool -> bool) : Prop := exists t y, generic c t /\ f (inp c t true y) (inp c t false y) = true.
Record verdict (r : shaped_state) : Prop := {
  f_sub : forall b, sflag b r = true -> init b = true /\ ~ area (minus b);
  f_notsub : forall b, sflag b r = false -> init b = false \/ area (minus b);
  f_cont : ss_has_continuous_intersection r = true -> area andb;
  f_apart : extreme r = false -> ss_has_continuous_intersection r = false -> ~ area andb;
  f_int : extreme r = false -> forall b, iflag b r = true <-> exists t i, generic c t /\ wcol c b t i;
  f_bnd : extreme r = false -> ss_boundaries_intersect r = true <-> exists p, on_op true p /\ on_op false p }.

Section Final.
Variables (o : operation) (T : Qc) (v : view) (r : shaped_state).
Hypothesis V : inv o T.
Hypothesis Fl : flags o nobody v.
Hypothesis D : described o v T r.
Let C := v_core c o T V.
Let W := i_wf c o T C.
Lemma some_bad b : sflag b r = false -> init b = false \/ area (minus b).
Proof.
  intros F. destruct (init b) eqn:I0; [right|left; auto].
  assert (Ex : (exists l, popped o l /\ S' o l < T /\ bad o v b l = true) \/ (forall l, popped o l -> S' o l < T -> bad o v b l = false)).
  { assert (A : forall L, (exists l, In l L /\ popped o l /\ S' o l < T /\ bad o v b l = true) \/ (forall l, In l L -> popped o l -> S' o l < T -> bad o v b l = false)).
    { induction L as [|a L [(l & I & Q)|IH]]; [right; intros l []|left; exists l; split; [right; auto|auto]|].
      destruct (popped_dec' o a) as [Pa|Pa]; [|right; intros l [<-|I] P; [contradiction|auto]].
      destruct (qltb_spec (S' o a) T) as [L1|L1]; [|right; intros l [<-|I] P L2; [contradiction|auto]].
      destruct (bad o v b a) eqn:B; [left; exists a; split; [left; auto|auto]|right; intros l [<-|I] P L2; auto]. }
    destruct (A (lefts o)) as [(l & _ & Q)|Q]; [left; exists l; auto|right]. intros l P L. apply Q; auto. apply lefts_In. apply P. }
  destruct Ex as [Ex|Al].
  - apply (bad_area c G N int sel Ee Or o T v V Fl b) in Ex. destruct Ex as (t & y & Gt & _ & Q). exists t, y. auto.
  - rewrite (proj2 (d_sub _ _ _ _ _ _ D b)) in F; [discriminate|]. auto.
Qed.
Lemma some_cont : ss_has_continuous_intersection r = true -> area andb.
Proof.
  intros F. apply (d_cont _ _ _ _ _ _ D) in F. apply (meet_area c G N int sel Ee Or o T v V Fl) in F.
  destruct F as (t & y & Gt & _ & Q). exists t, y. auto.
Qed.
(** Where an operand is. *)
Definition finished_op (b : bool) : Prop := forall l, left_of o l -> firstop o l = b -> E' o l < T.
Lemma spans_before b i t : finished_op b -> generic c t -> In i (idx c b) -> spans c i t = true -> t < T.
Proof.
  intros Fb Gt Ii Si. apply idx_In in Ii. destruct Ii as [Li Oi].
  destruct (cover_sp c o T V i t Gt Li Si) as (l & Ll & El & Sl). apply sp_true in Sl.
  assert (E' o l < T). { apply Fb; auto. rewrite <- (opd_first c o T V l), El. auto. } qlra.
Qed.
Lemma inp_before b t y : finished_op b -> generic c t -> inp c t b y = true -> t < T.
Proof.
  intros Fb Gt Q. unfold inp in Q. apply xsum_some in Q. destruct Q as (i & Ii & Q). unfold bel in Q. apply andb_true_iff in Q.
  apply (spans_before b i t); auto. apply Q.
Qed.
Lemma all_sub b : finished_op b -> sflag b r = true -> init b = true /\ ~ area (minus b).
Proof.
  intros Fb F. destruct (proj1 (d_sub _ _ _ _ _ _ D b) F) as [I0 A]. split; auto. intros (t & y & Gt & Q).
  assert (Lt : t < T).
  { apply (inp_before b t y); auto. unfold minus in Q. destruct b; apply andb_true_iff in Q; apply Q. }
  destruct (proj2 (bad_area c G N int sel Ee Or o T v V Fl b)) as (l & P & L & B); [exists t, y; auto|]. rewrite A in B by auto. discriminate.
Qed.
Variable d : bool.
Hypothesis Fd : finished_op d.
Lemma no_cont : ss_has_continuous_intersection r = false -> ~ area andb.
Proof.
  intros F (t & y & Gt & Q). apply andb_true_iff in Q. assert (Lt : t < T) by (apply (inp_before d t y); auto; destruct d; apply Q).
  rewrite (proj2 (d_cont _ _ _ _ _ _ D)) in F; [discriminate|]. apply (meet_area c G N int sel Ee Or o T v V Fl). exists t, y.
  split; auto. split; auto. apply andb_true_iff. auto.
Qed.
Lemma end_int b : extreme r = false -> iflag b r = true <-> exists t i, generic c t /\ wcol c b t i.
Proof.
  intros X0. rewrite (d_int _ _ _ _ _ _ D X0 b). rewrite (within_column c G N int sel Ee o T v V Fl b). split.
  - intros (t & i & Gt & _ & Q). exists t, i. auto.
  - intros (t & i & Gt & Q). exists t, i. split; auto. split; auto. destruct Q as (Ii & Si & Oi & _).
    destruct (Bool.bool_dec b d) as [->|Nb]; [apply (spans_before d i t); auto|].
    unfold oth, cnt in Oi. apply xsum_some in Oi. destruct Oi as (j & Ij & Q). unfold term in Q. apply andb_true_iff in Q.
    apply idx_In in Ii. destruct Ii as [_ Oi]. rewrite Oi in Ij.
    apply (spans_before d j t); auto; [|apply Q]. replace d with (negb b) by (destruct b, d; try reflexivity; congruence). exact Ij.
Qed.
Lemma early_event' x : (x < size o)%nat -> EV o x < T -> ~ In x (op_queue o).
Proof. intros L E I. pose proof (i_q1 _ _ _ C x I). qlra. Qed.
Lemma end_bnd : extreme r = false -> ss_boundaries_intersect r = true <-> exists p, on_op true p /\ on_op false p.
Proof.
  intros X0. rewrite (d_bnd _ _ _ _ _ _ D X0). split.
  - intros (x & y & Lx & Ly & Qx & Qy & E1 & E2 & F1 & F2). exists (pt o x).
    pose proof (event_on_op first second eps G o x W Lx) as Ox. pose proof (event_on_op first second eps G o y W Ly) as Oy.
    rewrite F1 in Ox. rewrite F2 in Oy. split; auto. rewrite (EV_inj first second eps G o x y W Lx Ly E1). exact Oy.
  - intros (p & O1 & O2).
    destruct (on_op_piece first second eps G o true p W O1) as (Y & LY & FY & OY).
    destruct (on_op_piece first second eps G o false p W O2) as (Z & LZ & FZ & OZ).
    apply (piece_X first second eps o Y p W LY) in OY. apply (piece_X first second eps o Z p W LZ) in OZ.
    destruct OY as (Y1 & Y2 & Y3), OZ as (Z1 & Z2 & Z3).
    assert (Ut : X c p < T).
    { pose proof (Fd Y LY). pose proof (Fd Z LZ). destruct d; [assert (E' o Y < T) by auto|assert (E' o Z < T) by auto]; qlra. }
    assert (EP : forall l, left_of o l -> S' o l < T -> popped o l).
    { intros l L E. split; auto. apply early_event'; [apply L|exact E]. }
    assert (PY : popped o Y) by (apply EP; auto; qlra).
    assert (PZ : popped o Z) by (apply EP; auto; qlra).
    assert (NE : Y <> Z) by (intros Q; rewrite Q in FY; congruence).
    assert (Ev : forall l, left_of o l -> X c p = S' o l \/ X c p = E' o l ->
      exists x, (x < size o)%nat /\ ~ In x (op_queue o) /\ EV o x = X c p /\ evfirst o x = firstop o l).
    { intros l Ll [Q|Q].
      - exists l. split; [apply Ll|]. split; [apply early_event'; [apply Ll|unfold EVX; unfold SX in Q; qlra]|].
        split; [symmetry; exact Q|apply left_evfirst; auto].
      - exists (opp o l). destruct (k_opp o (w_linked c o W) l (proj2 Ll)) as (Lo & _).
        split; auto. split; [apply early_event'; [auto|unfold EVX; unfold EX in Q; qlra]|].
        split; [symmetry; exact Q|apply (right_evfirst first second eps o l W Ll)]. }
    destruct (i_V _ _ _ C Y Z (X c p) PY PZ NE Ut) as [[EY EZ]|[M _]]; auto; [congruence| |].
    + destruct (Ev Y LY EY) as (x & A1 & A2 & A3 & A4). destruct (Ev Z LZ EZ) as (y & B1 & B2 & B3 & B4).
      exists x, y. split; auto. split; auto. split; auto. split; auto. split; [congruence|]. split; [congruence|]. split; congruence.
    + exists Y, Z. split; [apply LY|]. split; [apply LZ|]. split; [apply PY|]. split; [apply PZ|]. split; [apply M|].
      split; [change (EV o Y) with (S' o Y); qlra|]. rewrite !left_evfirst by auto. auto.
Qed.
End Final.
End End.
