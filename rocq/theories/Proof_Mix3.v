(** The sweep of a linear operand against a shaped one, part 3: whole runs, the parity of the
    shaped operand beside a piece of the linear one, and the pieces at the limit. *)
From Coq Require Import QArith Qcanon Bool List Arith Lia Permutation.
From Verif Require Import QcTac Model_Base Model_Utils Model_Linear Model_Mixed Model_Shaped Spec_Base Spec_Clip
  Spec_Sweep Proof_Base Proof_Line Proof_Sweep Proof_Sweep2 Proof_Sweep3 Proof_Sweep4 Proof_Sweep5 Proof_Sweep6 Proof_Sweep7
  Proof_Sweep8 Proof_Sweep9 Proof_Sweep10 Proof_Sweep11 Proof_Sweep12 Proof_Sweep13 Proof_Sweep14 Proof_Sweep15 Proof_Mesh Proof_Parity
  Proof_Flags Proof_Flags2 Proof_Flags3 Proof_Flags4 Proof_Flags5 Proof_Flags6 Proof_Start Proof_Corner Proof_Region Proof_Select Proof_Mix1 Proof_Mix2.
Import ListNotations.
Local Open Scope Qc_scope.

Section Start.
Variables (first second : list segment) (eps : Qc).
Hypothesis N1 : non_crossing first.
Hypothesis N2 : non_crossing second.
Hypothesis G : good (the_ctx first second eps).
Notation c := (the_ctx first second eps).
Notation o := (from_segments_iterables first second).
Notation int := (map segment_flag first ++ map segment_flag second).
Variable sel : bool -> bool -> bool -> bool.
Variable f : bool.
Variable from_result : mixed_operation -> event -> bool.
Hypothesis FR : forall m e, from_result m e
  = sel (is_left_event_from_first_operand (mo m) e) (m_other m e) (m_over m e).
Hypothesis Ee : evn1 c f.
Hypothesis Or : ori1 c int f.
Variable every : bool.

Lemma start_mixed : exists t, mruns c int sel f every (clip_mixed first second) t [].
Proof.
  destruct (init_inv first second eps G) as (t & V & _). exists t.
  assert (Qa : forall x, (x < size o)%nat -> In x (op_queue o)).
  { intros x Sx. rewrite init_queue. rewrite init_size in Sx. apply in_seq. lia. }
  assert (NP : forall x, ~ popped o x) by (intros x [L I]; apply I, Qa, L).
  constructor; auto.
  - constructor; try solve [intros l P; destruct (NP l P)]; try solve [intros l m P; destruct (NP l P)].
    intros l _ _. unfold mview_of, m_other, m_over, flag, clip_mixed. cbn [wo wk mo_other mo_overlap]. destruct (left_event_to_position l); auto.
  - constructor.
  - intros x. split; [intros []|]. intros (A & B & _). apply B, Qa, A.
Qed.

Theorem whole_mixed shape limit fuel : (enough (length (first ++ second)) <= fuel)%nat ->
  exists m T ev, sweep_mixed from_result true shape fuel every limit (clip_mixed first second) [] = SweepsMixed m ev
    /\ mfinished c sel f every limit m T ev.
Proof.
  intros Fu. assert (Nn := nc_holds first second eps G N1 N2).
  assert (Pr : Forall proper_seg (first ++ second)) by (apply Forall_app; split; [apply N1|apply N2]).
  pose proof (sweep_terminates first second Pr fuel shape (Some limit) Fu) as Tm.
  destruct start_mixed as (t & R).
  destruct (mixed_spec c G Nn int sel f from_result FR Ee Or every shape limit fuel _ t [] R) as (A1 & A2 & A3).
  { intros x Lx Nx. exfalso. apply Nx. cbn [mo clip_mixed] in *. rewrite init_queue. rewrite init_size in Lx. apply in_seq. lia. }
  destruct (sweep_mixed from_result true shape fuel every limit (clip_mixed first second) []) as [m' ev| |] eqn:Q.
  - destruct (A3 m' ev eq_refl) as (T' & Fn). exists m', T', ev. auto.
  - congruence.
  - specialize (A2 [] eq_refl). exfalso. apply Tm. exact A2.
Qed.
End Start.

Section Beside.
Variable c : ctx.
Hypothesis G : good c.
Hypothesis N : nc c.
Variable sel : bool -> bool -> bool -> bool.
Variable f : bool.
Hypothesis Ee : evn1 c f.
Notation S' := (SX c). Notation E' := (EX c). Notation h := (hh c). Notation k := (kk c).
Notation EV := (EVX c). Notation col := (col c).
Notation core := (core c). Notation mates := (mates c).
Variables (o : operation) (T : Qc) (v : mview).
Hypothesis V : inv c o T.
Hypothesis Fl : mflags c sel f o v.
Let C : core o T := v_core c o T V.
Let W : wf c o := i_wf _ _ _ C.

Section At.
Variable t : Qc.
Hypothesis Gen : forall p, In p (c_pts c) -> X c p <> t.
Hypothesis Lt : t < T.

Lemma other_beside l : left_of o l -> firstop o l = f -> sp c o l t = true -> wo v l = oth c (sid o l) t.
Proof.
  intros Ll Fo Sl. apply sp_true in Sl. assert (Pl : popped o l) by (apply (sp_popped c o T V t Lt); auto; qlra).
  destruct (gap_exists c (S' o l)) as (u0 & U0).
  assert (Ex : exists u, gap c (S' o l) u /\ u < t).
  { destruct (qmid (S' o l) (if qltb u0 t then u0 else t)) as (u & U1 & U2).
    - destruct (qltb u0 t); [apply U0|apply Sl].
    - exists u. destruct (qltb_spec u0 t) as [Q|Q]; split; try qlra; apply (gap_shrink c _ u0); auto; qlra. }
  destruct Ex as (u & U & Ut). rewrite (mf_other _ _ _ _ _ Fl l u Pl Fo); auto.
  2: { intros (_ & x & Lx & Qx & _ & M). apply (i_q1 _ _ _ C) in Qx. destruct M as [_ M]. unfold EVX in Qx. unfold SX in M, Sl. qlra. }
  destruct (w_in c o W l Ll) as [In1 In2]. pose proof (proj1 U) as U1.
  unfold oth. apply (window c G (negb (opd c (sid o l))) _ u t (H c (sid o l)) (K c (sid o l))); auto.
  - intros x z. apply H_affine.
  - intros p Ip. apply (gap_not c (S' o l)); auto.
  - intros p P1 P2. apply (Ee (sid o l)); [apply (w_sid c o W); auto|rewrite <- (firstop_opd c o l W); auto|qlra|qlra].
  - intros i Ii. apply idx_In in Ii. destruct Ii as [Li Oi].
    assert (D : (exists m, In m (lefts o) /\ sid o m = i /\ mates o l m) \/ (forall m, In m (lefts o) -> sid o m = i -> ~ mates o l m)).
    { induction (lefts o) as [|m r IH]; [right; intros m []|]. destruct IH as [(x & A1 & A2 & A3)|IH].
      - left. exists x. split; [right; auto|auto].
      - destruct (Nat.eq_dec (sid o m) i) as [Q|Q].
        + destruct (mates_dec c o l m) as [M|M]; [left; exists m; split; [left; auto|auto]|right].
          intros x [<-|Ix]; auto.
        + right. intros x [<-|Ix]; auto. }
    assert (Ne : forall m, sid o m = i -> l <> m) by (intros m Q <-; rewrite Q in Oi; destruct (opd c i); discriminate).
    destruct D as [(m & Im & Es & M)|D].
    + right. right. apply lefts_In in Im. destruct (w_in c o W m Im) as [J1 J2]. rewrite Es in *. destruct M as [[M1 M2] M3].
      assert (Mid : exists w, S' o l < w /\ w < t /\ w < E' o m).
      { destruct (qmid (S' o l) (if qltb t (E' o m) then t else E' o m)) as (w & W1 & W2).
        - destruct (qltb_spec t (E' o m)); [qlra|]. rewrite M3. apply (w_lt c o W); auto.
        - exists w. destruct (qltb_spec t (E' o m)); split; auto; split; qlra. }
      destruct Mid as (w & W1 & W2 & W3).
      destruct (i_V _ _ _ C l m w) as [[[A|A] _]|[_ A]]; auto; try qlra.
      * apply (sp_popped c o T V t Lt); auto. qlra.
      * split; [qlra|]. split; [destruct A as [A|[A1 A2]]; qlra|].
        intros z. pose proof (M2 z) as Mz. unfold hh in Mz. rewrite Es in Mz. symmetry. exact Mz.
    + left. intros z Z1 Z2 Z3 Z4 Q. destruct (w_cover c o W i z Li Z3 Z4) as (m & Lm & Es & M1 & M2).
      destruct (i_V _ _ _ C l m z) as [[[A|A] _]|[A _]]; auto; try qlra.
      * apply (sp_popped c o T V t Lt); auto. qlra.
      * unfold hh. rewrite Es. auto.
      * apply (D m); auto. apply lefts_In; auto.
Qed.

(** A piece that is marked runs along a piece of the other operand. *)
Lemma over_beside l : left_of o l -> sp c o l t = true -> wk v l = true ->
  exists m, left_of o m /\ firstop o m <> firstop o l /\ sp c o m t = true /\ h o m t = h o l t.
Proof.
  intros Ll Sl Kl. apply sp_true in Sl. assert (Pl : popped o l) by (apply (sp_popped c o T V t Lt); auto; qlra).
  assert (D : (exists m, In m (lefts o) /\ popped o m /\ m <> l /\ mates o l m) \/ forall m, In m (lefts o) -> popped o m -> m <> l -> ~ mates o l m).
  { induction (lefts o) as [|m r IH]; [right; intros m []|]. destruct IH as [(x & A1 & A2)|IH]; [left; exists x; split; [right; auto|auto]|].
    destruct (Nat.eq_dec m l) as [Q|Q]; [right; intros x [<-|Ix]; auto; intros _ Q'; contradiction|].
    destruct (in_dec Nat.eq_dec m (op_queue o)) as [I|I]; [right; intros x [<-|Ix]; auto; intros [_ Q']; contradiction|].
    destruct (mates_dec c o l m) as [M|M]; [|right; intros x [<-|Ix]; auto].
    destruct (is_event_left m) eqn:Lm; [|right; intros x [<-|Ix]; auto; intros [[Q' _] _]; congruence].
    destruct (Nat.lt_ge_cases m (size o)) as [Sm|Sm]; [|right; intros x [<-|Ix]; auto; intros [[_ Q'] _]; lia].
    left. exists m. split; [left; auto|]. split; [repeat split; auto|]. split; auto. }
  destruct D as [(m & _ & Pm & Nm & M)|D].
  2: { exfalso. assert (Q : wk v l = false); [|congruence]. apply (mf_over2 _ _ _ _ _ Fl); auto. intros m Pm. apply D; auto. apply lefts_In, Pm. }
  assert (Lm : left_of o m) by apply Pm. destruct M as [[M1 M2] M3]. pose proof (w_lt c o W m Lm) as Lw. pose proof (w_lt c o W l Ll) as Lwl.
  exists m. split; auto. split; [apply (col_overlap c N o m l W); auto; [split; auto|qlra|qlra]|]. split; [|symmetry; apply M2].
  apply sp_true. split; [rewrite <- M3; apply Sl|].
  destruct (qmid (S' o l) (if qltb t (E' o m) then t else E' o m)) as (w & W1 & W2).
  { destruct (qltb_spec t (E' o m)); [apply Sl|]. rewrite M3. auto. }
  destruct (i_V _ _ _ C l m w) as [[[A|A] _]|[_ A]]; auto; try (destruct (qltb_spec t (E' o m)); qlra).
  destruct A as [A|[A1 A2]]; qlra.
Qed.
Lemma over_marks l m : left_of o l -> left_of o m -> l <> m -> sp c o l t = true -> sp c o m t = true -> h o l t = h o m t -> wk v l = true.
Proof.
  intros Ll Lm Ne Sl Sm Q. destruct (sp_same c N o T V t Lt l m Ll Lm Ne Sl Sm Q) as [M _]. apply sp_true in Sl. apply sp_true in Sm.
  apply (mf_over1 _ _ _ _ _ Fl l m); auto; apply (sp_popped c o T V t Lt); auto; qlra.
Qed.
(** Off the pieces of the shaped operand, the flag tells the parity below. *)
Lemma parity_beside l : left_of o l -> firstop o l = f -> sp c o l t = true ->
  (forall m, left_of o m -> firstop o m = negb f -> sp c o m t = true -> h o m t <> h o l t) ->
  wo v l = inp c t (negb f) (h o l t).
Proof.
  intros Ll Fo Sl Un. rewrite (other_beside l Ll Fo Sl). unfold oth, cnt, inp.
  rewrite <- (firstop_opd c o l W), Fo. apply xsum_ext. intros i Ii.
  apply bool_iff. rewrite term_true, bel_true. change (H c (sid o l) t) with (h o l t).
  split; intros [Q1 Q2]; split; auto. destruct Q2 as [Q2|[Q2 Q3]]; auto. exfalso. apply idx_In in Ii. destruct Ii as [Li Oi].
  destruct (w_cover c o W i t Li) as (w & Lw & Es & L1 & L2); try qlra. apply (Un w Lw).
  - rewrite (firstop_opd c o w W), Es. auto.
  - apply sp_true. pose proof (Gen _ (w_ptS c o W w Lw)). pose proof (Gen _ (w_ptE c o W w Lw)). unfold SX, EX in *.
    split; [apply Qcle_lt_or_eq in L1; destruct L1; auto; congruence|apply Qcle_lt_or_eq in L2; destruct L2; auto; congruence].
  - unfold hh. rewrite Es. auto.
Qed.
End At.
End Beside.

Section Limits.
Variable c : ctx.
Hypothesis G : good c.
Hypothesis N : nc c.
Variable sel : bool -> bool -> bool -> bool.
Variable f : bool.
Hypothesis Ee : evn1 c f.
(** Pieces of the linear operand are kept unless they are outside. *)
Hypothesis Sel : forall g x y, sel g x y = Bool.eqb g f && (x || y).
Notation S' := (SX c). Notation E' := (EX c). Notation h := (hh c). Notation k := (kk c).
Notation core := (core c). Notation mates := (mates c).
Variable limit : Qc.
Variables (m : mixed_operation) (T : Qc) (ev : list event).
Hypothesis Fn : mfinished c sel f false limit m T ev.
Notation o := (mo m).
Notation v := (mview_of m).
Let V : inv c o T := mn_inv _ _ _ _ _ _ _ _ Fn.
Let C : core o T := v_core c o T V.
Let W : wf c o := i_wf _ _ _ C.
Let Fl : mflags c sel f o v := mn_flags _ _ _ _ _ _ _ _ Fn.
Hypothesis Lim : (forall i, In i (idx c f) -> px (snd (input c i)) <= limit)
  \/ (forall i, In i (idx c (negb f)) -> px (snd (input c i)) <= limit).

Lemma chosen_linear l : popped o l -> wr v l = true -> firstop o l = f /\ (wo v l = true \/ wk v l = true).
Proof.
  intros P R. rewrite (mf_result _ _ _ _ _ Fl l P), Sel in R. apply andb_true_iff in R. destruct R as [R1 R2].
  apply Bool.eqb_prop in R1. apply orb_true_iff in R2. auto.
Qed.
Lemma beyond_lt p q : In p (c_pts c) -> In q (c_pts c) -> px p <= limit -> limit < px q -> X c p < X c q.
Proof. intros Ip Iq P Q. apply (X_lt c G); auto. left. qlra. Qed.
Lemma cross_linear l : popped o l -> wr v l = true -> px (pt o l) <= limit ->
  ~ In (opp o l) (op_queue o) /\ px (pt o (opp o l)) <= limit.
Proof.
  intros P R Li. assert (Ll : left_of o l) by apply P. destruct (chosen_linear l P R) as [Fo Kd].
  destruct (Qclt_le_dec limit (px (pt o (opp o l)))) as [D|D].
  2: { split; auto. intros I. apply (mn_queue _ _ _ _ _ _ _ _ Fn) in I. qlra. }
  exfalso. set (e := pt o (opp o l)) in *.
  assert (Ie : In e (c_pts c)) by (apply (w_ptE c o W); auto). assert (Is : In (pt o l) (c_pts c)) by (apply (w_ptS c o W); auto).
  pose proof (w_sid c o W l Ll) as Ls. destruct (g_ins c G _ Ls) as (_ & _ & I2). destruct (w_in c o W l Ll) as [_ J2].
  destruct Lim as [Lf|Lg].
  { assert (Ii : In (sid o l) (idx c f)) by (apply idx_In; split; auto; rewrite <- (firstop_opd c o l W); auto).
    pose proof (beyond_lt _ e I2 Ie (Lf _ Ii) D) as Q. unfold EX in J2. fold e in J2. qlra. }
  assert (Ex : exists p, In p (c_pts c) /\ limit < px p /\ X c p <= X c e /\ X c p <= T).
  { destruct (mn_last _ _ _ _ _ _ _ _ Fn) as [Q|(p & Ip & Xp & Np)].
    - exists e. split; auto. split; auto. split; [apply Qcle_refl|]. apply (i_E _ _ _ C). split; auto. rewrite Q. auto.
    - destruct (Qclt_le_dec (X c e) (X c p)) as [Q|Q].
      + exists e. split; auto. split; auto. split; [apply Qcle_refl|qlra].
      + exists p. split; auto. split; auto. split; auto. rewrite Xp. apply Qcle_refl. }
  destruct Ex as (p & Ip & Np & L1 & L2).
  destruct (gap_below c (X c p)) as (u & Lu & Gu). destruct (qmid u (X c p) Lu) as (t & T1 & T2).
  assert (Gt : forall q, In q (c_pts c) -> X c q <> t).
  { intros q Iq Q. destruct (Qclt_le_dec (X c q) (X c p)) as [Q'|Q']; [pose proof (Gu q Iq Q')|]; qlra. }
  assert (Tt : t < T) by qlra.
  assert (Sl : sp c o l t = true).
  { apply sp_true. unfold SX, EX. split; [|fold e; qlra]. pose proof (beyond_lt _ p Is Ip Li Np) as Q. pose proof (Gu _ Is Q). qlra. }
  assert (Z : forall i, In i (idx c (negb f)) -> X c (snd (input c i)) < t).
  { intros i Ii. assert (Q := Lg i Ii). apply idx_In in Ii. destruct Ii as [Li' _]. destruct (g_ins c G _ Li') as (_ & _ & K2).
    pose proof (beyond_lt _ p K2 Ip Q Np) as Q'. pose proof (Gu _ K2 Q'). qlra. }
  destruct Kd as [Kd|Kd].
  - rewrite (other_beside c G sel f Ee o T v V Fl t Gt Tt l Ll Fo Sl) in Kd.
    assert (Q : oth c (sid o l) t = false); [|congruence]. unfold oth, cnt. rewrite <- (firstop_opd c o l W), Fo.
    apply xsum_false. intros i Ii. pose proof (Z i Ii) as Zi. apply not_true_iff_false. intros Q. apply term_true in Q. destruct Q as [Q _]. qlra.
  - destruct (over_beside c N sel f o T v V Fl t Tt l Ll Sl Kd) as (x & Lx & Fx & Sx & _). apply sp_true in Sx.
    destruct (w_in c o W x Lx) as [_ Jx]. assert (Q : X c (snd (input c (sid o x))) < t); [|qlra].
    apply Z, idx_In. split; [apply (w_sid c o W); auto|]. rewrite <- (firstop_opd c o x W). rewrite Fo in Fx. destruct (firstop o x), f; auto; congruence.
Qed.

(** The pieces of the result. *)
Definition chosen_of : list event := filter (fun l => wr v l) ev.
Lemma chosen_of_In l : In l chosen_of <-> popped o l /\ wr v l = true /\ px (pt o l) <= limit.
Proof.
  clear Lim. unfold chosen_of. rewrite filter_In, (mn_ev _ _ _ _ _ _ _ _ Fn). unfold recorded, popped, left_of. intuition congruence.
Qed.
Lemma chosen_of_E l : In l chosen_of -> E' o l <= T.
Proof. intros I. apply chosen_of_In in I. destruct I as (P & R & Li). apply (i_E _ _ _ C). split; [apply P|]. apply cross_linear; auto. Qed.
Lemma chosen_of_meet i j u : In i chosen_of -> In j chosen_of -> i <> j -> S' o i <= u -> u <= E' o i -> S' o j <= u -> u <= E' o j ->
  h o i u = h o j u -> (u = S' o i \/ u = E' o i) /\ (u = S' o j \/ u = E' o j).
Proof.
  intros Ii Ij Ne A1 A2 B1 B2 Q. pose proof (chosen_of_E i Ii) as Ei. pose proof (chosen_of_E j Ij) as Ej.
  apply chosen_of_In in Ii. destruct Ii as (Pi & Ri & _). apply chosen_of_In in Ij. destruct Ij as (Pj & Rj & _).
  destruct (Qclt_le_dec u T) as [Lt|Ge].
  - destruct (i_V _ _ _ C i j u) as [D|[[M M3] _]]; auto. exfalso.
    pose proof (w_lt c o W i (proj1 Pi)). pose proof (w_lt c o W j (proj1 Pj)).
    apply (col_overlap c N o i j W); auto; try (apply Pi); try (apply Pj); try qlra.
    rewrite (proj1 (chosen_linear i Pi Ri)). symmetry. apply (chosen_linear j Pj Rj).
  - split; right; qlra.
Qed.
End Limits.
