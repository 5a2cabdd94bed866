(** The sweep over two shaped operands: the initial state. *)
From Coq Require Import QArith Qcanon Bool List Arith Lia Permutation.
From Verif Require Import QcTac Model_Base Model_Utils Model_Linear Model_Mixed Model_Shaped Spec_Base Spec_Clip
  Spec_Sweep Proof_Base Proof_Line Proof_Sweep Proof_Sweep2 Proof_Sweep3 Proof_Sweep4 Proof_Sweep5 Proof_Sweep6 Proof_Sweep7
  Proof_Sweep8 Proof_Sweep9 Proof_Sweep10 Proof_Sweep11 Proof_Sweep12 Proof_Sweep13 Proof_Sweep14 Proof_Sweep15 Proof_Mesh Proof_Parity
  Proof_Flags Proof_Flags2 Proof_Flags3 Proof_Flags4 Proof_Flags5 Proof_Flags6.
Import ListNotations.
Local Open Scope Qc_scope.

Section Start.
Variables (first second : list segment) (eps : Qc).
Hypothesis N1 : non_crossing first.
Hypothesis N2 : non_crossing second.
Hypothesis G : good (the_ctx first second eps).
Notation c := (the_ctx first second eps).
Notation o := (from_segments_iterables first second).
Notation int := (map segment_flag first ++ map segment_flag second).
Variable sel : bool -> bool -> overlap_kind -> bool.

Lemma start_exists : exists s, clip_shaped first second = Some s /\ so s = o /\ so_interior s = int
  /\ so_other s = [] /\ so_kinds s = [] /\ so_below s = [] /\ so_starts s = []
  /\ (op_queue o <> [] -> In (so_current_first s) (op_queue o) /\ forall y, In y (op_queue o) -> EVX c o (so_current_first s) <= EVX c o y).
Proof.
  unfold clip_shaped. cbv zeta. destruct (op_queue o) as [|x q] eqn:Eq.
  - eexists. split; [reflexivity|]. cbn. repeat split; auto; congruence.
  - assert (W : wf c o) by (apply init_wf; exact G).
    assert (Nn := nc_holds first second eps G N1 N2).
    assert (Qn : NoDup (x :: q)) by (rewrite <- Eq, init_queue; apply seq_NoDup).
    assert (Qs : forall e, In e (x :: q) -> (e < size o)%nat) by (intros e I; rewrite <- Eq, init_queue in I; rewrite init_size; apply in_seq in I; lia).
    destruct (queue_min_spec c G Nn o W q x Qn Qs) as (r & Er & Ir & Mr). rewrite Er.
    eexists. split; [reflexivity|]. cbn [so so_interior so_other so_kinds so_below so_starts so_current_first]. repeat split; auto.
      intros y I. destruct (Mr y I) as [-> |[L|[L _]]]; [apply Qcle_refl|apply Qclt_le_weak; auto|rewrite L; apply Qcle_refl].
Qed.

Lemma nth_nil {A} i (d : A) : nth i [] d = d.
Proof. destruct i; auto. Qed.
Lemma start_runs s : clip_shaped first second = Some s -> op_queue o <> [] -> exists t, runs c int sel s t [].
Proof.
  intros E Nq. destruct start_exists as (s' & E' & Es & Ei & Eo & Ek & Eb & Est & Q). rewrite E' in E. injection E as ->.
  destruct (init_inv first second eps G) as (t & V & _). exists t.
  assert (Qa : forall x, (x < size o)%nat -> In x (op_queue o)).
  { intros x Sx. rewrite init_queue. rewrite init_size in Sx. apply in_seq. lia. }
  assert (NP : forall x, ~ popped o x) by (intros x [L I]; apply I, Qa, L).
  destruct (Q Nq) as [Ic Mc].
  constructor; rewrite ?Es; auto.
  - constructor; try solve [intros l P; destruct (NP l P)]; try solve [intros l m P; destruct (NP l P)]; try solve [intros a l P; destruct (NP a P)].
    intros l _ _. cbn. unfold other_flag, kind_of, below_result. rewrite Eo, Ek, Eb, !nth_nil. auto.
  - constructor.
  - intros x. split; [intros []|]. intros [A B]. apply B, Qa, A.
  - constructor.
    + rewrite init_queue in Ic. rewrite init_size. apply in_seq in Ic. lia.
    + intros x [].
    + intros x y [].
    + intros q I. apply Mc, I.
Qed.

(** Whole runs. *)
Hypothesis Sel : forall x q, q <> NO_OVERLAP -> sel true x q = false.
Variable from_result : shaped_operation -> event -> bool.
Hypothesis FR : forall s e, from_result s e
  = sel (is_left_event_from_first_operand (so s) e) (other_flag s e) (kind_of s e).
Hypothesis Ee : evn c.
Hypothesis Or : ori c int.
Theorem whole_run shape limit fuel : (enough (length (first ++ second)) <= fuel)%nat ->
  exists s, clip_shaped first second = Some s /\ exists s' T ev, sweep_shaped from_result shape fuel limit s [] = SweepsShaped s' ev
    /\ finished c int sel limit s' T ev.
Proof.
  intros F. destruct start_exists as (s & E & Es & _). exists s. split; auto.
  assert (Nn := nc_holds first second eps G N1 N2).
  assert (Pr : Forall proper_seg (first ++ second)) by (apply Forall_app; split; [apply N1|apply N2]).
  pose proof (sweep_terminates first second Pr fuel shape limit F) as T.
  destruct (op_queue o) as [|x q] eqn:Eq.
  - assert (Ev : exists f', fuel = Datatypes.S f').
    { destruct fuel as [|f']; [|eauto]. cbn [sweep] in T. congruence. }
    destruct Ev as (f' & ->). cbn [sweep_shaped]. rewrite Es, Eq.
    destruct (init_inv first second eps G) as (t & V & _).
    exists s, t, []. split; auto. destruct start_exists as (s' & E' & Es' & Ei & Eo & Ek & Eb & Est & _). rewrite E in E'. injection E' as <-.
    assert (Qa : forall x, ~ (x < size o)%nat).
    { intros y Sx. assert (I : In y (op_queue o)) by (rewrite init_queue; rewrite init_size in Sx; apply in_seq; lia). rewrite Eq in I. destruct I. }
    assert (NP : forall x, ~ popped o x) by (intros y [L I]; apply (Qa y), L).
    constructor; rewrite ?Es; auto.
    + constructor; try solve [intros l P; destruct (NP l P)]; try solve [intros l m P; destruct (NP l P)]; try solve [intros a l P; destruct (NP a P)].
      intros l _ _. cbn. unfold other_flag, kind_of, below_result. rewrite Eo, Ek, Eb, !nth_nil. auto.
    + constructor.
    + intros y. split; [intros []|]. intros [A _]. apply (Qa y A).
    + rewrite Eq. destruct limit; auto. intros e [].
    + intros y [].
    + intros y z [].
  - assert (Nq : op_queue o <> []) by (rewrite Eq; discriminate).
    destruct (start_runs s E Nq) as (t & R).
    destruct (shaped_spec c G Nn int sel Sel from_result FR Ee Or shape limit fuel s t [] R) as (A1 & A2 & A3); [intros y []|].
    destruct (sweep_shaped from_result shape fuel limit s []) as [s' ev| |] eqn:Q.
    + destruct (A3 s' ev eq_refl) as (T' & Fn). exists s', T', ev. auto.
    + congruence.
    + specialize (A2 [] eq_refl). rewrite Es in A2. congruence.
Qed.
End Start.
