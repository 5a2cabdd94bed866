(** The plane sweep, part 14: whole runs. *)
From Coq Require Import QArith Qcanon Bool List Arith Lia.
From Verif Require Import QcTac Model_Base Model_Utils Model_Linear Spec_Base Spec_Sweep
  Proof_Base Proof_Line Proof_Sweep Proof_Sweep2 Proof_Sweep3 Proof_Sweep4 Proof_Sweep5 Proof_Sweep6
  Proof_Sweep7 Proof_Sweep8 Proof_Sweep9 Proof_Sweep10 Proof_Sweep11 Proof_Sweep12 Proof_Sweep13.
Import ListNotations.
Local Open Scope Qc_scope.

(** A piece is left as it is. *)
Definition kept (o o' : operation) (y : event) : Prop :=
  left_of o' y /\ pt o' y = pt o y /\ opp o' y = opp o y
  /\ pt o' (opp o' y) = pt o (opp o y) /\ sid o' y = sid o y.
Lemma kept_refl o y : left_of o y -> kept o o y.
Proof. intros L. split; auto. Qed.
Lemma kept_trans o o' o'' y : kept o o' y -> kept o' o'' y -> kept o o'' y.
Proof.
  intros (A1 & A2 & A3 & A4 & A5) (B1 & B2 & B3 & B4 & B5).
  split; auto. split; [congruence|]. split; [congruence|]. split; congruence.
Qed.

Section Run.
Variable c : ctx.
Hypothesis G : good c.
Hypothesis N : nc c.
Notation S' := (SX c). Notation E' := (EX c). Notation h := (hh c). Notation k := (kk c).
Notation EV := (EVX c). Notation inv := (inv c). Notation least := (least c).
Notation recorded := (recorded c).

Lemma frame_kept o o' t a b y : frame c o o' t a b -> linked o -> left_of o y -> y <> a -> y <> b ->
  kept o o' y.
Proof.
  intros F K L Na Nb. pose proof (k_opp o K y (proj2 L)) as (Q & _).
  destruct (fr_E_other c o o' t a b F y K L Na Nb) as [_ Eo].
  split; [apply (frame_left c o o' t a b y F L)|]. split; [apply (f_pt _ _ _ _ _ _ F); apply L|].
  split; auto. split; [rewrite Eo; apply (f_pt _ _ _ _ _ _ F); auto|apply (f_sid _ _ _ _ _ _ F); auto].
Qed.

Lemma least_after o e : least o e -> forall y, In y (op_queue o) -> EV o e <= EV o y.
Proof.
  intros [_ Q] y I. destruct (Q y I) as [->|[L|[E _]]]; [apply Qcle_refl|qlra|rewrite E; apply Qcle_refl].
Qed.

(** Moving on to the next event. *)
Lemma advance o t e ev : inv o t -> recorded o t ev -> least o e ->
  inv o (EV o e) /\ recorded o (EV o e) ev.
Proof.
  intros V R L. assert (C := v_core _ _ _ V).
  pose proof (i_q1 _ _ _ C e (proj1 L)) as Ge.
  destruct (Qcle_lt_or_eq _ _ Ge) as [Lt|Eq]; [|rewrite <- Eq; auto].
  pose proof (least_after o e L) as Qu. split.
  - constructor.
    + apply (next_core c o t (EV o e) C (v_line _ _ _ V) (v_th _ _ _ V) Lt Qu).
    + apply V.
    + apply (next_th c N o t (EV o e) C (v_line _ _ _ V) Lt Qu).
  - apply (advance_recorded c o t (EV o e) ev V R Lt Qu).
Qed.

Definition step_result (o : operation) (e : event) (ev : list event) (o' : operation) : Prop :=
  (exists t, inv o' t /\ recorded o' t (if is_event_right e then ev ++ [opp o' e] else ev))
  /\ (forall y, done o y -> kept o o' y) /\ op_first_count o' = op_first_count o
  /\ pt o' e = pt o e /\ (e < size o')%nat.

Lemma right_step o t e ev shape : inv o t -> recorded o t ev -> least o e -> is_event_left e = false ->
  EV o e = t -> exists o', process_event shape (popping o e) e = Some o' /\ step_result o e ev o'.
Proof.
  intros V R L Re Et. destruct (rp_split c o t e V L Re Et) as (l1 & l2 & El).
  destruct (rp_step c G N o t e V L Re Et l1 l2 El shape) as (o2 & P & V2 & St & Ac & Dn).
  exists o2. split; auto.
  assert (C := v_core _ _ _ V). assert (W := i_wf _ _ _ C).
  assert (C1 := rp_core c o t e V L Re Et l1 l2 El).
  pose proof (rr_recorded c G N o t e l1 l2 o2 ev V L Re Et R El V2 St Ac Dn) as R2.
  assert (Kp : forall y, left_of o y -> ~ active o2 y -> kept o o2 y).
  { intros y Ly Na. destruct St as [[-> _]|(b & a & Eb & Ea & NE & F & _)].
    - split; auto.
    - assert (Q : kept (relined o e (l1 ++ l2)) o2 y).
      { apply (frame_kept _ o2 t b a y F); auto.
        + apply (w_linked c _ (i_wf _ _ _ C1)).
        + intros ->. apply Na, Ac, (i_line _ _ _ C1). apply in_or_app; left; apply last_In; auto.
        + intros ->. apply Na, Ac, (i_line _ _ _ C1). apply in_or_app; right; apply hd_error_In; auto. }
      exact Q. }
  assert (Nl : ~ active o2 (opp o e)).
  { intros Q. apply Ac in Q. apply (rp_active1 c o t e V L Re) in Q. tauto. }
  pose proof (rp_left c o t e V L Re) as Ll.
  destruct (Kp (opp o e) Ll Nl) as (L2 & _ & O2 & _).
  assert (Ol : opp o2 e = opp o e).
  { rewrite (rp_opp c o t e V L) in O2. rewrite <- O2 at 1.
    apply (core_opp c o2 t (opp o e) (v_core _ _ _ V2) L2). }
  assert (Rt : is_event_right e = true).
  { unfold is_event_right. rewrite <- Nat.negb_even. change (Nat.even e) with (is_event_left e). rewrite Re. auto. }
  split; [|split; [|split; [|split]]].
  - exists t. split; auto. rewrite Rt, Ol. auto.
  - intros y Dy. apply Kp; [apply Dy|]. intros Q. apply Ac in Q.
    apply (rp_active1 c o t e V L Re) in Q. apply (active_not_done o y (proj1 Q) Dy).
  - destruct St as [[-> _]|(b & a & _ & _ & _ & F & _)]; auto. rewrite (f_count _ _ _ _ _ _ F). reflexivity.
  - destruct St as [[-> _]|(b & a & _ & _ & _ & F & _)]; auto.
    rewrite (f_pt _ _ _ _ _ _ F); [reflexivity|]. apply (i_qsz _ _ _ C e (proj1 L)).
  - pose proof (i_qsz _ _ _ C e (proj1 L)) as Sz.
    destruct St as [[-> _]|(b & a & _ & _ & _ & F & _)]; auto.
    eapply Nat.lt_le_trans; [exact Sz|apply (f_size _ _ _ _ _ _ F)].
Qed.

Lemma maybe_kept t e o o' x f y : maybe c t e o o' x f -> linked o -> left_of o y -> y <> e -> ~ active o y ->
  kept o o' y.
Proof.
  intros M K L Ne Na. destruct x as [x|]; cbn in M; [|subst; apply kept_refl; auto].
  destruct M as (_ & Ax & F & _). assert (y <> x) by (intros ->; auto).
  destruct f; [apply (frame_kept _ _ _ _ _ y F)|apply (frame_kept _ _ _ _ _ y F)]; auto.
Qed.
Lemma maybe_first t e o o' x f : maybe c t e o o' x f -> op_first_count o' = op_first_count o.
Proof.
  destruct x as [x|]; cbn; [|intros ->; auto]. intros (_ & _ & F & _). destruct f; apply (f_count _ _ _ _ _ _ F).
Qed.
Lemma maybe_pt t e o o' x f y : maybe c t e o o' x f -> (y < size o)%nat -> pt o' y = pt o y /\ (y < size o')%nat.
Proof.
  destruct x as [x|]; cbn; [|intros ->; auto]. intros (_ & _ & F & _) Sy.
  destruct f; (split; [apply (f_pt _ _ _ _ _ _ F); auto|]); pose proof (f_size _ _ _ _ _ _ F); lia.
Qed.

Lemma left_step o t e ev shape : inv o t -> recorded o t ev -> least o e -> is_event_left e = true ->
  EV o e = t -> exists o', process_event shape (popping o e) e = Some o' /\ step_result o e ev o'.
Proof.
  intros V R L Re Et. destruct (lp_split c o t e V L Re Et) as (l1 & l2 & El & P1 & P2).
  destruct (lp_steps c G N o t e V L Re Et l1 l2 El P1 P2 shape)
    as (o2 & o3 & P & C3 & T3 & D3 & L3 & M2 & M3 & C2 & Ac2 & Dn2 & Ac3 & Dn3).
  exists o3. split; auto.
  assert (C := v_core _ _ _ V). assert (W := i_wf _ _ _ C).
  assert (K2 := w_linked c o2 (i_wf _ _ _ C2)).
  assert (C1 := lp_core c N o t e V L Re Et l1 l2 El P1 P2).
  assert (K1 := w_linked c _ (i_wf _ _ _ C1)).
  assert (Ae : forall x, active o3 x <-> active o x \/ x = e).
  { intros x. rewrite Ac3. apply (lp_active c o t e V L Re). }
  assert (V3 : inv o3 t).
  { constructor; auto.
    - rewrite L3. exact D3.
    - apply (lp_final c N o t e V L Re Et l1 l2 o2 o3 El P1 P2 C3 T3 D3 M2 M3 Ac3). }
  destruct (fin_all c N o t e V L Re Et l1 l2 o2 o3 El P1 P2 M2 M3) as (Sz & FS & Fh & Fk & _).
  assert (Kp : forall y, left_of o y -> ~ active o3 y -> kept o o3 y).
  { intros y Ly Na. assert (Ne : y <> e) by (intros ->; apply Na, Ae; auto).
    assert (N1 : ~ active (relined o e (l1 ++ e :: l2)) y) by (rewrite <- Ac3; auto).
    assert (Q1 : kept (relined o e (l1 ++ e :: l2)) o2 y).
    { apply (maybe_kept t e _ o2 _ _ y M2); auto. }
    assert (Q2 : kept o2 o3 y).
    { apply (maybe_kept t e o2 o3 _ _ y M3); auto; [apply Q1|]. rewrite Ac2. auto. }
    apply (kept_trans o o2 o3 y Q1 Q2). }
  split; [|split; [|split; [|split]]].
  - exists t. split; auto. unfold is_event_right. rewrite <- Nat.negb_even.
    change (Nat.even e) with (is_event_left e). rewrite Re. cbn [negb].
    apply (lr_recorded c G N o t e o3 ev V L Re Et R V3 Ae); auto.
    + intros x. rewrite Dn3. apply (lp_done c o t e V Re l1 l2).
    + intros y Ly Na. destruct (Kp y Ly Na) as (_ & _ & _ & Q & _). unfold EX. rewrite Q. auto.
  - intros y Dy. apply Kp; [apply Dy|]. intros Q. apply Ae in Q. destruct Q as [Q| ->].
    + apply (active_not_done o y Q Dy).
    + apply (proj2 Dy). apply (i_q2 _ _ _ C e (proj1 Dy)). apply L.
  - rewrite (maybe_first _ _ _ _ _ _ M3), (maybe_first _ _ _ _ _ _ M2). reflexivity.
  - assert (Se : (e < size (relined o e (l1 ++ e :: l2)))%nat) by apply (i_qsz _ _ _ C e (proj1 L)).
    destruct (maybe_pt _ _ _ _ _ _ e M2 Se) as [Q1 S2]. destruct (maybe_pt _ _ _ _ _ _ e M3 S2) as [Q2 _].
    rewrite Q2, Q1. reflexivity.
  - assert (Se : (e < size (relined o e (l1 ++ e :: l2)))%nat) by apply (i_qsz _ _ _ C e (proj1 L)).
    destruct (maybe_pt _ _ _ _ _ _ e M2 Se) as [Q1 S2]. destruct (maybe_pt _ _ _ _ _ _ e M3 S2) as [Q2 S3]. auto.
Qed.

Lemma one_step o t ev shape : inv o t -> recorded o t ev -> op_queue o <> [] ->
  exists e o', pop (tick o) = Some (e, popping o e) /\ least o e
    /\ process_event shape (popping o e) e = Some o' /\ step_result o e ev o'.
Proof.
  intros V R NQ. assert (C := v_core _ _ _ V).
  assert (Wt : wf c (tick o)) by (apply (same_wf c o (tick o)); [repeat split|apply (i_wf _ _ _ C)]).
  destruct (pop_spec c G N (tick o) Wt NQ (i_qnd _ _ _ C) (i_qsz _ _ _ C)) as (e & P & I & Q).
  assert (L : least o e) by (split; [exact I|exact Q]).
  destruct (advance o t e ev V R L) as [V' R'].
  exists e. destruct (is_event_left e) eqn:Re.
  - destruct (left_step o (EV o e) e ev shape V' R' L Re eq_refl) as (o' & P' & S). exists o'. auto.
  - destruct (right_step o (EV o e) e ev shape V' R' L Re eq_refl) as (o' & P' & S). exists o'. auto.
Qed.

(** Only events beyond the limit are left. *)
Definition rest_beyond (limit : option Qc) (o : operation) : Prop :=
  match limit with
  | None => op_queue o = []
  | Some x => forall e, In e (op_queue o) -> x < px (pt o e)
  end.

(** The piece ends within the limit. *)
Definition within (limit : option Qc) (o : operation) (y : event) : Prop :=
  match limit with None => True | Some x => px (pt o (opp o y)) <= x end.

Lemma sweep_spec shape limit : forall fuel o t ev, inv o t -> recorded o t ev ->
  (forall y, In y ev -> within limit o y) ->
  sweep fuel shape limit o ev <> AssertionFails
  /\ forall o' ev', sweep fuel shape limit o ev = Sweeps o' ev' ->
     exists ob tb, inv ob tb /\ recorded ob tb ev' /\ rest_beyond limit ob
       /\ op_first_count o' = op_first_count ob /\ (forall y, In y ev' -> kept ob o' y)
       /\ (forall y, In y ev' -> within limit ob y).
Proof.
  induction fuel as [|fuel IH]; intros o t ev V R In0; cbn [sweep].
  - split; [discriminate|intros o' ev' Q; discriminate].
  - destruct (op_queue o) as [|q0 qs] eqn:Eq.
    + split; [discriminate|]. intros o' ev' Q. assert (o' = o /\ ev' = ev) by (split; congruence).
      destruct H as [-> ->]. exists o, t. split; auto. split; auto.
      split; [destruct limit; cbn; rewrite ?Eq; auto; intros e []|]. split; auto. split; auto.
      intros y I. apply kept_refl. apply (r_done _ _ _ _ R) in I. apply I.
    + assert (NQ : op_queue o <> []) by (rewrite Eq; discriminate).
      destruct (one_step o t ev shape V R NQ) as (e & o1 & P & L & Pr & (t1 & V1 & R1) & Kp & Fc & Pe & Se).
      rewrite P, Pr. destruct (is_beyond limit o1 e) eqn:B.
      * split; [discriminate|]. intros o' ev' Q. assert (o' = o1 /\ ev' = ev) by (split; congruence).
        destruct H as [-> ->]. exists o, t. split; auto. split; auto. split; [|split; [auto|split; auto]].
        -- destruct limit as [x|]; cbn in B |- *; [|discriminate]. apply qltb_true in B. rewrite Pe in B.
           intros y I. pose proof (least_after o e L y I) as Le.
           assert (C := v_core _ _ _ V). assert (W := i_wf _ _ _ C).
           destruct (event_pt c o e W (i_qsz _ _ _ C e (proj1 L))) as [I1 _].
           destruct (event_pt c o y W (i_qsz _ _ _ C y I)) as [I2 _].
           unfold EVX in Le. apply (X_le c G) in Le; auto. unfold lex_le, lex_lt in Le.
           destruct Le as [[Q1|[Q1 _]]|Q1]; [qlra|rewrite <- Q1; auto|rewrite <- Q1; auto].
        -- intros y I. apply Kp. apply (r_done _ _ _ _ R). auto.
      * assert (In1 : forall y, In y (if is_event_right e then ev ++ [opp o1 e] else ev) -> within limit o1 y).
        { assert (Old : forall y, In y ev -> within limit o1 y).
          { intros y I. specialize (In0 y I). apply (r_done _ _ _ _ R) in I.
            destruct (Kp y I) as (_ & _ & _ & Q & _). unfold within in *. destruct limit; auto. rewrite Q. auto. }
          destruct (is_event_right e) eqn:Re; auto. intros y I. apply in_app_or in I.
          destruct I as [I|[<-|[]]]; auto. unfold within. destruct limit as [x|]; auto.
          assert (Dy : done o1 (opp o1 e)) by (apply (r_done _ _ _ _ R1), in_or_app; right; left; auto).
          assert (K1 := w_linked c o1 (i_wf _ _ _ (v_core _ _ _ V1))).
          cbn in B. apply qltb_false in B. 
          rewrite (proj1 (proj2 (k_opp o1 K1 e Se))). exact B. }
        destruct (IH o1 t1 _ V1 R1 In1) as [A1 A2]. split; auto.
Qed.
End Run.

(** ** The start *)
Section Start.
Variables (first second : list segment).
Notation o := (from_segments_iterables first second).

Lemma lower_bound (f : nat -> Qc) (l : list nat) : exists t, forall x, In x l -> t <= f x.
Proof.
  induction l as [|a l [t T]].
  - exists 0. intros x [].
  - exists (if qltb (f a) t then f a else t). destruct (qltb_spec (f a) t) as [L|L]; intros x [<-|I]; auto.
    + apply Qcle_refl.
    + specialize (T x I). qlra.
    + qlra.
Qed.

Lemma init_inv e : good (the_ctx first second e) -> exists t,
  inv (the_ctx first second e) o t /\ recorded (the_ctx first second e) o t [].
Proof.
  intros G. set (c := the_ctx first second e) in *.
  destruct (lower_bound (EVX c o) (op_queue o)) as [t T]. exists t.
  assert (W : wf c o) by (apply init_wf; exact G).
  assert (Q : forall x, (x < size o)%nat -> In x (op_queue o)).
  { intros x Sx. rewrite init_queue. rewrite init_size in Sx. apply in_seq. lia. }
  assert (NP : forall x, ~ popped o x) by (intros x [L I]; apply I, Q, L).
  assert (ND : forall x, ~ done o x).
  { intros x [L I]. apply I, Q. apply (k_opp o (w_linked c o W)), L. }
  assert (NA : forall x, ~ active o x) by (intros x A; apply (NP x), active_popped, A).
  split.
  - constructor.
    + constructor; auto.
      * intros x I. rewrite init_queue in I. rewrite init_size. apply in_seq in I. lia.
      * rewrite init_queue. apply seq_NoDup.
      * intros l L _. apply Q. apply (k_opp o (w_linked c o W)), L.
      * intros l. split; [intros []|intros A; destruct (NA l A)].
      * intros l P. destruct (NP l P).
      * intros l P. destruct (ND l P).
      * intros Y Z (l1 & l2 & l3 & E). destruct l1; discriminate.
      * intros Y Z u P. destruct (NP Y P).
    + intros Y Z (l1 & l2 & E). destruct l1; discriminate.
    + intros Y Z LY _ P. destruct P. left. apply Q, LY.
  - constructor.
    + intros x. split; [intros []|intros D; destruct (ND x D)].
    + constructor.
    + intros Y Z D. destruct (ND Y D).
    + intros Y Z A. destruct (NA Y A).
Qed.
End Start.
