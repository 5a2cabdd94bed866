(** The sweep over two shaped operands, part 7: whole runs. *)
From Coq Require Import QArith Qcanon Bool List Arith Lia Permutation.
From Verif Require Import QcTac Model_Base Model_Utils Model_Linear Model_Mixed Model_Shaped Spec_Base
  Spec_Sweep Proof_Base Proof_Line Proof_Sweep Proof_Sweep2 Proof_Sweep3 Proof_Sweep4 Proof_Sweep5 Proof_Sweep6 Proof_Sweep7
  Proof_Sweep8 Proof_Sweep9 Proof_Sweep10 Proof_Sweep11 Proof_Sweep12 Proof_Sweep13 Proof_Sweep14 Proof_Mesh Proof_Parity
  Proof_Flags Proof_Flags2 Proof_Flags3 Proof_Flags4 Proof_Flags5.
Import ListNotations.
Local Open Scope Qc_scope.

Lemma even_or e : is_event_left e = false -> is_event_right e = true.
Proof. unfold is_event_left, is_event_right. rewrite <- Nat.negb_even. intros ->. auto. Qed.

Section Runs.
Variable c : ctx.
Hypothesis G : good c.
Hypothesis N : nc c.
Variable int : list bool.
Variable sel : bool -> bool -> overlap_kind -> bool.
Hypothesis Sel : forall x q, q <> NO_OVERLAP -> sel true x q = false.
Variable from_result : shaped_operation -> event -> bool.
Hypothesis FR : forall s e, from_result s e
  = sel (is_left_event_from_first_operand (so s) e) (other_flag s e) (kind_of s e).
Hypothesis Ee : evn c.
Hypothesis Or : ori c int.
Notation S' := (SX c). Notation E' := (EX c). Notation h := (hh c). Notation k := (kk c).
Notation EV := (EVX c). Notation core := (core c). Notation th := (th c). Notation mates := (mates c).
Notation inv := (inv c). Notation least := (least c).
Notation flags := (flags c int sel).

(** The identifiers of the starts. *)
Record starts (s : shaped_operation) (o : operation) (ev : list event) : Prop := {
  st_cur : (so_current_first s < size o)%nat;
  st_ev : forall x, In x ev -> exists i, start_id s x = Some i /\ (i <= so_current_id s)%nat
    /\ EV o x <= EV o (so_current_first s) /\ (i = so_current_id s <-> pt o x = pt o (so_current_first s));
  st_same : forall x y, In x ev -> In y ev -> (start_id s x = start_id s y <-> pt o x = pt o y);
  st_queue : forall q, In q (op_queue o) -> EV o (so_current_first s) <= EV o q }.

Record runs (s : shaped_operation) (t : Qc) (ev : list event) : Prop := {
  ru_inv : inv (so s) t;
  ru_flags : flags (so s) nobody (view_of s);
  ru_int : so_interior s = int;
  ru_nd : NoDup ev;
  ru_ev : forall x, In x ev <-> (x < size (so s))%nat /\ ~ In x (op_queue (so s));
  ru_starts : starts s (so s) ev }.

Definition lim (limit : option Qc) (p : point) : Prop :=
  match limit with None => True | Some x => px p <= x end.

Lemma EV_pt o o' x : pt o' x = pt o x -> EV o' x = EV o x.
Proof. unfold EVX. intros ->. auto. Qed.

(** The starts after the event [e] is popped. *)
Lemma mark_starts s o e ev : wf c o -> so s = popping o e -> starts s o ev -> least o e -> (e < size o)%nat ->
  (forall x, In x ev -> (x < size o)%nat /\ ~ In x (op_queue o)) ->
  starts (mark_start s e) o (ev ++ [e]).
Proof.
  intros W Es [Cu Se Sa Qu] L Le Ev.
  assert (Ne : forall x, In x ev -> x <> e) by (intros x I ->; apply (Ev e I), L).
  assert (EX : forall x, (x < size o)%nat -> In (pt o x) (c_pts c)) by (intros x Q; apply (event_pt c o x W Q)).
  set (s' := mark_start s e).
  assert (P0 : forall x, pt (so s) x = pt o x) by (rewrite Es; reflexivity).
  assert (Old : forall x, x <> e -> start_id s' x = start_id s x).
  { intros x Nx. unfold s', start_id, mark_start. cbn [so_starts]. rewrite nth_put.
    destruct (Nat.eqb_spec x e) as [->|_]; [congruence|auto]. }
  assert (New : start_id s' e = Some (so_current_id s')).
  { unfold s', start_id, mark_start. cbn [so_starts so_current_id]. rewrite nth_put, Nat.eqb_refl. auto. }
  pose proof (least_after c o e L) as La. pose proof (Qu e (proj1 L)) as Qe.
  destruct (point_eq (pt o (so_current_first s)) (pt o e)) eqn:B.
  - assert (Q : so_current_first s' = so_current_first s /\ so_current_id s' = so_current_id s).
    { unfold s', mark_start. cbn [so_current_first so_current_id]. rewrite !P0, B. auto. }
    destruct Q as [Q1 Q2]. apply point_eq_true in B. constructor.
    + rewrite Q1. auto.
    + intros x I. apply in_app_or in I. destruct I as [I|[<-|[]]].
      * rewrite (Old x) by auto. rewrite Q1, Q2. apply Se; auto.
      * exists (so_current_id s'). split; auto. split; [lia|]. rewrite Q1. split; [|split; auto].
        unfold EVX. rewrite B. apply Qcle_refl.
    + assert (K : forall x, In x ev -> (start_id s x = Some (so_current_id s) <-> pt o x = pt o e)).
      { intros x I. destruct (Se x I) as (i & E & _ & _ & D). rewrite E, <- B, <- D. split; congruence. }
      intros x y Ix Iy. apply in_app_or in Ix. apply in_app_or in Iy.
      destruct Ix as [Ix|[<-|[]]], Iy as [Iy|[<-|[]]].
      * rewrite !Old by auto. apply Sa; auto.
      * rewrite New, Q2, Old by auto. apply K; auto.
      * rewrite New, Q2, Old by auto. pose proof (K y Iy) as Ky. split; intros Q; symmetry; apply Ky; auto.
      * tauto.
    + rewrite Q1. auto.
  - assert (Q : so_current_first s' = e /\ so_current_id s' = S (so_current_id s)).
    { unfold s', mark_start. cbn [so_current_first so_current_id]. rewrite !P0, B. auto. }
    destruct Q as [Q1 Q2].
    assert (Nb : pt o (so_current_first s) <> pt o e).
    { intros Q. apply point_eq_true in Q. congruence. }
    assert (Lt : EV o (so_current_first s) < EV o e).
    { apply Qcle_lt_or_eq in Qe. destruct Qe as [Qe|Qe]; auto. exfalso. apply Nb.
      apply (X_inj c G); auto. }
    assert (Np : forall x, In x ev -> pt o x <> pt o e).
    { intros x I Q. destruct (Se x I) as (i & _ & _ & D & _).
      assert (EV o x = EV o e) by (unfold EVX; rewrite Q; auto). qlra. }
    constructor.
    + rewrite Q1. auto.
    + intros x I. apply in_app_or in I. destruct I as [I|[<-|[]]].
      * rewrite (Old x) by auto. rewrite Q1, Q2. destruct (Se x I) as (i & E & F & D & _). exists i. split; auto.
        split; [lia|]. split; [qlra|]. split; [lia|]. intros Q. destruct (Np x I Q).
      * exists (so_current_id s'). split; auto. split; [lia|]. rewrite Q1. split; [apply Qcle_refl|tauto].
    + assert (K : forall x, In x ev -> (start_id s x = Some (S (so_current_id s)) <-> pt o x = pt o e)).
      { intros x I. destruct (Se x I) as (i & E & F & _). rewrite E. split; [intros Q; injection Q as Q; lia|].
        intros Q. destruct (Np x I Q). }
      intros x y Ix Iy. apply in_app_or in Ix. apply in_app_or in Iy.
      destruct Ix as [Ix|[<-|[]]], Iy as [Iy|[<-|[]]].
      * rewrite !Old by auto. apply Sa; auto.
      * rewrite New, Q2, Old by auto. apply K; auto.
      * rewrite New, Q2, Old by auto. pose proof (K y Iy) as Ky. split; intros Q; symmetry; apply Ky; auto.
      * tauto.
    + rewrite Q1. auto.
Qed.

Lemma one_shaped shape s t ev : runs s t ev -> op_queue (so s) <> [] ->
  exists e s1 s', pop (tick (so s)) = Some (e, popping (so s) e) /\ least (so s) e
    /\ pop_shaped s = Some (e, s1)
    /\ process_shaped from_result shape s1 e = Some (s', true)
    /\ process_event shape (popping (so s) e) e = Some (so s')
    /\ pt (so s') e = pt (so s) e
    /\ (forall x, In x (op_queue (so s')) -> EV (so s) e <= EV (so s') x)
    /\ runs s' (EV (so s) e) (ev ++ [e]).
Proof.
  intros [V Fl Ei Nd Ev St] NQ. set (o := so s) in *. assert (C := v_core _ _ _ V). assert (W := i_wf _ _ _ C).
  assert (Wt : wf c (tick o)) by (apply (same_wf c o (tick o)); [repeat split|apply W]).
  destruct (pop_spec c G N (tick o) Wt NQ (i_qnd _ _ _ C) (i_qsz _ _ _ C)) as (e & P & I & Q).
  assert (L : least o e) by (split; [exact I|exact Q]).
  assert (Le : (e < size o)%nat) by (apply (i_qsz _ _ _ C); auto).
  assert (V' : inv o (EV o e)).
  { pose proof (i_q1 _ _ _ C e (proj1 L)) as Ge. destruct (Qcle_lt_or_eq _ _ Ge) as [Lt|Eq]; [|rewrite <- Eq; auto].
    pose proof (least_after c o e L) as Qu. constructor.
    - apply (next_core c o t (EV o e) C (v_line _ _ _ V) (v_th _ _ _ V) Lt Qu).
    - apply V.
    - apply (next_th c N o t (EV o e) C (v_line _ _ _ V) Lt Qu). }
  set (s0 := with_base s (popping o e)). set (s1 := mark_start s0 e).
  assert (P1 : pop_shaped s = Some (e, s1)).
  { unfold pop_shaped. fold o. change (pop (tick o)) with (pop (tick o)). rewrite P. reflexivity. }
  assert (Fl1 : flags o nobody (view_of s1)) by exact Fl.
  assert (Ex : exists s', process_shaped from_result shape s1 e = Some (s', true)
    /\ process_event shape (popping o e) e = Some (so s') /\ same_rest s1 s' /\ flags (so s') nobody (view_of s')).
  { destruct (is_event_left e) eqn:Re.
    - apply (left_shaped c G N int sel Sel from_result FR Ee Or shape o (EV o e) e s1 V' L Re eq_refl eq_refl Ei Fl1).
    - apply (right_shaped c G N int sel from_result shape o (EV o e) e s1 V' L Re eq_refl eq_refl Ei Fl1). }
  destruct Ex as (s' & Ps & Pe & (R1 & R2 & R3 & R4) & F'). exists e, s1, s'.
  assert (Gr := step_grown c G N o (EV o e) e shape (so s') V' L eq_refl Pe).
  assert (Inv' : inv (so s') (EV o e)).
  { destruct (is_event_left e) eqn:Re.
    - destruct (lp_split c o (EV o e) e V' L Re eq_refl) as (l1 & l2 & El & P1' & P2').
      destruct (lp_steps c G N o (EV o e) e V' L Re eq_refl l1 l2 El P1' P2' shape)
        as (o2 & o3 & P' & C3 & T3 & D3 & L3 & M2 & M3 & C2 & Ac2 & Dn2 & Ac3 & Dn3).
      rewrite Pe in P'. injection P' as ->. constructor; auto.
      + rewrite L3. exact D3.
      + apply (lp_final c N o (EV o e) e V' L Re eq_refl l1 l2 o2 o3 El P1' P2' C3 T3 D3 M2 M3).
        exact Ac3.
    - destruct (rp_split c o (EV o e) e V' L Re eq_refl) as (l1 & l2 & El).
      destruct (rp_step c G N o (EV o e) e V' L Re eq_refl l1 l2 El shape) as (o2 & P' & V2 & _).
      rewrite Pe in P'. injection P' as ->. auto. }
  assert (Sz : (size o <= size (so s'))%nat) by apply (gr_size _ _ Gr).
  assert (Pt : forall x, (x < size o)%nat -> pt (so s') x = pt o x) by apply (gr_pt _ _ Gr).
  assert (Qe : forall x, (x < size o)%nat -> (In x (op_queue (so s')) <-> In x (op_queue o) /\ x <> e)).
  { intros x Lx. rewrite (gr_queue _ _ Gr x Lx). apply (popping_queue c o t e x V). }
  assert (Evs : forall x, In x (ev ++ [e]) <-> (x < size (so s'))%nat /\ ~ In x (op_queue (so s'))).
  { intros x. rewrite in_app_iff, Ev. split.
    - intros [[A B]|[<-|[]]]; (split; [lia|]); rewrite Qe by auto; tauto.
    - intros [A B]. destruct (Nat.lt_ge_cases x (size o)) as [Lx|Lx].
      + rewrite Qe in B by auto. destruct (Nat.eq_dec x e) as [->|Nx]; [right; left; auto|left]. split; auto.
      + exfalso. apply B, (gr_fresh _ _ Gr); auto. }
  split; auto. split; auto. split; auto. split; auto. split; auto. split; [apply Pt; auto|].
  split; [intros x Ix; apply (i_q1 _ _ _ (v_core _ _ _ Inv') x Ix)|].
  assert (St1 : starts s1 o (ev ++ [e])).
  { apply mark_starts; auto. 2: { intros x Ix. apply Ev; auto. } destruct St as [Cu Se Sa Qu]. constructor; auto. }
  constructor; auto.
  - rewrite R1. exact Ei.
  - apply NoDup_app_snoc; auto. rewrite Ev. intros [_ A]. apply A, I.
  - destruct St1 as [Cu Se Sa Qu]. assert (Cf : so_current_first s' = so_current_first s1) by auto.
    assert (Ids : forall x, start_id s' x = start_id s1 x) by (intros x; unfold start_id; rewrite R2; auto).
    assert (Lo : forall x, In x (ev ++ [e]) -> (x < size o)%nat).
    { intros x Ix. apply in_app_or in Ix. destruct Ix as [Ix|[<-|[]]]; auto. apply Ev; auto. }
    constructor.
    + rewrite Cf. lia.
    + intros x Ix. rewrite Ids, Cf, R4. specialize (Se x Ix). rewrite (Pt x), (Pt (so_current_first s1)) by auto.
      rewrite !(EV_pt o (so s')) by auto. exact Se.
    + intros x y Ix Iy. rewrite !Ids, !Pt by auto. apply Sa; auto.
    + intros q Iq. rewrite Cf. rewrite (EV_pt o (so s')) by auto.
      pose proof (i_q1 _ _ _ (v_core _ _ _ Inv') q Iq) as A. pose proof (Qu e (proj1 L)) as B. qlra.
Qed.

(** What a finished run leaves. *)
Record finished (limit : option Qc) (s : shaped_operation) (t : Qc) (ev : list event) : Prop := {
  fn_inv : inv (so s) t;
  fn_flags : flags (so s) nobody (view_of s);
  fn_nd : NoDup ev;
  fn_ev : forall x, In x ev <-> (x < size (so s))%nat /\ ~ In x (op_queue (so s)) /\ lim limit (pt (so s) x);
  fn_queue : match limit with None => op_queue (so s) = []
    | Some x => forall e, In e (op_queue (so s)) -> x < px (pt (so s) e) end;
  fn_ids : forall x, In x ev -> exists i, start_id s x = Some i /\ (i <= so_current_id s)%nat;
  fn_same : forall x y, In x ev -> In y ev -> (start_id s x = start_id s y <-> pt (so s) x = pt (so s) y);
  fn_last : op_queue (so s) = [] \/ exists p, In p (c_pts c) /\ X c p = t /\ ~ lim limit p }.

Lemma shaped_spec shape limit : forall fuel s t ev, runs s t ev ->
  (forall x, In x ev -> lim limit (pt (so s) x)) ->
  sweep_shaped from_result shape fuel limit s ev <> ShapedFails
  /\ (forall lin, sweep_shaped from_result shape fuel limit s ev = ShapedRunsOut ->
       sweep fuel shape limit (so s) lin = OutOfFuel)
  /\ forall s' ev', sweep_shaped from_result shape fuel limit s ev = SweepsShaped s' ev' ->
     exists t', finished limit s' t' ev'.
Proof.
  induction fuel as [|fuel IH]; intros s t ev R Li; cbn [sweep_shaped sweep].
  - split; [discriminate|]. split; [auto|]. intros s' ev' Q; discriminate.
  - destruct (op_queue (so s)) as [|q0 qs] eqn:Eq.
    + split; [discriminate|]. split; [discriminate|]. intros s' ev' Q. injection Q as <- <-. exists t.
      destruct R as [V Fl Ei Nd Ev [Cu Se Sa Qu]]. constructor; auto.
      * intros x. rewrite Ev. split; [intros [A B]; split; auto|tauto]. split; auto. apply Li, Ev; auto.
      * rewrite Eq. destruct limit; auto. intros e [].
      * intros x Ix. destruct (Se x Ix) as (i & A & B & _). eauto.
    + assert (NQ : op_queue (so s) <> []) by (rewrite Eq; discriminate).
      destruct (one_shaped shape s t ev R NQ) as (e & s1 & s' & P & L & Pp & Ps & Pe & Pt & Qu & R').
      rewrite Pp, Ps, P, Pe. cbn [andb].
      assert (Evl : forall x, In x ev -> pt (so s') x = pt (so s) x).
      { intros x Ix. apply (ru_ev _ _ _ R) in Ix.
        assert (Gr := step_grown c G N (so s) (EV (so s) e) e shape (so s')). apply Gr; auto; [|apply Ix].
        pose proof (ru_inv _ _ _ R) as V. pose proof (v_core _ _ _ V) as C.
        pose proof (i_q1 _ _ _ C e (proj1 L)) as Ge. destruct (Qcle_lt_or_eq _ _ Ge) as [Lt|Eq']; [|rewrite <- Eq'; auto].
        pose proof (least_after c (so s) e L) as Qu'. constructor.
        - apply (next_core c (so s) t (EV (so s) e) C (v_line _ _ _ V) (v_th _ _ _ V) Lt Qu').
        - apply V.
        - apply (next_th c N (so s) t (EV (so s) e) C (v_line _ _ _ V) Lt Qu'). }
      destruct (is_beyond limit (so s') e) eqn:B.
      * split; [discriminate|]. split; [discriminate|]. intros s2 ev2 Q. injection Q as <- <-. exists (EV (so s) e).
        destruct limit as [x|]; cbn in B; [|discriminate]. apply qltb_true in B.
        destruct R' as [V' Fl Ei Nd Ev [Cu Se Sa Qu']].
        assert (Be : forall y, In y (op_queue (so s')) -> x < px (pt (so s') y)).
        { intros y I. pose proof (Qu y I) as Le. assert (C := v_core _ _ _ V'). assert (W := i_wf _ _ _ C).
          assert (Iy := i_qsz _ _ _ C y I). assert (Ie : In e (ev ++ [e])) by (apply in_or_app; right; left; auto).
          apply Ev in Ie. destruct (event_pt c (so s') e W (proj1 Ie)) as [I1 _].
          destruct (event_pt c (so s') y W Iy) as [I2 _].
          rewrite <- (EV_pt (so s) (so s') e Pt) in Le.
          unfold EVX in Le. apply (X_le c G) in Le; auto. unfold lex_le, lex_lt in Le.
          destruct Le as [[Q1|[Q1 _]]|Q1]; [qlra|rewrite <- Q1; auto|rewrite <- Q1; auto]. }
        constructor; auto.
        -- apply (NoDup_remove_1 ev [] e) in Nd. rewrite app_nil_r in Nd. auto.
        -- intros y. split.
           ++ intros Iy. assert (I' : In y (ev ++ [e])) by (apply in_or_app; auto). apply Ev in I'.
              split; [apply I'|]. split; [apply I'|]. rewrite (Evl y Iy). apply Li; auto.
           ++ intros (A1 & A2 & A3). assert (I' : In y (ev ++ [e])) by (apply Ev; auto).
              apply in_app_or in I'. destruct I' as [I'|[<-|[]]]; auto. cbn in A3. exfalso; qlra.
        -- intros y Iy. assert (I' : In y (ev ++ [e])) by (apply in_or_app; auto).
           destruct (Se y I') as (i & A1 & A2 & _). eauto.
        -- intros y z Iy Iz. apply Sa; apply in_or_app; auto.
        -- right. exists (pt (so s') e). assert (C := v_core _ _ _ V'). assert (W := i_wf _ _ _ C).
           assert (Ie : In e (ev ++ [e])) by (apply in_or_app; right; left; auto). apply Ev in Ie.
           destruct (event_pt c (so s') e W (proj1 Ie)) as [I1 _]. split; auto. split.
           ++ rewrite <- (EV_pt (so s) (so s') e Pt). reflexivity.
           ++ cbn [lim]. intros Q. qlra.
      * assert (Li' : forall x, In x (ev ++ [e]) -> lim limit (pt (so s') x)).
        { intros x Ix. apply in_app_or in Ix. destruct Ix as [Ix|[<-|[]]].
          - rewrite (Evl x Ix). auto.
          - destruct limit as [y|]; cbn in *; auto. apply qltb_false in B. auto. }
        destruct (IH s' _ _ R' Li') as (A1 & A2 & A3). auto.
Qed.
End Runs.
