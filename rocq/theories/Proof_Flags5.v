(** The sweep over two shaped operands, part 6: growth of the events, a right event. *)
From Coq Require Import QArith Qcanon Bool List Arith Lia Permutation.
From Verif Require Import QcTac Model_Base Model_Utils Model_Linear Model_Mixed Model_Shaped Spec_Base
  Spec_Sweep Proof_Base Proof_Line Proof_Sweep Proof_Sweep2 Proof_Sweep3 Proof_Sweep5 Proof_Sweep7
  Proof_Sweep8 Proof_Sweep9 Proof_Sweep10 Proof_Sweep11 Proof_Sweep12 Proof_Sweep13 Proof_Sweep14 Proof_Parity
  Proof_Flags Proof_Flags2 Proof_Flags3 Proof_Flags4.
Import ListNotations.
Local Open Scope Qc_scope.

Section Growth.
Variable c : ctx.
Hypothesis G : good c.
Hypothesis N : nc c.
Notation S' := (SX c). Notation E' := (EX c). Notation h := (hh c). Notation k := (kk c).
Notation EV := (EVX c).
Notation core := (core c). Notation th := (th c). Notation mates := (mates c).
Notation inv := (inv c). Notation least := (least c).

(** The events that are there stay, the new ones are in the queue. *)
Record grown (o o' : operation) : Prop := {
  gr_size : (size o <= size o')%nat;
  gr_pt : forall x, (x < size o)%nat -> pt o' x = pt o x;
  gr_queue : forall x, (x < size o)%nat -> (In x (op_queue o') <-> In x (op_queue o));
  gr_fresh : forall x, (size o <= x)%nat -> (x < size o')%nat -> In x (op_queue o');
  gr_done : forall x, (x < size o)%nat -> ~ In x (op_queue o) -> is_event_left x = false -> opp o' x = opp o x;
  gr_first : op_first_count o' = op_first_count o;
  gr_sid : forall x, left_of o x -> sid o' x = sid o x }.
Lemma grown_refl o : grown o o.
Proof. constructor; auto; try reflexivity. intros; lia. Qed.
Lemma grown_trans o1 o2 o3 : grown o1 o2 -> grown o2 o3 -> grown o1 o3.
Proof.
  intros [A1 A2 A3 A4 A5 A6 A7] [B1 B2 B3 B4 B5 B6 B7]. constructor.
  - lia.
  - intros x L. rewrite B2, A2 by lia. auto.
  - intros x L. rewrite B3, A3 by lia. reflexivity.
  - intros x L1 L2. destruct (Nat.lt_ge_cases x (size o2)) as [Q|Q]; [apply B3, A4; auto|apply B4; auto].
  - intros x L NI R. rewrite B5, A5; auto; [lia|]. rewrite A3; auto.
  - congruence.
  - intros x L. rewrite B7, A7; auto. destruct L; split; auto; lia.
Qed.
Lemma frame_grown o o' t Y Z : frame c o o' t Y Z -> core o t -> core o' t ->
  (forall x, active o' x <-> active o x) -> active o Y -> active o Z -> grown o o'.
Proof.
  intros F C C' Ac AY AZ. pose proof (w_linked _ _ (i_wf _ _ _ C)) as K. pose proof (w_linked _ _ (i_wf _ _ _ C')) as K'.
  constructor.
  - apply (f_size _ _ _ _ _ _ F).
  - apply (f_pt _ _ _ _ _ _ F).
  - apply (f_queue _ _ _ _ _ _ F).
  - intros x L1 L2. destruct (is_event_left x) eqn:Lx.
    + apply (f_fresh _ _ _ _ _ _ F x); auto. split; auto.
    + destruct (k_opp o' K' x L2) as (Q1 & Q2 & Q3). rewrite Lx in Q3. cbn in Q3.
      assert (Ll : left_of o' (opp o' x)) by (split; auto).
      destruct (Nat.lt_ge_cases (opp o' x) (size o)) as [Q|Q].
      * assert (Lo : left_of o (opp o' x)) by (split; auto).
        destruct (f_opp _ _ _ _ _ _ F _ Lo) as [E|(E & _)].
        -- exfalso. rewrite Q2 in E. pose proof (proj1 (k_opp o K _ Q)). lia.
        -- assert (A : active o' (opp o' x)) by (apply Ac; destruct E as [-> | ->]; auto).
           destruct A as (_ & _ & A). rewrite Q2 in A. auto.
      * destruct (f_fresh _ _ _ _ _ _ F _ Ll Q) as [_ A]. rewrite Q2 in A. auto.
  - intros x L NI R. destruct (k_opp o K x L) as (Q1 & Q2 & Q3). rewrite R in Q3. cbn in Q3.
    assert (Lo : left_of o (opp o x)) by (split; auto).
    destruct (f_opp _ _ _ _ _ _ F _ Lo) as [E|(E & _)].
    + rewrite Q2 in E. rewrite <- E. rewrite (proj1 (proj2 (k_opp o' K' (opp o x) (proj2 (frame_left c o o' t Y Z _ F Lo))))). auto.
    + exfalso. assert (A : active o (opp o x)) by (destruct E as [-> | ->]; auto).
      destruct A as (_ & _ & A). rewrite Q2 in A. auto.
  - apply (f_count _ _ _ _ _ _ F).
  - apply (f_sid _ _ _ _ _ _ F).
Qed.

Lemma popping_queue o t e x : inv o t -> (In x (op_queue (popping o e)) <-> In x (op_queue o) /\ x <> e).
Proof. intros V. apply (drop_event_iff e (op_queue o) x), (i_qnd _ _ _ (v_core _ _ _ V)). Qed.

Lemma step_grown o t e shape o' : inv o t -> least o e -> EV o e = t ->
  process_event shape (popping o e) e = Some o' -> grown (popping o e) o'.
Proof.
  intros V L Et P. destruct (is_event_left e) eqn:Re.
  - destruct (lp_split c o t e V L Re Et) as (l1 & l2 & El & P1 & P2).
    destruct (lp_steps c G N o t e V L Re Et l1 l2 El P1 P2 shape)
      as (o2 & o3 & P' & C3 & T3 & D3 & L3 & M2 & M3 & C2 & Ac2 & Dn2 & Ac3 & Dn3).
    rewrite P in P'. injection P' as ->. set (o1 := relined o e (l1 ++ e :: l2)) in *.
    assert (C1 := lp_core c N o t e V L Re Et l1 l2 El P1 P2). fold o1 in C1.
    assert (Ae : active o1 e) by (apply (lp_active c o t e V L Re l1 l2); auto).
    assert (G1 : grown (popping o e) o1).
    { constructor; try reflexivity; auto. intros x A B. exfalso. change (size o1) with (size (popping o e)) in B. lia. }
    assert (G2 : grown o1 o2).
    { destruct (hd_error l2) as [x|]; cbn in M2; [|subst; apply grown_refl].
      destruct M2 as (_ & Ax & F & _). apply (frame_grown o1 o2 t e x); auto. }
    assert (G3 : grown o2 o3).
    { destruct (hd_error (rev l1)) as [x|]; cbn in M3; [|subst; apply grown_refl].
      destruct M3 as (_ & Ax & F & _). apply (frame_grown o2 o3 t x e); auto.
      - intros y. rewrite Ac3, Ac2. reflexivity.
      - apply Ac2; auto. }
    apply (grown_trans _ o1 _ G1), (grown_trans _ o2 _ G2 G3).
  - destruct (rp_split c o t e V L Re Et) as (l1 & l2 & El).
    destruct (rp_step c G N o t e V L Re Et l1 l2 El shape) as (o2 & P' & V2 & St & Ac & Dn).
    rewrite P in P'. injection P' as ->. set (o1 := relined o e (l1 ++ l2)) in *.
    assert (C1 := rp_core c o t e V L Re Et l1 l2 El). fold o1 in C1.
    assert (G1 : grown (popping o e) o1).
    { constructor; try reflexivity; auto. intros x A B. exfalso. change (size o1) with (size (popping o e)) in B. lia. }
    apply (grown_trans _ o1 _ G1). destruct St as [[-> _]|(b & a & Eb & Ea & _ & F & _)]; [apply grown_refl|].
    apply (frame_grown o1 o2 t b a); auto.
    + apply V2.
    + apply (i_line _ _ _ C1). apply in_or_app; left; apply last_In; auto.
    + apply (i_line _ _ _ C1). apply in_or_app; right; apply hd_error_In; auto.
Qed.
End Growth.

Section Right.
Variable c : ctx.
Hypothesis G : good c.
Hypothesis N : nc c.
Variable int : list bool.
Variable sel : bool -> bool -> overlap_kind -> bool.
Hypothesis Sel : forall x q, q <> NO_OVERLAP -> sel true x q = false.
Variable from_result : shaped_operation -> event -> bool.
Hypothesis FR : forall s e, from_result s e
  = sel (is_left_event_from_first_operand (so s) e) (other_flag s e) (kind_of s e).
Notation S' := (SX c). Notation E' := (EX c). Notation h := (hh c). Notation k := (kk c).
Notation EV := (EVX c). Notation core := (core c). Notation th := (th c). Notation mates := (mates c).
Notation inv := (inv c). Notation least := (least c).
Notation kind_at := (kind_at int).
Notation flags := (flags c int sel).

(** The popped pieces and the queue of the others are the same. *)
Lemma flags_relined o t e l v : inv o t -> least o e -> is_event_left e = false -> EV o e = t ->
  flags o nobody v -> flags (relined o e l) nobody v.
Proof.
  intros V L Re Et [D K1 K2 O R B P]. set (o1 := relined o e l).
  assert (Q : forall x, left_of o x -> (In x (op_queue o1) <-> In x (op_queue o)))
    by (apply (rp_left_queue c o t e V Re)).
  assert (Pp : forall x, popped o1 x <-> popped o x).
  { intros x. split; intros [A A']; split; auto; intros I; apply A'; apply Q; auto. }
  constructor.
  - intros x Lx NP. apply D; auto. rewrite <- Pp. auto.
  - intros x m Px Pm. apply K1; apply Pp; auto.
  - intros x Px A. apply K2; [apply Pp; auto|]. intros m Pm. apply A, Pp; auto.
  - intros x u Px NL. apply O; [apply Pp; auto|]. intros (A & y & Ly & Iy & B1 & B2). apply NL. split; auto.
    exists y. split; auto. split; [apply Q; auto|]. split; auto.
  - intros x Px. apply R, Pp; auto.
  - intros x f Px E. apply Pp in Px. destruct (B x f Px E) as (A1 & A2 & A3). split; [apply Pp; auto|]. split; auto.
  - intros a x Pa Px Ex. apply Pp in Pa. apply Pp in Px. apply P; auto. destruct Ex as [(y & Ly & Iy & M)|[[] _]].
    left. exists y. split; auto. split; [apply Q; auto|auto].
Qed.

Lemma right_shaped shape o t e s : inv o t -> least o e -> is_event_left e = false -> EV o e = t ->
  so s = popping o e -> so_interior s = int -> flags o nobody (view_of s) ->
  exists s', process_shaped from_result shape s e = Some (s', true)
    /\ process_event shape (popping o e) e = Some (so s') /\ same_rest s s' /\ flags (so s') nobody (view_of s').
Proof.
  intros V L Re Et Es Ei Fl. destruct (rp_split c o t e V L Re Et) as (l1 & l2 & El).
  set (l := opp o e) in *. set (o1 := relined o e (l1 ++ l2)).
  assert (C := v_core _ _ _ V).
  assert (C1 := rp_core c o t e V L Re Et l1 l2 El). fold o1 in C1.
  assert (T1 := rp_th c o t e V Re l1 l2). fold o1 in T1.
  assert (Lk : forall i, lookup shape i (popping o e) l = (l1, Some l, l2)).
  { intros i. apply (lookup_present c o t); auto. }
  rewrite (rp_process c o t e V L Re l1 l2 El shape). fold o1.
  unfold process_shaped, is_event_right. rewrite <- Nat.negb_even.
  change (Nat.even e) with (is_event_left e). rewrite Re. cbn [negb]. rewrite Es.
  change (opp (popping o e) e) with l. assert (Ll : is_event_left l = true) by apply (rp_left c o t e V L Re). rewrite Ll.
  unfold find_event. rewrite Lk. unfold above_event, below_event, remove_event. rewrite !Lk.
  change (set_line (popping o e) (l1 ++ l2)) with o1. set (s0 := with_base s o1).
  assert (F1 : flags o1 nobody (view_of s)) by (apply (flags_relined o t e (l1 ++ l2)); auto).
  destruct (hd_error (rev l1)) as [b|] eqn:Eb; cbn [detect_optional].
  2: { exists s0. split; auto. split; auto. split; auto. apply with_base_rest. }
  destruct (hd_error l2) as [a|] eqn:Ea; cbn [detect_optional].
  2: { exists s0. split; auto. split; auto. split; auto. apply with_base_rest. }
  assert (Ib : active o1 b).
  { apply (i_line _ _ _ C1). apply in_or_app; left; apply last_In; auto. }
  assert (Ia : active o1 a).
  { apply (i_line _ _ _ C1). apply in_or_app; right; apply hd_error_In; auto. }
  assert (NE : b <> a).
  { intros Q. apply (line_irrefl c o1 t a C1), adj_before. destruct l2 as [|a' r]; [discriminate|].
    injection Ea as ->. apply last_adj. rewrite Q in Eb. auto. }
  destruct (trans_detect c G N int sel t nobody o1 b a (fun x => or_intror (fun f => f)) (fun x (f : nobody x) => match f with end) C1 T1 Ib Ia NE)
    as (o2 & D & Tr).
  assert (D' : detect_intersection (so s0) b a = Some o2) by exact D.
  destruct (detect_shaped_view int s0 b a o2 Ei (proj1 (proj1 Ia)) (proj1 (proj1 Ib)) D') as (s' & Ds & So & Sr & Ve).
  rewrite Ds. exists s'. rewrite So. split; auto. split; auto.
  split; [apply (same_rest_trans s s0 s' (with_base_rest s o1) Sr)|].
  apply (flags_veq c int sel o2 nobody (view_of s)).
  2: { apply (tr_flags _ _ _ _ _ _ _ Tr); auto. }
  apply veq_sym. apply (veq_trans _ _ _ Ve). change (so s0) with o1. change (view_of s0) with (view_of s).
  destruct (overlap_from_start o1 b a) eqn:Ov; [|apply veq_refl].
  apply (overlap_mates c G o1 b a (i_wf _ _ _ C1) (proj1 Ib) (proj1 Ia)) in Ov.
  intros x Lx. unfold vkinds, upd. cbn [vo vk vr vb].
  assert (Pb := active_popped _ _ Ib). assert (Pa := active_popped _ _ Ia).
  split; auto. split; [|split; auto].
  destruct (Nat.eqb_spec x a) as [->|Na]; [|destruct (Nat.eqb_spec x b) as [->|Nb]; auto].
  - rewrite kind_at_sym. symmetry. apply (fl_kind1 _ _ _ _ _ _ F1 a b); auto. apply mates_sym; auto.
  - symmetry. apply (fl_kind1 _ _ _ _ _ _ F1 b a); auto.
Qed.
End Right.
