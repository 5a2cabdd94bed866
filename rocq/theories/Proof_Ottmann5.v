(** The Bentley-Ottmann sweep, part 5: the queue and one step before the first critical
    abscissa. *)
From Coq Require Import QArith Qcanon Bool List Arith Lia.
From Verif Require Import QcTac Model_Base Model_Utils Model_Linear Model_BentleyOttmann Spec_Base
  Spec_Sweep Proof_Base Proof_Line Proof_Sweep Proof_Sweep2 Proof_Sweep3 Proof_Sweep5 Proof_Sweep7
  Proof_Sweep8 Proof_Sweep9 Proof_Sweep10 Proof_Sweep11 Proof_Sweep12 Proof_Sweep14 Proof_Ottmann Proof_Ottmann2
  Proof_Ottmann3 Proof_Ottmann4.
Import ListNotations.
Local Open Scope Qc_scope.

(** ** The order of the queue *)
Lemma queue_key_iff o x y : registry_queue_key_lt o x y = true <->
  lex_lt (pt o x) (pt o y)
  \/ (pt o x = pt o y /\ ((is_event_left x = false /\ is_event_left y = true)
      \/ (is_event_left x = is_event_left y /\ lex_lt (to_event_end o x) (to_event_end o y)))).
Proof.
  unfold registry_queue_key_lt, lex_lt at 1. cbv zeta.
  destruct (qeqb_spec (px (pt o x)) (px (pt o y))) as [E1|E1]; cbn [negb].
  2: { rewrite qltb_true. split; [auto|]. intros [[Q|[Q _]]|[Q _]]; auto; [contradiction|].
       rewrite Q in E1. congruence. }
  destruct (qeqb_spec (py (pt o x)) (py (pt o y))) as [E2|E2]; cbn [negb].
  2: { rewrite qltb_true. split; [auto|]. intros [[Q|[_ Q]]|[Q _]]; auto; [|rewrite Q in E2; congruence].
       rewrite E1 in Q. exfalso; qlra. }
  assert (P : pt o x = pt o y) by (apply point_ext; auto).
  assert (NL : ~ (px (pt o x) < px (pt o y) \/ px (pt o x) = px (pt o y) /\ py (pt o x) < py (pt o y))).
  { rewrite P. intros [Q|[_ Q]]; qlra. }
  destruct (Bool.eqb_spec (is_event_left x) (is_event_left y)) as [El|El]; cbn [negb].
  - rewrite point_lt_true. split; [auto|]. intros [Q|[_ [[Q1 Q2]|[_ Q]]]]; auto; [contradiction|congruence].
  - destruct (is_event_left x), (is_event_left y); cbn [negb]; try congruence; split; auto; try discriminate.
    intros [Q|[_ [[Q1 Q2]|[Q _]]]]; auto; try contradiction; discriminate.
Qed.
Lemma lex_lt_tr p q s : lex_lt p q -> lex_lt q s -> lex_lt p s.
Proof. unfold lex_lt. intros [A|[A1 A2]] [B|[B1 B2]]; [left|left|left|right; split]; try qlra; congruence. Qed.
Lemma queue_key_trans o x y z : registry_queue_key_lt o x y = true -> registry_queue_key_lt o y z = true ->
  registry_queue_key_lt o x z = true.
Proof.
  rewrite !queue_key_iff. intros [A|[A1 A2]] [B|[B1 B2]].
  - left. eapply lex_lt_tr; eauto.
  - left. rewrite <- B1. auto.
  - left. rewrite A1. auto.
  - right. split; [congruence|]. destruct A2 as [[A2 A3]|[A2 A3]]; destruct B2 as [[B2 B3]|[B2 B3]].
    + congruence.
    + left. split; congruence.
    + left. split; congruence.
    + right. split; [congruence|]. eapply lex_lt_tr; eauto.
Qed.
Lemma lex_lt_irr p : ~ lex_lt p p.
Proof. unfold lex_lt. intros [A|[_ A]]; qlra. Qed.
Lemma queue_key_irrefl o x : registry_queue_key_lt o x x = false.
Proof.
  destruct (registry_queue_key_lt o x x) eqn:Q; auto. apply queue_key_iff in Q.
  destruct Q as [Q|[_ [[Q1 Q2]|[_ Q]]]]; try (destruct (lex_lt_irr _ Q)). congruence.
Qed.
Lemma minimal_exists {A} (lt : A -> A -> bool) :
  (forall x, lt x x = false) -> (forall x y z, lt x y = true -> lt y z = true -> lt x z = true) ->
  forall l, l <> [] -> exists m, In m l /\ forall x, In x l -> lt x m = false.
Proof.
  intros I T. induction l as [|a l IH]; [congruence|]. intros _. destruct l as [|b l].
  - exists a. split; [left; auto|]. intros x [<-|[]]. auto.
  - destruct IH as (m & Im & M); [discriminate|]. destruct (lt a m) eqn:Q.
    + exists a. split; [left; auto|]. intros x [<-|Ix]; auto. destruct (lt x a) eqn:Q2; auto.
      rewrite <- (M x Ix). symmetry. eapply T; eauto.
    + exists m. split; [right; auto|]. intros x [<-|Ix]; auto.
Qed.

Definition is_head (o : operation) (e : event) : Prop :=
  In e (op_queue o) /\ forall x, In x (op_queue o) -> registry_queue_key_lt o x e = false.
Lemma heads_spec o e : In e (queue_heads o) <-> is_head o e.
Proof.
  unfold queue_heads. rewrite filter_In, forallb_forall. unfold is_head. split; intros [I F]; split; auto;
    intros x J; specialize (F x J); apply negb_true_iff; auto.
Qed.
Lemma pop_spec pick o e o' : registry_pop pick (tick o) = Some (e, o') -> is_head o e /\ o' = popping o e.
Proof.
  unfold registry_pop. cbv zeta. destruct (nth_error _ _) as [x|] eqn:Q; [|discriminate].
  intros [= <- <-]. apply nth_error_In in Q. apply heads_spec in Q. split; [exact Q|reflexivity].
Qed.
Lemma pop_total pick o : op_queue o <> [] -> exists e, registry_pop pick (tick o) = Some (e, popping o e) /\ is_head o e.
Proof.
  intros Ne. destruct (minimal_exists (registry_queue_key_lt o) (queue_key_irrefl o) (queue_key_trans o) _ Ne) as (m & Im & M).
  assert (Hm : In m (queue_heads (tick o))) by (apply heads_spec; split; auto).
  destruct (registry_pop pick (tick o)) as [[e o']|] eqn:Q.
  - apply pop_spec in Q. destruct Q as [H ->]. exists e. auto.
  - exfalso. unfold registry_pop in Q. cbv zeta in Q.
    destruct (nth_error (queue_heads (tick o)) _) as [x|] eqn:N; [discriminate|].
    apply nth_error_None in N.
    assert (L : length (queue_heads (tick o)) <> O) by (intros E; apply length_zero_iff_nil in E; rewrite E in Hm; destruct Hm).
    pose proof (Nat.mod_upper_bound (pick (op_clock (tick o)) (queue_heads (tick o))) _ L). lia.
Qed.

Section Calm.
Variable c : ctx.
Hypothesis G : good c.
Hypothesis C0 : c_first c = O.
Variable R : Qc.
Hypothesis NB : calm c R.
Notation S' := (SX c). Notation E' := (EX c). Notation h := (hh c). Notation k := (kk c).
Notation EV := (EVX c). Notation d := (dd c).
Notation core := (core c). Notation below := (below c). Notation whole := (whole c R).
Notation apline := (apline c). Notation steady := (steady c R).

Lemma ev_pts o e : wf c o -> (e < size o)%nat -> In (pt o e) (c_pts c).
Proof.
  intros W L. destruct (is_event_left e) eqn:El.
  - apply (w_ptS c o W). split; auto.
  - destruct (k_opp o (w_linked c o W) e L) as (A & B & D). rewrite <- B. apply (w_ptE c o W).
    split; auto. rewrite D, El. reflexivity.
Qed.
Lemma head_least o e x : base c o -> is_head o e -> In x (op_queue o) ->
  EV o e <= EV o x /\ (EV o e = EV o x -> is_event_left x = false -> is_event_left e = false).
Proof.
  intros (W & Qs & _) [Ie M] Ix. pose proof (M x Ix) as Q.
  assert (Pe : In (pt o e) (c_pts c)) by (apply ev_pts; auto).
  assert (Px : In (pt o x) (c_pts c)) by (apply ev_pts; auto).
  assert (N : ~ registry_queue_key_lt o x e = true) by congruence. rewrite queue_key_iff in N. split.
  - apply Qcnot_lt_le. intros L. apply N. left. apply (X_lt c G); auto.
  - intros E Lx. apply (X_inj c G) in E; auto. destruct (is_event_left e) eqn:Le; auto.
    exfalso. apply N. right. auto.
Qed.

(** ** A step before [R] *)
Lemma head_next o t e : steady o t -> is_head o e -> EV o e <= R -> steady o (EV o e).
Proof.
  intros V Hd Le. pose proof (core_base c o t (s_core _ _ _ _ V)) as B.
  destruct (Qc_dec t (EV o e)) as [[L|L]|L].
  - apply (steady_next c R NB o t); auto. intros x Ix. apply (head_least o e x); auto.
  - exfalso. pose proof (i_q1 _ _ _ (s_core _ _ _ _ V) e (proj1 Hd)). qlra.
  - rewrite <- L. auto.
Qed.
Lemma head_beyond o t e x : core o t -> is_head o e -> EV o e = t -> is_event_left e = true ->
  active o x -> t < E' o x.
Proof.
  intros C Hd Et Le A. pose proof (active_E _ _ _ _ C A) as Q. destruct (Qcle_lt_or_eq _ _ Q) as [|Eq]; auto. exfalso.
  destruct A as (Lx & I & J). destruct (head_least o e (opp o x) (core_base c o t C) Hd J) as [_ F].
  destruct (k_opp o (w_linked c o (i_wf _ _ _ C)) x (proj2 Lx)) as (_ & _ & Fl). rewrite (proj1 Lx) in Fl.
  rewrite F in Le; auto; try discriminate. rewrite Et, Eq. reflexivity.
Qed.

Lemma calm_step shape r t e n : steady (rg_op r) t -> is_head (rg_op r) e -> EV (rg_op r) e < R ->
  rg_min_collinear r = seq 0 n -> n = length (c_ins c) ->
  exists o2, registry_process shape (set_op r (popping (rg_op r) e)) e = Some (set_op r o2)
  /\ steady o2 (EV (rg_op r) e) /\ later c R (popping (rg_op r) e) o2.
Proof.
  intros V Hd Lt Mi Len. assert (V' : steady (rg_op r) (EV (rg_op r) e)) by (apply (head_next _ t); auto; qlra).
  clear V. pose proof (s_core _ _ _ _ V') as C. destruct (is_event_left e) eqn:Le.
  - destruct (bl_ordinary c G C0 R NB r (EV (rg_op r) e) e C (s_whole _ _ _ _ V') (proj1 Hd) eq_refl Le) with (shape := shape)
      as (l1 & l2 & o3 & _ & Q & C3 & Wh3 & La & _ & _ & Ap).
    + intros x A. apply (calm_ordinary c R NB r (EV (rg_op r) e) e C (proj1 Hd) eq_refl Le); auto.
      intros y B. apply (head_beyond (rg_op r) (EV (rg_op r) e) e y); auto.
    + exists o3. split; auto. split; auto. constructor; auto. apply Ap, (s_apart _ _ _ _ V').
  - destruct (br_split c R r (EV (rg_op r) e) e V' (proj1 Hd) eq_refl Le) as (l1 & l2 & El).
    destruct (br_step c G C0 R NB r (EV (rg_op r) e) e V' (proj1 Hd) eq_refl Le l1 l2 El n Mi Len shape)
      as (o2 & Q & V2 & La & _).
    exists o2. auto.
Qed.
End Calm.
