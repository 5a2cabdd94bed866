(** The Bentley-Ottmann sweep, part 4: left events. *)
From Coq Require Import QArith Qcanon Bool List Arith Lia.
From Verif Require Import QcTac Model_Base Model_Utils Model_Linear Model_BentleyOttmann Spec_Base
  Spec_Sweep Proof_Base Proof_Line Proof_Sweep Proof_Sweep2 Proof_Sweep3 Proof_Sweep5 Proof_Sweep7
  Proof_Sweep8 Proof_Sweep9 Proof_Sweep10 Proof_Sweep11 Proof_Sweep12 Proof_Ottmann Proof_Ottmann2
  Proof_Ottmann3.
Import ListNotations.
Local Open Scope Qc_scope.

Section Lefts.
Variable c : ctx.
Hypothesis G : good c.
Hypothesis C0 : c_first c = O.
Variable R : Qc.
Hypothesis NB : calm c R.
Notation S' := (SX c). Notation E' := (EX c). Notation h := (hh c). Notation k := (kk c).
Notation EV := (EVX c). Notation d := (dd c).
Notation core := (core c). Notation below := (below c). Notation whole := (whole c R).
Notation apline := (apline c).

Section LeftPop.
Variables (r : registry) (t : Qc) (e : event).
Notation o := (rg_op r).
Hypothesis C : core o t.
Hypothesis Wh : whole o.
Hypothesis Ie : In e (op_queue o).
Hypothesis Et : EV o e = t.
Hypothesis Re : is_event_left e = true.
Hypothesis Bey : forall x, active o x -> t < E' o x.
Let W : wf c o := i_wf _ _ _ C.

Lemma bl_left : left_of o e.
Proof. split; auto. apply (i_qsz _ _ _ C), Ie. Qed.
Lemma bl_S : S' o e = t.
Proof. exact Et. Qed.
Lemma bl_E : t < E' o e.
Proof. rewrite <- bl_S. apply (w_lt c o W), bl_left. Qed.
Lemma bl_queue x : In x (op_queue (popping o e)) <-> In x (op_queue o) /\ x <> e.
Proof. apply drop_event_iff, (i_qnd _ _ _ C). Qed.
Lemma bl_opp_right x : left_of o x -> is_event_left (opp o x) = false.
Proof. intros [Lx Sx]. destruct (k_opp o (w_linked c o W) x Sx) as (_ & _ & ->). rewrite Lx. reflexivity. Qed.
Lemma bl_right_queue x : left_of o x ->
  (In (opp o x) (op_queue (popping o e)) <-> In (opp o x) (op_queue o)).
Proof.
  intros Lx. rewrite bl_queue. split; [tauto|]. intros I. split; auto. intros Q.
  pose proof (bl_opp_right x Lx). congruence.
Qed.
Lemma bl_not_active : ~ active o e.
Proof. intros (_ & I & _). apply I, Ie. Qed.

Definition blowerb (x : event) : bool :=
  qltb (h o x t) (h o e t) || (qeqb (h o x t) (h o e t) && qltb (k o x) (k o e)).

Lemma bl_lower_below x : active o x -> blowerb x = true -> below o t x e.
Proof.
  intros A Q. pose proof (active_S _ _ _ _ C A) as Sx. unfold blowerb in Q.
  assert (Mx : mx (S' o x) (S' o e) = t) by (rewrite bl_S; apply mx_eq_r; auto).
  assert (Q' : 0 <= d o x e t /\ (d o x e t = 0 -> 0 < ds c o x e)).
  { unfold dd, ds. apply orb_true_iff in Q. destruct Q as [Q|Q].
    - apply qltb_true in Q. split; [qlra|]. intros Q'. exfalso; qlra.
    - apply andb_true_iff in Q. destruct Q as [Q1 Q2]. apply qeqb_true in Q1. apply qltb_true in Q2.
      split; [qlra|]. intros _. qlra. }
  destruct Q' as [Q1 Q2]. constructor; rewrite ?Mx; auto.
Qed.
Lemma bl_upper_below x : active o x -> blowerb x = false -> (h o x t = h o e t -> k o x <> k o e) ->
  below o t e x.
Proof.
  intros A Q Kn. pose proof (active_S _ _ _ _ C A) as Sx. unfold blowerb in Q.
  assert (Mx : mx (S' o e) (S' o x) = t) by (rewrite bl_S; apply mx_eq_l; auto).
  assert (Q' : 0 <= d o e x t /\ (d o e x t = 0 -> 0 < ds c o e x)).
  { unfold dd, ds. apply orb_false_iff in Q. destruct Q as [Q1 Q2]. apply qltb_false in Q1.
    split; [qlra|]. intros Q3. assert (Eh : h o x t = h o e t) by qlra.
    rewrite (proj2 (qeqb_true _ _) Eh) in Q2. cbn [andb] in Q2. apply qltb_false in Q2.
    specialize (Kn Eh). qne; qlra. }
  destruct Q' as [Q1 Q2]. constructor; rewrite ?Mx; auto.
Qed.

(** Ordinary pieces: those tied with [e] begin with it and leave in another direction. *)
Definition ordinary (x : event) : Prop := h o x t = h o e t -> S' o x = t /\ k o x <> k o e.

Lemma bl_down x y : before (op_line o) x y -> ordinary x -> ordinary y ->
  blowerb y = true -> blowerb x = true.
Proof.
  intros B Ox Oy Q. pose proof (i_ord _ _ _ C x y B) as [B1 Bt B3]. unfold dd, ds in *.
  unfold blowerb in *. destruct (qltb (h o x t) (h o e t)) eqn:E1; auto. cbn [orb].
  apply qltb_false in E1. apply orb_true_iff in Q. destruct Q as [Q|Q].
  - apply qltb_true in Q. exfalso; qlra.
  - apply andb_true_iff in Q. destruct Q as [Q1 Q2]. apply qeqb_true in Q1. apply qltb_true in Q2.
    assert (Eh : h o x t = h o e t) by qlra.
    destruct (Ox Eh) as [Sx _]. destruct (Oy Q1) as [Sy _].
    assert (Mx : mx (S' o x) (S' o y) = t) by (rewrite Sx, Sy; apply mx_eq_r, Qcle_refl).
    rewrite (proj2 (qeqb_true _ _) Eh). cbn [andb]. apply qltb_true.
    rewrite Mx in *. destruct B3 as [[_ B3]|(_ & B3 & _)]; try qlra.
    rewrite (no_first c C0 o x W) in B3. discriminate.
Qed.

Section Lines.
Variables (l1 l2 : list event).
Hypothesis El : op_line o = l1 ++ l2.
Notation o1 := (relined o e (l1 ++ e :: l2)).

Lemma bl_In1 x : In x l1 -> active o x.
Proof. intros I. apply (i_line _ _ _ C). rewrite El. apply in_or_app; auto. Qed.
Lemma bl_In2 x : In x l2 -> active o x.
Proof. intros I. apply (i_line _ _ _ C). rewrite El. apply in_or_app; auto. Qed.

Lemma bl_popped x : popped o1 x <-> popped o x \/ x = e.
Proof.
  unfold popped. change (left_of o1 x) with (left_of o x).
  change (op_queue o1) with (op_queue (popping o e)). rewrite bl_queue. split.
  - intros [Lx I]. destruct (Nat.eq_dec x e) as [|NE]; auto. left. split; auto.
  - intros [[Lx I]| ->]; split; auto; try tauto. apply bl_left.
Qed.
Lemma bl_active x : active o1 x <-> active o x \/ x = e.
Proof.
  split.
  - intros (Lx & I & J). change (left_of o1 x) with (left_of o x) in Lx. change (opp o1 x) with (opp o x) in J.
    assert (P : popped o1 x) by (split; auto). apply bl_popped in P. destruct P as [[_ P]|P]; auto.
    left. split; auto. split; auto. apply bl_right_queue; auto.
  - intros Q. assert (P : popped o1 x).
    { apply bl_popped. destruct Q as [Q|Q]; auto. left. apply active_popped; auto. }
    assert (Lx : left_of o x) by (destruct Q as [Q| ->]; [apply Q|apply bl_left]).
    split; auto. split; [apply P|]. change (opp o1 x) with (opp o x).
    apply bl_right_queue; auto. destruct Q as [Q| ->]; [apply Q|]. apply (i_q2 _ _ _ C); auto.
Qed.
Lemma bl_done x : done o1 x <-> done o x.
Proof.
  unfold done. change (left_of o1 x) with (left_of o x). change (opp o1 x) with (opp o x).
  change (op_queue o1) with (op_queue (popping o e)).
  split; intros [Lx J]; split; auto; intros Q; apply J; apply bl_right_queue; auto.
Qed.
Lemma bl_base : base c o1.
Proof.
  split; [|split].
  - apply (same_wf c o); auto; repeat split.
  - intros x I. change (op_queue o1) with (op_queue (popping o e)) in I. apply bl_queue in I.
    apply (i_qsz _ _ _ C), I.
  - intros x I. change (left_of o1 x) with (left_of o x). change (op_line o1) with (l1 ++ e :: l2) in I.
    apply in_app_or in I. destruct I as [I|[<-|I]].
    + apply bl_In1 in I. apply I.
    + apply bl_left.
    + apply bl_In2 in I. apply I.
Qed.
Lemma bl_later : later c R (popping o e) o1.
Proof. apply (later_same c C0); [repeat split|reflexivity]. Qed.

(** The place of [e] by comparisons. *)
Definition below_e (x : event) : Prop := line_key_lt o x e = true /\ line_key_lt o e x = false.
Definition above_e (x : event) : Prop := line_key_lt o e x = true /\ line_key_lt o x e = false.
Hypothesis B1 : forall x, In x l1 -> below_e x.
Hypothesis B2 : forall x, In x l2 -> above_e x.

Lemma bl_first : op_first_count o = O.
Proof. rewrite (w_first c o W). exact C0. Qed.
Lemma bl_lookup shape i : registry_lookup shape i (popping o e) e = (l1, None, l2).
Proof.
  rewrite registry_lookup_eq by exact bl_first.
  unfold lookup. change (op_line (popping o e)) with (op_line o). rewrite El.
  assert (Q : forall x y, line_key_lt (popping o e) x y = line_key_lt o x y) by reflexivity.
  change (l1 ++ l2) with (l1 ++ [] ++ l2).
  rewrite (search_spec (shape (op_clock (popping o e)) i) (popping o e) e (length (l1 ++ [] ++ l2)) l1 [] l2); auto.
  - rewrite Q. apply (line_key_irrefl c o e W bl_left).
  - intros x I. rewrite Q. apply (B2 x I).
Qed.
Lemma bl_lookup1 o2 shape i : op_first_count o2 = O -> op_line o2 = l1 ++ e :: l2 ->
  line_key_lt o2 e e = false ->
  (forall x, In x l1 -> line_key_lt o2 x e = true /\ line_key_lt o2 e x = false) ->
  (forall x, In x l2 -> line_key_lt o2 e x = true /\ line_key_lt o2 x e = false) ->
  registry_lookup shape i o2 e = (l1, Some e, l2).
Proof.
  intros F E2 Ir K1 K2. rewrite registry_lookup_eq by exact F.
  unfold lookup. rewrite E2. change (l1 ++ e :: l2) with (l1 ++ [e] ++ l2).
  rewrite (search_spec (shape (op_clock o2) i) o2 e (length (l1 ++ [e] ++ l2)) l1 [e] l2); auto.
  intros x I. apply (K2 x I).
Qed.
Lemma bl_lookup2 shape i : registry_lookup shape i o1 e = (l1, Some e, l2).
Proof.
  apply bl_lookup1; auto.
  - exact bl_first.
  - apply (line_key_irrefl c o e W bl_left).
Qed.

Lemma bl_process shape :
  (forall x, hd_error (rev l1) = Some x -> ~ (pt o x = pt o e /\ to_event_end o x = to_event_end o e)) ->
  registry_process shape (set_op r (popping o e)) e =
  match registry_detect_optional shape 3 (set_op r o1) (hd_error (rev l1)) (Some e) with
  | None => None
  | Some r2 => registry_detect_optional shape 6 r2 (Some e) (registry_above shape 5 (rg_op r2) e)
  end.
Proof.
  intros Nf. unfold registry_process. rewrite Re. cbv zeta. cbn [rg_op set_op].
  unfold registry_find. rewrite bl_lookup.
  assert (F : match hd_error (rev l1) with
    | Some x => if point_eq (pt (popping o e) x) (pt (popping o e) e)
         && point_eq (to_event_end (popping o e) x) (to_event_end (popping o e) e) then Some x else None
    | None => None end = None).
  { destruct (hd_error (rev l1)) as [x|]; auto. destruct (_ && _) eqn:Q; auto. exfalso.
    apply andb_prop in Q. destruct Q as [Q1 Q2]. apply point_eq_true in Q1. apply point_eq_true in Q2.
    apply (Nf x eq_refl). auto. }
  rewrite F. unfold registry_add. rewrite bl_lookup.
  change (set_line (popping o e) (l1 ++ e :: l2)) with o1.
  unfold registry_below. rewrite bl_lookup2. reflexivity.
Qed.

(** ** An ordinary place *)
Section Ordinary.
Hypothesis Ord : forall x, active o x -> ordinary x.
Hypothesis P1 : forall x, In x l1 -> blowerb x = true.
Hypothesis P2 : forall x, In x l2 -> blowerb x = false.

Lemma bl_before x y : before (l1 ++ e :: l2) x y -> below o t x y.
Proof.
  intros B. apply before_app_cons in B. destruct B as [B|[[-> I]|[-> I]]].
  - rewrite <- El in B. apply (i_ord _ _ _ C); auto.
  - apply bl_lower_below; [apply bl_In1; auto|apply P1; auto].
  - apply bl_upper_below; [apply bl_In2; auto|apply P2; auto|]. intros Q. apply Ord; auto. apply bl_In2; auto.
Qed.
Lemma bl_core : core o1 t.
Proof.
  assert (Sp : same_pieces o o1) by (repeat split).
  constructor.
  - apply (same_wf c o o1 Sp W).
  - intros x I. apply bl_queue in I. apply (i_qsz _ _ _ C), I.
  - apply drop_event_NoDup, (i_qnd _ _ _ C).
  - intros x I. apply bl_queue in I. apply (i_q1 _ _ _ C), I.
  - intros x Lx I. change (left_of o1 x) with (left_of o x) in Lx.
    apply bl_queue in I. change (opp o1 x) with (opp o x). apply bl_right_queue; auto.
    apply (i_q2 _ _ _ C); auto. apply I.
  - intros x. rewrite bl_active, <- (i_line _ _ _ C), El. change (op_line o1) with (l1 ++ e :: l2).
    rewrite !in_app_iff. cbn. intuition.
  - intros x P. apply bl_popped in P. destruct P as [P| ->]; [apply (i_S _ _ _ C x P)|].
    change (S' o1 e) with (S' o e). rewrite bl_S. apply Qcle_refl.
  - intros x P. apply bl_done in P. apply (i_E _ _ _ C x P).
  - intros Y Z B. destruct (bl_before Y Z B) as [B1' B2' B3']. constructor; auto.
  - intros Y Z u PY PZ NE Lu A1 A2 A3 A4. apply bl_popped in PY. apply bl_popped in PZ.
    destruct PY as [PY| ->]; [destruct PZ as [PZ| ->]|].
    + apply (i_V _ _ _ C Y Z u PY PZ NE Lu A1 A2 A3 A4).
    + change (S' o1 e) with (S' o e) in A3. rewrite bl_S in A3. intros _; exfalso; qlra.
    + change (S' o1 e) with (S' o e) in A1. rewrite bl_S in A1. intros _; exfalso; qlra.
Qed.

Lemma same_start_tied x y : left_of o x -> left_of o y -> pt o x = pt o y -> h o x (S' o y) = h o y (S' o y).
Proof.
  intros Lx Ly Px. pose proof (w_S c o W x Lx) as Q1. pose proof (w_S c o W y Ly) as Q2.
  unfold SX in *. rewrite Px in Q1. congruence.
Qed.

Lemma bl_step shape : exists o3, registry_process shape (set_op r (popping o e)) e = Some (set_op r o3)
  /\ core o3 t /\ whole o3 /\ later c R (popping o e) o3
  /\ (forall x, active o3 x <-> active o x \/ x = e) /\ op_line o3 = l1 ++ e :: l2
  /\ (apline o -> apline o3).
Proof.
  assert (C1 := bl_core).
  assert (Ae : active o1 e) by (apply bl_active; auto).
  assert (Wh1 : whole o1) by (apply (whole_same c R o); [repeat split|auto]).
  assert (Same : forall x y, active o1 x -> active o1 y -> x <> y -> pt o1 x = pt o1 y -> k o1 x <> k o1 y).
  { intros x y Ax Ay Nxy Px Ek. apply (active_cross c C0 o1 t x y); auto.
    apply (col_slope c o1 x y (S' o1 y)); auto. apply same_start_tied; auto; [apply Ax|apply Ay]. }
  rewrite bl_process.
  2: { intros x Ix [Q1 Q2]. apply last_In in Ix. pose proof (bl_In1 x Ix) as Ax.
       assert (Q : h o x (S' o e) = h o e (S' o e)) by (apply same_start_tied; auto; [apply Ax|apply bl_left]).
       rewrite bl_S in Q. destruct (Ord x Ax Q) as [_ Nk]. apply Nk.
       apply (col_two c o x e (S' o e) (E' o e)); auto.
       - rewrite bl_S. pose proof bl_E. intros E. rewrite <- E in *. qlra.
       - rewrite bl_S. auto.
       - pose proof (w_E c o W x (proj1 Ax)) as F1. pose proof (w_E c o W e bl_left) as F2.
         unfold EX in *. unfold to_event_end in Q2. rewrite Q2 in F1. congruence. }
  assert (Step1 : exists o2, registry_detect_optional shape 3 (set_op r o1) (hd_error (rev l1)) (Some e) = Some (set_op r o2)
    /\ core o2 t /\ whole o2 /\ later c R o1 o2 /\ (forall x, active o2 x <-> active o1 x)
    /\ op_line o2 = l1 ++ e :: l2
    /\ (forall Y Z, left_of o1 Y -> left_of o1 Z -> apart c o1 Y Z -> apart c o2 Y Z)
    /\ (forall x, left_of o1 x -> k o2 x = k o1 x)
    /\ (forall b, hd_error (rev l1) = Some b -> apart c o2 b e)).
  { destruct (hd_error (rev l1)) as [b|] eqn:Eb; cbn [registry_detect_optional].
    - assert (Ib : In b l1) by (apply last_In; auto).
      assert (Ab : active o1 b) by (apply bl_active; left; apply bl_In1; auto).
      assert (Nb : b <> e) by (intros ->; apply bl_not_active, bl_In1; auto).
      destruct (detect_active_pair c G C0 R NB shape 3 (set_op r o1) t b e) as (o2 & D & C2 & Wh2 & Ap & Fr & Go & Aps & Ac); auto.
      + cbn [rg_op set_op]. intros Z0. exfalso. apply (active_cross c C0 o1 t b e); auto.
        intros u. specialize (Z0 u). unfold dd in Z0. qlra.
      + cbn [rg_op set_op]. intros x Ix Px Nx. apply Same; auto. apply (i_line _ _ _ C1); auto.
      + exists o2. cbn [rg_op set_op] in *. split; [exact D|]. split; auto. split; auto. split; [apply Go|]. split; auto.
        split; [apply (f_line _ _ _ _ _ _ Fr)|]. split; auto. split.
        * intros x Lx. unfold kk. rewrite (f_sid _ _ _ _ _ _ Fr x Lx). reflexivity.
        * intros b' Q. replace b' with b by congruence. auto.
    - exists o1. split; auto. split; auto. split; auto. split; [apply (later_refl c C0)|]. split; [reflexivity|].
      split; [reflexivity|]. split; auto. split; auto. discriminate. }
  destruct Step1 as (o2 & -> & C2 & Wh2 & La2 & Ac2 & Li2 & Ap2 & Kk2 & Apb).
  cbn [rg_op set_op].
  assert (Lk : registry_lookup shape 5 o2 e = (l1, Some e, l2)).
  { rewrite registry_lookup_eq; [|rewrite (w_first c o2 (i_wf _ _ _ C2)); exact C0].
    apply (lookup_present c o2 t); auto. }
  unfold registry_above. rewrite Lk.
  assert (Ae2 : active o2 e) by (apply Ac2; auto).
  assert (Ads : forall Y Z, adj l1 Y Z \/ adj l2 Y Z -> apline o -> left_of o1 Y /\ left_of o1 Z /\ apart c o2 Y Z).
  { intros Y Z A Al. assert (Q : left_of o1 Y /\ left_of o1 Z).
    { destruct A as [A|A]; apply adj_In in A; destruct A as [A1 A2]; split;
        solve [apply bl_In1; assumption | apply bl_In2; assumption]. }
    destruct Q as [Q1 Q2]. split; auto. split; auto. apply Ap2; auto.
    assert (Q : apart c o Y Z); [|exact Q]. apply Al. rewrite El.
    destruct A; [apply adj_app_l|apply adj_app_r]; auto. }
  destruct (hd_error l2) as [a|] eqn:Ea; cbn [registry_detect_optional].
  - assert (Ia : In a l2) by (apply hd_error_In; auto).
    assert (Aa : active o2 a) by (apply Ac2, bl_active; left; apply bl_In2; auto).
    assert (Na : e <> a) by (intros Q; apply bl_not_active; rewrite Q at 1; apply bl_In2; auto).
    destruct (detect_active_pair c G C0 R NB shape 6 (set_op r o2) t e a) as (o3 & D & C3 & Wh3 & Ap & Fr & Go & Aps & Ac); auto.
    + cbn [rg_op set_op]. intros Z0. exfalso. apply (active_cross c C0 o2 t e a); auto.
      intros u. specialize (Z0 u). unfold dd in Z0. qlra.
    + cbn [rg_op set_op]. intros x Ix Px Nx. apply (i_line _ _ _ C2) in Ix.
      rewrite !Kk2; try (apply Ac2; auto). apply Same; auto; try (apply Ac2; auto).
      rewrite <- !(la_pt _ _ _ _ La2); auto; apply Ac2; auto.
    + exists o3. cbn [rg_op set_op] in *. split; [exact D|]. split; auto. split; auto. split; [|split; [|split]].
      * apply (later_trans c C0 R _ o1); [apply bl_later|]. apply (later_trans c C0 R _ o2); auto. apply Go.
      * intros x. rewrite Ac, Ac2. apply bl_active.
      * rewrite (f_line _ _ _ _ _ _ Fr). auto.
      * intros Al Y Z A. rewrite (f_line _ _ _ _ _ _ Fr), Li2 in A.
        assert (L12 : forall x, left_of o1 x -> left_of o2 x) by (intros x; apply (later_left c C0 R o1 o2 x La2)).
        apply adj_app in A. destruct A as [A|[A|[A1 A2]]].
        -- destruct (Ads Y Z (or_introl A) Al) as (Q1 & Q2 & Q3). apply Aps; auto.
        -- change (e :: l2) with ([e] ++ l2) in A. apply adj_app in A. destruct A as [A|[A|[A1 A2]]].
           ++ destruct A as ([|? [|? ?]] & ? & A); discriminate.
           ++ destruct (Ads Y Z (or_intror A) Al) as (Q1 & Q2 & Q3). apply Aps; auto.
           ++ cbn in A1. replace Y with e by congruence. replace Z with a by congruence. auto.
        -- cbn in A2. replace Z with e by congruence. apply Aps; auto.
           ++ apply L12. apply last_In in A1. apply bl_In1 in A1. apply A1.
           ++ apply Ae2.
  - exists o2. split; auto. split; auto. split; auto. split; [|split; [|split; auto]].
    + apply (later_trans c C0 R _ o1); [apply bl_later|auto].
    + intros x. rewrite Ac2. apply bl_active.
    + intros Al Y Z A. rewrite Li2 in A. apply adj_app in A. destruct A as [A|[A|[A1 A2]]].
      * apply (Ads Y Z (or_introl A) Al).
      * destruct l2; [|discriminate]. destruct A as ([|? [|? ?]] & ? & A); discriminate.
      * cbn in A2. replace Z with e by congruence. auto.
Qed.
End Ordinary.
End Lines.

Lemma bl_ordinary shape : (forall x, active o x -> ordinary x) ->
  exists l1 l2 o3, op_line o = l1 ++ l2
  /\ registry_process shape (set_op r (popping o e)) e = Some (set_op r o3)
  /\ core o3 t /\ whole o3 /\ later c R (popping o e) o3
  /\ (forall x, active o3 x <-> active o x \/ x = e) /\ op_line o3 = l1 ++ e :: l2
  /\ (apline o -> apline o3).
Proof.
  intros Ord.
  destruct (split_down blowerb (op_line o)) as (l1 & l2 & El & P1 & P2).
  { intros x y B. pose proof (before_In _ _ _ B) as [Ix Iy]. apply (i_line _ _ _ C) in Ix.
    apply (i_line _ _ _ C) in Iy. apply bl_down; auto. }
  exists l1, l2.
  destruct (bl_step l1 l2 El) with (shape := shape) as (o3 & Q); auto.
  - intros x I. pose proof (bl_In1 l1 l2 El x I) as A. apply (lt_spec c o t x e W); try apply A; try apply bl_left.
    + apply bl_lower_below; auto.
    + apply (active_S _ _ _ _ C A).
    + rewrite bl_S. apply Qcle_refl.
    + apply (active_E _ _ _ _ C A).
    + pose proof bl_E; qlra.
  - intros x I. pose proof (bl_In2 l1 l2 El x I) as A. apply (lt_spec c o t e x W); try apply A; try apply bl_left.
    + apply bl_upper_below; auto. intros Q. apply (Ord x A Q).
    + rewrite bl_S. apply Qcle_refl.
    + apply (active_S _ _ _ _ C A).
    + pose proof bl_E; qlra.
    + apply (active_E _ _ _ _ C A).
  - exists o3. split; auto.
Qed.

(** Before [R] every piece is ordinary. *)
Lemma calm_ordinary x : t < R -> active o x -> ordinary x.
Proof.
  intros Tr A Eh. pose proof (active_S _ _ _ _ C A) as Sx. pose proof (Bey x A) as Ex. pose proof bl_E as Ee.
  assert (Nx : x <> e) by (intros ->; apply bl_not_active; auto).
  destruct (calm_pieces c R NB o x e t W (proj1 A) bl_left) as [Q _]; auto; try (rewrite ?bl_S; qlra).
  assert (S1 : S' o x = t) by (destruct Q as [Q|Q]; [auto|rewrite Q in Ex; qlra]).
  split; auto. intros Ek.
  apply (no_overlap c R NB o x e W (proj1 A) bl_left Nx); try (rewrite ?bl_S, ?S1; auto; fail).
  apply (col_slope c o x e t); auto.
Qed.
End LeftPop.
End Lefts.
