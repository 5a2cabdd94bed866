(** The Bentley-Ottmann sweep, part 3: events before the first critical abscissa and
    right events at it. *)
From Coq Require Import QArith Qcanon Bool List Arith Lia.
From Verif Require Import QcTac Model_Base Model_Utils Model_Linear Model_BentleyOttmann Spec_Base
  Spec_Sweep Proof_Base Proof_Line Proof_Sweep Proof_Sweep2 Proof_Sweep3 Proof_Sweep5 Proof_Sweep7
  Proof_Sweep8 Proof_Sweep9 Proof_Sweep10 Proof_Sweep11 Proof_Sweep12 Proof_Ottmann Proof_Ottmann2.
Import ListNotations.
Local Open Scope Qc_scope.

Lemma set_nth_same (n i : nat) : set_nth (seq 0 n) i i = seq 0 n.
Proof.
  assert (F : forall m s i, set_nth (seq s m) i (s + i)%nat = seq s m).
  { induction m as [|m IH]; intros s j; [destruct j; reflexivity|].
    destruct j as [|j]; cbn [seq set_nth].
    - rewrite Nat.add_0_r. reflexivity.
    - replace (s + S j)%nat with (S s + j)%nat by lia. rewrite IH. reflexivity. }
  apply (F n O i).
Qed.
Lemma nth_seq_id (n i : nat) : (i < n)%nat -> nth i (seq 0 n) O = i.
Proof. intros L. rewrite seq_nth; auto. Qed.
Lemma merge_self r l n : rg_min_collinear r = seq 0 n -> (sid (rg_op r) l < n)%nat ->
  merge_equal_segment_events r l l = r.
Proof.
  intros E L. unfold merge_equal_segment_events. rewrite E. rewrite (nth_seq_id n _ L), Nat.min_id.
  rewrite !set_nth_same. destruct r; cbn in *. congruence.
Qed.

Section Before.
Variable c : ctx.
Hypothesis G : good c.
Hypothesis C0 : c_first c = O.
Variable R : Qc.
Hypothesis NB : calm c R.
Notation S' := (SX c). Notation E' := (EX c). Notation h := (hh c). Notation k := (kk c).
Notation EV := (EVX c). Notation d := (dd c).
Notation Sx i := (X c (fst (input c i))).
Notation Ex i := (X c (snd (input c i))).
Notation core := (core c). Notation below := (below c).

Lemma no_first o x : wf c o -> firstop o x = false.
Proof. intros W. unfold is_left_event_from_first_operand. rewrite (w_first c o W), C0. reflexivity. Qed.

(** Before [R] different pieces meet in their common endpoints only. *)
Lemma calm_pieces o Y Z u : wf c o -> left_of o Y -> left_of o Z -> Y <> Z -> u < R ->
  S' o Y <= u -> u <= E' o Y -> S' o Z <= u -> u <= E' o Z -> h o Y u = h o Z u ->
  (u = S' o Y \/ u = E' o Y) /\ (u = S' o Z \/ u = E' o Z).
Proof.
  intros W LY LZ N U A1 A2 A3 A4 E.
  destruct (w_in c o W Y LY) as [I1 I2]. destruct (w_in c o W Z LZ) as [I3 I4].
  destruct (Nat.eq_dec (sid o Y) (sid o Z)) as [Es|Es].
  - destruct (w_disj c o W Y Z LY LZ N Es) as [Q|Q].
    + assert (u = E' o Y) by qlra. assert (u = S' o Z) by qlra. auto.
    + assert (u = S' o Y) by qlra. assert (u = E' o Z) by qlra. auto.
  - destruct (NB (sid o Y) (sid o Z) u) as [Q1 Q2]; auto; try (apply (w_sid c o W); auto); try qlra.
    split; [destruct Q1 as [Q|Q]; [left|right]; qlra|destruct Q2 as [Q|Q]; [left|right]; qlra].
Qed.
Lemma calm_V o t : wf c o -> t <= R -> vprop c o t.
Proof.
  intros W T Y Z u [LY _] [LZ _] N U A1 A2 A3 A4 E. left. apply (calm_pieces o Y Z u); auto. qlra.
Qed.
Lemma calm_th o t : wf c o -> t < R -> th c o t nobody.
Proof.
  intros W T Y Z LY LZ _ _ N [T1 T2] A3 A4 E. exfalso.
  destruct (calm_pieces o Y Z t) as [[Q|Q] _]; auto; try qlra; rewrite Q in *; qlra.
Qed.
Lemma no_overlap o Y Z : wf c o -> left_of o Y -> left_of o Z -> Y <> Z ->
  (forall t, h o Y t = h o Z t) -> S' o Y < R -> S' o Z < R -> S' o Y < E' o Z -> S' o Z < E' o Y -> False.
Proof.
  intros W LY LZ N Eh R1 R2 A B. pose proof (w_lt c o W Y LY) as L1. pose proof (w_lt c o W Z LZ) as L2.
  assert (F : forall m, S' o Y <= m -> S' o Z <= m -> m < R -> m < E' o Y -> m < E' o Z -> False).
  { intros m M1 M2 M3 M4 M5.
    assert (Q : exists u, m < u /\ u < R /\ u < E' o Y /\ u < E' o Z).
    { destruct (Qclt_le_dec (E' o Y) (E' o Z)) as [P1|P1];
      destruct (Qclt_le_dec R (E' o Y)) as [P2|P2]; destruct (Qclt_le_dec R (E' o Z)) as [P3|P3];
      try (destruct (middle m R M3) as (u & ? & ?); exists u; repeat split; qlra);
      try (destruct (middle m (E' o Y) M4) as (u & ? & ?); exists u; repeat split; qlra);
      try (destruct (middle m (E' o Z) M5) as (u & ? & ?); exists u; repeat split; qlra). }
    destruct Q as (u & U1 & U2 & U3 & U4).
    destruct (calm_pieces o Y Z u) as [[Q|Q] _]; auto; try qlra; rewrite Q in *; qlra. }
  destruct (Qclt_le_dec (S' o Y) (S' o Z)) as [P|P].
  - apply (F (S' o Z)); auto; qlra.
  - apply (F (S' o Y)); auto; qlra.
Qed.

(** ** What the pieces are of the inputs *)
Definition whole (o : operation) : Prop := forall l, left_of o l ->
  (R <= S' o l \/ S' o l = Sx (sid o l)) /\ (R <= E' o l \/ E' o l = Ex (sid o l))
  /\ (E' o l = Ex (sid o l) \/ exists l', left_of o l' /\ sid o l' = sid o l /\ S' o l' = E' o l).

Lemma whole_same o o' : same_pieces o o' -> whole o -> whole o'.
Proof.
  destruct o, o'; unfold same_pieces; cbn; intros (-> & -> & -> & ->) W. exact W.
Qed.
Lemma whole_divided o l m mid o' : wf c o -> left_of o l -> left_of o m -> l <> m -> cut c o l m mid ->
  divided o l mid o' -> whole o -> whole o'.
Proof.
  intros W Ll Lm N Cu D Wh. pose proof (cut_late c R NB o l m mid W Ll Lm N Cu) as Lr.
  assert (Sn : S' o' (size o) = X c mid) by apply (div_S_new c o o' l mid D).
  intros x Lx. apply (div_left c o o' l mid W D) in Lx. destruct Lx as [Lx| ->].
  - destruct (Wh x Lx) as (A1 & A2 & A3). rewrite (div_S c o o' l mid D x Lx), (d_sid _ _ _ _ D x Lx).
    split; auto. destruct (Nat.eq_dec x l) as [->|Nx].
    + rewrite (div_E_same c o o' l mid W Ll D). split; auto. right. exists (size o). split; [|split].
      * apply (div_left c o o' l mid W D); auto.
      * apply (d_sid1 _ _ _ _ D).
      * exact Sn.
    + rewrite (div_E_other c o o' l mid W Ll D x Lx Nx). split; auto. destruct A3 as [A3|(y & Ly & B1 & B2)]; auto.
      right. exists y. split; [apply (div_left_old c o o' l mid W D); auto|]. rewrite (d_sid _ _ _ _ D y Ly).
      rewrite (div_S c o o' l mid D y Ly). auto.
  - destruct (Wh l Ll) as (A1 & A2 & A3). rewrite Sn, (d_sid1 _ _ _ _ D).
    rewrite (div_E_new c o o' l mid W Ll D). split; auto. split; auto.
    destruct A3 as [A3|(y & Ly & B1 & B2)]; auto.
    right. exists y. split; [apply (div_left_old c o o' l mid W D); auto|]. rewrite (d_sid _ _ _ _ D y Ly).
    rewrite (div_S c o o' l mid D y Ly). auto.
Qed.
Lemma whole_cuts Y Z o o' : cuts c Y Z o o' -> wf c o -> left_of o Y -> left_of o Z -> Y <> Z ->
  whole o -> whole o' /\ wf c o'.
Proof.
  intros Cs. induction Cs as [o|o l m mid o1 o2 P Cu D Cs IH]; intros W LY LZ N Wh; auto.
  assert (Ll : left_of o l /\ left_of o m /\ l <> m) by (destruct P as [[-> ->]|[-> ->]]; auto).
  destruct Ll as (Ll & Lm & Nlm).
  apply IH; auto; try (apply (div_left_old c o o1 l mid W D); auto).
  - destruct Cu. apply (wf_divided c o o1 l mid W Ll D); auto.
  - apply (whole_divided o l m mid o1); auto.
Qed.

(** ** The invariant *)
Definition apline (o : operation) : Prop := forall Y Z, adj (op_line o) Y Z -> apart c o Y Z.

Record steady (o : operation) (t : Qc) : Prop := {
  s_core : core o t;
  s_apart : apline o;
  s_whole : whole o }.

Lemma core_base o t : core o t -> base c o.
Proof.
  intros C. split; [apply (i_wf _ _ _ C)|]. split; [apply (i_qsz _ _ _ C)|].
  intros l I. apply (i_line _ _ _ C) in I. apply I.
Qed.
Lemma apart_dline o : apline o -> dline c o (op_line o).
Proof. intros A Y Z Ad. left. auto. Qed.

Lemma steady_next o t t' : steady o t -> t < t' -> t' <= R ->
  (forall e, In e (op_queue o) -> t' <= EV o e) -> steady o t'.
Proof.
  intros [C A Wh] Lt Le Qu. constructor; auto.
  apply (next_core c o t t' C (apart_dline o A)); auto. apply calm_th; [apply (i_wf _ _ _ C)|qlra].
Qed.

(** Active pieces lie on different lines. *)
Lemma active_cross o t x y : core o t -> active o x -> active o y -> x <> y -> (forall u, h o x u = h o y u) -> False.
Proof.
  intros C Ax Ay Nxy Eh. pose proof (i_wf _ _ _ C) as W.
  pose proof (active_S _ _ _ _ C Ax). pose proof (active_S _ _ _ _ C Ay).
  pose proof (active_E _ _ _ _ C Ax). pose proof (active_E _ _ _ _ C Ay).
  pose proof (w_lt c o W x (proj1 Ax)). pose proof (w_lt c o W y (proj1 Ay)).
  assert (Kq : forall x y, active o x -> active o y -> (forall u, h o x u = h o y u) -> before (op_line o) x y -> False).
  { intros x' y' Ax' Ay' Eh' Bf. destruct (i_ord _ _ _ C _ _ Bf) as [_ _ B3]. unfold dd, ds in B3. rewrite !Eh' in B3.
    destruct B3 as [[B3 B4]|(_ & B4 & _)]; try ring.
    - pose proof (h_affine c o x' 1 0) as Q1. pose proof (h_affine c o y' 1 0) as Q2.
      rewrite !Eh' in Q1. qlra.
    - rewrite (no_first o x' W) in B4. discriminate. }
  destruct (before_total (op_line o) x y) as [Bf|Bf]; auto; try (apply (i_line _ _ _ C); auto).
  - apply (Kq x y); auto.
  - apply (Kq y x); auto.
Qed.

(** ** Detections between active pieces *)
Lemma detect_active_pair shape index r t Y Z : core (rg_op r) t -> whole (rg_op r) ->
  active (rg_op r) Y -> active (rg_op r) Z -> Y <> Z ->
  ((forall t, d (rg_op r) Y Z t = 0) -> S' (rg_op r) Z < E' (rg_op r) Y -> S' (rg_op r) Y < E' (rg_op r) Z -> False) ->
  (forall x, In x (op_line (rg_op r)) -> pt (rg_op r) x = pt (rg_op r) Z -> x <> Z ->
     k (rg_op r) x <> k (rg_op r) Z) ->
  exists o', registry_detect shape index r Y Z = Some (set_op r o')
  /\ core o' t /\ whole o' /\ apart c o' Y Z /\ frame c (rg_op r) o' t Y Z /\ goes c R (rg_op r) o'
  /\ (forall Y0 Z0, left_of (rg_op r) Y0 -> left_of (rg_op r) Z0 ->
        apart c (rg_op r) Y0 Z0 -> apart c o' Y0 Z0)
  /\ (forall x, active o' x <-> active (rg_op r) x).
Proof.
  intros C Wh AY AZ N NO NA. pose proof (core_base _ _ C) as B. pose proof (i_wf _ _ _ C) as W.
  assert (LY := proj1 AY). assert (LZ := proj1 AZ).
  destruct (detect_strong c G C0 R NB shape index r Y Z B LY LZ NO NA N) as (o' & Q & Cs & Ap).
  exists o'. split; auto.
  destruct (cuts_frame c Y Z (rg_op r) o' t Cs C AY AZ N) as (C' & F & _ & _ & Ac & _).
  destruct (whole_cuts Y Z (rg_op r) o' Cs W LY LZ N Wh) as [Wh' _].
  split; auto. split; auto. split; auto. split; auto. split; [|split; auto].
  - apply (detect_goes c G C0 R NB shape index r Y Z B LY LZ (set_op r o')); auto.
  - clear - Cs C AY AZ N. intros Y0 Z0. revert C AY AZ.
    induction Cs as [o|o l m mid o1 o2 P K D Cs IH]; intros C AY AZ L1 L2 Ap; auto.
    assert (Al : active o l) by (destruct P as [[-> _]|[-> _]]; auto).
    assert (Am : active o m) by (destruct P as [[_ ->]|[_ ->]]; auto).
    assert (Nlm : l <> m) by (destruct P as [[-> ->]|[-> ->]]; auto).
    pose proof (oc_core c o o1 t l m mid C Al Am Nlm K D) as C1.
    pose proof (oc_active c o o1 t l m mid C Al Nlm D) as Ac1.
    apply IH; [exact C1|apply Ac1; auto|apply Ac1; auto
      |apply (oc_old c o o1 t l mid C D); auto|apply (oc_old c o o1 t l mid C D); auto|].
    apply (oc_apart c o o1 t l m mid C Al K D); auto.
Qed.

Section Pop.
Variables (r : registry) (t : Qc) (e : event).
Notation o := (rg_op r).
Hypothesis V : steady o t.
Hypothesis Ie : In e (op_queue o).
Hypothesis Et : EV o e = t.
Let C : core o t := s_core _ _ V.
Let W : wf c o := i_wf _ _ _ C.

Lemma bp_lt : (e < size o)%nat.
Proof. apply (i_qsz _ _ _ C), Ie. Qed.
Lemma bp_queue x : In x (op_queue (popping o e)) <-> In x (op_queue o) /\ x <> e.
Proof. apply drop_event_iff, (i_qnd _ _ _ C). Qed.
Lemma bp_opp_right x : left_of o x -> is_event_left (opp o x) = false.
Proof. intros [Lx Sx]. destruct (k_opp o (w_linked c o W) x Sx) as (_ & _ & ->). rewrite Lx. reflexivity. Qed.

(** ** Right events *)
Section Right.
Hypothesis Re : is_event_left e = false.
Notation l := (opp o e).
Lemma br_opp : opp o l = e.
Proof. apply (k_opp o (w_linked c o W)), bp_lt. Qed.
Lemma br_left : left_of o l.
Proof.
  destruct (k_opp o (w_linked c o W) e bp_lt) as (Q1 & Q2 & Q3). split; auto. rewrite Q3, Re. reflexivity.
Qed.
Lemma br_E : E' o l = t.
Proof. unfold EX. rewrite br_opp. exact Et. Qed.
Lemma br_active : active o l.
Proof.
  split; [apply br_left|]. split; [|rewrite br_opp; apply Ie].
  intros I. apply (i_q1 _ _ _ C) in I. pose proof (w_lt c o W l br_left) as Q. rewrite br_E in Q.
  unfold EVX, SX in *. qlra.
Qed.
Lemma br_left_queue x : left_of o x -> (In x (op_queue (popping o e)) <-> In x (op_queue o)).
Proof.
  intros Lx. rewrite bp_queue. split; [tauto|]. intros I. split; auto. intros ->.
  destruct Lx as [Lx _]. congruence.
Qed.
Lemma br_right_queue x : left_of o x ->
  (In (opp o x) (op_queue (popping o e)) <-> In (opp o x) (op_queue o) /\ x <> l).
Proof.
  intros Lx. rewrite bp_queue. split; intros [I Q]; split; auto.
  - intros ->. apply Q, br_opp.
  - intros Q'. apply Q. rewrite <- Q'. symmetry. apply (core_opp c o t x C Lx).
Qed.
Section Lines.
Variables (l1 l2 : list event).
Hypothesis El : op_line o = l1 ++ l :: l2.
Notation o1 := (relined o e (l1 ++ l2)).
Lemma br_popped x : popped o1 x <-> popped o x.
Proof.
  unfold popped. change (left_of o1 x) with (left_of o x).
  change (op_queue o1) with (op_queue (popping o e)). split; intros [Lx I]; split; auto; intros Q; apply I;
    apply br_left_queue; auto.
Qed.
Lemma br_active1 x : active o1 x <-> active o x /\ x <> l.
Proof.
  unfold active. change (left_of o1 x) with (left_of o x). change (opp o1 x) with (opp o x).
  change (op_queue o1) with (op_queue (popping o e)). split.
  - intros (Lx & I & J). apply br_right_queue in J; auto. destruct J as [J NE].
    split; auto. split; auto. split; auto. intros Q; apply I. apply br_left_queue; auto.
  - intros ((Lx & I & J) & NE). split; auto. split.
    + intros Q; apply I. apply br_left_queue in Q; auto.
    + apply br_right_queue; auto.
Qed.
Lemma br_done1 x : done o1 x <-> done o x \/ x = l.
Proof.
  unfold done. change (left_of o1 x) with (left_of o x). change (opp o1 x) with (opp o x).
  change (op_queue o1) with (op_queue (popping o e)). split.
  - intros [Lx J]. destruct (Nat.eq_dec x l) as [|NE]; auto. left. split; auto.
    intros Q; apply J. apply br_right_queue; auto.
  - intros [[Lx J]| ->].
    + split; auto. intros Q; apply br_right_queue in Q; auto. tauto.
    + split; [apply br_left|]. intros Q; apply br_right_queue in Q; [tauto|apply br_left].
Qed.
Lemma br_In x : In x (l1 ++ l2) <-> In x (op_line o) /\ x <> l.
Proof.
  rewrite El. split.
  - intros I. assert (I' : In x (l1 ++ l :: l2)) by (apply in_app_or in I; apply in_or_app; cbn; tauto).
    split; auto. intros ->. apply in_app_or in I. destruct I as [I|I]; apply in_split in I; destruct I as (u & v & ->).
    + apply (line_irrefl c o t l C). rewrite El. exists u, v, l2. rewrite <- app_assoc. reflexivity.
    + apply (line_irrefl c o t l C). rewrite El. exists l1, u, v. reflexivity.
  - intros [I NE]. apply in_app_or in I. apply in_or_app. destruct I as [I|[I|I]]; auto. congruence.
Qed.
Lemma br_core : core o1 t.
Proof.
  assert (Sp : same_pieces o o1) by (repeat split).
  constructor.
  - apply (same_wf c o o1 Sp W).
  - intros x I. apply bp_queue in I. apply (i_qsz _ _ _ C), I.
  - apply drop_event_NoDup, (i_qnd _ _ _ C).
  - intros x I. apply bp_queue in I. apply (i_q1 _ _ _ C), I.
  - intros x Lx I. apply br_left_queue in I; auto. apply br_right_queue; auto. split.
    + apply (i_q2 _ _ _ C); auto.
    + intros ->. apply br_active in I. auto.
  - intros x. change (op_line o1) with (l1 ++ l2). rewrite br_In, br_active1, (i_line _ _ _ C). reflexivity.
  - intros x P. apply br_popped in P. apply (i_S _ _ _ C x P).
  - intros x P. apply br_done1 in P. destruct P as [P| ->].
    + apply (i_E _ _ _ C x P).
    + change (E' o1 l) with (E' o l). rewrite br_E. apply Qcle_refl.
  - intros Y Z B. change (op_line o1) with (l1 ++ l2) in B.
    pose proof (before_drop l1 l2 l Y Z B) as B'. rewrite <- El in B'.
    destruct (i_ord _ _ _ C Y Z B') as [B1 B2 B3]. constructor; auto.
  - intros Y Z u PY PZ. apply br_popped in PY. apply br_popped in PZ. apply (i_V _ _ _ C Y Z u PY PZ).
Qed.

Variable n : nat.
Hypothesis Mi : rg_min_collinear r = seq 0 n.
Hypothesis Len : n = length (c_ins c).

Lemma br_process shape : registry_process shape (set_op r (popping o e)) e =
  match registry_detect_optional shape 4 (set_op r o1) (hd_error (rev l1)) (hd_error l2) with
  | None => None
  | Some r' => Some (merge_equal_segment_events r' l l)
  end.
Proof.
  assert (F0 : op_first_count (popping o e) = O).
  { change (op_first_count (popping o e)) with (op_first_count o). rewrite (w_first c o W). exact C0. }
  assert (Lk : forall i, registry_lookup shape i (popping o e) l = (l1, Some l, l2)).
  { intros i. rewrite registry_lookup_eq by exact F0. apply (lookup_present c o t); auto. }
  unfold registry_process. cbv zeta. rewrite Re. cbn [rg_op set_op].
  change (opp (popping o e) e) with l. rewrite (proj1 br_left).
  unfold registry_find. rewrite Lk.
  assert (E : forall p, point_eq p p = true) by (intros p; apply point_eq_true; auto).
  rewrite !E. cbn [andb].
  unfold registry_above, registry_below, registry_remove. rewrite !Lk. cbv zeta.
  assert (Ne : (e =? l)%nat = false).
  { apply Nat.eqb_neq. intros Q. pose proof (proj1 br_left) as Q2. rewrite <- Q in Q2. congruence. }
  rewrite Ne. reflexivity.
Qed.

Lemma br_step shape : exists o2, registry_process shape (set_op r (popping o e)) e = Some (set_op r o2)
  /\ steady o2 t /\ later c R (popping o e) o2
  /\ (forall x, active o2 x <-> active o x /\ x <> l) /\ op_line o2 = l1 ++ l2.
Proof.
  rewrite br_process. assert (C1 := br_core).
  assert (A1 : forall Y Z, adj l1 Y Z \/ adj l2 Y Z -> apart c o1 Y Z).
  { intros Y Z A. assert (Q : apart c o Y Z); [|exact Q]. apply (s_apart _ _ V). rewrite El.
    destruct A as [A|A]; [apply adj_app_l; auto|].
    change (l1 ++ l :: l2) with (l1 ++ [l] ++ l2). rewrite app_assoc. apply adj_app_r; auto. }
  assert (Wh1 : whole o1) by (apply (whole_same o); [repeat split|apply (s_whole _ _ V)]).
  assert (La1 : later c R (popping o e) o1) by (apply (later_same c C0); [repeat split|reflexivity]).
  assert (Mer : forall o2, (sid o2 l = sid o l) -> merge_equal_segment_events (set_op r o2) l l = set_op r o2).
  { intros o2 Es. apply (merge_self _ l n); auto. cbn [rg_op set_op]. rewrite Es, Len.
    apply (w_sid c o W), br_left. }
  assert (None1 : hd_error (rev l1) = None \/ hd_error l2 = None -> steady o1 t).
  { intros Q. constructor; auto. intros Y Z A. change (op_line o1) with (l1 ++ l2) in A.
    apply adj_app in A. destruct A as [A|[A|[A2 A3]]]; auto. destruct Q; congruence. }
  destruct (hd_error (rev l1)) as [b|] eqn:Eb; cbn [registry_detect_optional].
  2: { exists o1. rewrite (Mer o1 eq_refl). split; auto. split; auto. split; auto. split; [exact br_active1|reflexivity]. }
  destruct (hd_error l2) as [a|] eqn:Ea; cbn [registry_detect_optional].
  2: { exists o1. rewrite (Mer o1 eq_refl). split; auto. split; auto. split; auto. split; [exact br_active1|reflexivity]. }
  assert (Ib : In b (op_line o1)) by (apply in_or_app; left; apply last_In; auto).
  assert (Ia : In a (op_line o1)) by (apply in_or_app; right; apply hd_error_In; auto).
  apply (i_line _ _ _ C1) in Ib. apply (i_line _ _ _ C1) in Ia.
  assert (Ad : adj (op_line o1) b a).
  { destruct l2 as [|a' q]; [discriminate|]. injection Ea as ->. apply last_adj; auto. }
  assert (NE : b <> a) by (intros ->; apply (line_irrefl c o1 t a C1), adj_before, Ad).
  assert (NA : forall x y, active o1 x -> active o1 y -> x <> y -> (forall u, h o1 x u = h o1 y u) -> False).
  { intros x y. apply (active_cross o1 t); auto. }
  destruct (detect_active_pair shape 4 (set_op r o1) t b a) as (o2 & D & C2 & Wh2 & Ap & Fr & Go & Aps & Ac); auto.
  - intros Z0. exfalso. apply (NA b a); auto. intros u. specialize (Z0 u). unfold dd in Z0. cbn [rg_op set_op] in Z0. qlra.
  - cbn [rg_op set_op]. intros x Ix Px Nx Ek. apply (i_line _ _ _ C1) in Ix. apply (NA x a); auto.
    pose proof (i_wf _ _ _ C1) as W1.
    apply (col_slope c o1 x a (S' o1 a)); auto.
    pose proof (w_S c o1 W1 x (proj1 Ix)) as Q1. pose proof (w_S c o1 W1 a (proj1 Ia)) as Q2.
    unfold SX in *. rewrite Px in Q1. congruence.
  - rewrite D. exists o2. cbn [rg_op set_op] in *.
    change (set_op (set_op r o1) o2) with (set_op r o2).
    pose proof (f_line _ _ _ _ _ _ Fr) as Fl. change (op_line o1) with (l1 ++ l2) in Fl.
    rewrite Mer; [|apply (f_sid _ _ _ _ _ _ Fr); exact br_left].
    split; auto. split; [|split; [|split; auto]].
    + constructor; auto. intros Y Z A. rewrite Fl in A. apply adj_app in A.
      destruct A as [A|[A|[A2 A3]]].
      * apply Aps; auto; apply adj_In in A; destruct A as [I1 I2].
        -- apply (i_line _ _ _ C1). apply in_or_app; auto.
        -- apply (i_line _ _ _ C1). apply in_or_app; auto.
      * apply Aps; auto; apply adj_In in A; destruct A as [I1 I2].
        -- apply (i_line _ _ _ C1). apply in_or_app; auto.
        -- apply (i_line _ _ _ C1). apply in_or_app; auto.
      * replace Y with b by congruence. replace Z with a by congruence. exact Ap.
    + apply (later_trans c C0 R _ o1); auto. apply Go.
    + intros x. rewrite Ac. apply br_active1.
Qed.
End Lines.

Lemma br_split : exists l1 l2, op_line o = l1 ++ l :: l2.
Proof. apply in_split. apply (i_line _ _ _ C), br_active. Qed.
End Right.
End Pop.
End Before.
