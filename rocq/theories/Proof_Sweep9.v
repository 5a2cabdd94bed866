(** The plane sweep, part 9: the invariant of the sweep and divisions. *)
From Coq Require Import QArith Qcanon Bool List Arith Lia.
From Verif Require Import QcTac Model_Base Model_Utils Model_Linear Spec_Base Spec_Sweep
  Proof_Base Proof_Line Proof_Sweep Proof_Sweep2 Proof_Sweep3 Proof_Sweep5 Proof_Sweep7
  Proof_Sweep8.
Import ListNotations.
Local Open Scope Qc_scope.

(** ** Positions in a list *)
Definition before {A} (l : list A) (x y : A) : Prop := exists l1 l2 l3, l = l1 ++ x :: l2 ++ y :: l3.
Definition adj {A} (l : list A) (x y : A) : Prop := exists l1 l2, l = l1 ++ x :: y :: l2.

Lemma adj_before {A} (l : list A) x y : adj l x y -> before l x y.
Proof. intros (l1 & l2 & ->). exists l1, [], l2. reflexivity. Qed.
Lemma before_In {A} (l : list A) x y : before l x y -> In x l /\ In y l.
Proof.
  intros (l1 & l2 & l3 & ->). split; apply in_or_app; right; [left; auto|right].
  apply in_or_app; right; left; auto.
Qed.
Lemma adj_In {A} (l : list A) x y : adj l x y -> In x l /\ In y l.
Proof. intros Q. apply before_In, adj_before, Q. Qed.
Lemma before_next {A} (l : list A) x y : before l x y ->
  exists w, adj l x w /\ (w = y \/ before l w y).
Proof.
  intros (l1 & [|w l2] & l3 & ->).
  - exists y. split; auto. exists l1, l3. reflexivity.
  - exists w. split; [exists l1, (l2 ++ y :: l3); reflexivity|]. right.
    exists (l1 ++ [x]), l2, l3. rewrite <- app_assoc. reflexivity.
Qed.
Lemma before_prev {A} (l : list A) x y : before l x y ->
  exists w, adj l w y /\ (w = x \/ before l x w).
Proof.
  intros (l1 & l2 & l3 & ->). destruct (rev l2) as [|w r] eqn:E.
  - assert (l2 = []) by (rewrite <- (rev_involutive l2), E; reflexivity). subst l2.
    exists x. split; auto. exists l1, l3. reflexivity.
  - assert (l2 = rev r ++ [w]) by (rewrite <- (rev_involutive l2), E; reflexivity). subst l2.
    exists w. split.
    + exists (l1 ++ x :: rev r), l3. rewrite <- !app_assoc. reflexivity.
    + right. exists l1, (rev r), (y :: l3). rewrite <- app_assoc. reflexivity.
Qed.
Lemma before_total {A} (l : list A) x y : In x l -> In y l -> x <> y -> before l x y \/ before l y x.
Proof.
  intros Ix Iy NE. apply in_split in Ix. destruct Ix as (l1 & l2 & ->).
  apply in_app_or in Iy. destruct Iy as [I|[I|I]]; [|contradiction|].
  - right. apply in_split in I. destruct I as (a & b & ->). exists a, b, l2.
    rewrite <- app_assoc. reflexivity.
  - left. apply in_split in I. destruct I as (a & b & ->). exists l1, a, b. reflexivity.
Qed.
Lemma adj_chain {A} (R : A -> A -> Prop) (l : list A) :
  (forall x y z, R x y -> R y z -> R x z) -> (forall x y, adj l x y -> R x y) ->
  forall x y, before l x y -> R x y.
Proof.
  intros T Ad x y (l1 & l2 & l3 & El). revert l1 x El.
  induction l2 as [|w l2 IH]; intros l1 x El.
  - apply Ad. exists l1, l3. exact El.
  - apply (T x w y).
    + apply Ad. exists l1, (l2 ++ y :: l3). exact El.
    + apply (IH (l1 ++ [x])). rewrite <- app_assoc. exact El.
Qed.
Lemma before_app_cons {A} (l1 l2 : list A) e x y : before (l1 ++ e :: l2) x y ->
  before (l1 ++ l2) x y \/ (y = e /\ In x l1) \/ (x = e /\ In y l2).
Proof.
  revert x y. induction l1 as [|a l1 IH]; intros x y (p & q & r & E); cbn in E.
  - destruct p as [|b p]; cbn in E.
    + injection E as -> ->. right; right. split; auto. apply in_or_app; right; left; auto.
    + injection E as -> ->. left. exists p, q, r. reflexivity.
  - destruct p as [|b p]; cbn in E.
    + injection E as -> E. assert (I : In y (l1 ++ e :: l2)) by (rewrite E; apply in_or_app; right; left; auto).
      apply in_app_or in I. destruct I as [I|[->|I]].
      * left. apply in_split in I. destruct I as (u & v & ->). exists [], u, (v ++ l2). cbn.
        rewrite <- app_assoc. reflexivity.
      * right; left. split; auto. left; auto.
      * left. apply in_split in I. destruct I as (u & v & ->). exists [], (l1 ++ u), v. cbn.
        rewrite <- app_assoc. reflexivity.
    + injection E as -> E. destruct (IH x y) as [(p' & q' & r' & E')|[[-> I]|[-> I]]].
      * exists p, q, r. exact E.
      * left. exists (b :: p'), q', r'. cbn. rewrite E'. reflexivity.
      * right; left. split; auto. right; auto.
      * right; right. auto.
Qed.
Lemma before_drop {A} (l1 l2 : list A) e x y : before (l1 ++ l2) x y -> before (l1 ++ e :: l2) x y.
Proof.
  revert x y. induction l1 as [|a l1 IH]; intros x y (p & q & r & E); cbn in E.
  - subst l2. exists (e :: p), q, r. reflexivity.
  - destruct p as [|b p]; cbn in E.
    + injection E as -> E. assert (I : In y (l1 ++ l2)) by (rewrite E; apply in_or_app; right; left; auto).
      assert (I' : In y (l1 ++ e :: l2)) by (apply in_app_or in I; apply in_or_app; cbn; tauto).
      apply in_split in I'. destruct I' as (u & v & E'). exists [], u, v. cbn. rewrite E'. reflexivity.
    + injection E as -> E. destruct (IH x y) as (p' & q' & r' & E').
      * exists p, q, r; auto.
      * exists (b :: p'), q', r'. cbn. rewrite E'. reflexivity.
Qed.
Lemma adj_app {A} (l1 l2 : list A) x y : adj (l1 ++ l2) x y ->
  adj l1 x y \/ adj l2 x y \/ (hd_error (rev l1) = Some x /\ hd_error l2 = Some y).
Proof.
  revert x y. induction l1 as [|a l1 IH]; intros x y (p & q & E); cbn in E.
  - right; left. exists p, q. auto.
  - destruct p as [|b p]; cbn in E.
    + injection E as -> E. destruct l1 as [|b l1]; cbn in E.
      * right; right. rewrite E. split; reflexivity.
      * injection E as -> E. left. exists [], l1. reflexivity.
    + injection E as -> E. destruct (IH x y) as [(u & v & E')|[Q|[Q1 Q2]]].
      * exists p, q; auto.
      * left. exists (b :: u), v. cbn. rewrite E'. reflexivity.
      * auto.
      * right; right. split; auto. cbn. destruct (rev l1); [discriminate|exact Q1].
Qed.
Lemma adj_app_l {A} (l1 l2 : list A) x y : adj l1 x y -> adj (l1 ++ l2) x y.
Proof. intros (u & v & ->). exists u, (v ++ l2). rewrite <- app_assoc. reflexivity. Qed.
Lemma adj_app_r {A} (l1 l2 : list A) x y : adj l2 x y -> adj (l1 ++ l2) x y.
Proof. intros (u & v & ->). exists (l1 ++ u), v. rewrite <- app_assoc. reflexivity. Qed.
Lemma last_adj {A} (l1 l2 : list A) x y : hd_error (rev l1) = Some x -> adj (l1 ++ y :: l2) x y.
Proof.
  intros E. destruct (rev l1) as [|w r] eqn:R; [discriminate|]. injection E as ->.
  assert (l1 = rev r ++ [x]) by (rewrite <- (rev_involutive l1), R; reflexivity). subst l1.
  exists (rev r), l2. rewrite <- app_assoc. reflexivity.
Qed.
Lemma hd_adj {A} (l1 l2 : list A) x y : hd_error l2 = Some y -> adj (l1 ++ x :: l2) x y.
Proof. intros E. destruct l2 as [|w r]; [discriminate|]. injection E as ->. exists l1, r. reflexivity. Qed.
Lemma last_In {A} (l : list A) x : hd_error (rev l) = Some x -> In x l.
Proof. intros E. apply hd_error_In in E. apply in_rev; auto. Qed.

(** ** The invariant *)
Section Invariant.
Variable c : ctx.
Hypothesis G : good c.
Hypothesis N : nc c.
Notation S' := (SX c). Notation E' := (EX c). Notation h := (hh c). Notation k := (kk c).
Notation EV := (EVX c). Notation col := (col c). Notation below := (below c).

Definition popped (o : operation) (l : event) : Prop := left_of o l /\ ~ In l (op_queue o).
Definition active (o : operation) (l : event) : Prop :=
  left_of o l /\ ~ In l (op_queue o) /\ In (opp o l) (op_queue o).
Definition done (o : operation) (l : event) : Prop := left_of o l /\ ~ In (opp o l) (op_queue o).
Definition mates (o : operation) (Y Z : event) : Prop := col o Y Z /\ S' o Y = S' o Z.

Definition vprop (o : operation) (t : Qc) : Prop :=
  forall Y Z u, popped o Y -> popped o Z -> Y <> Z -> u < t ->
    S' o Y <= u -> u <= E' o Y -> S' o Z <= u -> u <= E' o Z -> h o Y u = h o Z u ->
    ((u = S' o Y \/ u = E' o Y) /\ (u = S' o Z \/ u = E' o Z))
    \/ (mates o Y Z /\ (E' o Y = E' o Z \/ (t <= E' o Y /\ t <= E' o Z))).

Record core (o : operation) (t : Qc) : Prop := {
  i_wf : wf c o;
  i_qsz : forall e, In e (op_queue o) -> (e < size o)%nat;
  i_qnd : NoDup (op_queue o);
  i_q1 : forall e, In e (op_queue o) -> t <= EV o e;
  i_q2 : forall l, left_of o l -> In l (op_queue o) -> In (opp o l) (op_queue o);
  i_line : forall l, In l (op_line o) <-> active o l;
  i_S : forall l, popped o l -> S' o l <= t;
  i_E : forall l, done o l -> E' o l <= t;
  i_ord : forall Y Z, before (op_line o) Y Z -> below o t Y Z;
  i_V : vprop o t }.

Definition dpair (o : operation) (Y Z : event) : Prop :=
  apart c o Y Z \/ (mates o Y Z /\
    (E' o Y = E' o Z \/ exists x, left_of o x /\ In x (op_queue o) /\
       ((sid o x = sid o Y /\ S' o x = E' o Y /\ E' o Y < E' o Z)
        \/ (sid o x = sid o Z /\ S' o x = E' o Z /\ E' o Z < E' o Y)))).
Definition dline (o : operation) (l : list event) : Prop := forall Y Z, adj l Y Z -> dpair o Y Z.

Definition through (o : operation) (t : Qc) (Y : event) : Prop := S' o Y < t /\ t < E' o Y.
Definition th (o : operation) (t : Qc) (ex : event -> Prop) : Prop :=
  forall Y Z, left_of o Y -> left_of o Z -> ~ (In Y (op_queue o) \/ ex Y) ->
    ~ (In Z (op_queue o) \/ ex Z) -> Y <> Z -> through o t Y -> S' o Z <= t -> t <= E' o Z ->
    h o Y t = h o Z t ->
    (mates o Y Z /\ t < E' o Z)
    \/ (~ through o t Z /\ exists x, left_of o x /\ (In x (op_queue o) \/ ex x)
        /\ S' o x = t /\ col o x Y).

Lemma apart_sym o Y Z : apart c o Y Z -> apart c o Z Y.
Proof. intros A t A1 A2 A3 A4 E. destruct (A t A3 A4 A1 A2 (eq_sym E)); auto. Qed.
Lemma mates_sym o Y Z : mates o Y Z -> mates o Z Y.
Proof. intros [A B]. split; auto. apply col_sym; auto. Qed.
Lemma dpair_sym o Y Z : dpair o Y Z -> dpair o Z Y.
Proof.
  intros [A|(A & B)]; [left; apply apart_sym; auto|]. right. split; [apply mates_sym; auto|].
  destruct B as [B|(x & L & I & B)]; auto. right. exists x. split; auto. split; auto. tauto.
Qed.

Lemma core_opp o t l : core o t -> left_of o l -> opp o (opp o l) = l.
Proof. intros C L. apply (k_opp o (w_linked c o (i_wf o t C))), L. Qed.
Lemma active_E o t l : core o t -> active o l -> t <= E' o l.
Proof. intros C (L & _ & I). apply (i_q1 o t C) in I. exact I. Qed.
Lemma active_S o t l : core o t -> active o l -> S' o l <= t.
Proof. intros C (L & I & _). apply (i_S o t C). split; auto. Qed.
Lemma active_popped o l : active o l -> popped o l.
Proof. intros (L & I & _). split; auto. Qed.
Lemma popped_cases o t l : core o t -> popped o l -> active o l \/ done o l.
Proof.
  intros C [L I]. destruct (in_dec Nat.eq_dec (opp o l) (op_queue o)) as [Q|Q].
  - left; split; auto.
  - right; split; auto.
Qed.
Lemma done_popped o t l : core o t -> done o l -> popped o l.
Proof. intros C [L I]. split; auto. intros Q. apply I. apply (i_q2 o t C); auto. Qed.

Lemma through_of o t l m mid : cut c o l m mid -> X c mid = t -> through o t l.
Proof. intros C <-. split; [apply (cut_S _ _ _ _ _ C)|apply (cut_E _ _ _ _ _ C)]. Qed.

(** ** Divisions *)
Lemma cut_ge o t l m mid : core o t -> active o l -> active o m -> l <> m -> cut c o l m mid ->
  t <= X c mid.
Proof.
  intros C Al Am NE K. destruct (Qclt_le_dec (X c mid) t) as [L|]; auto. exfalso.
  destruct K as [K1 K2 K3 K4 K5 K6 K7 K8].
  assert (E1 : h o l (X c mid) = h o m (X c mid)) by congruence.
  destruct (i_V o t C l m (X c mid) (active_popped o l Al) (active_popped o m Am) NE L) as [[Q _]|[[[Ck _] Sm] Q]];
    auto; try qlra.
  - destruct Q as [Q|Q]; rewrite Q in *; qlra.
  - pose proof (active_E o t m C Am). destruct K8 as [K8|[K8|K8]].
    + rewrite K8, Sm in K4. qlra.
    + rewrite K8 in L. qlra.
    + contradiction.
Qed.

Section OneCut.
Variables (o o1 : operation) (t : Qc) (l m : event) (mid : point).
Hypothesis C : core o t.
Hypothesis Al : active o l.
Hypothesis Am : active o m.
Hypothesis NE : l <> m.
Hypothesis K : cut c o l m mid.
Hypothesis D : divided o l mid o1.

Let W : wf c o := i_wf o t C.
Let L : left_of o l := proj1 Al.
Lemma oc_ge : t <= X c mid.
Proof. exact (cut_ge o t l m mid C Al Am NE K). Qed.
Lemma oc_wf : wf c o1.
Proof. destruct K. apply (wf_divided c o o1 l mid W L D); auto. Qed.
Lemma oc_old x : left_of o x -> left_of o1 x.
Proof. apply (div_left_old c o o1 l mid W D). Qed.
Lemma oc_left x : left_of o1 x <-> left_of o x \/ x = size o.
Proof. apply (div_left c o o1 l mid W D). Qed.
Lemma oc_S x : left_of o x -> S' o1 x = S' o x.
Proof. apply (div_S c o o1 l mid D). Qed.
Lemma oc_E x : left_of o x -> x <> l -> E' o1 x = E' o x.
Proof. apply (div_E_other c o o1 l mid W L D). Qed.
Lemma oc_El : E' o1 l = X c mid.
Proof. apply (div_E_same c o o1 l mid W L D). Qed.
Lemma oc_h x u : left_of o x -> h o1 x u = h o x u.
Proof. apply (div_h c o o1 l mid D). Qed.
Lemma oc_k x : left_of o x -> k o1 x = k o x.
Proof. apply (div_k c o o1 l mid D). Qed.
Lemma oc_sid x : left_of o x -> sid o1 x = sid o x.
Proof. apply (d_sid _ _ _ _ D). Qed.
Lemma oc_first x : left_of o x -> firstop o1 x = firstop o x.
Proof.
  intros Lx. unfold is_left_event_from_first_operand. rewrite (oc_sid x Lx), (d_first _ _ _ _ D). auto.
Qed.
Lemma oc_opp x : left_of o x -> x <> l -> opp o1 x = opp o x.
Proof.
  intros Lx NEx. apply (d_opp _ _ _ _ D); auto; [apply Lx|].
  apply (left_opp_neq c o l W L); auto.
Qed.
Lemma oc_queue x : (x < size o)%nat -> (In x (op_queue o1) <-> In x (op_queue o)).
Proof.
  intros Lx. rewrite (d_queue _ _ _ _ D), in_app_iff. cbn. split; [|auto].
  intros [|[|[|[]]]]; auto; lia.
Qed.
Lemma oc_new_in : In (size o) (op_queue o1) /\ In (S (size o)) (op_queue o1).
Proof. rewrite (d_queue _ _ _ _ D). split; apply in_or_app; right; cbn; auto. Qed.
Lemma oc_col x y : left_of o x -> left_of o y -> (col o1 x y <-> col o x y).
Proof.
  intros Lx Ly. unfold Proof_Sweep8.col. rewrite (oc_k x Lx), (oc_k y Ly). split; intros [A B]; split; auto.
  - intros u. pose proof (B u) as B1. rewrite (oc_h x u Lx), (oc_h y u Ly) in B1. auto.
  - intros u. rewrite (oc_h x u Lx), (oc_h y u Ly). auto.
Qed.
Lemma oc_mates x y : left_of o x -> left_of o y -> (mates o1 x y <-> mates o x y).
Proof.
  intros Lx Ly. unfold mates. rewrite (oc_col x y Lx Ly), (oc_S x Lx), (oc_S y Ly). reflexivity.
Qed.
Lemma oc_popped x : popped o1 x <-> popped o x.
Proof.
  unfold popped. rewrite oc_left. split.
  - intros [[Lx| ->] I]; [|exfalso; apply I, oc_new_in].
    split; auto. intros Q. apply I, oc_queue; auto. apply Lx.
  - intros [Lx I]. split; auto. intros Q. apply oc_queue in Q; auto. apply Lx.
Qed.
Lemma oc_active x : active o1 x <-> active o x.
Proof.
  split.
  - intros (Lx & I & J). assert (P : popped o x) by (apply oc_popped; split; auto).
    destruct P as [Lx' I']. split; auto. split; auto.
    destruct (Nat.eq_dec x l) as [->|NEx]; [apply Al|].
    rewrite (oc_opp x Lx' NEx) in J. apply oc_queue in J; auto. apply (k_opp o (w_linked c o W)), Lx'.
  - intros (Lx & I & J). assert (P : popped o1 x) by (apply oc_popped; split; auto).
    destruct P as [Lx' I']. split; auto. split; auto.
    destruct (Nat.eq_dec x l) as [->|NEx].
    + rewrite (d_oppl _ _ _ _ D). apply oc_new_in.
    + rewrite (oc_opp x Lx NEx). apply oc_queue; auto. apply (k_opp o (w_linked c o W)), Lx.
Qed.
Lemma oc_done x : done o1 x <-> done o x.
Proof.
  split.
  - intros (Lx & J). apply oc_left in Lx. destruct Lx as [Lx| ->].
    + split; auto. destruct (Nat.eq_dec x l) as [->|NEx].
      { exfalso. apply J. rewrite (d_oppl _ _ _ _ D). apply oc_new_in. }
      rewrite (oc_opp x Lx NEx) in J. intros Q. apply J, oc_queue; auto. apply (k_opp o (w_linked c o W)), Lx.
    + exfalso. apply J. rewrite (d_opp1 _ _ _ _ D). apply oc_queue; [apply (k_opp o (w_linked c o W)), L|apply Al].
  - intros (Lx & J). split; [apply oc_old; auto|].
    assert (NEx : x <> l) by (intros ->; apply J, Al).
    rewrite (oc_opp x Lx NEx). intros Q. apply oc_queue in Q; auto. apply (k_opp o (w_linked c o W)), Lx.
Qed.
Lemma oc_E_le x : left_of o x -> E' o1 x <= E' o x.
Proof.
  intros Lx. destruct (Nat.eq_dec x l) as [->|NEx].
  - rewrite oc_El. pose proof (cut_E _ _ _ _ _ K). qlra.
  - rewrite (oc_E x Lx NEx). apply Qcle_refl.
Qed.
Lemma oc_EV e : (e < size o)%nat -> EV o1 e = EV o e.
Proof. intros Le. unfold EVX. rewrite (d_pt _ _ _ _ D); auto. Qed.

Lemma oc_core : core o1 t.
Proof.
  pose proof oc_ge as Ge. constructor.
  - apply oc_wf.
  - intros e. rewrite (d_queue _ _ _ _ D), (d_size _ _ _ _ D). intros I. apply in_app_or in I.
    destruct I as [I|[<-|[<-|[]]]]; try lia. pose proof (i_qsz o t C e I); lia.
  - rewrite (d_queue _ _ _ _ D). pose proof (i_qsz o t C) as Sz. pose proof (i_qnd o t C) as ND.
    revert Sz ND. generalize (op_queue o) as q. intros q Sz ND. induction q as [|x q IH]; cbn.
    + constructor; [intros [|[]]; lia|]. constructor; [intros []|constructor].
    + inversion ND as [|? ? N1 N2]; subst. constructor.
      * intros I. apply in_app_or in I. destruct I as [I|[I|[I|[]]]]; auto;
          pose proof (Sz x (or_introl eq_refl)); lia.
      * apply IH; auto. intros e I; apply Sz; right; auto.
  - intros e. rewrite (d_queue _ _ _ _ D). intros I. apply in_app_or in I.
    destruct I as [I|[<-|[<-|[]]]].
    + rewrite oc_EV by (apply (i_qsz o t C); auto). apply (i_q1 o t C); auto.
    + unfold EVX. rewrite (d_pt2 _ _ _ _ D). auto.
    + unfold EVX. rewrite (d_pt1 _ _ _ _ D). auto.
  - intros x Lx I. apply oc_left in Lx. destruct Lx as [Lx| ->].
    + apply oc_queue in I; [|apply Lx]. assert (NEx : x <> l) by (intros ->; apply Al; auto).
      rewrite (oc_opp x Lx NEx). apply oc_queue; [apply (k_opp o (w_linked c o W)), Lx|].
      apply (i_q2 o t C); auto.
    + rewrite (d_opp1 _ _ _ _ D). apply oc_queue; [apply (k_opp o (w_linked c o W)), L|apply Al].
  - intros x. rewrite (d_line _ _ _ _ D), oc_active. apply (i_line o t C).
  - intros x P. apply oc_popped in P. rewrite (oc_S x (proj1 P)). apply (i_S o t C); auto.
  - intros x P. apply oc_done in P. assert (NEx : x <> l) by (intros ->; apply P, Al).
    rewrite (oc_E x (proj1 P) NEx). apply (i_E o t C); auto.
  - intros Y Z B. rewrite (d_line _ _ _ _ D) in B. pose proof (i_ord o t C Y Z B) as [B1 B2 B3].
    apply before_In in B. destruct B as [IY IZ]. apply (i_line o t C) in IY. apply (i_line o t C) in IZ.
    assert (LY := proj1 IY). assert (LZ := proj1 IZ).
    constructor; unfold dd, ds in *; rewrite ?(oc_S Y LY), ?(oc_S Z LZ), ?(oc_k Y LY), ?(oc_k Z LZ);
      rewrite ?(fun u => oc_h Y u LY), ?(fun u => oc_h Z u LZ); auto.
    rewrite (oc_first Y LY), (oc_first Z LZ). auto.
  - intros Y Z u PY PZ NEQ Lu. apply oc_popped in PY. apply oc_popped in PZ.
    assert (LY := proj1 PY). assert (LZ := proj1 PZ).
    rewrite (oc_S Y LY), (oc_S Z LZ), (oc_h Y u LY), (oc_h Z u LZ), (oc_mates Y Z LY LZ).
    intros A1 A2 A3 A4 E. pose proof (oc_E_le Y LY). pose proof (oc_E_le Z LZ).
    destruct (i_V o t C Y Z u PY PZ NEQ Lu) as [[Q1 Q2]|[Q1 Q2]]; auto; try qlra.
    + left. split.
      * destruct Q1 as [Q1|Q1]; auto. right. rewrite oc_E; auto. intros ->.
        pose proof (active_E o t l C Al). rewrite Q1 in Lu. qlra.
      * destruct Q2 as [Q2|Q2]; auto. right. rewrite oc_E; auto. intros ->.
        pose proof (active_E o t l C Al). rewrite Q2 in Lu. qlra.
    + right. split; auto. destruct (Nat.eq_dec Y l) as [->|NY]; destruct (Nat.eq_dec Z l) as [->|NZ].
      * congruence.
      * rewrite oc_El, (oc_E Z LZ NZ). right. split; auto.
        destruct Q2 as [Q2|[_ Q2]]; auto. rewrite <- Q2. apply (active_E o t l C Al).
      * rewrite oc_El, (oc_E Y LY NY). right. split; auto.
        destruct Q2 as [Q2|[Q2 _]]; auto. rewrite Q2. apply (active_E o t l C Al).
      * rewrite (oc_E Y LY NY), (oc_E Z LZ NZ). auto.
Qed.

Lemma oc_apart Y Z : left_of o Y -> left_of o Z -> apart c o Y Z -> apart c o1 Y Z.
Proof.
  intros LY LZ A u. rewrite (oc_S Y LY), (oc_S Z LZ), (oc_h Y u LY), (oc_h Z u LZ).
  intros A1 A2 A3 A4 E. pose proof (oc_E_le Y LY). pose proof (oc_E_le Z LZ).
  destruct (A u) as [Q1 Q2]; auto; try qlra.
  pose proof (cut_E _ _ _ _ _ K) as KE. split.
  - destruct Q1 as [Q1|Q1]; auto. destruct (Nat.eq_dec Y l) as [->|NY].
    + rewrite oc_El in A2. exfalso; qlra.
    + rewrite (oc_E Y LY NY). auto.
  - destruct Q2 as [Q2|Q2]; auto. destruct (Nat.eq_dec Z l) as [->|NZ].
    + rewrite oc_El in A4. exfalso; qlra.
    + rewrite (oc_E Z LZ NZ). auto.
Qed.

Lemma oc_dpair_l Z : left_of o Z -> Z <> l -> dpair o l Z -> dpair o1 l Z.
Proof.
  intros LZ NZ [A|(M & Q)]; [left; apply oc_apart; auto|]. right.
  split; [apply oc_mates; auto|]. rewrite oc_El, (oc_E Z LZ NZ).
  destruct (Qc_dec (X c mid) (E' o Z)) as [[Lt|Gt]|Eq]; auto.
  - right. exists (size o). split; [apply oc_left; auto|]. split; [apply oc_new_in|]. left.
    rewrite (d_sid1 _ _ _ _ D), (oc_sid l L). split; auto. split; auto.
    apply (div_S_new c o o1 l mid D).
  - right. pose proof (cut_E _ _ _ _ _ K). destruct Q as [Q|(x & Lx & Ix & [(Q1 & Q2 & Q3)|(Q1 & Q2 & Q3)])].
    + exfalso; rewrite Q in *; qlra.
    + exfalso; qlra.
    + exists x. split; [apply oc_old; auto|]. split; [apply oc_queue; auto; apply Lx|]. right.
      rewrite (oc_sid x Lx), (oc_sid Z LZ), (oc_S x Lx). auto.
Qed.
Lemma oc_dpair Y Z : left_of o Y -> left_of o Z -> Y <> Z -> dpair o Y Z -> dpair o1 Y Z.
Proof.
  intros LY LZ NYZ Q. destruct (Nat.eq_dec Y l) as [->|NY]; [apply oc_dpair_l; auto|].
  destruct (Nat.eq_dec Z l) as [->|NZ]; [apply dpair_sym, oc_dpair_l; auto; apply dpair_sym; auto|].
  destruct Q as [A|(M & Q)]; [left; apply oc_apart; auto|]. right.
  split; [apply oc_mates; auto|]. rewrite (oc_E Y LY NY), (oc_E Z LZ NZ).
  destruct Q as [Q|(x & Lx & Ix & Q)]; auto. right.
  exists x. split; [apply oc_old; auto|]. split; [apply oc_queue; auto; apply Lx|].
  rewrite (oc_sid x Lx), (oc_sid Z LZ), (oc_sid Y LY), (oc_S x Lx). auto.
Qed.

Lemma oc_th ex : th o t ex -> (forall x, ex x -> (x < size o)%nat) -> th o1 t ex.
Proof.
  intros T Hex Y Z LY LZ PY PZ NYZ [T1 T2] A3 A4 E.
  assert (OY : left_of o Y).
  { apply oc_left in LY. destruct LY as [|Q]; auto. exfalso; apply PY; left. rewrite Q. apply oc_new_in. }
  assert (OZ : left_of o Z).
  { apply oc_left in LZ. destruct LZ as [|Q]; auto. exfalso; apply PZ; left. rewrite Q. apply oc_new_in. }
  rewrite (oc_S Y OY) in T1. rewrite (oc_S Z OZ) in A3. rewrite (oc_h Y t OY), (oc_h Z t OZ) in E.
  pose proof (oc_E_le Y OY). pose proof (oc_E_le Z OZ).
  destruct (T Y Z) as [[M Q]|[Nt (x & Lx & Ix & Sx & Cx)]]; auto.
  - intros [I|I]; apply PY; [left; apply oc_queue; auto; apply OY|auto].
  - intros [I|I]; apply PZ; [left; apply oc_queue; auto; apply OZ|auto].
  - split; auto. qlra.
  - qlra.
  - destruct (Qcle_lt_or_eq _ _ A4) as [Lt|Eq].
    + left. split; [apply oc_mates; auto|auto].
    + (* Z has been divided at t *)
      assert (Zl : Z = l).
      { destruct (Nat.eq_dec Z l) as [|NZ]; auto. rewrite (oc_E Z OZ NZ) in Eq. exfalso; rewrite <- Eq in Q; qlra. }
      subst Z. right. split; [intros [_ Q']; rewrite <- Eq in Q'; qlra|].
      exists (size o). split; [apply oc_left; auto|]. split; [left; apply oc_new_in|]. split.
      * rewrite (div_S_new c o o1 l mid D). rewrite <- oc_El. auto.
      * destruct M as [[M1 M2] _]. split.
        -- rewrite (div_k_new c o o1 l mid D), (oc_k Y OY). auto.
        -- intros u. rewrite (div_h_new c o o1 l mid D), (oc_h Y u OY). auto.
  - right. split.
    + intros [Q1 Q2]. apply Nt. rewrite (oc_S Z OZ) in Q1. split; auto. qlra.
    + exists x. split; [apply oc_old; auto|]. split.
      * destruct Ix as [Ix|Ix]; auto. left. apply oc_queue; auto. apply Lx.
      * rewrite (oc_S x Lx). split; auto. apply oc_col; auto.
Qed.
End OneCut.

(** What a sequence of divisions of [Y0] and [Z0] leaves unchanged. *)
Record frame (o o' : operation) (t : Qc) (Y0 Z0 : event) : Prop := {
  f_size : (size o <= size o')%nat;
  f_pt : forall e, (e < size o)%nat -> pt o' e = pt o e;
  f_sid : forall x, left_of o x -> sid o' x = sid o x;
  f_count : op_first_count o' = op_first_count o;
  f_line : op_line o' = op_line o;
  f_clock : op_clock o' = op_clock o;
  f_queue : forall x, (x < size o)%nat -> (In x (op_queue o') <-> In x (op_queue o));
  f_opp : forall x, left_of o x -> opp o' x = opp o x
     \/ ((x = Y0 \/ x = Z0) /\ E' o' x < E' o x /\ (size o <= opp o' x)%nat);
  f_fresh : forall x, left_of o' x -> (size o <= x)%nat ->
     In x (op_queue o') /\ In (opp o' x) (op_queue o');
  f_new : forall r, In r (op_queue o') -> (size o <= r)%nat -> is_event_left r = false -> EV o' r = t ->
     exists x y, ((x = Y0 /\ y = Z0) \/ (x = Z0 /\ y = Y0)) /\ r = opp o' x /\ through o t x
       /\ h o x t = h o y t /\ S' o y <= t /\ t <= E' o y }.

Lemma frame_left o o' t Y0 Z0 x : frame o o' t Y0 Z0 -> left_of o x -> left_of o' x.
Proof. intros F [A B]. split; auto. pose proof (f_size _ _ _ _ _ F). lia. Qed.
Lemma frame_E o o' t Y0 Z0 x : frame o o' t Y0 Z0 -> linked o -> left_of o x -> E' o' x <= E' o x.
Proof.
  intros F K Lx. destruct (f_opp _ _ _ _ _ F x Lx) as [Q|(_ & Q & _)]; [|qlra].
  unfold EX. rewrite Q, (f_pt _ _ _ _ _ F); [apply Qcle_refl|]. apply (k_opp o K), Lx.
Qed.

Lemma frame_refl o t Y0 Z0 : core o t -> frame o o t Y0 Z0.
Proof.
  intros C. constructor; auto; try tauto.
  - intros x [_ Lx] Q. lia.
  - intros r I Q. apply (i_qsz o t C) in I. lia.
Qed.

Lemma cuts_frame Y0 Z0 o o' t : cuts c Y0 Z0 o o' -> core o t -> active o Y0 -> active o Z0 -> Y0 <> Z0 ->
  core o' t /\ frame o o' t Y0 Z0
  /\ (forall Y Z, left_of o Y -> left_of o Z -> Y <> Z -> dpair o Y Z -> dpair o' Y Z)
  /\ (forall ex : event -> Prop, (forall x, ex x -> (x < size o)%nat) -> th o t ex -> th o' t ex)
  /\ (forall x, active o' x <-> active o x)
  /\ (forall x, done o' x <-> done o x).
Proof.
  intros Cs. induction Cs as [o|o l m mid o1 o2 P K D Cs IH]; intros C AY AZ NE.
  - split; auto. split; [apply frame_refl; auto|]. split; [auto|]. split; [auto|]. split; intros x; tauto.
  - assert (Al : active o l) by (destruct P as [[-> _]|[-> _]]; auto).
    assert (Am : active o m) by (destruct P as [[_ ->]|[_ ->]]; auto).
    assert (Nlm : l <> m) by (destruct P as [[-> ->]|[-> ->]]; auto).
    pose proof (oc_core o o1 t l m mid C Al Am Nlm K D) as C1.
    pose proof (oc_active o o1 t l m mid C Al Nlm D) as Ac1.
    pose proof (oc_done o o1 t l m mid C Al Nlm D) as Dn1.
    destruct (IH C1) as (C2 & F & Dp & Th & Ac & Dn); auto; try (apply Ac1; auto).
    assert (W := i_wf o t C). assert (W1 := i_wf o1 t C1).
    assert (Ll : left_of o l) by apply Al.
    assert (Old : forall x, left_of o x -> left_of o1 x) by (apply (oc_old o o1 t l mid C D)).
    split; auto. split; [|split; [|split; [|split]]].
    + constructor.
      * pose proof (f_size _ _ _ _ _ F). rewrite (d_size _ _ _ _ D) in H. lia.
      * intros e Le. rewrite (f_pt _ _ _ _ _ F); [apply (d_pt _ _ _ _ D); auto|].
        rewrite (d_size _ _ _ _ D). lia.
      * intros x Lx. rewrite (f_sid _ _ _ _ _ F); auto. apply (d_sid _ _ _ _ D); auto.
      * rewrite (f_count _ _ _ _ _ F). apply (d_first _ _ _ _ D).
      * rewrite (f_line _ _ _ _ _ F). apply (d_line _ _ _ _ D).
      * rewrite (f_clock _ _ _ _ _ F). apply (d_clock _ _ _ _ D).
      * intros x Lx. rewrite (f_queue _ _ _ _ _ F); [apply (oc_queue o o1 l m mid Nlm D); auto|].
        rewrite (d_size _ _ _ _ D). lia.
      * intros x Lx. pose proof (oc_E_le o o1 t l m mid C Al K D x Lx) as El.
        pose proof (frame_E o1 o2 t Y0 Z0 x F (w_linked c o1 W1) (Old x Lx)) as El2.
        destruct (f_opp _ _ _ _ _ F x (Old x Lx)) as [Q|(Q1 & Q2 & Q3)].
        -- destruct (Nat.eq_dec x l) as [->|Nx].
           ++ right. split; [destruct P as [[-> _]|[-> _]]; auto|]. split.
              ** rewrite (oc_El o o1 t l mid C Al D) in El2. pose proof (cut_E _ _ _ _ _ K). qlra.
              ** rewrite Q, (d_oppl _ _ _ _ D). lia.
           ++ left. rewrite Q. apply (oc_opp o o1 t l mid C Al D); auto.
        -- right. split; auto. split; [qlra|]. rewrite (d_size _ _ _ _ D) in Q3. lia.
      * intros x Lx Ge. destruct (le_lt_dec (size o1) x) as [Q|Q]; [apply (f_fresh _ _ _ _ _ F); auto|].
        rewrite (d_size _ _ _ _ D) in Q.
        assert (Ex : x = size o).
        { destruct (Nat.eq_dec x (size o)); auto. assert (x = S (size o)) by lia. subst x.
          exfalso. destruct Lx as [Lx _]. rewrite (size_odd o (w_linked c o W)) in Lx. discriminate. }
        subst x. assert (L1 : left_of o1 (size o)) by (apply (oc_left o o1 t l mid C D); auto).
        assert (I1 : In (size o) (op_queue o2)).
        { apply (f_queue _ _ _ _ _ F); [apply L1|apply (oc_new_in o o1 l mid D)]. }
        split; auto. apply (i_q2 o2 t C2); auto.
      * intros r I Ge Rr Er. destruct (le_lt_dec (size o1) r) as [Q|Q].
        -- destruct (f_new _ _ _ _ _ F r I Q Rr Er) as (x & y & Pxy & R & [T1 T2] & Hh & T3 & T4).
           assert (Lx : left_of o x) by (destruct Pxy as [[-> _]|[-> _]]; [apply AY|apply AZ]).
           assert (Ly : left_of o y) by (destruct Pxy as [[_ ->]|[_ ->]]; [apply AZ|apply AY]).
           exists x, y. split; auto. split; auto.
           rewrite (oc_S o o1 l mid D x Lx) in T1. rewrite (oc_S o o1 l mid D y Ly) in T3.
           rewrite (oc_h o o1 l mid D x t Lx), (oc_h o o1 l mid D y t Ly) in Hh.
           pose proof (oc_E_le o o1 t l m mid C Al K D x Lx).
           pose proof (oc_E_le o o1 t l m mid C Al K D y Ly).
           split; [split; [auto|qlra]|]. split; auto. split; [auto|qlra].
        -- rewrite (d_size _ _ _ _ D) in Q. assert (Er' : r = S (size o)).
           { destruct (Nat.eq_dec r (size o)); [|lia]. subst r.
             rewrite (size_even o (w_linked c o W)) in Rr. discriminate. }
           subst r. assert (Xm : X c mid = t).
           { rewrite <- Er. unfold EVX. rewrite (f_pt _ _ _ _ _ F) by (rewrite (d_size _ _ _ _ D); lia).
             rewrite (d_pt2 _ _ _ _ D). reflexivity. }
           exists l, m. split; [destruct P as [[-> ->]|[-> ->]]; auto|]. split.
           ++ destruct (f_opp _ _ _ _ _ F l (Old l Ll)) as [Q'|(_ & Q' & _)].
              ** rewrite Q', (d_oppl _ _ _ _ D). auto.
              ** exfalso. rewrite (oc_El o o1 t l mid C Al D), Xm in Q'.
                 assert (A2 : active o2 l) by (apply Ac, Ac1; auto).
                 pose proof (active_E o2 t l C2 A2). qlra.
           ++ destruct K as [K1 K2 K3 K4 K5 K6 K7 K8]. rewrite Xm in *.
              split; [split; auto|]. split; [congruence|]. auto.
    + intros Y Z LY LZ NYZ Q. apply Dp; auto.
      apply (oc_dpair o o1 t l m mid C Al Nlm K D Y Z LY LZ NYZ Q).
    + intros ex Hex T. apply Th.
      * intros x Ix. apply Hex in Ix. rewrite (d_size _ _ _ _ D). lia.
      * apply (oc_th o o1 t l m mid C Al Nlm K D ex T Hex).
    + intros x. rewrite Ac. apply Ac1.
    + intros x. rewrite Dn. apply Dn1.
Qed.

(** Frames preserve everything about the pieces but the right ends. *)
Section Frames.
Variables (o o' : operation) (t : Qc) (Y0 Z0 : event).
Hypothesis F : frame o o' t Y0 Z0.
Lemma fr_S x : left_of o x -> S' o' x = S' o x.
Proof. intros Lx. unfold SX. rewrite (f_pt _ _ _ _ _ F); auto. apply Lx. Qed.
Lemma fr_h x u : left_of o x -> h o' x u = h o x u.
Proof. intros Lx. unfold hh. rewrite (f_sid _ _ _ _ _ F); auto. Qed.
Lemma fr_k x : left_of o x -> k o' x = k o x.
Proof. intros Lx. unfold kk. rewrite (f_sid _ _ _ _ _ F); auto. Qed.
Lemma fr_first x : left_of o x -> firstop o' x = firstop o x.
Proof.
  intros Lx. unfold is_left_event_from_first_operand.
  rewrite (f_sid _ _ _ _ _ F), (f_count _ _ _ _ _ F); auto.
Qed.
Lemma fr_col x y : left_of o x -> left_of o y -> (col o' x y <-> col o x y).
Proof.
  intros Lx Ly. unfold Proof_Sweep8.col. rewrite (fr_k x Lx), (fr_k y Ly). split; intros [A B]; split; auto.
  - intros u. pose proof (B u) as B1. rewrite (fr_h x u Lx), (fr_h y u Ly) in B1. auto.
  - intros u. rewrite (fr_h x u Lx), (fr_h y u Ly). auto.
Qed.
Lemma fr_mates x y : left_of o x -> left_of o y -> (mates o' x y <-> mates o x y).
Proof.
  intros Lx Ly. unfold mates. rewrite (fr_col x y Lx Ly), (fr_S x Lx), (fr_S y Ly). reflexivity.
Qed.
Lemma fr_EV e : (e < size o)%nat -> EV o' e = EV o e.
Proof. intros Le. unfold EVX. rewrite (f_pt _ _ _ _ _ F); auto. Qed.
Lemma fr_E_other x : linked o -> left_of o x -> x <> Y0 -> x <> Z0 -> E' o' x = E' o x /\ opp o' x = opp o x.
Proof.
  intros K Lx N1 N2. destruct (f_opp _ _ _ _ _ F x Lx) as [Q|([|] & _)]; try contradiction.
  split; auto. unfold EX. rewrite Q, (f_pt _ _ _ _ _ F); auto. apply (k_opp o K), Lx.
Qed.
Lemma fr_left x : left_of o x -> left_of o' x.
Proof. apply (frame_left o o' t Y0 Z0 x F). Qed.
End Frames.
End Invariant.
