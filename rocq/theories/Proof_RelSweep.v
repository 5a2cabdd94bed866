(** Relating multisegments and contours, part 1: operands whose segments have in common
    endpoints only; why pieces end where they do. *)
From Coq Require Import QArith Qcanon Bool List Arith Lia.
From Verif Require Import QcTac Model_Base Model_Utils Model_Linear Spec_Base Spec_Sweep
  Proof_Base Proof_Line Proof_Sweep Proof_Sweep2 Proof_Sweep3 Proof_Sweep5 Proof_Sweep7
  Proof_Sweep8 Proof_Sweep9.
Import ListNotations.
Local Open Scope Qc_scope.

(** No inner point of a segment is a point of another segment of its operand. *)
Definition ncs (c : ctx) : Prop :=
  forall i j t, (i < length (c_ins c))%nat -> (j < length (c_ins c))%nat -> i <> j ->
    (i <? c_first c)%nat = (j <? c_first c)%nat ->
    X c (fst (input c i)) < t -> t < X c (snd (input c i)) ->
    X c (fst (input c j)) <= t -> t <= X c (snd (input c j)) -> H c i t <> H c j t.

Lemma ncs_nc c : ncs c -> nc c.
Proof.
  intros N i j t A B C D E F I J. apply N; auto; apply Qclt_le_weak; auto.
Qed.

Section Why.
Variable c : ctx.
Hypothesis G : good c.
Hypothesis N : ncs c.
Notation S' := (SX c). Notation E' := (EX c). Notation h := (hh c). Notation k := (kk c).

(** A segment of the other operand has an endpoint here or goes another way. *)
Definition reason (i : nat) (t : Qc) : Prop :=
  exists j, (j < length (c_ins c))%nat /\ (i <? c_first c)%nat <> (j <? c_first c)%nat
    /\ X c (fst (input c j)) <= t /\ t <= X c (snd (input c j)) /\ H c i t = H c j t
    /\ (t = X c (fst (input c j)) \/ t = X c (snd (input c j)) \/ K c i <> K c j).
Definition why (o : operation) : Prop :=
  forall l, left_of o l ->
    (S' o l = X c (fst (input c (sid o l))) \/ reason (sid o l) (S' o l))
    /\ (E' o l = X c (snd (input c (sid o l))) \/ reason (sid o l) (E' o l)).

Lemma firstop_sid o l : wf c o -> firstop o l = (sid o l <? c_first c)%nat.
Proof. intros W. unfold is_left_event_from_first_operand. rewrite (w_first c o W). reflexivity. Qed.

(** A piece that goes on is met there by no other piece of its operand. *)
Lemma only_through o Y Z t : wf c o -> left_of o Y -> left_of o Z -> Y <> Z ->
  firstop o Y = firstop o Z -> S' o Y < t -> t < E' o Y -> S' o Z <= t -> t <= E' o Z ->
  h o Y t <> h o Z t.
Proof.
  intros W LY LZ NE F A B C D Q. rewrite !(firstop_sid o) in F by auto.
  pose proof (w_in c o W Y LY) as [Y1 Y2]. pose proof (w_in c o W Z LZ) as [Z1 Z2].
  destruct (Nat.eq_dec (sid o Y) (sid o Z)) as [E|E].
  - destruct (w_disj c o W Y Z LY LZ NE E); qlra.
  - apply (N (sid o Y) (sid o Z) t (w_sid c o W Y LY) (w_sid c o W Z LZ) E F); auto; qlra.
Qed.

(** Two segments of the two operands do not end inside a common part but at endpoints. *)
Lemma no_reason o Y Z t : wf c o -> left_of o Y -> left_of o Z -> firstop o Y <> firstop o Z ->
  k o Y = k o Z -> h o Y t = h o Z t -> S' o Z < t -> t < E' o Z -> ~ reason (sid o Y) t.
Proof.
  intros W LY LZ F Ks Hs A B (j & Lj & Fj & J1 & J2 & J3 & J4).
  rewrite !(firstop_sid o) in F by auto. pose proof (w_in c o W Z LZ) as [Z1 Z2].
  assert (Fz : (sid o Z <? c_first c)%nat = (j <? c_first c)%nat).
  { destruct (sid o Y <? c_first c)%nat, (sid o Z <? c_first c)%nat, (j <? c_first c)%nat; congruence. }
  destruct (Nat.eq_dec (sid o Z) j) as [<-|E].
  - destruct J4 as [J4|[J4|J4]]; [rewrite <- J4 in Z1; qlra|rewrite <- J4 in Z2; qlra|]. apply J4. exact Ks.
  - apply (N (sid o Z) j t (w_sid c o W Z LZ) Lj E Fz); try qlra. unfold hh in Hs. congruence.
Qed.

Lemma cut_reason o l m mid : wf c o -> why o -> left_of o l -> left_of o m -> l <> m ->
  cut c o l m mid -> reason (sid o l) (X c mid).
Proof.
  intros W Wy L M NE [C1 C2 C3 C4 C5 C6 C7 C8].
  assert (F : firstop o l <> firstop o m).
  { intros F. apply (only_through o l m (X c mid)); auto. congruence. }
  assert (F' := F). rewrite !(firstop_sid o) in F' by auto.
  pose proof (w_in c o W m M) as [M1 M2].
  exists (sid o m). split; [apply (w_sid c o W); auto|]. split; auto.
  assert (Q1 : X c (fst (input c (sid o m))) <= X c mid) by qlra.
  assert (Q2 : X c mid <= X c (snd (input c (sid o m)))) by qlra.
  split; auto. split; auto. split; [unfold hh in *; congruence|].
  destruct (Qc_eq_dec (k o l) (k o m)) as [E|E]; [|auto].
  destruct (Wy m M) as [[WS|WS] [WE|WE]]; destruct C8 as [C8|[C8|C8]]; try contradiction.
  all: try (left; congruence). all: try (right; left; congruence).
  all: exfalso; rewrite C8 in *; first
    [ apply (no_reason o m l (S' o m)); auto; congruence
    | apply (no_reason o m l (E' o m)); auto; congruence ].
Qed.

Lemma why_divided o l m mid o1 : wf c o -> why o -> left_of o l -> left_of o m -> l <> m ->
  cut c o l m mid -> divided o l mid o1 -> why o1.
Proof.
  intros W Wy L M NE C D x Lx. pose proof (cut_reason o l m mid W Wy L M NE C) as R.
  destruct (proj1 (div_left c o o1 l mid W D x) Lx) as [Lo| ->].
  - rewrite (d_sid _ _ _ _ D x Lo), (div_S c o o1 l mid D x Lo), (div_E c o o1 l mid W L D x Lo).
    destruct (Nat.eqb_spec x l) as [-> |]; [|apply Wy; auto]. split; [apply Wy; auto|auto].
  - rewrite (d_sid1 _ _ _ _ D), (div_S_new c o o1 l mid D), (div_E_new c o o1 l mid W L D).
    split; [auto|apply Wy; auto].
Qed.

Lemma why_cuts Y Z o o' : cuts c Y Z o o' -> base c o -> why o -> left_of o Y -> left_of o Z -> Y <> Z -> why o'.
Proof.
  induction 1 as [o|o l m mid o1 o2 P C D Cs IH]; intros (W & Q & Ln) Wy LY LZ NE; auto.
  assert (LM : left_of o l /\ left_of o m /\ l <> m) by (destruct P as [[-> ->]|[-> ->]]; auto).
  destruct LM as (L & M & NE').
  assert (W1 : wf c o1).
  { destruct C as [C1 C2 C3 C4 C5 C6 C7 C8]. apply (wf_divided c o o1 l mid W L D); auto. }
  apply IH; auto; try (apply (div_left_old c o o1 l mid W D); auto).
  - split; auto. split.
    + intros e. rewrite (d_queue _ _ _ _ D), (d_size _ _ _ _ D). intros I.
      apply in_app_or in I. destruct I as [I|[<-|[<-|[]]]]; try lia. apply Q in I; lia.
    + intros x. rewrite (d_line _ _ _ _ D). intros I. apply (div_left_old c o o1 l mid W D). apply Ln; auto.
  - apply (why_divided o l m mid o1); auto.
Qed.

Lemma why_same o o' : same_pieces o o' -> why o -> why o'.
Proof.
  destruct o as [a b d e q l kk0], o' as [a' b' d' e' q' l' k']. unfold same_pieces; cbn.
  intros (-> & -> & -> & ->) Wy. exact Wy.
Qed.
Lemma why_step o o' : some_step o o' -> base c o -> why o -> why o'.
Proof.
  intros [o0 q I|o0 l F|o0|o0 Y Z o1 LY LZ Q] B Wy.
  - apply (why_same o0); auto. repeat split.
  - apply (why_same o0); auto. repeat split.
  - apply (why_same o0); auto. repeat split.
  - destruct (detect_some c G o0 Y Z o1 B LY LZ Q) as (NE & Cs & _).
    apply (why_cuts Y Z o0 o1 Cs B Wy LY LZ NE).
Qed.
Lemma why_steps o o' : some_steps o o' -> base c o -> why o -> why o'.
Proof.
  induction 1 as [|o o1 o2 St Ss IH]; auto. intros B Wy.
  apply IH; [eapply some_step_base; eauto|eapply why_step; eauto].
Qed.

(** Neighbours that overlap coincide. *)
Lemma dpair_even o Y Z : wf c o -> why o -> left_of o Y -> left_of o Z -> Y <> Z ->
  dpair c o Y Z -> mates c o Y Z -> E' o Y = E' o Z.
Proof.
  intros W Wy LY LZ NE D [Co Sm].
  pose proof (w_lt c o W Y LY) as LtY. pose proof (w_lt c o W Z LZ) as LtZ.
  destruct D as [A|[_ [E|(x & Lx & _ & D)]]]; auto.
  - exfalso.
    set (e := if qltb (E' o Y) (E' o Z) then E' o Y else E' o Z).
    assert (Le : e <= E' o Y /\ e <= E' o Z /\ S' o Y < e).
    { unfold e. destruct (qltb_spec (E' o Y) (E' o Z)); repeat split; qlra. }
    destruct Le as (L1 & L2 & L3). destruct (middle (S' o Y) e L3) as (t & T1 & T2).
    destruct (A t) as [[Q|Q] _]; try qlra. apply (proj2 Co).
  - assert (F : firstop o Y <> firstop o Z).
    { apply (col_overlap c (ncs_nc c N) o Y Z W LY LZ NE Co); rewrite ?Sm; auto. rewrite <- Sm; auto. }
    destruct D as [(E1 & E2 & E3)|(E1 & E2 & E3)]; exfalso.
    + destruct (Wy x Lx) as [[Q|Q] _].
      * pose proof (w_in c o W Y LY) as [A _]. rewrite E1, E2 in Q. qlra.
      * rewrite E1, E2 in Q. apply (no_reason o Y Z (E' o Y) W LY LZ F (proj1 Co) (proj2 Co _)); auto. qlra.
    + destruct (Wy x Lx) as [[Q|Q] _].
      * pose proof (w_in c o W Z LZ) as [A _]. rewrite E1, E2 in Q. qlra.
      * rewrite E1, E2 in Q. apply (no_reason o Z Y (E' o Z) W LZ LY); auto. symmetry; apply (proj1 Co).
        symmetry; apply (proj2 Co). qlra.
Qed.
End Why.
