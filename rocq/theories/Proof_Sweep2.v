(** The plane sweep, part 2: pieces in sheared coordinates, their invariant, and
    what the detection of intersections does. *)
From Coq Require Import QArith Qcanon Bool List Arith Lia.
From Verif Require Import QcTac Model_Base Model_Utils Model_Linear Spec_Base
  Proof_Base Proof_Line Proof_Sweep.
Import ListNotations.
Local Open Scope Qc_scope.

Definition SX (c : ctx) (o : operation) (l : event) : Qc := X c (pt o l).
Definition EX (c : ctx) (o : operation) (l : event) : Qc := X c (pt o (opp o l)).
Definition hh (c : ctx) (o : operation) (l : event) (t : Qc) : Qc := H c (sid o l) t.
Definition kk (c : ctx) (o : operation) (l : event) : Qc := K c (sid o l).

Record wf (c : ctx) (o : operation) : Prop := {
  w_linked : linked o;
  w_first : op_first_count o = c_first c;
  w_sid : forall l, left_of o l -> (sid o l < length (c_ins c))%nat;
  w_ptS : forall l, left_of o l -> In (pt o l) (c_pts c);
  w_ptE : forall l, left_of o l -> In (pt o (opp o l)) (c_pts c);
  w_S : forall l, left_of o l -> py (pt o l) = hh c o l (SX c o l);
  w_E : forall l, left_of o l -> py (pt o (opp o l)) = hh c o l (EX c o l);
  w_lt : forall l, left_of o l -> SX c o l < EX c o l;
  w_in : forall l, left_of o l -> X c (fst (input c (sid o l))) <= SX c o l
                                  /\ EX c o l <= X c (snd (input c (sid o l)));
  w_cover : forall i t, (i < length (c_ins c))%nat ->
    X c (fst (input c i)) <= t -> t <= X c (snd (input c i)) ->
    exists l, left_of o l /\ sid o l = i /\ SX c o l <= t /\ t <= EX c o l;
  w_disj : forall l m, left_of o l -> left_of o m -> l <> m -> sid o l = sid o m ->
    EX c o l <= SX c o m \/ EX c o m <= SX c o l }.

Section Pieces.
Variable c : ctx.
Hypothesis G : good c.
Notation S' := (SX c). Notation E' := (EX c). Notation h := (hh c). Notation k := (kk c).

Lemma h_affine o l t u : h o l t - h o l u = k o l * (t - u).
Proof. apply H_affine. Qed.

Section Divided.
Variables (o o' : operation) (l : event) (mid : point).
Hypothesis W : wf c o.
Hypothesis Ll : left_of o l.
Hypothesis D : divided o l mid o'.

Lemma div_left m : left_of o' m <-> left_of o m \/ m = size o.
Proof.
  unfold left_of. rewrite (d_size _ _ _ _ D). pose proof (size_even o (w_linked c o W)) as SE.
  pose proof (size_odd o (w_linked c o W)) as SO. split.
  - intros [A B]. destruct (Nat.eq_dec m (size o)); [right; auto|left; split; auto].
    destruct (Nat.eq_dec m (S (size o))) as [->|]; [congruence|lia].
  - intros [[A B]| ->]; split; auto; lia.
Qed.
Lemma div_left_old m : left_of o m -> left_of o' m.
Proof. intros; apply div_left; auto. Qed.
Lemma div_left_new : left_of o' (size o).
Proof. apply div_left; auto. Qed.
Lemma left_opp_neq m : left_of o m -> m <> opp o l.
Proof.
  intros [A B] ->. destruct Ll as [C C'].
  destruct (k_opp o (w_linked c o W) l C') as (_ & _ & P). rewrite A, C in P; discriminate.
Qed.
Lemma left_not_new m : left_of o m -> m <> size o.
Proof. intros [A B]; lia. Qed.
Lemma div_S m : left_of o m -> S' o' m = S' o m.
Proof. intros [A B]. unfold SX. rewrite (d_pt _ _ _ _ D); auto. Qed.
Lemma div_S_new : S' o' (size o) = X c mid.
Proof. unfold SX. rewrite (d_pt1 _ _ _ _ D); auto. Qed.
Lemma div_pt_E m : left_of o m -> pt o' (opp o' m) = if (m =? l)%nat then mid else pt o (opp o m).
Proof.
  intros Lm. destruct (Nat.eqb_spec m l) as [->|N].
  - rewrite (d_oppl _ _ _ _ D). apply (d_pt2 _ _ _ _ D).
  - rewrite (d_opp _ _ _ _ D); auto; [|apply Lm|apply left_opp_neq; auto].
    apply (d_pt _ _ _ _ D). apply (k_opp o (w_linked c o W)), Lm.
Qed.
Lemma div_E m : left_of o m -> E' o' m = if (m =? l)%nat then X c mid else E' o m.
Proof. intros Lm. unfold EX. rewrite div_pt_E by auto. destruct (m =? l)%nat; auto. Qed.
Lemma div_E_same : E' o' l = X c mid.
Proof. rewrite div_E, Nat.eqb_refl; auto. Qed.
Lemma div_E_other m : left_of o m -> m <> l -> E' o' m = E' o m.
Proof. intros Lm N. rewrite div_E, (proj2 (Nat.eqb_neq _ _) N); auto. Qed.
Lemma div_pt_E_new : pt o' (opp o' (size o)) = pt o (opp o l).
Proof.
  rewrite (d_opp1 _ _ _ _ D). apply (d_pt _ _ _ _ D). apply (k_opp o (w_linked c o W)), Ll.
Qed.
Lemma div_E_new : E' o' (size o) = E' o l.
Proof. unfold EX. rewrite div_pt_E_new; auto. Qed.
Lemma div_h m t : left_of o m -> h o' m t = h o m t.
Proof. intros Lm. unfold hh. rewrite (d_sid _ _ _ _ D); auto. Qed.
Lemma div_k m : left_of o m -> k o' m = k o m.
Proof. intros Lm. unfold kk. rewrite (d_sid _ _ _ _ D); auto. Qed.
Lemma div_h_new t : h o' (size o) t = h o l t.
Proof. unfold hh. rewrite (d_sid1 _ _ _ _ D); auto. Qed.
Lemma div_k_new : k o' (size o) = k o l.
Proof. unfold kk. rewrite (d_sid1 _ _ _ _ D); auto. Qed.

Hypothesis Min : In mid (c_pts c).
Hypothesis Mline : py mid = h o l (X c mid).
Hypothesis M1 : S' o l < X c mid.
Hypothesis M2 : X c mid < E' o l.

Lemma wf_divided : wf c o'.
Proof.
  constructor.
  - apply (d_linked _ _ _ _ D).
  - rewrite (d_first _ _ _ _ D). apply (w_first c o W).
  - intros m Lm. apply div_left in Lm. destruct Lm as [Lm| ->].
    + rewrite (d_sid _ _ _ _ D); auto. apply (w_sid c o W); auto.
    + rewrite (d_sid1 _ _ _ _ D). apply (w_sid c o W); auto.
  - intros m Lm. apply div_left in Lm. destruct Lm as [Lm| ->].
    + rewrite (d_pt _ _ _ _ D); [|apply Lm]. apply (w_ptS c o W); auto.
    + rewrite (d_pt1 _ _ _ _ D). auto.
  - intros m Lm. apply div_left in Lm. destruct Lm as [Lm| ->].
    + rewrite div_pt_E by auto. destruct (m =? l)%nat; auto. apply (w_ptE c o W); auto.
    + rewrite div_pt_E_new. apply (w_ptE c o W); auto.
  - intros m Lm. apply div_left in Lm. destruct Lm as [Lm| ->].
    + rewrite div_h, div_S by auto. rewrite (d_pt _ _ _ _ D); [|apply Lm]. apply (w_S c o W); auto.
    + rewrite div_h_new, div_S_new, (d_pt1 _ _ _ _ D). auto.
  - intros m Lm. apply div_left in Lm. destruct Lm as [Lm| ->].
    + rewrite div_h, div_E, div_pt_E by auto. destruct (Nat.eqb_spec m l) as [->|]; auto.
      apply (w_E c o W); auto.
    + rewrite div_h_new, div_E_new, div_pt_E_new. apply (w_E c o W); auto.
  - intros m Lm. apply div_left in Lm. destruct Lm as [Lm| ->].
    + rewrite div_S, div_E by auto. destruct (Nat.eqb_spec m l) as [->|]; auto.
      apply (w_lt c o W); auto.
    + rewrite div_S_new, div_E_new. auto.
  - intros m Lm. apply div_left in Lm. destruct Lm as [Lm| ->].
    + rewrite div_S, div_E by auto. rewrite (d_sid _ _ _ _ D) by auto.
      destruct (w_in c o W m Lm). destruct (Nat.eqb_spec m l) as [->|]; auto. split; auto. qlra.
    + rewrite div_S_new, div_E_new, (d_sid1 _ _ _ _ D).
      destruct (w_in c o W l Ll). split; auto. qlra.
  - intros i t Hi A B. destruct (w_cover c o W i t Hi A B) as (m & Lm & I & C1 & C2).
    destruct (Nat.eq_dec m l) as [->|N].
    + destruct (Qclt_le_dec (X c mid) t) as [T|T].
      * exists (size o). split; [apply div_left_new|]. rewrite (d_sid1 _ _ _ _ D), div_S_new, div_E_new.
        repeat split; auto. qlra.
      * exists l. split; [apply div_left_old; auto|]. rewrite (d_sid _ _ _ _ D), div_S, div_E_same by auto.
        repeat split; auto.
    + exists m. split; [apply div_left_old; auto|].
      rewrite (d_sid _ _ _ _ D), div_S, div_E_other by auto. auto.
  - assert (Hl : forall m, left_of o m -> m <> l -> sid o m = sid o l ->
      (X c mid <= S' o m \/ E' o m <= S' o l) /\ (E' o l <= S' o m \/ E' o m <= X c mid)).
    { intros m Lm N I. destruct (w_disj c o W m l Lm Ll N I); split; auto; try (left; qlra).
      right. qlra. }
    intros m1 m2 L1 L2 N I. apply div_left in L1; apply div_left in L2.
    destruct L1 as [L1| ->], L2 as [L2| ->].
    + rewrite !(d_sid _ _ _ _ D) in I by auto. rewrite !div_S, !div_E by auto.
      pose proof (w_disj c o W m1 m2 L1 L2 N I) as [A|A];
        destruct (Nat.eqb_spec m1 l) as [->|], (Nat.eqb_spec m2 l) as [->|]; auto; try congruence.
      * left; qlra.
      * right; qlra.
    + rewrite (d_sid _ _ _ _ D), (d_sid1 _ _ _ _ D) in I by auto.
      rewrite (div_S m1), div_S_new, div_E_new, (div_E m1) by auto.
      destruct (Nat.eqb_spec m1 l) as [->|N1]; [left; qlra|].
      destruct (Hl m1 L1 N1 I) as [_ [|]]; auto.
    + rewrite (d_sid _ _ _ _ D m2), (d_sid1 _ _ _ _ D) in I by auto.
      rewrite (div_S m2), div_S_new, div_E_new, (div_E m2) by auto.
      destruct (Nat.eqb_spec m2 l) as [->|N1]; [right; qlra|].
      destruct (Hl m2 L2 N1 (eq_sym I)) as [_ [|]]; auto.
    + congruence.
Qed.
End Divided.
End Pieces.

(** ** Detection *)

(** [mid] is a place where [l] has to be divided because of [m]. *)
Record cut (c : ctx) (o : operation) (l m : event) (mid : point) : Prop := {
  cut_in : In mid (c_pts c);
  cut_l : py mid = hh c o l (X c mid);
  cut_m : py mid = hh c o m (X c mid);
  cut_S : SX c o l < X c mid;
  cut_E : X c mid < EX c o l;
  cut_Sm : SX c o m <= X c mid;
  cut_Em : X c mid <= EX c o m;
  cut_why : X c mid = SX c o m \/ X c mid = EX c o m \/ kk c o l <> kk c o m }.

Inductive cuts (c : ctx) (Y Z : event) : operation -> operation -> Prop :=
| cuts_nil o : cuts c Y Z o o
| cuts_cons o l m mid o1 o2 :
    (l = Y /\ m = Z) \/ (l = Z /\ m = Y) -> cut c o l m mid -> divided o l mid o1 ->
    cuts c Y Z o1 o2 -> cuts c Y Z o o2.

(** The pieces coincide, or meet in common endpoints only. *)
Definition apart (c : ctx) (o : operation) (Y Z : event) : Prop :=
  forall t, SX c o Y <= t -> t <= EX c o Y -> SX c o Z <= t -> t <= EX c o Z ->
    hh c o Y t = hh c o Z t ->
    (t = SX c o Y \/ t = EX c o Y) /\ (t = SX c o Z \/ t = EX c o Z).
Definition coincide (c : ctx) (o : operation) (Y Z : event) : Prop :=
  SX c o Y = SX c o Z /\ EX c o Y = EX c o Z /\ kk c o Y = kk c o Z
  /\ hh c o Y (SX c o Y) = hh c o Z (SX c o Z).
(** Pieces of one operand do not overlap. *)
Definition overlap (c : ctx) (o : operation) (Y Z : event) : Prop :=
  kk c o Y = kk c o Z /\ exists t, hh c o Y t = hh c o Z t
    /\ SX c o Y < t /\ t < EX c o Y /\ SX c o Z < t /\ t < EX c o Z.
Definition from_first (o : operation) (l : event) : bool :=
  is_left_event_from_first_operand o l.

(** ** Affine functions *)
Lemma aff_zero (d : Qc -> Qc) (s a b t : Qc) :
  (forall x y, d x - d y = s * (x - y)) -> a <> b -> d a = 0 -> d b = 0 -> d t = 0.
Proof.
  intros A N Ha Hb. pose proof (A a b) as E1. pose proof (A t a) as E2.
  assert (E3 : s * (a - b) = 0) by (rewrite <- E1, Ha, Hb; ring).
  apply Qcmult_integral in E3. destruct E3 as [->|E3].
  - rewrite Ha in E2. qlra.
  - exfalso; apply N. qlra.
Qed.
Lemma aff_slope0 (d : Qc -> Qc) (s a b : Qc) :
  (forall x y, d x - d y = s * (x - y)) -> a <> b -> d a = 0 -> d b = 0 -> s = 0.
Proof.
  intros A N Ha Hb. pose proof (A a b) as E1.
  assert (E3 : s * (a - b) = 0) by (rewrite <- E1, Ha, Hb; ring).
  apply Qcmult_integral in E3. destruct E3 as [->|E3]; auto. exfalso; apply N; qlra.
Qed.
