(** The plane sweep, part 8: the order of the queue, for operands whose segments
    do not cross. *)
From Coq Require Import QArith Qcanon Bool List Arith Lia.
From Verif Require Import QcTac Model_Base Model_Utils Model_Linear Spec_Base Spec_Sweep
  Proof_Base Proof_Line Proof_Sweep Proof_Sweep2 Proof_Sweep3 Proof_Sweep5 Proof_Sweep7.
Import ListNotations.
Local Open Scope Qc_scope.

(** No two segments of one operand have a common inner point. *)
Definition nc (c : ctx) : Prop :=
  forall i j t, (i < length (c_ins c))%nat -> (j < length (c_ins c))%nat -> i <> j ->
    (i <? c_first c)%nat = (j <? c_first c)%nat ->
    X c (fst (input c i)) < t -> t < X c (snd (input c i)) ->
    X c (fst (input c j)) < t -> t < X c (snd (input c j)) -> H c i t <> H c j t.

Notation firstop := is_left_event_from_first_operand.

Lemma middle a b : a < b -> exists t, a < t /\ t < b.
Proof.
  intros L. exists ((a + b) / (1 + 1)). assert (E : ((a + b) / (1 + 1)) * (1 + 1) = a + b).
  { field. intro Z. discriminate Z. } split; qlra.
Qed.

Section Queue.
Variable c : ctx.
Hypothesis G : good c.
Hypothesis N : nc c.
Notation S' := (SX c). Notation E' := (EX c). Notation h := (hh c). Notation k := (kk c).

Lemma no_through o Y Z t : wf c o -> left_of o Y -> left_of o Z -> Y <> Z ->
  firstop o Y = firstop o Z -> S' o Y < t -> t < E' o Y -> S' o Z < t -> t < E' o Z ->
  h o Y t <> h o Z t.
Proof.
  intros W LY LZ NE F A1 A2 A3 A4 E.
  destruct (Nat.eq_dec (sid o Y) (sid o Z)) as [Es|Es].
  - destruct (w_disj c o W Y Z LY LZ NE Es); qlra.
  - destruct (w_in c o W Y LY). destruct (w_in c o W Z LZ).
    unfold is_left_event_from_first_operand in F. rewrite (w_first c o W) in F.
    apply (N (sid o Y) (sid o Z) t (w_sid c o W Y LY) (w_sid c o W Z LZ) Es F); auto; qlra.
Qed.

(** Collinear pieces. *)
Definition col (o : operation) (Y Z : event) : Prop :=
  k o Y = k o Z /\ forall t, h o Y t = h o Z t.
Lemma col_slope o Y Z t : k o Y = k o Z -> h o Y t = h o Z t -> col o Y Z.
Proof.
  intros E1 E2. split; auto. intros u. pose proof (h_affine c o Y u t) as A.
  pose proof (h_affine c o Z u t) as B. rewrite E1 in A. qlra.
Qed.
Lemma col_two o Y Z t u : t <> u -> h o Y t = h o Z t -> h o Y u = h o Z u -> col o Y Z.
Proof.
  intros E1 E2 E3. apply (col_slope o Y Z t); auto. pose proof (h_affine c o Y u t) as A.
  pose proof (h_affine c o Z u t) as B.
  assert (Q : (k o Y - k o Z) * (u - t) = 0).
  { replace ((k o Y - k o Z) * (u - t)) with (k o Y * (u - t) - k o Z * (u - t)) by ring.
    rewrite <- A, <- B, E2, E3. ring. }
  apply Qcmult_integral in Q. destruct Q; [qlra|exfalso; apply E1; qlra].
Qed.
Lemma col_sym o Y Z : col o Y Z -> col o Z Y.
Proof. intros [A B]. split; auto. Qed.
Lemma col_trans o Y Z U : col o Y Z -> col o Z U -> col o Y U.
Proof. intros [A B] [A' B']. split; [congruence|]. intros t. rewrite B. auto. Qed.

(** Collinear pieces with a common inner part are of different operands. *)
Lemma col_overlap o Y Z : wf c o -> left_of o Y -> left_of o Z -> Y <> Z -> col o Y Z ->
  S' o Y < E' o Z -> S' o Z < E' o Y -> firstop o Y <> firstop o Z.
Proof.
  intros W LY LZ NE C A B F. pose proof (w_lt c o W Y LY). pose proof (w_lt c o W Z LZ).
  assert (Q : exists t, S' o Y < t /\ t < E' o Y /\ S' o Z < t /\ t < E' o Z).
  { destruct (Qclt_le_dec (S' o Y) (S' o Z)) as [L1|L1];
    destruct (Qclt_le_dec (E' o Y) (E' o Z)) as [L2|L2].
    - destruct (middle (S' o Z) (E' o Y)) as (t & ? & ?); auto. exists t; repeat split; qlra.
    - destruct (middle (S' o Z) (E' o Z)) as (t & ? & ?); auto. exists t; repeat split; qlra.
    - destruct (middle (S' o Y) (E' o Y)) as (t & ? & ?); auto. exists t; repeat split; qlra.
    - destruct (middle (S' o Y) (E' o Z)) as (t & ? & ?); auto. exists t; repeat split; qlra. }
  destruct Q as (t & A1 & A2 & A3 & A4).
  apply (no_through o Y Z t W LY LZ NE F A1 A2 A3 A4). apply C.
Qed.
(** Hence at most two of them overlap one another. *)
Lemma col_three o Y Z U : wf c o -> left_of o Y -> left_of o Z -> left_of o U ->
  Y <> Z -> Y <> U -> Z <> U -> col o Y Z -> col o Y U ->
  S' o Y < E' o Z -> S' o Z < E' o Y -> S' o Y < E' o U -> S' o U < E' o Y ->
  S' o Z < E' o U -> S' o U < E' o Z -> False.
Proof.
  intros W LY LZ LU N1 N2 N3 C1 C2 A1 A2 A3 A4 A5 A6.
  pose proof (col_overlap o Y Z W LY LZ N1 C1 A1 A2).
  pose proof (col_overlap o Y U W LY LU N2 C2 A3 A4).
  pose proof (col_overlap o Z U W LZ LU N3 (col_trans o Z Y U (col_sym o Y Z C1) C2) A5 A6).
  destruct (firstop o Y), (firstop o Z), (firstop o U); congruence.
Qed.

(** ** The order of events *)
Definition EVX (o : operation) (e : event) : Qc := X c (pt o e).
Definition skey (o : operation) (e : event) : Qc :=
  if is_event_left e then k o e else - k o (opp o e).
Notation evfirst := is_event_from_first_operand.

Definition qlt (o : operation) (e y : event) : Prop :=
  EVX o e < EVX o y
  \/ (EVX o e = EVX o y /\
      ((is_event_left e = false /\ is_event_left y = true)
       \/ (is_event_left e = is_event_left y /\
           (skey o e < skey o y
            \/ (skey o e = skey o y /\ evfirst o e = false /\ evfirst o y = true))))).

Lemma qlt_trans o x y z : qlt o x y -> qlt o y z -> qlt o x z.
Proof.
  unfold qlt. intros [A|(A & [[A1 A2]|(A1 & [A2|(A2 & A3 & A4)])])]
                     [B|(B & [[B1 B2]|(B1 & [B2|(B2 & B3 & B4)])])];
    try (left; qlra); right; (split; [congruence|]); try congruence;
    try (left; split; congruence); right; (split; [congruence|]); try (left; qlra); try congruence.
Qed.
Lemma qlt_irrefl o x : ~ qlt o x x.
Proof.
  unfold qlt. intros [A|(A & [[A1 A2]|(A1 & [A2|(A2 & A3 & A4)])])]; try qlra; congruence.
Qed.

(** The left event of an event and the line it is on. *)
Lemma to_left_left o e : wf c o -> (e < size o)%nat -> left_of o (to_left_event o e).
Proof.
  intros W L. unfold to_left_event. destruct (is_event_left e) eqn:Q; [split; auto|].
  destruct (k_opp o (w_linked c o W) e L) as (A & B & C). rewrite Q in C. split; auto.
Qed.
Lemma event_pt o e : wf c o -> (e < size o)%nat -> In (pt o e) (c_pts c)
  /\ py (pt o e) = h o (to_left_event o e) (EVX o e)
  /\ EVX o e = (if is_event_left e then S' o e else E' o (opp o e)).
Proof.
  intros W L. pose proof (to_left_left o e W L) as LL. unfold to_left_event, EVX in *.
  destruct (is_event_left e) eqn:Q.
  - split; [apply (w_ptS c o W); auto|]. split; [apply (w_S c o W); auto|reflexivity].
  - destruct (k_opp o (w_linked c o W) e L) as (A & B & C).
    unfold EX. rewrite B. rewrite <- B at 1 2. split; [apply (w_ptE c o W); auto|].
    split; [|reflexivity]. pose proof (w_E c o W (opp o e) LL) as Q2.
    unfold EX in Q2. rewrite B in Q2. rewrite B. exact Q2.
Qed.
Lemma to_left_inj o e y : wf c o -> (e < size o)%nat -> (y < size o)%nat ->
  is_event_left e = is_event_left y -> to_left_event o e = to_left_event o y -> e = y.
Proof.
  intros W Le Ly E. unfold to_left_event. rewrite <- E. destruct (is_event_left e); auto.
  intros Q. destruct (k_opp o (w_linked c o W) e Le) as (_ & A & _).
  destruct (k_opp o (w_linked c o W) y Ly) as (_ & B & _). congruence.
Qed.

Lemma tie_impossible o e y : wf c o -> (e < size o)%nat -> (y < size o)%nat -> e <> y ->
  EVX o e = EVX o y -> is_event_left e = is_event_left y ->
  col o (to_left_event o e) (to_left_event o y) -> evfirst o e <> evfirst o y.
Proof.
  intros W Le Ly NE EX Es C. unfold is_event_from_first_operand.
  pose proof (to_left_left o e W Le) as L1. pose proof (to_left_left o y W Ly) as L2.
  assert (NL : to_left_event o e <> to_left_event o y).
  { intros Q. apply NE. apply (to_left_inj o e y); auto. }
  destruct (event_pt o e W Le) as (_ & _ & X1). destruct (event_pt o y W Ly) as (_ & _ & X2).
  pose proof (w_lt c o W _ L1) as T1. pose proof (w_lt c o W _ L2) as T2.
  apply (col_overlap o); auto; unfold to_left_event in *; rewrite <- Es in *;
    destruct (is_event_left e); rewrite X1, X2 in EX; qlra.
Qed.

Lemma queue_key_spec o e y : wf c o -> (e < size o)%nat -> (y < size o)%nat -> e <> y ->
  exists b, queue_key_lt o e y = Some b /\ (b = true -> qlt o e y) /\ (b = false -> qlt o y e).
Proof.
  intros W Le Ly NE. destruct (event_pt o e W Le) as (I1 & P1 & X1).
  destruct (event_pt o y W Ly) as (I2 & P2 & X2).
  pose proof (to_left_left o e W Le) as L1. pose proof (to_left_left o y W Ly) as L2.
  unfold queue_key_lt.
  assert (Lt : forall p q, In p (c_pts c) -> In q (c_pts c) -> lex_lt p q -> X c p < X c q).
  { intros p q Ip Iq. apply (g_mono c G); auto. }
  destruct (qeqb_spec (px (pt o e)) (px (pt o y))) as [Ex|Ex]; cbn [negb].
  2: { eexists; split; [reflexivity|]. destruct (qltb_spec (px (pt o e)) (px (pt o y))) as [Q|Q];
       (split; [intros _|discriminate]) || (split; [discriminate|intros _]);
       left; apply Lt; auto; left; auto. qne. qlra. }
  destruct (qeqb_spec (py (pt o e)) (py (pt o y))) as [Ey|Ey]; cbn [negb].
  2: { eexists; split; [reflexivity|]. destruct (qltb_spec (py (pt o e)) (py (pt o y))) as [Q|Q];
       (split; [intros _|discriminate]) || (split; [discriminate|intros _]);
       left; apply Lt; auto; right; split; auto. qne. qlra. }
  assert (EV : EVX o e = EVX o y) by (unfold EVX, X; rewrite Ex, Ey; auto).
  assert (Epq : pt o e = pt o y) by (destruct (pt o e), (pt o y); cbn in *; congruence).
  destruct (Bool.eqb_spec (is_event_left e) (is_event_left y)) as [Es|Es]; cbn [negb].
  2: { eexists; split; [reflexivity|]. unfold qlt.
       destruct (is_event_left e) eqn:Q1, (is_event_left y) eqn:Q2; try congruence; cbn [negb];
       split; try discriminate; intros _; right; split; auto. }
  (* same point, same side *)
  assert (Ar : area2 (pt o e) (to_event_end o e) (to_event_end o y)
    = (X c (to_event_end o e) - EVX o e)
      * (h o (to_left_event o y) (X c (to_event_end o y)) - h o (to_left_event o e) (X c (to_event_end o y)))).
  { assert (Lop : forall z, (z < size o)%nat -> (opp o z < size o)%nat
        /\ to_left_event o (opp o z) = to_left_event o z).
    { intros z Lz. destruct (k_opp o (w_linked c o W) z Lz) as (A & B & D). split; auto.
      unfold to_left_event. rewrite D. destruct (is_event_left z); cbn; auto. }
    destruct (Lop e Le) as [Le' Te]. destruct (Lop y Ly) as [Ly' Ty].
    destruct (event_pt o (opp o e) W Le') as (_ & Pe & _).
    destruct (event_pt o (opp o y) W Ly') as (_ & Py & _). rewrite Te in Pe. rewrite Ty in Py.
    unfold to_event_end in *. rewrite (area2_H c (sid o (to_left_event o e))); auto.
    unfold EVX in *. unfold hh in Py at 1. rewrite Py. reflexivity. }
  assert (Dk : h o (to_left_event o y) (X c (to_event_end o y)) - h o (to_left_event o e) (X c (to_event_end o y))
     = (k o (to_left_event o y) - k o (to_left_event o e)) * (X c (to_event_end o y) - EVX o e)).
  { pose proof (h_affine c o (to_left_event o y) (X c (to_event_end o y)) (EVX o e)) as A.
    pose proof (h_affine c o (to_left_event o e) (X c (to_event_end o y)) (EVX o e)) as B.
    assert (Q : h o (to_left_event o y) (EVX o e) = h o (to_left_event o e) (EVX o e)).
    { rewrite <- P1. rewrite EV, <- P2. auto. } rewrite Q in A. qlra. }
  rewrite Dk in Ar. clear Dk.
  set (ke := k o (to_left_event o e)) in *. set (ky := k o (to_left_event o y)) in *.
  set (xe := X c (to_event_end o e) - EVX o e) in *. set (xy := X c (to_event_end o y) - EVX o e) in *.
  assert (Sg : 0 < xe * xy).
  { unfold xe, xy. pose proof (w_lt c o W _ L1) as T1. pose proof (w_lt c o W _ L2) as T2.
    assert (Xe : X c (to_event_end o e) = if is_event_left e then E' o e else S' o (opp o e)) by (destruct (is_event_left e); reflexivity).
    assert (Xy : X c (to_event_end o y) = if is_event_left e then E' o y else S' o (opp o y)) by (destruct (is_event_left e); reflexivity).
    rewrite Xe, Xy. rewrite EV at 2. rewrite X1, X2. unfold to_left_event in T1, T2. rewrite <- Es in *.
    destruct (is_event_left e); qnra. }
  assert (Ar' : area2 (pt o e) (to_event_end o e) (to_event_end o y) = (xe * xy) * (ky - ke)) by (rewrite Ar; ring).
  assert (SK : (is_event_left e = true /\ skey o e = ke /\ skey o y = ky)
               \/ (is_event_left e = false /\ skey o e = - ke /\ skey o y = - ky)).
  { unfold skey, ke, ky, to_left_event. rewrite <- Es. destruct (is_event_left e); auto. }
  clearbody ke ky xe xy.
  destruct (orient_spec (pt o e) (to_event_end o e) (to_event_end o y)) as [[-> Sn]|[[-> Sn]|[-> Sn]]];
    rewrite Ar' in Sn; cbn [orientation_is].
  - assert (0 < ky - ke) by (apply Qcnot_le_lt; intro; qnra).
    eexists; split; [reflexivity|]. unfold qlt.
    destruct SK as [(Q1 & -> & ->)|(Q1 & -> & ->)]; rewrite Q1; cbn [orientation_is];
      split; try discriminate; intros _; right; (split; [auto|right; split; [congruence|left; qlra]]).
  - assert (Ek : ky - ke = 0).
    { apply Qcmult_integral in Sn. destruct Sn; auto. exfalso; qlra. }
    assert (Kc : k o (to_left_event o e) = k o (to_left_event o y)).
    { destruct SK as [(Q1 & S1 & S2)|(Q1 & S1 & S2)]; unfold skey in S1, S2; unfold to_left_event;
      rewrite <- Es in *; rewrite Q1 in *; qlra. }
    assert (Cl : col o (to_left_event o e) (to_left_event o y)).
    { apply (col_slope o _ _ (EVX o e)); auto. rewrite <- P1, EV, <- P2, Epq. reflexivity. }
    pose proof (tie_impossible o e y W Le Ly NE EV Es Cl) as NF.
    destruct (Bool.eqb_spec (evfirst o e) (evfirst o y)); [contradiction|]. cbn [negb].
    eexists; split; [reflexivity|].
    assert (Ks : skey o e = skey o y) by (destruct SK as [(Q1 & -> & ->)|(Q1 & -> & ->)]; qlra).
    unfold qlt. destruct (evfirst o e), (evfirst o y); try congruence; split; try discriminate; intros _;
      right; (split; [auto|right; split; [congruence|right; auto]]).
  - assert (ky - ke < 0) by (apply Qcnot_le_lt; intro; qnra).
    eexists; split; [reflexivity|]. unfold qlt.
    destruct SK as [(Q1 & -> & ->)|(Q1 & -> & ->)]; rewrite Q1; cbn [orientation_is];
      split; try discriminate; intros _; right; (split; [auto|right; split; [congruence|left; qlra]]).
Qed.

Lemma queue_min_spec o : wf c o -> forall l best,
  NoDup (best :: l) -> (forall e, In e (best :: l) -> (e < size o)%nat) ->
  exists r, queue_min o best l = Some r /\ In r (best :: l)
    /\ forall y, In y (best :: l) -> y = r \/ qlt o r y.
Proof.
  intros W l; induction l as [|x l IH]; intros best ND Sz; cbn [queue_min].
  - exists best. split; auto. split; [left; auto|]. intros y [->|[]]; auto.
  - assert (NE : x <> best) by (intros ->; inversion ND; subst; apply H1; left; auto).
    destruct (queue_key_spec o x best W) as (b & -> & B1 & B2); auto.
    { apply Sz; right; left; auto. } { apply Sz; left; auto. }
    assert (ND1 : NoDup (x :: l)) by (inversion ND; auto).
    assert (ND2 : NoDup (best :: l)).
    { inversion ND as [|? ? N1 N2]; subst. inversion N2; subst. constructor; auto. intros I; apply N1; right; auto. }
    destruct b.
    + destruct (IH x ND1) as (r & -> & Ir & Mr); [intros; apply Sz; right; auto|].
      exists r. split; auto. split; [right; auto|]. intros y [<-|I]; [|apply Mr; auto].
      right. destruct (Mr x (or_introl eq_refl)) as [->|Q]; auto.
      apply (qlt_trans o r x best); auto.
    + destruct (IH best ND2) as (r & -> & Ir & Mr).
      { intros e [->|I]; apply Sz; [left|right; right]; auto. }
      exists r. split; auto. split; [destruct Ir as [->|]; [left|right; right]; auto|].
      intros y [<-|[<-|I]]; [apply Mr; left; auto| |apply Mr; right; auto].
      right. destruct (Mr best (or_introl eq_refl)) as [->|Q]; auto.
      apply (qlt_trans o r best x); auto.
Qed.

Lemma drop_event_NoDup e l : NoDup l -> NoDup (drop_event e l) /\ ~ In e (drop_event e l).
Proof.
  induction l as [|x l IH]; cbn; [split; auto|]. intros ND; inversion ND as [|? ? N1 N2]; subst.
  destruct (IH N2) as [A B]. destruct (Nat.eqb_spec x e) as [->|Q]; [auto|].
  split.
  - constructor; auto. intros I. apply drop_event_In in I. auto.
  - intros [|]; auto.
Qed.
Lemma drop_event_keep e l x : In x l -> x <> e -> In x (drop_event e l).
Proof.
  induction l as [|y l IH]; cbn; [auto|]. intros [->|I] NE.
  - destruct (Nat.eqb_spec x e); [contradiction|left; auto].
  - destruct (y =? e)%nat; auto. right; auto.
Qed.

Lemma pop_spec o : wf c o -> op_queue o <> [] -> NoDup (op_queue o) ->
  (forall e, In e (op_queue o) -> (e < size o)%nat) ->
  exists e, pop o = Some (e, set_queue o (drop_event e (op_queue o))) /\ In e (op_queue o)
    /\ forall y, In y (op_queue o) -> y = e \/ qlt o e y.
Proof.
  intros W NE ND Sz. unfold pop. destruct (op_queue o) as [|x q]; [congruence|].
  destruct (queue_min_spec o W q x ND Sz) as (r & -> & Ir & Mr). exists r. auto.
Qed.
End Queue.
