(** The sides of the events round the vertices of a drawing without crossings. *)
From Coq Require Import QArith Qcanon Bool List Arith Lia Permutation Sorted.
From Verif Require Import QcTac Model_Base Spec_Base Proof_Base Proof_Parity Proof_Ring Proof_Corner.
Import ListNotations.
Local Open Scope Qc_scope.

Lemma StronglySorted_split {T} (R : T -> T -> Prop) l1 x l2 : StronglySorted R (l1 ++ x :: l2) ->
  (forall y, In y l1 -> R y x) /\ (forall y, In y l2 -> R x y).
Proof.
  induction l1 as [|z l1 IH]; cbn [app]; intros Q; apply StronglySorted_inv in Q; destruct Q as [Q1 Q2].
  - split; [intros y []|]. rewrite Forall_forall in Q2. auto.
  - destruct (IH Q1) as [I1 I2]. split; auto. intros y [<-|Iy]; auto. rewrite Forall_forall in Q2. apply Q2, in_or_app. right; left; auto.
Qed.
Lemma pre_sorted (R : nat -> nat -> bool) C l x : (forall y z, R y z = true -> R z y = false) ->
  (forall y, R y y = false) -> NoDup l ->
  StronglySorted (fun y z => R y z = true) l -> In x l -> pre C l x = xsum (fun y => C y && R y x) l.
Proof.
  intros As Ir Nd So I. apply in_split in I. destruct I as (l1 & l2 & ->).
  destruct (nodup_mid l1 l2 x Nd) as [N1 N2]. destruct (StronglySorted_split _ _ _ _ So) as [S1 S2].
  rewrite pre_split by auto. rewrite xsum_app. cbn [xsum]. rewrite Ir, andb_false_r, xorb_false_l.
  rewrite (xsum_false _ l2), xorb_false_r.
  - apply xsum_ext. intros y Iy. rewrite (S1 y Iy), andb_true_r. auto.
  - intros y Iy. rewrite (As x y (S2 y Iy)), andb_false_r. auto.
Qed.

Section Rings.
Variable L : list nat.
Variables (op : nat -> nat) (at_ : nat -> point) (lft : nat -> bool).
Variables (X : point -> Qc) (hg : nat -> Qc -> Qc) (sl : nat -> Qc).
Notation A := at_. Notation B l := (at_ (op l)).
Hypothesis Lnd : NoDup L.
Hypothesis Ll : forall l, In l L -> lft l = true /\ lft (op l) = false /\ op (op l) = l.
Hypothesis lt : forall i, In i L -> X (A i) < X (B i).
Hypothesis aff : forall i t u, hg i t - hg i u = sl i * (t - u).
Hypothesis hA : forall i, In i L -> hg i (X (A i)) = py (A i).
Hypothesis hB : forall i, In i L -> hg i (X (B i)) = py (B i).
Hypothesis inj : forall p q, vertex L A (fun l => B l) p -> vertex L A (fun l => B l) q -> X p = X q -> p = q.
Hypothesis meet : forall i j u, In i L -> In j L -> i <> j -> X (A i) <= u -> u <= X (B i) ->
  X (A j) <= u -> u <= X (B j) -> hg i u = hg j u -> (u = X (A i) \/ u = X (B i)) /\ (u = X (A j) \/ u = X (B j)).
Variable events : list nat.
Hypothesis Ev : forall x, In x events <-> exists l, In l L /\ (x = l \/ x = op l).
Variable ring : point -> list nat.
Hypothesis ring_nd : forall v, NoDup (ring v).
Hypothesis ring_in : forall v x, In x (ring v) <-> In x events /\ at_ x = v.
(** Round a vertex: the events of the edges that end there by falling slopes, then those of the
    edges that start there by falling slopes. *)
Definition goes_before (y x : nat) : bool :=
  if lft y then lft x && qltb (sl x) (sl y) else lft x || qltb (sl (op x)) (sl (op y)).
Hypothesis ring_sorted : forall v, StronglySorted (fun y z => goes_before y z = true) (ring v).

Lemma goes_asym y z : goes_before y z = true -> goes_before z y = false.
Proof.
  unfold goes_before. destruct (lft y), (lft z); cbn [andb orb]; intros Q; try discriminate; auto;
    apply qltb_true in Q; apply qltb_not; qlra.
Qed.
Lemma goes_irrefl y : goes_before y y = false.
Proof. unfold goes_before. destruct (lft y); cbn [andb orb]; apply qltb_not; qlra. Qed.

Lemma both_nd : NoDup (flat_map (fun l => [l; op l]) L).
Proof.
  assert (Q : forall m, NoDup m -> (forall x, In x m -> In x L) -> NoDup (flat_map (fun x => [x; op x]) m)).
  { induction m as [|x m IH]; cbn [flat_map app]; intros Nm Im; [constructor|]. inversion Nm as [|? ? N1 N2]; subst.
    assert (Fr : forall y, In y (flat_map (fun x => [x; op x]) m) -> exists z, In z m /\ (y = z \/ y = op z)).
    { intros y I. apply in_flat_map in I. destruct I as (z & I & [W|[W|[]]]); exists z; auto. }
    destruct (Ll x (Im x (or_introl eq_refl))) as (X1 & X2 & X3).
    constructor; [|constructor; [|apply IH; auto; intros; apply Im; right; auto]].
    - intros [I|I]; [congruence|]. destruct (Fr _ I) as (z & Iz & [-> | W]); [contradiction|].
      destruct (Ll z (Im z (or_intror Iz))) as (Z1 & Z2 & Z3). congruence.
    - intros I. destruct (Fr _ I) as (z & Iz & W). destruct (Ll z (Im z (or_intror Iz))) as (Z1 & Z2 & Z3).
      destruct W as [W|W]; [congruence|]. assert (x = z) by congruence. subst. contradiction. }
  apply Q; auto.
Qed.
Lemma ring_sum f v : xsum f (ring v) = xsum (fun l => xorb (pointb (A l) v && f l) (pointb (B l) v && f (op l))) L.
Proof.
  rewrite (xsum_perm f (ring v) (filter (fun x => pointb (at_ x) v) (flat_map (fun l => [l; op l]) L))).
  - rewrite xsum_filter, xsum_flat. apply xsum_ext. intros l _. cbn [xsum]. rewrite xorb_false_r. auto.
  - apply NoDup_Permutation; auto; [apply NoDup_filter, both_nd|]. intros x. rewrite ring_in, filter_In, pointb_true, Ev, in_flat_map.
    split; intros [(l & Il & W) Q]; split; auto; exists l; split; auto; cbn in *; intuition.
Qed.
Lemma degree_ring C v : closed events op C -> xsum C (ring v) = degree L A (fun l => B l) C v.
Proof.
  intros Cc. rewrite ring_sum. apply xsum_ext. intros l Il. rewrite Cc by (apply Ev; eauto).
  destruct (C l), (pointb (A l) v), (pointb (B l) v); reflexivity.
Qed.

Definition level (C : nat -> bool) (v : point) : bool := passes L A (fun l => B l) X hg C v.
Lemma side_left C l : closed events op C -> even ring C -> In l L ->
  side at_ ring level C l = xorb (xorb (level C (A l)) (starting L A sl C (A l) (sl l))) (C l).
Proof.
  intros Cc Ce Il. destruct (Ll l Il) as (L1 & L2 & L3). unfold side. rewrite xorb_assoc. f_equal.
  assert (Ir : In l (ring (A l))) by (apply ring_in; split; auto; apply Ev; eauto).
  rewrite (pre_sorted goes_before C _ l goes_asym goes_irrefl (ring_nd _) (ring_sorted _) Ir).
  rewrite ring_sum. pose proof (degree_ring C (A l) Cc) as D. rewrite (Ce (A l)) in D.
  assert (Sg : xsum (fun j => C j && (j =? l)%nat) L = C l).
  { clear - Lnd Il. induction L as [|x r IH]; [destruct Il|]. inversion Lnd; subst. cbn [xsum]. destruct Il as [->|Il].
    - rewrite Nat.eqb_refl, andb_true_r, xsum_false, xorb_false_r; auto. intros y Iy. destruct (Nat.eqb_spec y l) as [->|]; [contradiction|apply andb_false_r].
    - destruct (Nat.eqb_spec x l) as [->|]; [contradiction|]. rewrite andb_false_r, IH by auto. apply xorb_false_l. }
  rewrite <- Sg. unfold starting. rewrite <- xsum_xor.
  transitivity (xorb (xsum (fun j => xorb (pointb (A j) (A l) && (C j && goes_before j l)) (pointb (B j) (A l) && (C (op j) && goes_before (op j) l))) L)
    (degree L A (fun l => B l) C (A l))); [rewrite <- D, xorb_false_r; auto|].
  unfold degree. rewrite <- xsum_xor. apply xsum_ext. intros j Ij. destruct (Ll j Ij) as (J1 & J2 & J3).
  unfold goes_before. rewrite L1, J1, J2. cbn [andb orb]. rewrite Cc by (apply Ev; eauto).
  destruct (C j); cbn [andb]; [|destruct (pointb (A j) (A l)), (pointb (B j) (A l)); reflexivity].
  destruct (Nat.eqb_spec j l) as [->|Ne].
  - rewrite pointb_refl, (qltb_not (sl l)) by apply Qcle_refl. destruct (pointb (B l) (A l)); reflexivity.
  - unfold pointb at 1 3 5. destruct (point_dec (A j) (A l)) as [Q|Q]; cbn [andb].
    + pose proof (slopes_start L A (fun l => B l) X hg sl lt aff hA meet j l Ij Il Ne Q) as Ns.
      destruct (pointb (B j) (A l)); cbn [andb xorb]; destruct (Qc_dec (sl j) (sl l)) as [[W|W]|W]; try congruence;
      rewrite ?(qltb_yes (sl j) (sl l)), ?(qltb_not (sl l) (sl j)), ?(qltb_yes (sl l) (sl j)), ?(qltb_not (sl j) (sl l)) by qlra; reflexivity.
    + destruct (pointb (B j) (A l)); reflexivity.
Qed.
Lemma side_right C l : closed events op C -> In l L ->
  side at_ ring level C (op l) = xorb (level C (B l)) (ending L (fun l => B l) sl C (B l) (sl l)).
Proof.
  intros Cc Il. destruct (Ll l Il) as (L1 & L2 & L3). unfold side. f_equal.
  assert (Ir : In (op l) (ring (B l))) by (apply ring_in; split; auto; apply Ev; eauto).
  rewrite (pre_sorted goes_before C _ _ goes_asym goes_irrefl (ring_nd _) (ring_sorted _) Ir).
  rewrite ring_sum. apply xsum_ext. intros j Ij. destruct (Ll j Ij) as (J1 & J2 & J3).
  unfold goes_before. rewrite L2, J1, J2, L3, J3. cbn [andb orb]. rewrite Cc by (apply Ev; eauto).
  destruct (C j), (pointb (A j) (B l)), (pointb (B j) (B l)), (qltb (sl l) (sl j)); reflexivity.
Qed.
Lemma side_opposite C : closed events op C -> even ring C -> inside events C ->
  forall x, In x events -> side at_ ring level C (op x) = xorb (side at_ ring level C x) (C x).
Proof.
  intros Cc Ce Ci x I. apply Ev in I.
  assert (M : forall l, In l L -> side at_ ring level C (op l) = xorb (side at_ ring level C l) (C l)).
  { intros l Il. rewrite (side_left C l), (side_right C l) by auto.
    unfold level. rewrite <- (edge_parities L A (fun l => B l) X hg sl lt aff hA hB inj meet C l Il).
    - rewrite xorb_assoc, xorb_nilpotent, xorb_false_r. auto.
    - intros v. rewrite <- degree_ring; auto. }
  destruct I as (l & Il & [-> | ->]); auto. destruct (Ll l Il) as (_ & _ & ->). rewrite M by auto.
  rewrite Cc by (apply Ev; eauto). rewrite xorb_assoc, xorb_nilpotent, xorb_false_r. auto.
Qed.
End Rings.
