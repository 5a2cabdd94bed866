(** Walks round the faces of a drawing: the events that leave a vertex are in a cyclic order, and
    a walk goes on with the next one of a given set. *)
From Coq Require Import Bool List Arith Lia Permutation.
From Verif Require Import Model_Base Proof_Base Proof_Parity.
Import ListNotations.

(** ** Cyclic successors *)
Fixpoint after (x : nat) (l : list nat) : list nat :=
  match l with [] => [] | y :: r => if (y =? x)%nat then r else after x r end.
Fixpoint upto (x : nat) (l : list nat) : list nat :=
  match l with [] => [] | y :: r => if (y =? x)%nat then [y] else y :: upto x r end.
Fixpoint pre (C : nat -> bool) (l : list nat) (x : nat) : bool :=
  match l with [] => false | y :: r => if (y =? x)%nat then false else xorb (C y) (pre C r x) end.
Definition turn (U : nat -> bool) (l : list nat) (x : nat) : nat :=
  match find U (after x l ++ upto x l) with Some y => y | None => x end.

Lemma after_split x l1 l2 : ~ In x l1 -> after x (l1 ++ x :: l2) = l2 /\ upto x (l1 ++ x :: l2) = l1 ++ [x].
Proof.
  induction l1 as [|y l1 IH]; cbn; intros NI.
  - rewrite Nat.eqb_refl. auto.
  - destruct (Nat.eqb_spec y x) as [->|Ne]; [tauto|]. destruct IH as [-> ->]; auto.
Qed.
Lemma pre_split C x l1 l2 : ~ In x l1 -> pre C (l1 ++ x :: l2) x = xsum C l1.
Proof.
  induction l1 as [|y l1 IH]; cbn; intros NI.
  - rewrite Nat.eqb_refl. auto.
  - destruct (Nat.eqb_spec y x) as [->|Ne]; [tauto|]. rewrite IH; auto.
Qed.
Lemma find_first (U : nat -> bool) l y : find U l = Some y ->
  exists m1 m2, l = m1 ++ y :: m2 /\ U y = true /\ forall z, In z m1 -> U z = false.
Proof.
  induction l as [|x l IH]; cbn; [discriminate|]. destruct (U x) eqn:Ux.
  - intros [= ->]. exists [], l. cbn; intuition.
  - intros F. destruct (IH F) as (m1 & m2 & -> & A & B). exists (x :: m1), m2. split; auto. split; auto.
    intros z [<-|I]; auto.
Qed.
Lemma find_here (U : nat -> bool) m1 y m2 : U y = true -> (forall z, In z m1 -> U z = false) -> find U (m1 ++ y :: m2) = Some y.
Proof.
  induction m1 as [|x m1 IH]; cbn; intros A B; [rewrite A; auto|]. rewrite (B x) by auto. auto.
Qed.
Lemma nodup_mid (l1 l2 : list nat) x : NoDup (l1 ++ x :: l2) -> ~ In x l1 /\ ~ In x l2.
Proof.
  intros Nd. apply NoDup_remove in Nd. destruct Nd as [_ NI]. split; intros I; apply NI, in_or_app; auto.
Qed.
Lemma NoDup_app_tail (a b : list nat) : NoDup (a ++ b) -> NoDup b.
Proof. induction a as [|u a IH]; cbn; intros Q; auto. inversion Q; auto. Qed.
Lemma turn_spec U l x : NoDup l -> In x l -> U x = true ->
  exists l1 l2 m1 m2, l = l1 ++ x :: l2 /\ l2 ++ l1 ++ [x] = m1 ++ turn U l x :: m2
    /\ U (turn U l x) = true /\ forall z, In z m1 -> U z = false.
Proof.
  intros Nd I Ux. apply in_split in I. destruct I as (l1 & l2 & ->). exists l1, l2.
  destruct (nodup_mid l1 l2 x Nd) as [N1 N2]. unfold turn. destruct (after_split x l1 l2 N1) as [-> ->].
  destruct (find U (l2 ++ l1 ++ [x])) as [y|] eqn:F.
  - destruct (find_first _ _ _ F) as (m1 & m2 & A & B & D). exists m1, m2. auto.
  - exfalso. assert (U x = false) by (apply (find_none _ _ F), in_or_app; right; apply in_or_app; right; left; auto). congruence.
Qed.
Lemma turn_In U l x : NoDup l -> In x l -> U x = true -> In (turn U l x) l /\ U (turn U l x) = true.
Proof.
  intros Nd I Ux. destruct (turn_spec U l x Nd I Ux) as (l1 & l2 & m1 & m2 & E & F & A & _). split; auto.
  assert (J : In (turn U l x) (l2 ++ l1 ++ [x])) by (rewrite F; apply in_or_app; right; left; auto).
  set (y := turn U l x) in *. clearbody y. rewrite E. apply in_app_or in J. destruct J as [J|J]; [apply in_or_app; right; right; auto|].
  apply in_app_or in J. destruct J as [J|[J|[]]]; apply in_or_app; [left; auto|right; left; auto].
Qed.
(** The sides of two successive events. *)
Lemma turn_corner U C l x : NoDup l -> In x l -> U x = true -> (forall z, In z l -> C z = true -> U z = true) ->
  xsum C l = false -> pre C l (turn U l x) = xorb (pre C l x) (C x).
Proof.
  intros Nd I Ux Su Ev. destruct (turn_spec U l x Nd I Ux) as (l1 & l2 & m1 & m2 & E & F & A & B).
  set (y := turn U l x) in *. destruct (nodup_mid l1 l2 x) as [N1 N2]; [rewrite <- E; auto|].
  assert (Cm : forall z, In z m1 -> In z l -> C z = false).
  { intros z I1 I2. destruct (C z) eqn:Q; auto. specialize (Su z I2 Q). specialize (B z I1). congruence. }
  assert (Px : pre C l x = xsum C l1) by (rewrite E; apply pre_split; auto). rewrite Px.
  assert (Cases : (exists n2, l2 = m1 ++ y :: n2) \/ (exists n1 n2, l1 = n1 ++ y :: n2 /\ m1 = l2 ++ n1)
    \/ (y = x /\ m1 = l2 ++ l1)).
  { clear - F. revert m1 F. induction l2 as [|z l2 IH]; cbn; intros m1 F.
    - right. revert m1 F. induction l1 as [|z l1 IH1]; cbn; intros m1 F.
      + destruct m1 as [|u m1]; [injection F as <- <-; auto|]. injection F as _ F. destruct m1; discriminate.
      + destruct m1 as [|u m1].
        * injection F as <- <-. left. exists [], l1. auto.
        * injection F as -> F. destruct (IH1 m1 F) as [(n1 & n2 & -> & ->)|[-> ->]].
          -- left. exists (u :: n1), n2. auto.
          -- right. auto.
    - destruct m1 as [|u m1].
      + injection F as <- <-. left. exists l2. auto.
      + injection F as -> F. destruct (IH m1 F) as [(n2 & ->)|[(n1 & n2 & -> & ->)|[-> ->]]].
        * left. exists n2. auto.
        * right. left. exists n1, n2. auto.
        * right. right. auto. }
  destruct Cases as [(n2 & E2)|[(n1 & n2 & E1 & Em)|[Ey Em]]].
  - assert (El : l = (l1 ++ x :: m1) ++ y :: n2) by (rewrite E, E2, <- app_assoc; reflexivity).
    rewrite El. rewrite pre_split by (apply (nodup_mid _ n2); rewrite <- El; auto).
    rewrite xsum_app. cbn [xsum]. rewrite (xsum_false C m1), xorb_false_r; auto.
    intros z I1. apply Cm; auto. rewrite El. apply in_or_app. left. apply in_or_app. right. right. auto.
  - assert (El : l = n1 ++ y :: n2 ++ x :: l2) by (rewrite E, E1, <- app_assoc; reflexivity).
    rewrite El at 1. rewrite pre_split by (apply (nodup_mid _ (n2 ++ x :: l2)); rewrite <- El; auto).
    rewrite (xsum_false C n1) by (intros z I1; apply Cm; [rewrite Em; apply in_or_app; auto|rewrite El; apply in_or_app; auto]).
    rewrite E, xsum_app in Ev. cbn [xsum] in Ev. rewrite (xsum_false C l2), xorb_false_r in Ev; auto.
    intros z I1. apply Cm; [rewrite Em; apply in_or_app; auto|]. rewrite E. apply in_or_app; right; right; auto.
  - rewrite Ey, Px. assert (Q : xsum C l1 = false).
    { apply xsum_false. intros z I1. apply Cm; [rewrite Em; apply in_or_app; auto|]. rewrite E. apply in_or_app; auto. }
    rewrite E, xsum_app in Ev. cbn [xsum] in Ev. rewrite (xsum_false C l2), xorb_false_r in Ev; [rewrite Ev, Q; auto|].
    intros z I1. apply Cm; [rewrite Em; apply in_or_app; auto|]. rewrite E. apply in_or_app; right; right; auto.
Qed.
Lemma turn_inj U l x y : NoDup l -> In x l -> In y l -> U x = true -> U y = true ->
  turn U l x = turn U l y -> x = y.
Proof.
  assert (W : forall x y, NoDup l -> In x l -> In y l -> U x = true -> U y = true -> turn U l x = turn U l y ->
    (exists l1 m l3, l = l1 ++ x :: m ++ y :: l3) -> False).
  { clear x y. intros x y Nd Ix Iy Ux Uy Et (l1 & m & l3 & E).
    assert (N1 : ~ In x l1) by (apply (nodup_mid l1 (m ++ y :: l3)); rewrite <- E; auto).
    assert (E' : l = (l1 ++ x :: m) ++ y :: l3) by (rewrite E, <- app_assoc; reflexivity).
    assert (N2 : ~ In y (l1 ++ x :: m)) by (apply (nodup_mid _ l3); rewrite <- E'; auto).
    assert (T1 : exists z, In z (m ++ [y]) /\ turn U l x = z).
    { unfold turn. rewrite E. destruct (after_split x l1 (m ++ y :: l3) N1) as [-> _].
      destruct (find U (m ++ [y])) as [z|] eqn:F.
      - exists z. split; [apply find_some in F; apply F|].
        apply find_first in F. destruct F as (p & q & Ep & A & B).
        replace ((m ++ y :: l3) ++ upto x (l1 ++ x :: m ++ y :: l3)) with ((m ++ [y]) ++ l3 ++ upto x (l1 ++ x :: m ++ y :: l3))
          by (rewrite <- !app_assoc; reflexivity).
        rewrite Ep, <- app_assoc. cbn [app]. rewrite (find_here U p z); auto.
      - exfalso. assert (U y = false) by (apply (find_none _ _ F), in_or_app; right; left; auto). congruence. }
    assert (T2 : exists z, In z (l3 ++ l1 ++ [x]) /\ turn U l y = z).
    { unfold turn. rewrite E'. destruct (after_split y (l1 ++ x :: m) l3 N2) as [-> ->].
      destruct (find U (l3 ++ l1 ++ [x])) as [z|] eqn:F.
      - exists z. split; [apply find_some in F; apply F|].
        apply find_first in F. destruct F as (p & q & Ep & A & B).
        replace (l3 ++ (l1 ++ x :: m) ++ [y]) with ((l3 ++ l1 ++ [x]) ++ m ++ [y])
          by (rewrite <- !app_assoc; reflexivity).
        rewrite Ep, <- app_assoc. cbn [app]. rewrite (find_here U p z); auto.
      - exfalso. assert (U x = false) by (apply (find_none _ _ F), in_or_app; right; apply in_or_app; right; left; auto). congruence. }
    destruct T1 as (z & I1 & Z1). destruct T2 as (z' & I2 & Z2). assert (Ez : z = z') by congruence. rewrite <- Ez in I2.
    assert (Nd' : NoDup ((l1 ++ [x]) ++ (m ++ [y]) ++ l3)).
    { replace ((l1 ++ [x]) ++ (m ++ [y]) ++ l3) with l; auto. rewrite E, <- !app_assoc. reflexivity. }
    assert (D : forall (a b : list nat) u, NoDup (a ++ b) -> In u a -> In u b -> False).
    { intros a b u Nab Ia Ib. apply in_split in Ib. destruct Ib as (b1 & b2 & ->). rewrite app_assoc in Nab.
      apply nodup_mid in Nab. apply (proj1 Nab). apply in_or_app; auto. }
    apply in_app_or in I2. destruct I2 as [I2|I2].
    - apply (D (m ++ [y]) l3 z); [|auto|auto]. apply (NoDup_app_tail (l1 ++ [x])); auto.
    - apply (D (l1 ++ [x]) ((m ++ [y]) ++ l3) z); auto. apply in_or_app; auto. }
  intros Nd Ix Iy Ux Uy Et. destruct (Nat.eq_dec x y) as [|Ne]; auto. exfalso.
  assert (Ix' := Ix). apply in_split in Ix'. destruct Ix' as (l1 & l2 & E). assert (Iy' := Iy). rewrite E in Iy'.
  apply in_app_or in Iy'. destruct Iy' as [I|[I|I]]; [|congruence|].
  - apply (W y x); auto. apply in_split in I. destruct I as (p & q & ->). exists p, q, l2. rewrite E, <- app_assoc. reflexivity.
  - apply (W x y); auto. apply in_split in I. destruct I as (p & q & ->). exists l1, p, q. auto.
Qed.
(** The successor in a smaller set that has it. *)
Lemma turn_less U U' l x : NoDup l -> In x l -> U x = true -> (forall z, U' z = true -> U z = true) ->
  U' (turn U l x) = true -> turn U' l x = turn U l x.
Proof.
  intros Nd I Ux Su A. destruct (turn_spec U l x Nd I Ux) as (l1 & l2 & m1 & m2 & E & F & _ & B).
  set (y := turn U l x) in *. unfold turn. rewrite E. assert (N1 : ~ In x l1) by (apply (nodup_mid l1 l2); rewrite <- E; auto).
  destruct (after_split x l1 l2 N1) as [-> ->]. rewrite F, find_here; auto.
  intros z I1. destruct (U' z) eqn:Q; auto. apply Su in Q. rewrite (B z I1) in Q. discriminate.
Qed.

Section Walks.
Variable E : list nat.
Variable op : nat -> nat.
Variable at_ : nat -> point.
Variable ring : point -> list nat.
Hypothesis op_in : forall x, In x E -> In (op x) E.
Hypothesis op_op : forall x, In x E -> op (op x) = x.
Hypothesis ring_nd : forall v, NoDup (ring v).
Hypothesis ring_in : forall v x, In x (ring v) <-> In x E /\ at_ x = v.
Definition closed (C : nat -> bool) : Prop := forall x, In x E -> C (op x) = C x.
Definition even (C : nat -> bool) : Prop := forall v, xsum C (ring v) = false.
Definition inside (C : nat -> bool) : Prop := forall x, C x = true -> In x E.
Variable P : (nat -> bool) -> point -> bool.
Definition side (C : nat -> bool) (x : nat) : bool := xorb (P C (at_ x)) (pre C (ring (at_ x)) x).
Hypothesis side_op : forall C, closed C -> even C -> inside C -> forall x, In x E -> side C (op x) = xorb (side C x) (C x).

Section Walk.
Variable U : nat -> bool.
Hypothesis Uc : closed U.
Hypothesis Ue : even U.
Hypothesis Ui : inside U.
Definition go (x : nat) : nat := turn U (ring (at_ (op x))) (op x).
Lemma op_ring x : In x E -> In (op x) (ring (at_ (op x))).
Proof. intros I. apply ring_in. auto. Qed.
Lemma go_at x : U x = true -> U (go x) = true /\ at_ (go x) = at_ (op x).
Proof.
  intros Ux. assert (I := Ui x Ux). destruct (turn_In U (ring (at_ (op x))) (op x)) as [A B]; auto.
  - apply op_ring; auto.
  - rewrite Uc; auto.
  - split; auto. apply ring_in in A. apply A.
Qed.
Lemma go_inj x y : U x = true -> U y = true -> go x = go y -> x = y.
Proof.
  intros Ux Uy Q. assert (Ix := Ui x Ux). assert (Iy := Ui y Uy).
  assert (V : at_ (op x) = at_ (op y)) by (rewrite <- (proj2 (go_at x Ux)), <- (proj2 (go_at y Uy)), Q; auto).
  assert (O : op x = op y).
  { unfold go in Q. rewrite V in Q. apply (turn_inj U (ring (at_ (op y)))); auto.
    - rewrite <- V. apply op_ring; auto.
    - apply op_ring; auto.
    - rewrite Uc; auto.
    - rewrite Uc; auto. }
  rewrite <- (op_op x Ix), <- (op_op y Iy), O. auto.
Qed.
(** The left side is the same along a walk. *)
Lemma go_side C x : closed C -> even C -> inside C -> (forall z, C z = true -> U z = true) -> U x = true ->
  side C (go x) = side C x.
Proof.
  intros Cc Ce Ci Su Ux. assert (I := Ui x Ux). destruct (go_at x Ux) as [_ V].
  assert (Q : side C (go x) = xorb (side C (op x)) (C (op x))).
  { unfold side at 1. rewrite V. unfold go. rewrite (turn_corner U C (ring (at_ (op x))) (op x)); auto.
    - unfold side. rewrite xorb_assoc. auto.
    - apply op_ring; auto.
    - rewrite Uc; auto. }
  rewrite Q, side_op by auto. rewrite (Cc x I). rewrite xorb_assoc, xorb_nilpotent, xorb_false_r. auto.
Qed.

Variable x0 : nat.
Hypothesis U0 : U x0 = true.
Fixpoint walk (n : nat) : nat := match n with O => x0 | S n => go (walk n) end.
Notation v n := (at_ (walk n)).
Lemma walk_U n : U (walk n) = true.
Proof. induction n as [|n IH]; cbn; auto. apply go_at; auto. Qed.
Lemma walk_E n : In (walk n) E.
Proof. apply Ui, walk_U. Qed.
Lemma walk_next n : v (S n) = at_ (op (walk n)).
Proof. cbn. apply go_at, walk_U. Qed.
Lemma walk_side C n m : closed C -> even C -> inside C -> (forall z, C z = true -> U z = true) ->
  side C (walk n) = side C (walk m).
Proof.
  intros Cc Ce Ci Su. assert (Q : forall n, side C (walk n) = side C x0).
  { induction n0 as [|n0 IH]; cbn; auto. rewrite go_side; auto. apply walk_U. }
  rewrite !Q. auto.
Qed.
Lemma walk_one_way n m : walk n <> op (walk m).
Proof.
  intros Q. pose proof (walk_side U n m Uc Ue Ui (fun z H => H)) as A. rewrite Q in A.
  rewrite side_op in A by (auto; apply walk_E). rewrite walk_U in A. destruct (side U (walk m)); discriminate.
Qed.
Lemma walk_back i d : walk i = walk (i + d) -> x0 = walk d.
Proof.
  induction i as [|i IH]; auto. cbn. intros Q. apply IH. apply go_inj in Q; auto; apply walk_U.
Qed.
(** The walk comes back. *)
Lemma walk_period : exists d, (1 <= d)%nat /\ (d <= length E)%nat /\ walk d = x0.
Proof.
  set (l := map walk (seq 0 (S (length E)))).
  assert (ND : ~ NoDup l).
  { intros Nd. assert (Ls : (length l <= length E)%nat).
    { apply NoDup_incl_length; auto. intros x I. apply in_map_iff in I. destruct I as (n & <- & _). apply walk_E. }
    unfold l in Ls. rewrite map_length, seq_length in Ls. lia. }
  assert (Ex : exists i j, (i < j)%nat /\ (j <= length E)%nat /\ walk i = walk j).
  { assert (D : (exists i j, (i < j)%nat /\ (j <= length E)%nat /\ walk i = walk j) \/
      ~ (exists i j, (i < j)%nat /\ (j <= length E)%nat /\ walk i = walk j)).
    { clear. generalize (length E) as n. induction n as [|n [IH|IH]].
      - right. intros (i & j & A & B & _). lia.
      - left. destruct IH as (i & j & A & B & Q). exists i, j. repeat split; auto; lia.
      - assert (D : forall k, (exists i, (i < k)%nat /\ walk i = walk (S n)) \/ ~ (exists i, (i < k)%nat /\ walk i = walk (S n))).
        { induction k as [|k [K|K]].
          - right. intros (i & A & _). lia.
          - left. destruct K as (i & A & B). exists i. split; auto; lia.
          - destruct (Nat.eq_dec (walk k) (walk (S n))) as [Q|Q].
            + left. exists k. split; auto.
            + right. intros (i & A & B). destruct (Nat.eq_dec i k) as [->|]; auto. apply K. exists i. split; auto. lia. }
        destruct (D (S n)) as [(i & A & B)|D'].
        + left. exists i, (S n). auto.
        + right. intros (i & j & A & B & Q). destruct (Nat.eq_dec j (S n)) as [->|].
          * apply D'. exists i. auto.
          * apply IH. exists i, j. repeat split; auto. lia. }
    destruct D as [D|D]; auto. exfalso. apply ND. unfold l.
    assert (Inj : forall m k, (k + m <= S (length E))%nat -> NoDup (map walk (seq k m))).
    { induction m as [|m IH]; intros k L; cbn; constructor.
      - intros I. apply in_map_iff in I. destruct I as (j & Q & I). apply in_seq in I. apply D. exists k, j. repeat split; auto; lia.
      - apply IH. lia. }
    apply Inj. lia. }
  destruct Ex as (i & j & A & B & Q). exists (j - i)%nat. split; [lia|]. split; [lia|].
  symmetry. apply (walk_back i). replace (i + (j - i))%nat with j by lia. auto.
Qed.

(** Closed parts of the walk. *)
Definition part (i j : nat) : list nat := flat_map (fun s => [walk s; op (walk s)]) (seq i (j - i)).
Definition mem (l : list nat) (x : nat) : bool := existsb (Nat.eqb x) l.
Lemma mem_In l x : mem l x = true <-> In x l.
Proof.
  unfold mem. rewrite existsb_exists. split.
  - intros (y & I & Q). apply Nat.eqb_eq in Q. subst; auto.
  - intros I. exists x. split; auto. apply Nat.eqb_refl.
Qed.
Lemma part_In i j x : In x (part i j) <-> exists s, (i <= s)%nat /\ (s < j)%nat /\ (x = walk s \/ x = op (walk s)).
Proof.
  unfold part. rewrite in_flat_map. split.
  - intros (s & I & Q). apply in_seq in I. exists s. split; [lia|]. split; [lia|]. destruct Q as [Q|[Q|[]]]; auto.
  - intros (s & A & B & Q). exists s. split; [apply in_seq; lia|]. cbn. destruct Q; auto.
Qed.
Definition injective_until (m : nat) : Prop := forall i j, (i < j)%nat -> (j < m)%nat -> walk i <> walk j.
Lemma part_nd i j : injective_until j -> NoDup (part i j).
Proof.
  intros Inj. unfold part. assert (Q : forall n k, (k + n <= j)%nat -> NoDup (flat_map (fun s => [walk s; op (walk s)]) (seq k n))).
  { induction n as [|n IH]; intros k L; cbn [seq flat_map app]; [constructor|].
    assert (Fr : forall y, In y (flat_map (fun s => [walk s; op (walk s)]) (seq (S k) n)) ->
      exists s, (k < s)%nat /\ (s < j)%nat /\ (y = walk s \/ y = op (walk s))).
    { intros y I. apply in_flat_map in I. destruct I as (s & I & Q). apply in_seq in I. exists s. split; [lia|]. split; [lia|].
      destruct Q as [Q|[Q|[]]]; auto. }
    constructor; [|constructor; [|apply IH; lia]].
    - intros [I|I]; [apply (walk_one_way k k); auto|]. destruct (Fr _ I) as (s & A & B & [Q|Q]).
      + apply (Inj k s); auto.
      + apply (walk_one_way k s); auto.
    - intros I. destruct (Fr _ I) as (s & A & B & [Q|Q]).
      + apply (walk_one_way s k); auto.
      + apply (Inj k s); auto. rewrite <- (op_op (walk k)), <- (op_op (walk s)) by apply walk_E. rewrite Q. auto. }
  destruct (Nat.le_gt_cases i j) as [L|L]; [apply Q; lia|]. replace (j - i)%nat with 0%nat by lia. constructor.
Qed.
Lemma part_closed i j : closed (mem (part i j)).
Proof.
  intros x I. apply Bool.eq_iff_eq_true. rewrite !mem_In, !part_In. split; intros (s & A & B & Q); exists s; split; auto; split; auto.
  - destruct Q as [Q|Q]; [right; rewrite <- Q, op_op; auto|left].
    rewrite <- (op_op x I), Q. apply op_op, walk_E.
  - destruct Q as [Q|Q]; [right; rewrite Q; auto|left; rewrite Q]. apply op_op, walk_E.
Qed.
Lemma part_U i j x : mem (part i j) x = true -> U x = true.
Proof.
  rewrite mem_In, part_In. intros (s & _ & _ & [-> | ->]); [|rewrite Uc by apply walk_E]; apply walk_U.
Qed.
Lemma part_inside i j : inside (mem (part i j)).
Proof. intros x Q. apply Ui. apply part_U in Q. auto. Qed.
Lemma list_even (l : list nat) w : NoDup l -> (forall x, In x l -> In x E) ->
  xsum (mem l) (ring w) = xsum (fun x => if point_dec (at_ x) w then true else false) l.
Proof.
  intros Nd Il. apply (xsum_bij _ _ (fun x => x)); auto.
  - intros x Ix Q. apply mem_In in Q. split; auto. apply ring_in in Ix. destruct (point_dec (at_ x) w); auto. tauto.
  - intros z Iz Q. exists z. destruct (point_dec (at_ z) w) as [Ew|]; [|discriminate].
    split; [apply ring_in; auto|]. split; auto. apply mem_In. auto.
Qed.
Lemma part_even i j : (i <= j)%nat -> injective_until j -> v i = v j -> even (mem (part i j)).
Proof.
  intros Lij Inj Vij w. rewrite list_even.
  2: { apply part_nd; auto. }
  2: { intros x I. apply mem_In in I. apply part_inside in I. auto. }
  unfold part. rewrite xsum_flat. set (q := fun p => if point_dec p w then true else false).
  assert (Q : forall n k, xsum (fun s => xsum (fun x => if point_dec (at_ x) w then true else false) [walk s; op (walk s)]) (seq k n)
     = xorb (q (v k)) (q (v (k + n)))).
  { induction n as [|n IH]; intros k; cbn [seq xsum].
    - rewrite Nat.add_0_r, xorb_nilpotent. auto.
    - rewrite IH. rewrite <- walk_next. fold (q (v k)). fold (q (v (S k))).
      replace (S k + n)%nat with (k + S n)%nat by lia. destruct (q (v k)), (q (v (S k))), (q (v (k + S n))); auto. }
  rewrite Q. replace (i + (j - i))%nat with j by lia. rewrite Vij. apply xorb_nilpotent.
Qed.

(** After a closed part the walk does not come to the other vertices of it. *)
Lemma no_return i k j m : (i < k)%nat -> (k < j)%nat -> (j <= m)%nat -> injective_until (S m) -> v i = v j -> v k <> v i ->
  v m <> v k.
Proof.
  intros Lik Lkj Ljm Inj Vij Nk Vmk.
  assert (Injj : injective_until j) by (intros a b A B; apply Inj; lia).
  set (C := mem (part i j)). assert (Cc : closed C) by apply part_closed. assert (Ci : inside C) by apply part_inside.
  assert (Ce : even C) by (apply part_even; auto; lia).
  assert (CU : forall z, C z = true -> U z = true) by (intros z; apply part_U).
  assert (Cm : C (walk m) = false).
  { destruct (C (walk m)) eqn:Q; auto. exfalso. unfold C in Q. apply mem_In, part_In in Q. destruct Q as (s & A & B & [Q|Q]).
    - apply (Inj s m); auto. lia.
    - apply (walk_one_way m s); auto. }
  assert (Cs : forall s, (i <= s)%nat -> (s < j)%nat -> C (walk s) = true).
  { intros s A B. apply mem_In, part_In. exists s. auto. }
  set (w := v k) in *. set (U' := fun x => C x || (x =? walk m)%nat).
  assert (U'm : U' (walk m) = true) by (unfold U'; rewrite Nat.eqb_refl, orb_true_r; auto).
  assert (U'U : forall z, U' z = true -> U z = true).
  { intros z Q. unfold U' in Q. apply orb_true_iff in Q. destruct Q as [Q|Q]; auto. apply Nat.eqb_eq in Q. subst. apply walk_U. }
  assert (Im : In (walk m) (ring w)) by (apply ring_in; split; auto; apply walk_E).
  destruct (turn_In U' (ring w) (walk m) (ring_nd w) Im U'm) as [Ig Ug]. set (g := turn U' (ring w) (walk m)) in *.
  assert (Sg : pre C (ring w) g = xorb (pre C (ring w) (walk m)) (C (walk m))).
  { apply turn_corner; auto. intros z _ Q. unfold U'. rewrite Q. auto. }
  rewrite Cm, xorb_false_r in Sg.
  assert (Ag : at_ g = w) by (apply ring_in in Ig; apply Ig).
  assert (Sd : side C g = side C (walk m)) by (unfold side; rewrite Ag, Vmk, Sg; auto).
  assert (Gm : g <> walk m).
  { intros Q. assert (D : walk k = walk m).
    { apply (turn_inj U' (ring w)); auto.
      - apply ring_in. split; auto. apply walk_E.
      - unfold U'. rewrite Cs; auto. lia.
      - (* nothing but [walk m] follows [walk m], so nothing else is there *)
        exfalso. destruct (turn_spec U' (ring w) (walk m) (ring_nd w) Im U'm) as (l1 & l2 & m1 & m2 & Er & F & _ & B).
        fold g in F. rewrite Q in F. assert (N1 := nodup_mid l1 l2 (walk m)). rewrite <- Er in N1. destruct (N1 (ring_nd w)) as [A1 A2].
        assert (M1 : m1 = l2 ++ l1).
        { rewrite app_assoc in F. destruct m2 as [|z m2]; [apply app_inj_tail in F; destruct F; auto|].
          exfalso. destruct (@exists_last _ (z :: m2)) as (m3 & u & Eu); [discriminate|]. rewrite Eu in F.
          change (m1 ++ walk m :: m3 ++ [u]) with (m1 ++ (walk m :: m3) ++ [u]) in F. rewrite app_assoc in F.
          apply app_inj_tail in F. destruct F as [F _]. assert (I : In (walk m) (l2 ++ l1)).
          { rewrite F. apply in_or_app; right; left; auto. } apply in_app_or in I. tauto. }
        assert (Ik : In (walk k) (ring w)) by (apply ring_in; split; auto; apply walk_E).
        assert (I1 : In (walk k) m1).
        { rewrite M1. rewrite Er in Ik. apply in_app_or in Ik. destruct Ik as [Ik|[Ik|Ik]]; [apply in_or_app; auto| |apply in_or_app; auto].
          exfalso. apply (Inj k m); auto; lia. }
        specialize (B _ I1). unfold U' in B. rewrite Cs in B; [discriminate|lia|lia]. }
    apply (Inj k m); auto; lia. }
  assert (Cg : C g = true).
  { unfold U' in Ug. apply orb_true_iff in Ug. destruct Ug as [Ug|Ug]; auto. apply Nat.eqb_eq in Ug. congruence. }
  unfold C in Cg. apply mem_In, part_In in Cg. destruct Cg as (s & A & B & [Q|Q]).
  - destruct (Nat.eq_dec s i) as [->|Ns]; [apply Nk; rewrite <- Q, Ag; auto|].
    destruct s as [|s]; [lia|]. cbn [walk] in Q. unfold go in Q.
    assert (Vs : at_ (op (walk s)) = w) by (rewrite <- walk_next; cbn [walk]; unfold go; rewrite <- Q; auto).
    rewrite Vs in Q. assert (Os : C (op (walk s)) = true) by (rewrite Cc by apply walk_E; apply Cs; lia).
    assert (Io : In (op (walk s)) (ring w)) by (apply ring_in; split; auto; apply op_in, walk_E).
    assert (T : turn U' (ring w) (op (walk s)) = turn U (ring w) (op (walk s))).
    { apply turn_less; auto. rewrite <- Q. auto. }
    assert (D : op (walk s) = walk m).
    { apply (turn_inj U' (ring w)); auto.
      - unfold U'. rewrite Os. auto.
      - fold g. rewrite T. auto. }
    rewrite <- D in Cm. congruence.
  - rewrite Q, side_op in Sd by (auto; apply walk_E). rewrite (walk_side C m s) in Sd by auto.
    rewrite Cs in Sd by lia. destruct (side C (walk s)); discriminate.
Qed.
End Walk.
End Walks.
