(** Drawings without crossings: the parity of the edges below the ends of an edge, and the sides
    of the events round a vertex. *)
From Coq Require Import QArith Qcanon Bool List Arith Lia Permutation.
From Verif Require Import QcTac Model_Base Spec_Base Proof_Base Proof_Parity.
Import ListNotations.
Local Open Scope Qc_scope.

Definition pointb (p q : point) : bool := if point_dec p q then true else false.
Lemma pointb_true p q : pointb p q = true <-> p = q.
Proof. unfold pointb. destruct (point_dec p q); split; intros; congruence. Qed.
Lemma pointb_refl p : pointb p p = true. Proof. apply pointb_true; auto. Qed.
Lemma pointb_false p q : p <> q -> pointb p q = false.
Proof. intros Ne. unfold pointb. destruct (point_dec p q); congruence. Qed.
Lemma count_odd L v : Nat.odd (count_occ point_dec L v) = xsum (fun p => pointb p v) L.
Proof.
  induction L as [|p L IH]; [reflexivity|]. cbn [count_occ xsum]. unfold pointb at 1. destruct (point_dec p v).
  - rewrite Nat.odd_succ, <- Nat.negb_odd, IH. destruct (xsum _ L); reflexivity.
  - rewrite IH. destruct (xsum _ L); reflexivity.
Qed.
Lemma xsum_even_ends (q : point -> bool) L : (forall v, q v = true -> xsum (fun p => pointb p v) L = false) -> xsum q L = false.
Proof.
  intros Ev. apply xsum_even. intros v Q. rewrite <- Nat.negb_odd, count_odd, Ev; auto.
Qed.

Section Drawing.
Variable E : list nat.
Variables (A B : nat -> point) (X : point -> Qc) (hg : nat -> Qc -> Qc) (sl : nat -> Qc).
Hypothesis lt : forall i, In i E -> X (A i) < X (B i).
Hypothesis aff : forall i t u, hg i t - hg i u = sl i * (t - u).
Hypothesis hA : forall i, In i E -> hg i (X (A i)) = py (A i).
Hypothesis hB : forall i, In i E -> hg i (X (B i)) = py (B i).
Definition vertex (p : point) : Prop := exists i, In i E /\ (p = A i \/ p = B i).
Hypothesis inj : forall p q, vertex p -> vertex q -> X p = X q -> p = q.
Hypothesis meet : forall i j u, In i E -> In j E -> i <> j -> X (A i) <= u -> u <= X (B i) ->
  X (A j) <= u -> u <= X (B j) -> hg i u = hg j u -> (u = X (A i) \/ u = X (B i)) /\ (u = X (A j) \/ u = X (B j)).

Definition within (j : nat) (t : Qc) : bool := qltb (X (A j)) t && qltb t (X (B j)).
Definition passes (C : nat -> bool) (v : point) : bool :=
  xsum (fun j => C j && (within j (X v) && qltb (hg j (X v)) (py v))) E.
Definition ending (C : nat -> bool) (v : point) (s : Qc) : bool :=
  xsum (fun j => C j && (pointb (B j) v && qltb s (sl j))) E.
Definition starting (C : nat -> bool) (v : point) (s : Qc) : bool :=
  xsum (fun j => C j && (pointb (A j) v && qltb (sl j) s)) E.
Definition degree (C : nat -> bool) (v : point) : bool :=
  xsum (fun j => C j && xorb (pointb (A j) v) (pointb (B j) v)) E.

Lemma qltb_not a b : b <= a -> qltb a b = false.
Proof. intros L. destruct (qltb_spec a b); auto. exfalso. qlra. Qed.
Lemma qltb_yes a b : a < b -> qltb a b = true.
Proof. intros L. destruct (qltb_spec a b); auto. Qed.
Lemma within_not j t : t <= X (A j) \/ X (B j) <= t -> within j t = false.
Proof. unfold within. intros [L|L]; [rewrite (qltb_not (X (A j)) t) by auto; auto|rewrite (qltb_not t) by auto; apply andb_false_r]. Qed.
Lemma within_yes j t : X (A j) < t -> t < X (B j) -> within j t = true.
Proof. unfold within. intros L1 L2. rewrite !qltb_yes by auto. reflexivity. Qed.

(** The order of two edges does not change between two abscissas where they do not meet. *)
Lemma order_same i j u v : u <= v -> (forall w, u <= w -> w <= v -> hg i w <> hg j w) ->
  qltb (hg j u) (hg i u) = qltb (hg j v) (hg i v).
Proof.
  intros L Z. apply qltb_eq. pose (d := fun w => hg i w - hg j w).
  assert (Ad : forall x z, d x - d z = (sl i - sl j) * (x - z)).
  { intros x z. unfold d. pose proof (aff i x z). pose proof (aff j x z).
    replace ((sl i - sl j) * (x - z)) with (sl i * (x - z) - sl j * (x - z)) by ring. qlra. }
  assert (W : 0 < d u <-> 0 < d v).
  { apply (aff_const_sign d _ u v Ad L). intros w W1 W2 Q. apply (Z w W1 W2). unfold d in Q. qlra. }
  unfold d in W. split; intros Q.
  - assert (0 < hg i u - hg j u) by qlra. apply W in H. qlra.
  - assert (0 < hg i v - hg j v) by qlra. apply W in H. qlra.
Qed.

Lemma slope_up i j u v : u < v -> hg i u = hg j u -> qltb (hg j v) (hg i v) = qltb (sl j) (sl i).
Proof.
  intros L Q. pose proof (aff i v u) as P1. pose proof (aff j v u) as P2. apply qltb_eq.
  assert (P3 : hg i v - hg j v = (sl i - sl j) * (v - u)).
  { replace ((sl i - sl j) * (v - u)) with (sl i * (v - u) - sl j * (v - u)) by ring. qlra. }
  split; intros W.
  - destruct (Qclt_le_dec (sl j) (sl i)) as [|W']; auto. exfalso. assert ((sl i - sl j) * (v - u) <= 0) by qnra. qlra.
  - assert (0 < (sl i - sl j) * (v - u)) by qnra. qlra.
Qed.
Lemma slope_down i j u v : v < u -> hg i u = hg j u -> qltb (hg j v) (hg i v) = qltb (sl i) (sl j).
Proof.
  intros L Q. pose proof (aff i v u) as P1. pose proof (aff j v u) as P2. apply qltb_eq.
  assert (P3 : hg i v - hg j v = (sl j - sl i) * (u - v)).
  { replace ((sl j - sl i) * (u - v)) with (sl i * (v - u) - sl j * (v - u)) by ring. qlra. }
  split; intros W.
  - destruct (Qclt_le_dec (sl i) (sl j)) as [|W']; auto. exfalso. assert ((sl j - sl i) * (u - v) <= 0) by qnra. qlra.
  - assert (0 < (sl j - sl i) * (u - v)) by qnra. qlra.
Qed.

Definition inner (i : nat) (v : point) : bool :=
  qltb (X (A i)) (X v) && qltb (X v) (X (B i)) && qltb (py v) (hg i (X v)).
Definition low (i j : nat) : bool :=
  xorb (within j (X (A i)) && qltb (hg j (X (A i))) (py (A i))) (pointb (A j) (A i) && qltb (sl j) (sl i)).
Definition high (i j : nat) : bool :=
  xorb (within j (X (B i)) && qltb (hg j (X (B i))) (py (B i))) (pointb (B j) (B i) && qltb (sl i) (sl j)).

Lemma qmid (a b : Qc) : a < b -> exists m, a < m /\ m < b.
Proof.
  intros L. exists ((a + b) / (1 + 1)). assert (N2 : (1 + 1 : Qc) <> 0) by discriminate.
  assert (Q : (a + b) / (1 + 1) + (a + b) / (1 + 1) = a + b) by (field; auto).
  split; qlra.
Qed.

Lemma edge_pair i j : In i E -> In j E -> xorb (low i j) (high i j) = xorb (inner i (A j)) (inner i (B j)).
Proof.
  intros Ii Ij.
  assert (VA : vertex (A i)) by (exists i; auto). assert (VB : vertex (B i)) by (exists i; auto).
  assert (WA : vertex (A j)) by (exists j; auto). assert (WB : vertex (B j)) by (exists j; auto).
  pose proof (lt i Ii) as Li. pose proof (lt j Ij) as Lj.
  destruct (Nat.eq_dec i j) as [<-|Nij].
  { unfold low, high, inner. rewrite !within_not by (try (left; apply Qcle_refl); right; apply Qcle_refl).
    rewrite (qltb_not (sl i)), (qltb_not (X (A i)) (X (A i))), (qltb_not (X (B i)) (X (B i))) by apply Qcle_refl.
    rewrite !andb_false_r. reflexivity. }
  destruct (Qclt_le_dec (X (A i)) (X (B j))) as [L1|L1].
  2: { unfold low, high, inner. rewrite !within_not by (right; qlra). rewrite !(qltb_not (X (A i))) by qlra.
       rewrite (pointb_false (A j)), (pointb_false (B j)); [reflexivity| |]; intros Q; rewrite Q in *; qlra. }
  destruct (Qclt_le_dec (X (A j)) (X (B i))) as [L2|L2].
  2: { unfold low, high, inner. rewrite !within_not by (left; qlra). rewrite !(qltb_not _ (X (B i))) by qlra.
       rewrite (pointb_false (A j)), (pointb_false (B j)); [rewrite !andb_false_r; reflexivity| |]; intros Q; rewrite Q in *; qlra. }
  set (a := X (A i)) in *. set (b := X (B i)) in *. set (a' := X (A j)) in *. set (b' := X (B j)) in *.
  destruct (qmid (if qltb a a' then a' else a) (if qltb b b' then b else b')) as (m & M1 & M2).
  { destruct (qltb_spec a a'), (qltb_spec b b'); auto. }
  assert (M : a < m /\ a' < m /\ m < b /\ m < b').
  { destruct (qltb_spec a a'), (qltb_spec b b'); repeat split; qlra. }
  clear M1 M2. destruct M as (Ma & Ma' & Mb & Mb').
  assert (NI : forall w, a <= w -> a' <= w -> w <= b -> w <= b' ->
    ~ ((w = a \/ w = b) /\ (w = a' \/ w = b')) -> hg i w <> hg j w).
  { intros w W1 W2 W3 W4 W5 Q. apply W5, (meet i j w); auto. }
  assert (HLow : xorb (low i j) (inner i (A j)) = qltb (hg j m) (hg i m)).
  { unfold low, inner. fold a a' b. destruct (Qc_dec a' a) as [[L|L]|L].
    - rewrite (within_yes j a) by auto. rewrite (pointb_false (A j) (A i)) by (intros Q; unfold a', a in L; rewrite Q in L; qlra).
      rewrite (qltb_not a a') by qlra. cbn [andb]. rewrite !xorb_false_r. rewrite <- (hA i Ii). fold a.
      apply order_same; [qlra|]. intros w W1 W2. apply NI; try qlra. intros [_ [Q|Q]]; subst w; qlra.
    - rewrite (within_not j a) by (left; fold a'; qlra). rewrite (pointb_false (A j) (A i)) by (intros Q; unfold a', a in L; rewrite Q in L; qlra).
      rewrite (qltb_yes a a'), (qltb_yes a' b) by auto. cbn [andb]. rewrite !xorb_false_l. rewrite <- (hA j Ij). fold a'.
      apply order_same; [qlra|]. intros w W1 W2. apply NI; try qlra. intros [[Q|Q] _]; subst w; qlra.
    - assert (Q : A j = A i) by (apply inj; auto). rewrite (within_not j a) by (left; fold a'; qlra). rewrite Q, pointb_refl.
      rewrite (qltb_not a a') by qlra. cbn [andb]. rewrite xorb_false_l, xorb_false_r. symmetry. apply (slope_up i j a m); auto.
      unfold a. rewrite (hA i Ii). rewrite <- Q. rewrite (hA j Ij). auto. }
  assert (HHigh : xorb (high i j) (inner i (B j)) = qltb (hg j m) (hg i m)).
  { unfold high, inner. fold a b b'. destruct (Qc_dec b' b) as [[L|L]|L].
    - rewrite (within_not j b) by (right; fold b'; qlra). rewrite (pointb_false (B j) (B i)) by (intros Q; unfold b', b in L; rewrite Q in L; qlra).
      rewrite (qltb_yes a b'), (qltb_yes b' b) by auto. cbn [andb]. rewrite !xorb_false_l. rewrite <- (hB j Ij). fold b'. symmetry.
      apply order_same; [qlra|]. intros w W1 W2. apply NI; try qlra. intros [[Q|Q] _]; subst w; qlra.
    - rewrite (within_yes j b) by auto. rewrite (pointb_false (B j) (B i)) by (intros Q; unfold b', b in L; rewrite Q in L; qlra).
      rewrite (qltb_not b' b) by qlra. cbn [andb]. rewrite andb_false_r, !xorb_false_r. rewrite <- (hB i Ii). fold b. symmetry.
      apply order_same; [qlra|]. intros w W1 W2. apply NI; try qlra. intros [_ [Q|Q]]; subst w; qlra.
    - assert (Q : B j = B i) by (apply inj; auto). rewrite (within_not j b) by (right; fold b'; qlra). rewrite Q, pointb_refl.
      rewrite (qltb_not b' b) by qlra. cbn [andb]. rewrite andb_false_r, xorb_false_l, xorb_false_r. symmetry. apply (slope_down i j b m); auto.
      unfold b. rewrite (hB i Ii). rewrite <- Q. rewrite (hB j Ij). auto. }
  destruct (low i j), (high i j), (inner i (A j)), (inner i (B j)), (qltb (hg j m) (hg i m)); cbn in *; congruence.
Qed.

Lemma degree_ends C v : degree C v = xsum (fun p => pointb p v) (flat_map (fun j => [A j; B j]) (filter C E)).
Proof.
  unfold degree. rewrite xsum_flat, xsum_filter. apply xsum_ext. intros j _. cbn [xsum]. rewrite xorb_false_r. auto.
Qed.
(** The parity below the two ends of an edge. *)
Lemma edge_parities C i : In i E -> (forall v, degree C v = false) ->
  xorb (passes C (A i)) (starting C (A i) (sl i)) = xorb (passes C (B i)) (ending C (B i) (sl i)).
Proof.
  intros Ii Ev.
  assert (Q : xorb (xsum (fun j => C j && low i j) E) (xsum (fun j => C j && high i j) E) = false).
  { rewrite <- xsum_xor. rewrite (xsum_ext _ (fun j => C j && xsum (inner i) [A j; B j])).
    - rewrite <- xsum_filter, <- xsum_flat. apply xsum_even_ends. intros v _. rewrite <- degree_ends. auto.
    - intros j Ij. pose proof (edge_pair i j Ii Ij) as P. cbn [xsum]. rewrite xorb_false_r, <- P.
      destruct (C j), (low i j), (high i j); reflexivity. }
  assert (L : xsum (fun j => C j && low i j) E = xorb (passes C (A i)) (starting C (A i) (sl i))).
  { unfold passes, starting. rewrite <- xsum_xor. apply xsum_ext. intros j _. unfold low.
    destruct (C j); cbn [andb]; auto. }
  assert (R : xsum (fun j => C j && high i j) E = xorb (passes C (B i)) (ending C (B i) (sl i))).
  { unfold passes, ending. rewrite <- xsum_xor. apply xsum_ext. intros j _. unfold high.
    destruct (C j); cbn [andb]; auto. }
  rewrite L, R in Q. destruct (xorb (passes C (A i)) _), (xorb (passes C (B i)) _); auto; discriminate.
Qed.

(** Two edges with the same end have different slopes there. *)
Lemma slopes_start i j : In i E -> In j E -> i <> j -> A i = A j -> sl i <> sl j.
Proof.
  intros Ii Ij Ne Q S. pose proof (lt i Ii) as Li. pose proof (lt j Ij) as Lj.
  assert (H0 : forall u, hg i u = hg j u).
  { intros u. pose proof (aff i u (X (A i))) as P1. pose proof (aff j u (X (A i))) as P2. rewrite (hA i Ii) in P1.
    rewrite Q in P2. rewrite (hA j Ij) in P2. rewrite Q, S in P1. qlra. }
  destruct (qmid (X (A i)) (if qltb (X (B i)) (X (B j)) then X (B i) else X (B j))) as (m & M1 & M2).
  { destruct (qltb (X (B i)) (X (B j))); auto. rewrite Q. auto. }
  destruct (meet i j m Ii Ij Ne) as [[W|W] _]; auto; rewrite ?Q in *; destruct (qltb_spec (X (B i)) (X (B j))); try qlra; subst m; qlra.
Qed.
Lemma slopes_end i j : In i E -> In j E -> i <> j -> B i = B j -> sl i <> sl j.
Proof.
  intros Ii Ij Ne Q S. pose proof (lt i Ii) as Li. pose proof (lt j Ij) as Lj.
  assert (H0 : forall u, hg i u = hg j u).
  { intros u. pose proof (aff i u (X (B i))) as P1. pose proof (aff j u (X (B i))) as P2. rewrite (hB i Ii) in P1.
    rewrite Q in P2. rewrite (hB j Ij) in P2. rewrite Q, S in P1. qlra. }
  destruct (qmid (if qltb (X (A i)) (X (A j)) then X (A j) else X (A i)) (X (B i))) as (m & M1 & M2).
  { destruct (qltb (X (A i)) (X (A j))); auto. rewrite Q. auto. }
  destruct (meet i j m Ii Ij Ne) as [[W|W] _]; auto; rewrite ?Q in *; destruct (qltb_spec (X (A i)) (X (A j))); try qlra; subst m; qlra.
Qed.
End Drawing.
