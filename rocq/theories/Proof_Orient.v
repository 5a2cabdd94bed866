(** The orientation of a simple contour says on which side of its edges its inside is. *)
From Coq Require Import QArith Qcanon Bool List Arith Lia Permutation.
From Verif Require Import QcTac Model_Base Model_Utils Model_Geometry Model_Contour Model_Linear Model_Mixed Spec_Base Spec_Segment
  Spec_Contour Spec_Relate Proof_Base Proof_Line Proof_Contour Proof_Contour2 Proof_Edges Proof_Sweep4 Proof_Sweep6 Proof_Ottmann15 Proof_Locate Proof_Locate2 Proof_Parity Proof_Corner
  Proof_Ray.
Import ListNotations.
Local Open Scope Qc_scope.

Lemma xsum_two (f : nat -> bool) l a b : NoDup l -> In a l -> In b l -> a <> b -> (forall m, In m l -> m <> a -> m <> b -> f m = false) ->
  xsum f l = xorb (f a) (f b).
Proof.
  intros Nd Ia Ib Ne Z. assert (P : exists r, Permutation l (a :: b :: r)).
  { apply in_split in Ia. destruct Ia as (l1 & l2 & ->). assert (Ib' : In b (l1 ++ l2)).
    { apply in_app_or in Ib. apply in_or_app. destruct Ib as [?|[?|?]]; auto. congruence. }
    apply in_split in Ib'. destruct Ib' as (m1 & m2 & E). exists (m1 ++ m2). rewrite <- Permutation_middle, E.
    constructor. symmetry. apply Permutation_middle. }
  destruct P as (r & P). rewrite (xsum_perm f l _ P). cbn [xsum].
  rewrite (xsum_false f r), xorb_false_r; auto. intros m I. pose proof (Permutation_NoDup P Nd) as Nd'.
  inversion Nd' as [|? ? N1 N2]; subst. inversion N2 as [|? ? N3 N4]; subst. apply Z.
  - apply (Permutation_in _ (Permutation_sym P)). right. right. auto.
  - intros ->. apply N1. right. auto.
  - intros ->. contradiction.
Qed.

Section Middle.
Variable E : list nat.
Variables (A B : nat -> point) (X : point -> Qc) (hg : nat -> Qc -> Qc) (sl : nat -> Qc).
Hypothesis lt : forall i, In i E -> X (A i) < X (B i).
Hypothesis aff : forall i t u, hg i t - hg i u = sl i * (t - u).
Hypothesis hA : forall i, In i E -> hg i (X (A i)) = py (A i).
Hypothesis hB : forall i, In i E -> hg i (X (B i)) = py (B i).
Hypothesis inj : forall p q, vertex E A B p -> vertex E A B q -> X p = X q -> p = q.
Hypothesis meet : forall i j u, In i E -> In j E -> i <> j -> X (A i) <= u -> u <= X (B i) ->
  X (A j) <= u -> u <= X (B j) -> hg i u = hg j u -> (u = X (A i) \/ u = X (B i)) /\ (u = X (A j) \/ u = X (B j)).
(** A point with a given abscissa and height. *)
Variable place : Qc -> Qc -> point.
Hypothesis place_X : forall t y, X (place t y) = t.
Hypothesis place_y : forall t y, py (place t y) = y.
Definition rank (i : nat) : bool := xorb (passes E A B X hg (fun _ => true) (A i)) (starting E A sl (fun _ => true) (A i) (sl i)).

Lemma rank_middle i t : In i E -> X (A i) < t -> t < X (B i) -> (forall j, In j E -> X (A j) <> t /\ X (B j) <> t) ->
  (forall v, degree E A B (fun _ => true) v = false) ->
  xsum (fun j => within A B X j t && qltb (hg j t) (hg i t)) E = rank i.
Proof.
  intros Ii T1 T2 Gn Ev.
  set (b := place t (hg i t)). set (B' := fun j => if (j =? i)%nat then b else B j).
  assert (Bi : B' i = b) by (unfold B'; rewrite Nat.eqb_refl; auto).
  assert (Bj : forall j, j <> i -> B' j = B j) by (intros j Nj; unfold B'; destruct (Nat.eqb_spec j i); [contradiction|auto]).
  assert (Xb : X b = t) by apply place_X. assert (Yb : py b = hg i t) by apply place_y.
  assert (lt' : forall j, In j E -> X (A j) < X (B' j)).
  { intros j Ij. destruct (Nat.eq_dec j i) as [->|Nj]; [rewrite Bi, Xb; auto|rewrite Bj; auto]. }
  assert (hB' : forall j, In j E -> hg j (X (B' j)) = py (B' j)).
  { intros j Ij. destruct (Nat.eq_dec j i) as [->|Nj]; [rewrite Bi, Xb; auto|rewrite Bj; auto]. }
  assert (Vx : forall p, vertex E A B' p -> p = b \/ (vertex E A B p /\ X p <> t)).
  { intros p (j & Ij & [-> | ->]); [right; split; [exists j; auto|apply Gn; auto]|].
    destruct (Nat.eq_dec j i) as [->|Nj]; [left; auto|rewrite Bj by auto; right; split; [exists j; auto|apply Gn; auto]]. }
  assert (inj' : forall p q, vertex E A B' p -> vertex E A B' q -> X p = X q -> p = q).
  { intros p q Vp Vq Q. destruct (Vx p Vp) as [-> | [Vp' Np]], (Vx q Vq) as [-> | [Vq' Nq]]; auto.
    - exfalso. apply Nq. rewrite <- Q. auto.
    - exfalso. apply Np. rewrite Q. auto. }
  assert (le' : forall j, In j E -> X (B' j) <= X (B j)).
  { intros j Ij. destruct (Nat.eq_dec j i) as [->|Nj]; [rewrite Bi, Xb; qlra|rewrite Bj; auto; apply Qcle_refl]. }
  assert (meet' : forall i j u, In i E -> In j E -> i <> j -> X (A i) <= u -> u <= X (B' i) ->
    X (A j) <= u -> u <= X (B' j) -> hg i u = hg j u -> (u = X (A i) \/ u = X (B' i)) /\ (u = X (A j) \/ u = X (B' j))).
  { intros m j u Im Ij Ne U1 U2 U3 U4 Q. pose proof (le' m Im). pose proof (le' j Ij).
    destruct (meet m j u Im Ij Ne) as [M1 M2]; auto; try qlra.
    assert (K : forall n, In n E -> u <= X (B' n) -> u = X (A n) \/ u = X (B n) -> u = X (A n) \/ u = X (B' n)).
    { intros n In_ Un [Un'|Un']; auto. right. pose proof (le' n In_). qlra. }
    split; apply K; auto. }
  assert (Pr : forall j, In j E -> xorb (low A B X hg sl i j) (within A B X j t && qltb (hg j t) (hg i t))
    = xorb (inner A B' X hg i (A j)) (inner A B' X hg i (B j))).
  { intros j Ij. destruct (Nat.eq_dec j i) as [->|Nj].
    - unfold low, inner. rewrite (within_not A B X i (X (A i))) by (left; apply Qcle_refl).
      rewrite (qltb_not (hg i t) (hg i t)), (qltb_not (sl i)), (qltb_not (X (A i)) (X (A i))) by apply Qcle_refl.
      rewrite Bi, Xb, (qltb_not (X (B i)) t) by qlra. rewrite !andb_false_r. reflexivity.
    - pose proof (edge_pair E A B' X hg sl lt' aff hA hB' inj' meet' i j Ii Ij) as P. rewrite (Bj j Nj) in P. rewrite <- P.
      f_equal.
      + unfold low, within. rewrite (Bj j Nj). auto.
      + unfold high, within. rewrite Bi, Xb, Yb, (Bj j Nj).
        rewrite (pointb_false (B j) b); [cbn [andb]; rewrite xorb_false_r; auto|]. intros Q. apply (proj2 (Gn j Ij)). rewrite Q. auto. }
  assert (S0 : xorb (xsum (low A B X hg sl i) E) (xsum (fun j => within A B X j t && qltb (hg j t) (hg i t)) E) = false).
  { rewrite <- xsum_xor. rewrite (xsum_ext _ (fun j => xsum (inner A B' X hg i) [A j; B j])).
    - rewrite <- xsum_flat. apply xsum_even_ends. intros v _. specialize (Ev v). rewrite degree_ends in Ev.
      replace (filter (fun _ => true) E) with E in Ev; auto. clear. induction E; cbn; congruence.
    - intros j Ij. cbn [xsum]. rewrite xorb_false_r. apply Pr; auto. }
  assert (S1 : xsum (low A B X hg sl i) E = rank i).
  { unfold rank, passes, starting. rewrite <- xsum_xor. apply xsum_ext. intros j _. unfold low. auto. }
  rewrite S1 in S0. destruct (rank i), (xsum _ E); auto; discriminate.
Qed.
End Middle.

(** ** A contour *)
Section Contour.
Variable eps : Qc.
Variable ws : list point.
Hypothesis Nd : NoDup ws.
Hypothesis L3 : (3 <= length ws)%nat.
Hypothesis Sim : forall s t p, In s (edges ws) -> In t (edges ws) -> s <> t -> on_seg s p -> on_seg t p ->
    endpoint_of s p /\ endpoint_of t p.
Notation X := (Xs eps).
Hypothesis mono : forall p q, In p ws -> In q ws -> lex_lt p q -> X p < X q.
Notation n := (length ws).
Notation nx := (next_index (length ws)).
Definition vtx (j : nat) : point := nth j ws origin.
Definition edge (j : nat) : segment := Seg (vtx j) (vtx (nx j)).
Definition eA (j : nat) : point := fst (sorted_pair (edge j)).
Definition eB (j : nat) : point := snd (sorted_pair (edge j)).
Definition esl (j : nat) : Qc := (py (eB j) - py (eA j)) / (X (eB j) - X (eA j)).
Definition ehg (j : nat) (t : Qc) : Qc := esl j * (t - X (eA j)) + py (eA j).
Notation E := (seq 0 (length ws)).
Notation flag j := (segment_flag (edge j)).

Lemma vtx_in j : (j < n)%nat -> In (vtx j) ws. Proof. intros L. apply nth_In; auto. Qed.
Lemma vtx_inj i j : (i < n)%nat -> (j < n)%nat -> vtx i = vtx j -> i = j.
Proof. intros Li Lj Q. apply (proj1 (NoDup_nth ws origin) Nd); auto. Qed.
Lemma nx_lt j : (j < n)%nat -> (nx j < n)%nat. Proof. apply next_lt. Qed.
Lemma nx_ne j : (j < n)%nat -> nx j <> j.
Proof. unfold next_index. intros L. destruct (Nat.eqb_spec (S j) n) as [N1|N1]; lia. Qed.
Lemma nx_inj i j : (i < n)%nat -> (j < n)%nat -> nx i = nx j -> i = j.
Proof. unfold next_index. intros Li Lj. destruct (Nat.eqb_spec (S i) n) as [N1|N1], (Nat.eqb_spec (S j) n) as [N2|N2]; lia. Qed.
Lemma edge_in j : (j < n)%nat -> In (edge j) (edges ws).
Proof. intros L. eapply nth_error_In. apply edges_nth; auto. Qed.
Lemma in_edge e : In e (edges ws) -> exists j, (j < n)%nat /\ e = edge j.
Proof. intros I. apply In_nth_error in I. destruct I as (j & Q). apply edges_nth_error in Q. exists j. auto. Qed.
Lemma edges_seq : edges ws = map edge (seq 0 n).
Proof.
  apply nth_ext with (d := edge 0) (d' := edge 0).
  - rewrite map_length, seq_length, edges_length. auto.
  - intros k Lk. rewrite edges_length in Lk. rewrite map_nth, seq_nth by auto. cbn.
    apply nth_error_nth. apply edges_nth. auto.
Qed.
Lemma edge_ends j : (j < n)%nat -> (flag j = true /\ eA j = vtx j /\ eB j = vtx (nx j)) \/ (flag j = false /\ eA j = vtx (nx j) /\ eB j = vtx j).
Proof.
  intros L. unfold segment_flag, eA, eB, sorted_pair, to_sorted_pair. cbn [seg_start seg_end edge].
  assert (D : vtx j <> vtx (nx j)) by (intros Q; apply (nx_ne j L); symmetry; apply vtx_inj; auto; apply nx_lt; auto).
  destruct (point_lt (vtx j) (vtx (nx j))) eqn:P.
  - left. destruct (point_lt (vtx (nx j)) (vtx j)) eqn:P'; auto. exfalso. apply point_lt_true in P. apply point_lt_true in P'.
    apply (lex_irrefl (vtx j)). eapply lex_trans; eauto.
  - right. destruct (point_lt (vtx (nx j)) (vtx j)) eqn:P'; auto. exfalso.
    destruct (lex_total (vtx j) (vtx (nx j))) as [[Q|Q]|Q]; try contradiction; apply point_lt_true in Q; congruence.
Qed.
Lemma eAB j : (j < n)%nat -> lex_lt (eA j) (eB j) /\ In (eA j) ws /\ In (eB j) ws.
Proof.
  intros L. split.
  - apply sorted_pair_lt. cbn. intros Q. apply (nx_ne j L). symmetry. apply vtx_inj; auto. apply nx_lt; auto.
  - destruct (edge_ends j L) as [(_ & -> & ->)|(_ & -> & ->)]; split; apply vtx_in; auto; apply nx_lt; auto.
Qed.
Lemma elt j : In j E -> X (eA j) < X (eB j).
Proof. intros I. apply in_seq in I. destruct (eAB j) as (Q & I1 & I2); [lia|]. apply mono; auto. Qed.
Lemma eaff j t u : ehg j t - ehg j u = esl j * (t - u).
Proof. unfold ehg. ring. Qed.
Lemma ehA j : In j E -> ehg j (X (eA j)) = py (eA j).
Proof. intros _. unfold ehg. ring. Qed.
Lemma ehB j : In j E -> ehg j (X (eB j)) = py (eB j).
Proof. intros I. pose proof (elt j I). unfold ehg, esl. field. intros Q. qlra. Qed.
Lemma einj p q : In p ws -> In q ws -> X p = X q -> p = q.
Proof.
  intros Ip Iq Q. destruct (lex_total p q) as [[L|L]|L]; auto; apply mono in L; auto; exfalso; qlra.
Qed.
Lemma evertex p : vertex E eA eB p -> In p ws.
Proof. intros (j & I & Q). apply in_seq in I. destruct (eAB j) as (_ & I1 & I2); [lia|]. destruct Q as [-> | ->]; auto. Qed.
Definition spot (t y : Qc) : point := Pt (t - eps * y) y.
Lemma spot_X t y : X (spot t y) = t. Proof. unfold Xs, spot; cbn. ring. Qed.
Lemma on_edge j u : (j < n)%nat -> X (eA j) <= u -> u <= X (eB j) -> on_seg (edge j) (spot u (ehg j u)).
Proof.
  intros L U1 U2. apply sorted_pair_on. change (between (eA j) (eB j) (spot u (ehg j u))).
  assert (I : In j E) by (apply in_seq; lia). pose proof (elt j I) as Lt.
  exists ((u - X (eA j)) / (X (eB j) - X (eA j))). assert (D : X (eB j) - X (eA j) <> 0) by (intros Q; qlra).
  set (r := (u - X (eA j)) / (X (eB j) - X (eA j))). assert (Er : r * (X (eB j) - X (eA j)) = u - X (eA j)) by (unfold r; field; auto).
  assert (Ey : ehg j u = py (eA j) + r * (py (eB j) - py (eA j))) by (unfold ehg, esl, r; field; auto).
  clearbody r. split; [|split].
  - apply Qcnot_lt_le. intros Q. assert (r * (X (eB j) - X (eA j)) < 0) by qnra. qlra.
  - apply Qcnot_lt_le. intros Q. assert (0 < (r - 1) * (X (eB j) - X (eA j))) by qnra.
    replace ((r - 1) * (X (eB j) - X (eA j))) with (r * (X (eB j) - X (eA j)) - (X (eB j) - X (eA j))) in H by ring. qlra.
  - unfold spot, lerp. f_equal; auto. rewrite Ey.
    assert (Eu : u = X (eA j) + r * (X (eB j) - X (eA j))) by qlra. rewrite Eu. unfold Xs. ring.
Qed.
Lemma edge_end j p : (j < n)%nat -> endpoint_of (edge j) p -> p = eA j \/ p = eB j.
Proof. intros L [-> | ->]; cbn; destruct (edge_ends j L) as [(_ & -> & ->)|(_ & -> & ->)]; auto. Qed.
Lemma emeet i j u : In i E -> In j E -> i <> j -> X (eA i) <= u -> u <= X (eB i) ->
  X (eA j) <= u -> u <= X (eB j) -> ehg i u = ehg j u -> (u = X (eA i) \/ u = X (eB i)) /\ (u = X (eA j) \/ u = X (eB j)).
Proof.
  intros Ii Ij Ne U1 U2 U3 U4 Q. apply in_seq in Ii. apply in_seq in Ij.
  assert (Li : (i < n)%nat) by lia. assert (Lj : (j < n)%nat) by lia.
  pose proof (on_edge i u Li U1 U2) as O1. pose proof (on_edge j u Lj U3 U4) as O2. rewrite <- Q in O2.
  destruct (Sim (edge i) (edge j) (spot u (ehg i u))) as [P1 P2]; auto; try (apply edge_in; auto).
  { intros R. apply Ne. apply vtx_inj; auto. unfold edge in R. injection R as R _. unfold vtx. auto. }
  apply edge_end in P1; auto. apply edge_end in P2; auto.
  split; [destruct P1 as [<-|<-]|destruct P2 as [<-|<-]]; rewrite spot_X; auto.
Qed.
Lemma touching m k : (m < n)%nat -> (k < n)%nat -> eA m = vtx k \/ eB m = vtx k -> m = k \/ nx m = k.
Proof.
  intros Lm Lk. pose proof (nx_lt m Lm). destruct (edge_ends m Lm) as [(_ & -> & ->)|(_ & -> & ->)]; intros [Q|Q]; apply vtx_inj in Q; auto.
Qed.
Lemma edegree v : degree E eA eB (fun _ => true) v = false.
Proof.
  pose proof (sides_edges (fun p => pointb p v) ws) as Q. rewrite edges_seq in Q. unfold degree.
  rewrite <- Q. clear Q. unfold sides.
  assert (W : forall l, (forall j, In j l -> (j < n)%nat) -> xsum (fun j => true && xorb (pointb (eA j) v) (pointb (eB j) v)) l
    = fold_right (fun e acc => xorb (xorb (pointb (seg_start e) v) (pointb (seg_end e) v)) acc) false (map edge l)).
  { induction l as [|j l IH]; intros B; [reflexivity|]. cbn [xsum map fold_right]. rewrite <- IH by (intros; apply B; right; auto). f_equal.
    cbn [andb edge seg_start seg_end]. destruct (edge_ends j (B j (or_introl eq_refl))) as [(_ & -> & ->)|(_ & -> & ->)]; auto. apply xorb_comm. }
  apply W. intros j I. apply in_seq in I. lia.
Qed.
Notation rank := (rank E eA eB X ehg esl).
Notation P := (passes E eA eB X ehg (fun _ => true)).
Notation St := (starting E eA esl (fun _ => true)).
Notation En := (ending E eB esl (fun _ => true)).
Lemma rank_end j : (j < n)%nat -> rank j = xorb (P (eB j)) (En (eB j) (esl j)).
Proof.
  intros L. unfold Proof_Orient.rank. apply (edge_parities E eA eB X ehg esl elt eaff ehA ehB).
  - intros p q Vp Vq. apply einj; apply evertex; auto.
  - apply emeet.
  - apply in_seq. lia.
  - apply edegree.
Qed.
Lemma corner_sum (f : nat -> bool) j : (j < n)%nat -> (forall m, (m < n)%nat -> eA m <> vtx (nx j) -> eB m <> vtx (nx j) -> f m = false) ->
  xsum f E = xorb (f j) (f (nx j)).
Proof.
  intros L Z. apply xsum_two.
  - apply seq_NoDup.
  - apply in_seq. lia.
  - apply in_seq. pose proof (nx_lt j L). lia.
  - pose proof (nx_ne j L). auto.
  - intros m Im N1 N2. apply in_seq in Im. assert (Lm : (m < n)%nat) by lia. pose proof (nx_lt j L) as Ln.
    assert (W : ~ (eA m = vtx (nx j) \/ eB m = vtx (nx j))).
    { intros Q. apply touching in Q; auto. destruct Q as [Q|Q]; auto. apply nx_inj in Q; auto. }
    apply Z; auto.
Qed.
Lemma start_at j s : (j < n)%nat -> St (vtx (nx j)) s
  = xorb (pointb (eA j) (vtx (nx j)) && qltb (esl j) s) (pointb (eA (nx j)) (vtx (nx j)) && qltb (esl (nx j)) s).
Proof.
  intros L. unfold starting. rewrite (corner_sum _ j L); auto. intros m Lm Q _. rewrite pointb_false; auto.
Qed.
Lemma end_at j s : (j < n)%nat -> En (vtx (nx j)) s
  = xorb (pointb (eB j) (vtx (nx j)) && qltb s (esl j)) (pointb (eB (nx j)) (vtx (nx j)) && qltb s (esl (nx j))).
Proof.
  intros L. unfold ending. rewrite (corner_sum _ j L); auto. intros m Lm _ Q. rewrite pointb_false; auto.
Qed.
Lemma qltb_swap a b : a <> b -> qltb a b = negb (qltb b a).
Proof. intros D. destruct (qltb_spec a b), (qltb_spec b a); auto; exfalso; [qlra|]. apply D. apply Qcle_antisym; apply Qcnot_lt_le; auto. Qed.
Lemma rank_next j : (j < n)%nat -> xorb (rank j) (flag j) = xorb (rank (nx j)) (flag (nx j)).
Proof.
  intros L. pose proof (nx_lt j L) as Ln. pose proof (nx_ne j L) as Ne.
  assert (Ij : In j E) by (apply in_seq; lia). assert (In' : In (nx j) E) by (apply in_seq; lia).
  assert (D1 : vtx j <> vtx (nx j)) by (intros Q; apply Ne; symmetry; apply vtx_inj; auto).
  assert (D2 : vtx (nx (nx j)) <> vtx (nx j)).
  { intros Q. apply (nx_ne (nx j) Ln). apply vtx_inj; auto. apply nx_lt; auto. }
  destruct (edge_ends j L) as [(F1 & A1 & B1)|(F1 & A1 & B1)], (edge_ends (nx j) Ln) as [(F2 & A2 & B2)|(F2 & A2 & B2)];
    rewrite F1, F2.
  - rewrite (rank_end j L). unfold Proof_Orient.rank. rewrite B1, A2. rewrite (start_at j _ L), (end_at j _ L).
    rewrite A1, B1, A2, B2. rewrite !pointb_refl, !pointb_false by auto.
    rewrite (qltb_not (esl j) (esl j)), (qltb_not (esl (nx j)) (esl (nx j))) by apply Qcle_refl. reflexivity.
  - rewrite (rank_end j L), (rank_end (nx j) Ln). rewrite B1, B2. rewrite !(end_at j _ L). rewrite B1, B2, !pointb_refl.
    rewrite (qltb_not (esl j) (esl j)), (qltb_not (esl (nx j)) (esl (nx j))) by apply Qcle_refl.
    assert (Sl : esl j <> esl (nx j)).
    { apply (slopes_end E eA eB X ehg esl elt eaff ehB emeet); auto. rewrite B1, B2. auto. }
    rewrite (qltb_swap (esl j)) by auto. cbn [andb].
    destruct (P (vtx (nx j))), (qltb (esl (nx j)) (esl j)); reflexivity.
  - unfold Proof_Orient.rank. rewrite A1, A2. rewrite !(start_at j _ L). rewrite A1, A2, !pointb_refl.
    rewrite (qltb_not (esl j) (esl j)), (qltb_not (esl (nx j)) (esl (nx j))) by apply Qcle_refl.
    assert (Sl : esl j <> esl (nx j)).
    { apply (slopes_start E eA eB X ehg esl elt eaff ehA emeet); auto. rewrite A1, A2. auto. }
    rewrite (qltb_swap (esl j)) by auto. cbn [andb].
    destruct (P (vtx (nx j))), (qltb (esl (nx j)) (esl j)); reflexivity.
  - rewrite (rank_end (nx j) Ln). unfold Proof_Orient.rank. rewrite A1, B2. rewrite (start_at j _ L), (end_at j _ L).
    rewrite A1, B1, A2, B2. rewrite !pointb_refl, !pointb_false by auto.
    rewrite (qltb_not (esl j) (esl j)), (qltb_not (esl (nx j)) (esl (nx j))) by apply Qcle_refl. reflexivity.
Qed.
Lemma rank_all j : (j < n)%nat -> xorb (rank j) (flag j) = xorb (rank 0) (flag 0).
Proof.
  induction j as [|j IH]; intros L; auto. rewrite <- IH by lia. rewrite (rank_next j) by lia.
  unfold next_index. destruct (Nat.eqb_spec (S j) n) as [N1|N1]; [lia|]. auto.
Qed.
(** The least vertex is the first. *)
Lemma rank_least : (forall v, In v ws -> lex_le (vtx 0) v) -> 
  flag 0 = true /\ rank 0 = qltb (area2 (vtx (n - 1)) (vtx 0) (vtx 1)) 0.
Proof.
  intros Le.
  assert (L0 : (0 < n)%nat) by lia. assert (Lm : (n - 1 < n)%nat) by lia.
  assert (N0 : nx 0 = 1%nat) by (unfold next_index; destruct (Nat.eqb_spec 1 n) as [N1|N1]; lia).
  assert (Nm : nx (n - 1) = O) by (unfold next_index; destruct (Nat.eqb_spec (S (n - 1)) n) as [N1|N1]; lia).
  assert (Lt : forall k, (k < n)%nat -> k <> O -> lex_lt (vtx 0) (vtx k)).
  { intros k Lk Nk. destruct (Le (vtx k) (vtx_in k Lk)) as [Q|Q]; auto. exfalso. apply Nk. symmetry. apply vtx_inj; auto. }
  assert (Fl : forall a b, lex_lt a b -> ~ lex_lt b a) by (intros a b Q R; apply (lex_irrefl a); eapply lex_trans; eauto).
  destruct (edge_ends 0 L0) as [(F0 & A0 & B0)|(F0 & A0 & B0)].
  2: { exfalso. destruct (eAB 0 L0) as (Q & _). rewrite A0, B0, N0 in Q. apply (Fl _ _ Q), Lt; lia. }
  destruct (edge_ends (n - 1) Lm) as [(Fm & Am & Bm)|(Fm & Am & Bm)].
  { exfalso. destruct (eAB (n - 1) Lm) as (Q & _). rewrite Am, Bm, Nm in Q. apply (Fl _ _ Q), Lt; lia. }
  rewrite N0 in B0. rewrite Nm in Am. split; auto.
  unfold Proof_Orient.rank. rewrite A0.
  assert (Pz : P (vtx 0) = false).
  { unfold passes. apply xsum_false. intros m Im. cbn [andb]. rewrite within_not; auto. left. apply in_seq in Im.
    destruct (eAB m) as (_ & I1 & _); [lia|]. destruct (Le _ I1) as [Q|Q]; [|rewrite <- Q; apply Qcle_refl].
    apply mono in Q; auto; [qlra|apply vtx_in; auto]. }
  rewrite Pz, xorb_false_l. pose proof (start_at (n - 1) (esl 0) Lm) as Q. rewrite Nm in Q. rewrite Q. rewrite Am, A0, pointb_refl.
  rewrite (qltb_not (esl 0) (esl 0)) by apply Qcle_refl. cbn [andb]. rewrite xorb_false_r. clear Q Pz.
  assert (S0 : In 0%nat E) by (apply in_seq; lia). assert (Sm : In (n - 1)%nat E) by (apply in_seq; lia).
  pose proof (elt 0 S0) as X0. pose proof (elt (n - 1) Sm) as Xm.
  assert (Ar : area2 (vtx (n - 1)) (vtx 0) (vtx 1) = (X (eB 0) - X (eA 0)) * (X (eB (n - 1)) - X (eA (n - 1))) * (esl (n - 1) - esl 0)).
  { unfold esl. assert (D0 : X (eB 0) - X (eA 0) <> 0) by (intros Q; qlra). assert (Dm : X (eB (n - 1)) - X (eA (n - 1)) <> 0) by (intros Q; qlra).
    transitivity ((X (eB 0) - X (eA 0)) * (py (eB (n - 1)) - py (eA (n - 1))) - (X (eB (n - 1)) - X (eA (n - 1))) * (py (eB 0) - py (eA 0))).
    - rewrite A0, B0, Am, Bm. unfold area2, Xs. ring.
    - field. auto. }
  rewrite Ar. apply qltb_eq. set (u := X (eB 0) - X (eA 0)) in *. set (w := X (eB (n - 1)) - X (eA (n - 1))) in *.
  assert (U : 0 < u) by (unfold u; qlra). assert (W : 0 < w) by (unfold w; qlra).
  assert (UW : 0 < u * w) by qnra. set (z := u * w) in *. set (d := esl (n - 1)) in *. set (d0 := esl 0) in *. clearbody u w z d d0.
  split; intros Q.
  - replace (z * (d - d0)) with (- (z * (d0 - d))) by ring. assert (0 < z * (d0 - d)) by (apply Qcmult_lt_0_compat_l; qlra) || (assert (0 < z * (d0 - d)) by qnra; qlra). qlra.
  - apply Qcnot_le_lt. intros R. assert (0 <= z * (d - d0)) by qnra. qlra.
Qed.
End Contour.

Section Side.
Variable eps : Qc.
Notation X := (Xs eps).
Definition rising (pts : list point) : Prop := forall p q, In p pts -> In q pts -> lex_lt p q -> X p < X q.

Lemma side_first ws : NoDup ws -> (3 <= length ws)%nat ->
  (forall s t p, In s (edges ws) -> In t (edges ws) -> s <> t -> on_seg s p -> on_seg t p -> endpoint_of s p /\ endpoint_of t p) ->
  rising ws -> (forall v, In v ws -> lex_le (vtx ws 0) v) ->
  forall e p, In e (edges ws) -> on_seg e p -> (forall v, In v ws -> X v <> X p) ->
  xsum (below_seg eps p) (edges ws) = xorb (negb (qltb (area2 (vtx ws (length ws - 1)) (vtx ws 0) (vtx ws 1)) 0)) (segment_flag e).
Proof.
  intros Nd L3 Sim mono Le e p Ie On Gn. destruct (in_edge ws e Ie) as (j & Lj & ->).
  destruct (rank_least eps ws Nd L3 mono Le) as [F0 R0].
  pose proof (rank_all eps ws Nd L3 Sim mono j Lj) as Ra. rewrite F0, R0 in Ra.
  assert (Ij : In j (seq 0 (length ws))) by (apply in_seq; lia).
  pose proof (elt eps ws Nd L3 mono j Ij) as Lt.
  assert (On' : between (eA ws j) (eB ws j) p) by (apply sorted_pair_on; auto).
  assert (Py : py p = ehg eps ws j (X p)) by (apply (on_line eps (eA ws j) (eB ws j) p Lt On')).
  destruct (eAB ws Nd L3 j Lj) as (_ & IA & IB).
  assert (Bt : X (eA ws j) < X p /\ X p < X (eB ws j)).
  { destruct On' as (t & T0 & T1 & Q). assert (Ex : X p = X (eA ws j) + t * (X (eB ws j) - X (eA ws j))) by (rewrite Q; unfold Xs, lerp; cbn; ring).
    set (a := X (eA ws j)) in *. set (b := X (eB ws j)) in *. pose proof (Gn _ IA) as N1. pose proof (Gn _ IB) as N2. fold a in N1. fold b in N2.
    assert (0 <= t * (b - a)) by qnra. assert (0 <= (1 - t) * (b - a)) by qnra. replace ((1 - t) * (b - a)) with ((b - a) - t * (b - a)) in H0 by ring.
    clearbody a b. split; apply Qcnot_le_lt; intros C; [apply N1|apply N2]; qlra. }
  assert (M := rank_middle (seq 0 (length ws)) (eA ws) (eB ws) X (ehg eps ws) (esl eps ws) (elt eps ws Nd L3 mono) (eaff eps ws) (ehA eps ws) (ehB eps ws Nd L3 mono)).
  rewrite (edges_seq ws), xsum_map. 
  rewrite (xsum_ext _ (fun m => within (eA ws) (eB ws) X m (X p) && qltb (ehg eps ws m (X p)) (ehg eps ws j (X p)))).
  - rewrite (M) with (place := spot eps); auto.
    + destruct (rank _ _ _ _ _ _ j), (segment_flag (edge ws j)), (qltb _ 0); auto; discriminate.
    + intros a b Va Vb. apply (einj eps ws mono); apply (evertex ws Nd L3); auto.
    + apply (emeet eps ws Nd L3 Sim mono).
    + apply spot_X.
    + apply Bt.
    + apply Bt.
    + intros m Im. apply in_seq in Im. destruct (eAB ws Nd L3 m) as (_ & I1 & I2); [lia|]. auto.
    + apply (edegree ws Nd L3).
  - intros m Im. rewrite <- Py. unfold below_seg. pose proof (elt eps ws Nd L3 mono m Im) as Lm.
    unfold within, ehg, esl. change ((py (eB ws m) - py (eA ws m)) / (X (eB ws m) - X (eA ws m)) * (X p - X (eA ws m)) + py (eA ws m)) with (line_at eps (eA ws m) (eB ws m) (X p)).
    rewrite <- (below_line eps (eA ws m) (eB ws m) p Lm). apply in_seq in Im.
    cbn [seg_start seg_end edge]. destruct (edge_ends ws Nd L3 m) as [(_ & -> & ->)|(_ & -> & ->)]; [lia|auto|apply below_pair_sym].
Qed.

(** The parity below an edge of a simple contour. *)
Lemma ring_side ws : simple_contour ws -> rising ws -> forall e p, In e (edges ws) -> on_seg e p -> (forall v, In v ws -> X v <> X p) ->
  xsum (below_seg eps p) (edges ws) = xorb (match contour_orientation ws with COUNTERCLOCKWISE => true | _ => false end) (segment_flag e).
Proof.
  intros [(L3 & Nd & Nc) Sim] mono e p Ie On Gn.
  destruct (at_least_ex ws) as (x & t & A); [intros ->; cbn in L3; lia|].
  pose proof (at_least_rotation ws x t A) as Ro. pose proof (rotation_permutation _ _ Ro) as Pm.
  pose proof (rotation_permutation _ _ (edges_rotation _ _ Ro)) as Pe.
  pose proof (rotation_length _ _ Ro) as Ln. cbn in Ln. destruct t as [|y t]; [cbn in Ln; lia|].
  rewrite (contour_orientation_at ws x (y :: t) A) by discriminate. cbn [hd].
  assert (Cn : area2 (last (y :: t) x) x y <> 0).
  { apply Nc. exists t. split; auto. rewrite !last_cons. auto. }
  rewrite (xsum_perm _ _ _ Pe).
  rewrite (side_first (x :: y :: t)) with (e := e).
  - f_equal. unfold vtx. cbn [length]. replace (S (S (length t)) - 1)%nat with (S (length t)) by lia.
    change (nth (S (length t)) (x :: y :: t) origin) with (nth (length t) (y :: t) origin).
    assert (La : nth (length t) (y :: t) origin = last (y :: t) x).
    { clear. revert y. induction t as [|z t IH]; intros y; auto. cbn [length]. change (nth (S (length t)) (y :: z :: t) origin) with (nth (length t) (z :: t) origin). rewrite IH. auto. }
    rewrite La. cbn [nth]. destruct (orient (last (y :: t) x) x y) eqn:O.
    + apply orient_cw in O. rewrite qltb_yes; auto.
    + apply orient_col in O. contradiction.
    + apply orient_ccw in O. rewrite qltb_not by qlra. auto.
  - apply (Permutation_NoDup Pm); auto.
  - rewrite (Permutation_length (Permutation_sym Pm)); auto.
  - intros s u q Is Iu. apply Sim; apply (Permutation_in _ (Permutation_sym Pe)); auto.
  - intros a b Ia Ib. apply mono; apply (Permutation_in _ (Permutation_sym Pm)); auto.
  - intros v I. apply A. apply (Permutation_in _ (Permutation_sym Pm)); auto.
  - apply (Permutation_in _ Pe); auto.
  - auto.
  - intros v I. apply Gn. apply (Permutation_in _ (Permutation_sym Pm)); auto.
Qed.
End Side.
