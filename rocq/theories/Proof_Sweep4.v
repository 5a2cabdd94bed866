(** The plane sweep, part 4: every pair of operands has a suitable shear, and the
    initial operation satisfies the structural invariant. *)
From Coq Require Import QArith Qcanon Bool List Arith Lia.
From Verif Require Import QcTac Model_Base Model_Utils Model_Linear Spec_Base
  Proof_Base Proof_Line Proof_Sweep Proof_Sweep2.
Import ListNotations.
Local Open Scope Qc_scope.

Lemma eps_pairs (l : list (point * point)) : exists e0, 0 < e0 /\
  forall e, 0 < e -> e <= e0 -> forall p q, In (p, q) l -> lex_lt p q ->
    px p + e * py p < px q + e * py q.
Proof.
  induction l as [|[p q] l (e0 & P0 & IH)].
  - exists 1. split; [reflexivity|]. intros e _ _ p q [].
  - destruct (Qclt_le_dec (px p) (px q)) as [L|L].
    + set (w := (if qltb 0 (py p - py q) then py p - py q else 0) + 1).
      assert (Hw : 0 < w /\ py p - py q < w).
      { unfold w. destruct (qltb_spec 0 (py p - py q)); split; qlra. }
      clearbody w. destruct Hw as [W0 W1].
      set (r := (px q - px p) / w).
      assert (Er : r * w = px q - px p) by (unfold r; field; intro E; rewrite E in W0; qlra).
      clearbody r. assert (R0 : 0 < r) by (apply Qcnot_le_lt; intro; qnra).
      exists (if qltb r e0 then r else e0). split; [destruct (qltb r e0); auto|].
      intros e He1 He2 p' q' [E|I] Lx.
      * assert (E1 : p = p' /\ q = q') by (split; congruence). destruct E1 as [<- <-].
        assert (e <= r) by (destruct (qltb_spec r e0); qlra).
        assert (e * w <= px q - px p) by (rewrite <- Er; qnra).
        assert (e * (py p - py q) < e * w) by qnra. qlra.
      * apply IH; auto. destruct (qltb_spec r e0); qlra.
    + exists e0. split; auto. intros e He1 He2 p' q' [E|I] Lx; [|apply IH; auto].
      assert (E1 : p = p' /\ q = q') by (split; congruence). destruct E1 as [<- <-].
      destruct Lx as [Lx|[Lx Ly]]; [exfalso; qlra|]. rewrite Lx. qnra.
Qed.

Lemma eps_exists (F : list point) : exists e, 0 < e /\
  forall p q, In p F -> In q F -> lex_lt p q -> px p + e * py p < px q + e * py q.
Proof.
  destruct (eps_pairs (list_prod F F)) as (e & P & A). exists e. split; auto.
  intros p q Ip Iq. apply A; auto; [apply Qcle_refl|]. apply in_prod; auto.
Qed.

(** The intersection of the lines through two input segments. *)
Definition lines_meet (s t : point * point) : point :=
  to_segments_intersection (fst s) (snd s) (fst t) (snd t).
Definition all_points (ins : list (point * point)) : list point :=
  flat_map (fun s => [fst s; snd s]) ins
  ++ flat_map (fun s => map (lines_meet s) ins) ins.

Definition sorted_pair (s : segment) : point * point :=
  to_sorted_pair (seg_start s) (seg_end s).

Lemma lines_meet_on a b c d : cross_multiply a b c d <> 0 ->
  area2 c d (to_segments_intersection a b c d) = 0
  /\ area2 a b (to_segments_intersection a b c d) = 0.
Proof.
  intros N. rewrite to_segments_intersection_lerp. split; [|apply area2_self_lerp].
  rewrite cross_multiply_diff in N. rewrite area2_lerp. field. auto.
Qed.

Lemma good_rising (ins : list (point * point)) (n1 : nat) (e : Qc) :
  (forall s, In s ins -> lex_lt (fst s) (snd s)) ->
  (forall p q, In p (all_points ins) -> In q (all_points ins) -> lex_lt p q -> px p + e * py p < px q + e * py q) ->
  good (Ctx e (all_points ins) ins n1).
Proof.
  intros Hs A. set (c := Ctx e (all_points ins) ins n1).
  assert (Mono : forall p q, In p (c_pts c) -> In q (c_pts c) -> lex_lt p q -> X c p < X c q).
  { exact A. }
  assert (Ins : forall i, (i < length (c_ins c))%nat ->
    lex_lt (fst (input c i)) (snd (input c i))
    /\ In (fst (input c i)) (c_pts c) /\ In (snd (input c i)) (c_pts c)).
  { intros i Hi. assert (I : In (input c i) ins) by (apply nth_In; auto).
    split; auto. split; apply in_or_app; left; apply in_flat_map; exists (input c i);
      split; auto; cbn; auto. }
  constructor; auto.
  intros i j t Hi Hj NK E.
  destruct (Ins i Hi) as (Li & I1 & I2). destruct (Ins j Hj) as (Lj & J1 & J2).
  pose proof (Mono _ _ I1 I2 Li) as LX. pose proof (Mono _ _ J1 J2 Lj) as LY.
  assert (Ei : X c (snd (input c i)) - X c (fst (input c i)) <> 0) by (intro; qlra).
  assert (Ej : X c (snd (input c j)) - X c (fst (input c j)) <> 0) by (intro; qlra).
  assert (Ki : py (snd (input c i)) - py (fst (input c i))
               = K c i * (X c (snd (input c i)) - X c (fst (input c i)))).
  { unfold K. destruct (input c i) as [a b]; cbn [fst snd] in *. field; auto. }
  assert (Kj : py (snd (input c j)) - py (fst (input c j))
               = K c j * (X c (snd (input c j)) - X c (fst (input c j)))).
  { unfold K. destruct (input c j) as [a b]; cbn [fst snd] in *. field; auto. }
  assert (Cr : cross_multiply (fst (input c i)) (snd (input c i)) (fst (input c j)) (snd (input c j)) <> 0).
  { assert (Ec : cross_multiply (fst (input c i)) (snd (input c i)) (fst (input c j)) (snd (input c j))
      = (X c (snd (input c i)) - X c (fst (input c i)))
        * (py (snd (input c j)) - py (fst (input c j)))
        - (py (snd (input c i)) - py (fst (input c i)))
        * (X c (snd (input c j)) - X c (fst (input c j)))).
    { unfold cross_multiply, X; ring. }
    rewrite Ec, Ki, Kj. intros Z0.
    assert (Z1 : (X c (snd (input c i)) - X c (fst (input c i)))
      * ((X c (snd (input c j)) - X c (fst (input c j))) * (K c j - K c i)) = 0).
    { rewrite <- Z0. ring. }
    apply Qcmult_integral in Z1. destruct Z1 as [Z1|Z1]; [contradiction|].
    apply Qcmult_integral in Z1. destruct Z1 as [Z1|Z1]; [contradiction|].
    apply NK. qlra. }
  destruct (lines_meet_on _ _ _ _ Cr) as [M1 M2].
  set (f := to_segments_intersection _ _ _ _) in *.
  assert (Hi1 : py (snd (input c i)) = H c i (X c (snd (input c i)))).
  { unfold H. rewrite <- Ki. ring. }
  assert (Hj1 : py (snd (input c j)) = H c j (X c (snd (input c j)))).
  { unfold H. rewrite <- Kj. ring. }
  rewrite (area2_H c i) in M2 by (auto using H_start; symmetry; apply H_start).
  rewrite (area2_H c j) in M1 by (auto using H_start; symmetry; apply H_start).
  apply Qcmult_integral in M1. apply Qcmult_integral in M2.
  destruct M1 as [|M1]; [contradiction|]. destruct M2 as [|M2]; [contradiction|].
  assert (Ef : X c f = t).
  { pose proof (H_affine c i (X c f) t) as A1. pose proof (H_affine c j (X c f) t) as A2.
    assert (Z1 : (K c i - K c j) * (X c f - t) = 0).
    { assert (Z2 : (K c i - K c j) * (X c f - t)
        = K c i * (X c f - t) - K c j * (X c f - t)) by ring. rewrite Z2, <- A1, <- A2, E.
      qlra. }
    apply Qcmult_integral in Z1. destruct Z1 as [Z1|Z1]; [|qlra].
    exfalso; apply NK; qlra. }
  exists f. split; [|split; auto].
  - apply in_or_app; right. apply in_flat_map. exists (input c i).
    split; [apply nth_In; auto|]. apply in_map_iff. exists (input c j).
    split; [reflexivity|apply nth_In; auto].
  - rewrite <- Ef. qlra.
Qed.

Lemma good_exists (ins : list (point * point)) (n1 : nat) :
  (forall s, In s ins -> lex_lt (fst s) (snd s)) ->
  exists e, 0 < e /\ good (Ctx e (all_points ins) ins n1).
Proof.
  intros Hs. destruct (eps_exists (all_points ins)) as (e & P & A). exists e. split; auto.
  apply good_rising; auto.
Qed.

(** ** The initial operation *)
Definition operands (first second : list segment) : list (point * point) :=
  map sorted_pair (first ++ second).

Lemma populate_map segments : populate_with_segments segments
  = flat_map (fun s => [fst s; snd s]) (map sorted_pair segments).
Proof.
  induction segments as [|s r IH]; auto. cbn [populate_with_segments flat_map map].
  unfold populate_with_segments in IH. rewrite IH.
  change (to_sorted_pair (seg_start s) (seg_end s)) with (sorted_pair s).
  destruct (sorted_pair s). reflexivity.
Qed.
Lemma pairs_length {A B} (f g : A -> B) (l : list A) :
  length (flat_map (fun s => [f s; g s]) l) = (2 * length l)%nat.
Proof. induction l; cbn; auto. cbn in IHl. lia. Qed.
Lemma pairs_nth {A} (l : list (A * A)) i d : 
  nth (2 * i) (flat_map (fun s => [fst s; snd s]) l) d = fst (nth i l (d, d))
  /\ nth (S (2 * i)) (flat_map (fun s => [fst s; snd s]) l) d = snd (nth i l (d, d)).
Proof.
  revert i; induction l as [|[x y] l IH]; intros i.
  - cbn. destruct i; cbn; auto.
  - destruct i; [cbn; auto|]. replace (2 * S i)%nat with (S (S (2 * i))) by lia. cbn. apply IH.
Qed.

Lemma nth_map_seq {A} (f : nat -> A) m i d : (i < m)%nat -> nth i (map f (seq 0 m)) d = f i.
Proof.
  intros L. rewrite nth_indep with (d' := f O) by (rewrite map_length, seq_length; lia).
  rewrite map_nth, seq_nth by lia. reflexivity.
Qed.

Section Initial.
Variables (first second : list segment).
Let o := from_segments_iterables first second.
Let n := length (operands first second).

Lemma init_endpoints : op_endpoints o = flat_map (fun s => [fst s; snd s]) (operands first second).
Proof.
  unfold o, from_segments_iterables; cbn [op_endpoints]. rewrite !populate_map. unfold operands. rewrite map_app, flat_map_app. reflexivity.
Qed.
Lemma init_size : size o = (2 * n)%nat.
Proof. unfold size. rewrite init_endpoints. apply pairs_length. Qed.
Lemma init_first_count : op_first_count o = length first.
Proof.
  unfold o, from_segments_iterables; cbn [op_first_count].
  rewrite populate_map, pairs_length, map_length.
  rewrite (Nat.mul_comm 2), Nat.div_mul; lia.
Qed.
Lemma init_count : (op_first_count o + (length (op_endpoints o) / 2 - op_first_count o))%nat = n.
Proof.
  fold (size o). rewrite init_size, init_first_count, (Nat.mul_comm 2), Nat.div_mul by lia.
  unfold n, operands. rewrite map_length, app_length. lia.
Qed.
Lemma init_opposites : op_opposites o =
  map (fun index => (index / 2 * 2 + (if Nat.even index then 1 else 0))%nat) (seq 0 (2 * n)).
Proof. rewrite <- init_count. reflexivity. Qed.
Lemma init_ids : op_segments_ids o = seq 0 n.
Proof. rewrite <- init_count. reflexivity. Qed.
Lemma init_queue : op_queue o = seq 0 (2 * n).
Proof. rewrite <- init_count. reflexivity. Qed.

Lemma init_opp_left i : (i < n)%nat -> opp o (2 * i)%nat = S (2 * i)%nat.
Proof.
  intros L. unfold to_opposite_event. rewrite init_opposites.
  rewrite nth_map_seq by lia.
  rewrite Nat.even_mul. cbn [Nat.even orb].
  replace (2 * i / 2)%nat with i by (rewrite (Nat.mul_comm 2), Nat.div_mul; lia). lia.
Qed.
Lemma init_opp_right i : (i < n)%nat -> opp o (S (2 * i))%nat = (2 * i)%nat.
Proof.
  intros L. unfold to_opposite_event. rewrite init_opposites.
  rewrite nth_map_seq by lia.
  rewrite Nat.even_succ, Nat.odd_mul. cbn [Nat.odd Nat.even negb andb].
  replace (S (2 * i) / 2)%nat with i; [lia|].
  replace (S (2 * i))%nat with (1 + i * 2)%nat by lia. rewrite Nat.div_add by lia. cbn. lia.
Qed.
Lemma init_linked : linked o.
Proof.
  constructor.
  - rewrite init_opposites, map_length, seq_length, init_size. reflexivity.
  - rewrite init_ids, seq_length, init_size. reflexivity.
  - rewrite init_size. intros e L.
    assert (E : exists i, (i < n)%nat /\ (e = 2 * i \/ e = S (2 * i))%nat).
    { destruct (Nat.Even_or_Odd e) as [[i Hi]|[i Hi]]; exists i; lia. }
    destruct E as (i & Li & [-> | ->]).
    + rewrite init_opp_left, init_opp_right by auto. split; [lia|split; auto].
      unfold is_event_left. rewrite Nat.even_succ, <- Nat.negb_even. reflexivity.
    + rewrite init_opp_right, init_opp_left by auto. split; [lia|split; auto].
      unfold is_event_left. rewrite Nat.even_succ, <- Nat.negb_even, negb_involutive. reflexivity.
Qed.
Lemma init_left l : left_of o l <-> exists i, (i < n)%nat /\ l = (2 * i)%nat.
Proof.
  unfold left_of. rewrite init_size, left_even. split.
  - intros [[i ->] L]. exists i. split; auto. lia.
  - intros (i & L & ->). split; [exists i; auto|lia].
Qed.
Lemma init_sid i : (i < n)%nat -> sid o (2 * i)%nat = i.
Proof.
  intros L. unfold left_event_to_segment_id, left_event_to_position.
  replace (2 * i / 2)%nat with i by (rewrite (Nat.mul_comm 2), Nat.div_mul; lia).
  rewrite init_ids, seq_nth by auto. lia.
Qed.
Lemma init_pt i : pt o (2 * i)%nat = fst (nth i (operands first second) (origin, origin))
  /\ pt o (S (2 * i))%nat = snd (nth i (operands first second) (origin, origin)).
Proof. unfold to_event_start. rewrite init_endpoints. apply pairs_nth. Qed.

Lemma init_wf e : good (Ctx e (all_points (operands first second)) (operands first second)
                            (length first)) ->
  wf (Ctx e (all_points (operands first second)) (operands first second) (length first)) o.
Proof.
  set (c := Ctx _ _ _ _). intros G.
  assert (N : forall i, (i < n)%nat -> pt o (2 * i)%nat = fst (input c i) /\ pt o (opp o (2 * i)%nat) = snd (input c i)).
  { intros i L. rewrite init_opp_left by auto. apply init_pt. }
  constructor.
  - apply init_linked.
  - apply init_first_count.
  - intros l Ll. apply init_left in Ll. destruct Ll as (i & L & ->). rewrite init_sid; auto.
  - intros l Ll. apply init_left in Ll. destruct Ll as (i & L & ->).
    rewrite (proj1 (N i L)). apply (g_ins c G); auto.
  - intros l Ll. apply init_left in Ll. destruct Ll as (i & L & ->).
    rewrite (proj2 (N i L)). apply (g_ins c G); auto.
  - intros l Ll. apply init_left in Ll. destruct Ll as (i & L & ->).
    unfold hh, SX. rewrite init_sid by auto. rewrite (proj1 (N i L)). symmetry; apply H_start.
  - intros l Ll. apply init_left in Ll. destruct Ll as (i & L & ->).
    unfold hh, EX. rewrite init_sid by auto. rewrite (proj2 (N i L)). symmetry; apply H_end; auto.
  - intros l Ll. apply init_left in Ll. destruct Ll as (i & L & ->).
    unfold SX, EX. rewrite (proj1 (N i L)), (proj2 (N i L)). apply input_X; auto.
  - intros l Ll. apply init_left in Ll. destruct Ll as (i & L & ->).
    unfold SX, EX. rewrite (proj1 (N i L)), (proj2 (N i L)), init_sid by auto. split; apply Qcle_refl.
  - intros i t L A B. exists (2 * i)%nat. split; [apply init_left; eauto|].
    rewrite init_sid by auto. unfold SX, EX. rewrite (proj1 (N i L)), (proj2 (N i L)). auto.
  - intros l m Ll Lm Nn E. apply init_left in Ll. destruct Ll as (i & L & ->).
    apply init_left in Lm. destruct Lm as (j & L' & ->).
    rewrite !init_sid in E by auto. congruence.
Qed.
End Initial.
