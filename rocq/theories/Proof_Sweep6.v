(** The plane sweep, part 6: the operands are preserved, and sweeps terminate. *)
From Coq Require Import QArith Qcanon Bool List Arith Lia.
From Verif Require Import QcTac Model_Base Model_Utils Model_Linear Spec_Base Spec_Sweep
  Proof_Base Proof_Line Proof_Sweep Proof_Sweep2 Proof_Sweep3 Proof_Sweep4 Proof_Sweep5.
Import ListNotations.
Local Open Scope Qc_scope.

Lemma sorted_pair_lt s : proper_seg s -> lex_lt (fst (sorted_pair s)) (snd (sorted_pair s)).
Proof.
  intros P. unfold sorted_pair, to_sorted_pair.
  destruct (lex_total (seg_start s) (seg_end s)) as [[L|E]|L]; [| contradiction |].
  - rewrite (proj2 (point_lt_true _ _) L). auto.
  - destruct (point_lt (seg_start s) (seg_end s)) eqn:Q; [|auto].
    apply point_lt_true in Q. exfalso. exact (lex_irrefl _ (lex_trans _ _ _ L Q)).
Qed.
Lemma sorted_pair_on s p : between (fst (sorted_pair s)) (snd (sorted_pair s)) p <-> on_seg s p.
Proof.
  unfold sorted_pair, to_sorted_pair, on_seg.
  destruct (point_lt (seg_start s) (seg_end s)); cbn; [reflexivity|apply between_sym].
Qed.

Section Init.
Variables (first second : list segment).
Hypothesis P : Forall proper_seg (first ++ second).
Notation inputs := (first ++ second).

Definition the_ctx (e : Qc) : ctx :=
  Ctx e (all_points (operands first second)) (operands first second) (length first).

Lemma ctx_exists : exists e, 0 < e /\ good (the_ctx e).
Proof.
  apply good_exists. intros s I. apply in_map_iff in I. destruct I as (x & <- & I).
  apply sorted_pair_lt. rewrite Forall_forall in P. auto.
Qed.
Lemma input_the_ctx e i s : nth_error inputs i = Some s -> input (the_ctx e) i = sorted_pair s.
Proof.
  intros E. unfold input; cbn. unfold operands. apply nth_error_nth.
  rewrite nth_error_map, E. reflexivity.
Qed.
Lemma init_base e : good (the_ctx e) -> base (the_ctx e) (from_segments_iterables first second).
Proof.
  intros G. split; [apply init_wf; auto|]. split.
  - intros x. rewrite init_queue, init_size. intros I; apply in_seq in I. lia.
  - intros l [].
Qed.

Lemma base_preserved e o : good (the_ctx e) -> base (the_ctx e) o -> operands_preserved inputs o.
Proof.
  intros G (W & _). set (c := the_ctx e) in *.
  assert (Len : length (c_ins c) = length inputs) by (cbn; apply map_length).
  assert (PX : forall l, left_of o l -> forall p, on_seg (piece o l) p <->
     SX c o l <= X c p /\ X c p <= EX c o l /\ py p = hh c o l (X c p)).
  { intros l L p. apply (between_X c (pt o l) (pt o (opp o l)) (sid o l) p).
    - apply (w_S c o W); auto.
    - apply (w_E c o W); auto.
    - apply (w_lt c o W); auto. }
  assert (IX : forall i s, nth_error inputs i = Some s -> forall p, on_seg s p <->
     X c (fst (input c i)) <= X c p /\ X c p <= X c (snd (input c i)) /\ py p = H c i (X c p)).
  { intros i s E p. assert (Li : (i < length (c_ins c))%nat).
    { rewrite Len. apply nth_error_Some. congruence. }
    rewrite <- sorted_pair_on, <- (input_the_ctx e i s E).
    apply (between_X c _ _ i p).
    - symmetry. apply H_start.
    - symmetry. apply H_end; auto.
    - apply input_X; auto. }
  constructor.
  - intros l L. pose proof (w_sid c o W l L) as Ls. rewrite Len in Ls.
    apply nth_error_Some in Ls. destruct (nth_error inputs (sid o l)) as [s|] eqn:E; [|congruence].
    exists s. split; auto. split.
    + pose proof (w_lt c o W l L) as Lt. unfold SX, EX in Lt. unfold proper_seg; cbn.
      intros Q. unfold to_event_end in Q. rewrite <- Q in Lt. qlra.
    + intros p Hp. apply (PX l L) in Hp. apply (IX _ _ E). destruct (w_in c o W l L).
      destruct Hp as (A & B & D). split; [qlra|split; [qlra|auto]].
  - intros i s p E Hp. apply (IX i s E) in Hp. destruct Hp as (A & B & D).
    assert (Li : (i < length (c_ins c))%nat) by (rewrite Len; apply nth_error_Some; congruence).
    destruct (w_cover c o W i (X c p) Li A B) as (l & L & Es & A1 & B1).
    exists l. split; auto. split; auto. apply (PX l L). unfold hh. rewrite Es. auto.
  - intros l m L M N E (p & q & Npq & H1 & H2 & H3 & H4).
    apply (PX l L) in H1. apply (PX m M) in H2. apply (PX l L) in H3. apply (PX m M) in H4.
    assert (EX : X c p = X c q).
    { destruct (w_disj c o W l m L M N E); qlra. }
    apply Npq. destruct H1 as (_ & _ & H1), H3 as (_ & _ & H3). rewrite EX in H1.
    assert (Ey : py p = py q) by congruence.
    assert (Ex : px p = px q) by (unfold X in EX; rewrite Ey in EX; qlra).
    destruct p, q; cbn in *; congruence.
Qed.

Lemma steps_preserved o : some_steps (from_segments_iterables first second) o ->
  operands_preserved inputs o.
Proof.
  intros S. destruct ctx_exists as (e & _ & G). apply (base_preserved e); auto.
  eapply some_steps_base; eauto. apply init_base; auto.
Qed.
Lemma sweep_steps fuel shape limit o events :
  sweep fuel shape limit (from_segments_iterables first second) [] = Sweeps o events ->
  some_steps (from_segments_iterables first second) o.
Proof.
  destruct ctx_exists as (e & _ & G).
  apply (sweep_runs _ G fuel shape limit _ [] (init_base e G)).
Qed.

Lemma init_work e : good (the_ctx e) ->
  (work (the_ctx e) (from_segments_iterables first second) < enough (length inputs))%nat.
Proof.
  intros G. set (o := from_segments_iterables first second). set (n := length inputs).
  assert (En : length (operands first second) = n) by apply map_length.
  assert (Ep : length (all_points (operands first second)) = (2 * n + n * n)%nat).
  { unfold all_points. rewrite app_length. f_equal.
    - rewrite (pairs_length fst snd), En. reflexivity.
    - assert (FM : forall (l : list (point * point)) m, length (flat_map (fun s => map (lines_meet s) m) l)
        = (length l * length m)%nat).
      { intros l m; induction l as [|x l IH]; cbn; auto. rewrite app_length, map_length, IH. auto. }
      rewrite FM, En. reflexivity. }
  unfold work, enough. unfold o at 2. rewrite init_queue, seq_length, En.
  assert (T : (total (the_ctx e) o <= n * (2 * n + n * n))%nat).
  { unfold total, lefts. unfold o at 2. rewrite init_size, En, (Nat.mul_comm 2 n), Nat.div_mul by lia.
    assert (Sm : forall (f : nat -> nat) m l, (forall x, f x <= m)%nat ->
      (fold_right Nat.add O (map f l) <= length l * m)%nat).
    { intros f m l F; induction l as [|x l IH]; cbn; auto. specialize (F x). lia. }
    etransitivity.
    - apply Sm with (m := (2 * n + n * n)%nat). intros l. unfold inner. rewrite <- Ep.
      cbn [c_pts the_ctx]. set (f := fun p => _). generalize (all_points (operands first second)).
      intros xs; induction xs as [|x xs IH]; cbn; auto. destruct (f x); cbn; lia.
    - rewrite map_length, seq_length. lia. }
  lia.
Qed.

Lemma sweep_terminates fuel shape limit : (enough (length inputs) <= fuel)%nat ->
  sweep fuel shape limit (from_segments_iterables first second) [] <> OutOfFuel.
Proof.
  intros L. destruct ctx_exists as (e & _ & G).
  apply (sweep_runs _ G fuel shape limit _ [] (init_base e G)).
  pose proof (init_work e G). lia.
Qed.
End Init.
