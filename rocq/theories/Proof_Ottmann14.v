(** The Bentley-Ottmann sweep, part 14: it ends whatever the segments are. *)
From Coq Require Import QArith Qcanon Bool List Arith Lia FinFun.
From Verif Require Import QcTac Model_Base Model_Utils Model_Linear Model_BentleyOttmann Spec_Base
  Spec_Segment Spec_Sweep Spec_Validity Proof_Base Proof_Line Proof_Sweep Proof_Sweep2 Proof_Sweep3 Proof_Sweep4
  Proof_Sweep5 Proof_Sweep6 Proof_Sweep7
  Proof_Sweep8 Proof_Sweep9 Proof_Sweep10 Proof_Sweep11 Proof_Sweep12 Proof_Sweep14
  Proof_Ottmann Proof_Ottmann5 Proof_Ottmann8.
Import ListNotations.
Local Open Scope Qc_scope.

Section Ends.
Variable c : ctx.
Hypothesis G : good c.
Hypothesis C0 : c_first c = O.
Notation n := (length (c_ins c)).
Definition room : nat := (2 * (n * length (c_pts c)))%nat.

Lemma size_room o : wf c o -> (size o <= room)%nat.
Proof.
  intros W. set (m := ((size o + 1) / 2)%nat).
  assert (Lm : forall x, In x (seq 0 m) -> left_of o (2 * x)%nat).
  { intros x I. apply in_seq in I. split; [unfold is_event_left; rewrite Nat.even_mul; reflexivity|].
    assert (Q : (m * 2 <= size o + 1)%nat) by (rewrite Nat.mul_comm; apply Nat.mul_div_le; lia).
    change (2 * x < size o)%nat. lia. }
  set (f := fun x => (sid o (2 * x)%nat, pt o (2 * x)%nat)).
  assert (Nd : NoDup (map f (seq 0 m))).
  { assert (Q : forall l, NoDup l -> (forall x, In x l -> left_of o (2 * x)%nat) -> NoDup (map f l)).
    { induction 1 as [|x l N D IH]; intros Ll; cbn [map]; constructor.
      - intros I. apply in_map_iff in I. destruct I as (y & E & I).
        assert (E1 : sid o (2 * y)%nat = sid o (2 * x)%nat) by exact (f_equal fst E).
        assert (E2 : pt o (2 * y)%nat = pt o (2 * x)%nat) by exact (f_equal snd E).
        assert (Nxy : (2 * y <> 2 * x)%nat) by (intros Q; assert (y = x) by lia; subst y; contradiction).
        assert (Ly : left_of o (2 * y)%nat) by (apply Ll; right; auto). assert (Lx : left_of o (2 * x)%nat) by (apply Ll; left; auto).
        pose proof (w_lt c o W _ Ly) as Q1. pose proof (w_lt c o W _ Lx) as Q2. unfold SX in Q1, Q2. rewrite E2 in Q1.
        destruct (w_disj c o W _ _ Ly Lx Nxy E1) as [Q|Q]; unfold SX in Q; rewrite ?E2 in Q; qlra.
      - apply IH. intros y I. apply Ll; right; auto. }
    apply Q; auto. apply seq_NoDup. }
  assert (Inc : incl (map f (seq 0 m)) (list_prod (seq 0 n) (c_pts c))).
  { intros y I. apply in_map_iff in I. destruct I as (x & <- & I). apply Lm in I. apply in_prod.
    - apply in_seq. pose proof (w_sid c o W _ I). lia.
    - apply (w_ptS c o W); auto. }
  pose proof (NoDup_incl_length Nd Inc) as Len. rewrite map_length, seq_length, prod_length, seq_length in Len.
  assert (Q : (size o <= 2 * m)%nat).
  { unfold m. pose proof (Nat.div_mod (size o + 1) 2). pose proof (Nat.mod_upper_bound (size o + 1) 2). lia. }
  unfold room. lia.
Qed.

Lemma low_calm : exists R, calm c R.
Proof.
  destruct (lower_bound (fun i => X c (fst (input c i))) (seq 0 n)) as [R Q]. exists R.
  intros i j t Li Lj N Lt A1. exfalso. assert (I : In i (seq 0 n)) by (apply in_seq; lia). apply Q in I. qlra.
Qed.

Section Loop.
Context {A : Type}.
Variable visit : A -> intersection -> A + bool.

Lemma loop_ends shape pick : forall fuel r g a, base c (rg_op r) ->
  (length (op_queue (rg_op r)) + (room - size (rg_op r)) < fuel)%nat ->
  sweep_intersections visit fuel shape pick r g a <> SweepRunsOut.
Proof.
  destruct low_calm as [R NB].
  induction fuel as [|fuel IH]; intros r g a B Lf; [lia|]. cbn [sweep_intersections].
  destruct (op_queue (rg_op r)) as [|q0 q] eqn:Eq.
  - destruct g as [[p ids]|]; [|discriminate]. destruct (visit_pairs visit r p (pairs_of ids) a); discriminate.
  - rewrite <- Eq in *. destruct (registry_pop pick (tick (rg_op r))) as [[e o']|] eqn:P; [|discriminate].
    apply pop_spec in P. destruct P as [Hd ->].
    destruct (registry_process shape (set_op r (popping (rg_op r) e)) e) as [r'|] eqn:Pr; [|discriminate].
    assert (Ls : (e < size (rg_op r))%nat) by (destruct B as (_ & Q & _); apply Q, Hd).
    destruct (process_moved c G C0 R NB shape (set_op r (popping (rg_op r) e)) e r' (pop_base c _ e B) Ls Pr) as (r1 & r2 & _ & La1 & (B2 & La2 & _) & (B3 & La3 & _)).
    assert (La : later c R (popping (rg_op r) e) (rg_op r')).
    { apply (later_trans c C0 R _ (rg_op r2)); auto. apply (later_trans c C0 R _ (rg_op r1)); auto. }
    pose proof (la_length _ _ _ _ La) as L1. pose proof (la_size _ _ _ _ La) as L2.
    change (size (popping (rg_op r) e)) with (size (rg_op r)) in *.
    pose proof (drop_event_length e (op_queue (rg_op r)) (proj1 Hd)) as DL.
    change (op_queue (popping (rg_op r) e)) with (drop_event e (op_queue (rg_op r))) in L1.
    pose proof (size_room (rg_op r') (proj1 B3)) as L3.
    assert (Lf' : (length (op_queue (rg_op r')) + (room - size (rg_op r')) < fuel)%nat) by lia.
    destruct g as [[p ids]|]; [|apply IH; auto].
    destruct (point_eq _ p); [apply IH; auto|].
    destruct (visit_pairs visit r' p (pairs_of ids) a); try discriminate. apply IH; auto.
Qed.
End Loop.
End Ends.

Lemma sweep_ends {A} (visit : A -> intersection -> A + bool) fuel shape pick segs a : Forall proper_seg segs ->
  (enough (length segs) <= fuel)%nat ->
  sweep_intersections visit fuel shape pick (registry_from_segments segs) None a <> SweepRunsOut.
Proof.
  intros P Lf. destruct (ctx_exists [] segs P) as (eps & _ & G).
  apply (loop_ends (the_ctx [] segs eps) G eq_refl).
  - apply (init_base [] segs eps G).
  - change (op_queue (rg_op (registry_from_segments segs))) with (op_queue (from_segments_iterables [] segs)).
    change (size (rg_op (registry_from_segments segs))) with (size (from_segments_iterables [] segs)).
    rewrite init_queue, init_size, seq_length. unfold room.
    assert (En : length (operands [] segs) = length segs) by apply map_length.
    assert (Ep : length (all_points (operands [] segs)) = (2 * length segs + length segs * length segs)%nat).
    { unfold all_points. rewrite app_length. f_equal.
      - rewrite (pairs_length fst snd), En. reflexivity.
      - assert (FM : forall (l : list (point * point)) m, length (flat_map (fun s => map (lines_meet s) m) l)
          = (length l * length m)%nat).
        { intros l m; induction l as [|x l IH]; cbn; auto. rewrite app_length, map_length, IH. auto. }
        rewrite FM, En. reflexivity. }
    cbn [c_ins c_pts the_ctx]. rewrite En, Ep. unfold enough in Lf. nia.
Qed.
