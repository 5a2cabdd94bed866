(** The divide-and-conquer triangulation, part 4: the whole construction. *)
From Coq Require Import QArith Qcanon Bool List Arith Lia NArith Sorted.
From Verif Require Import QcTac Model_Base Model_Utils Model_Mesh Spec_Base Spec_Mesh Proof_Base Proof_Utils Proof_Collect
  Proof_Mesh Proof_Mesh2 Proof_Mesh3 Proof_Delaunay Proof_Delaunay2 Proof_Delaunay3.
Import ListNotations.
Local Open Scope nat_scope.

(** ** The points *)
Lemma insert_in p l x : In x (insert_point p l) <-> p = x \/ In x l.
Proof.
  induction l as [|q l IH]; cbn; [tauto|]. destruct (point_lt q p); cbn; [rewrite IH|]; tauto.
Qed.
Lemma insert_sorted p l : StronglySorted lex_le l -> StronglySorted lex_le (insert_point p l).
Proof.
  induction l as [|q l IH]; intros H; cbn; [repeat constructor|].
  inversion H as [|? ? Hl Hq]; subst. destruct (point_lt_spec q p) as [L|L].
  - constructor; auto. apply Forall_forall. intros x I. apply insert_in in I. destruct I as [<-|I]; [left; auto|].
    rewrite Forall_forall in Hq. auto.
  - apply lex_not_lt in L. constructor; auto. constructor; auto. apply Forall_forall. intros x I.
    rewrite Forall_forall in Hq. apply (lex_le_trans p q); auto.
Qed.
Lemma sort_in l x : In x (sort_points l) <-> In x l.
Proof. induction l as [|p l IH]; cbn; [tauto|]. rewrite insert_in, IH. tauto. Qed.
Lemma sort_sorted l : StronglySorted lex_le (sort_points l).
Proof. induction l; cbn; [constructor|]. apply insert_sorted; auto. Qed.
Lemma deduplicate_eq p l : deduplicate (p :: l) =
  match l with [] => [p] | q :: _ => if point_eq p q then deduplicate l else p :: deduplicate l end.
Proof. destruct l; reflexivity. Qed.
Lemma deduplicate_in l x : In x (deduplicate l) <-> In x l.
Proof.
  induction l as [|p l IH]; [tauto|]. rewrite deduplicate_eq. destruct l as [|q l]; [tauto|].
  destruct (point_eq_spec p q) as [->|N]; [rewrite IH; cbn; tauto|]. cbn [In] in *. rewrite IH. tauto.
Qed.
Lemma deduplicate_sorted l : StronglySorted lex_le l -> StronglySorted lex_lt (deduplicate l).
Proof.
  induction l as [|p l IH]; intros H; [constructor|]. inversion H as [|? ? Hl Hp]; subst.
  rewrite deduplicate_eq. destruct l as [|q l]; [repeat constructor|].
  destruct (point_eq_spec p q) as [->|N]; auto. constructor; auto. apply Forall_forall. intros x I.
  apply (proj1 (deduplicate_in _ _)) in I. rewrite Forall_forall in Hp.
  assert (L : lex_lt p q) by (destruct (Hp q) as [|]; auto; [left; auto|contradiction]).
  destruct I as [<-|I]; auto. inversion Hl as [|? ? _ Hq]; subst. rewrite Forall_forall in Hq.
  apply (lex_lt_le_trans p q); auto.
Qed.
Lemma sorted_at l i j : StronglySorted lex_lt l -> i < j -> j < length l -> lex_lt (at_ l i) (at_ l j).
Proof.
  revert i j. induction l as [|p l IH]; intros i j H L1 L2; cbn in L2; [lia|]. inversion H as [|? ? Hl Hp]; subst.
  destruct j as [|j]; [lia|]. destruct i as [|i].
  - cbn. rewrite Forall_forall in Hp. apply Hp. apply nth_In. lia.
  - cbn. apply IH; auto; lia.
Qed.

Section Build.
Variable ps : list point.
Hypothesis Sorted : forall i j, i < j -> j < length ps -> lex_lt (at_ ps i) (at_ ps j).

Definition good (m : mesh) : Prop := quad_structure m /\ m_endpoints m = ps /\ simple m.
(** The sides of parts that follow one another. *)
Fixpoint parts (m : mesh) (lo : nat) (sides : list (quad_edge * quad_edge)) (hi : nat) : Prop :=
  match sides with
  | [] => lo = hi
  | (l, r) :: rest => exists mid, lo <= mid /\ edge m l /\ edge m r /\
      (lo <= start m l /\ start m l < mid) /\ (lo <= start m r /\ start m r < mid) /\
      (forall e, edge m e -> lo <= start m e /\ start m e < mid -> lo <= end_of m e /\ end_of m e < mid) /\
      parts m mid rest hi
  end.
Lemma parts_le m lo sides hi : parts m lo sides hi -> lo <= hi.
Proof.
  revert lo. induction sides as [|(l, r) sides IH]; intros lo; cbn; [lia|].
  intros (mid & L & _ & _ & _ & _ & _ & P). apply IH in P. lia.
Qed.
(** Parts are kept by what happens elsewhere. *)
Lemma parts_extends a c m m' : quad_structure m -> extends a c m m' -> forall sides lo hi, parts m lo sides hi -> c <= lo \/ hi <= a ->
  parts m' lo sides hi.
Proof.
  intros Q (A & B) sides. induction sides as [|(l, r) sides IH]; intros lo hi; cbn; auto.
  intros (mid & L & El & Er & Sl & Sr & C & P) D. pose proof (parts_le _ _ _ _ P) as Ph.
  destruct (A l El) as (El' & Sl' & _). destruct (A r Er) as (Er' & Sr' & _).
  exists mid. rewrite Sl', Sr'. split; auto. split; auto. split; auto. split; auto. split; auto. split.
  - intros e Ee I. destruct (B e Ee) as [E|(I1 & I2)]; [|lia].
    destruct (A e E) as (_ & S1 & S2). rewrite S1 in I. rewrite S2. auto.
  - apply IH; auto. lia.
Qed.
Lemma extends_wider a c a' c' m m' : a' <= a -> c <= c' -> extends a c m m' -> extends a' c' m m'.
Proof. intros L1 L2 (A & B). split; auto. intros e E. destruct (B e E) as [|(I & J)]; auto. right. lia. Qed.
Lemma extends_refl a c m : extends a c m m.
Proof. split; auto. Qed.

(** One round. *)
Lemma round_settles m lo sides hi : good m -> parts m lo sides hi -> hi <= length ps ->
  settles (fun n => merge_sides n m sides) (fun '(m', sides') =>
    good m' /\ parts m' lo sides' hi /\ extends lo hi m m' /\ length sides' = (length sides + 1) / 2).
Proof.
  remember (length sides) as k eqn:K. revert m lo sides K.
  induction k as [k IH] using (well_founded_induction lt_wf). intros m lo sides -> G P Hb.
  destruct sides as [|(fl, fr) [|(sl, sr) rest]].
  - apply settles_ok. split; auto. split; auto. split; [apply extends_refl|reflexivity].
  - apply settles_ok. split; auto. split; auto. split; [apply extends_refl|reflexivity].
  - destruct P as (b & L1 & Efl & Efr & Ifl & Ifr & C1 & (c & L2 & Esl & Esr & Isl & Isr & C2 & P)).
    pose proof (parts_le _ _ _ _ P) as Ph. destruct G as (Q & Pe & Sm).
    cbn [merge_sides]. eapply settles_bind.
    { apply (merge_settles ps lo b c Sorted ltac:(lia) m fl fr sl sr); auto. repeat (split; auto). }
    intros (m', (l, r)) ((Q' & Pe' & Sm' & Ext & Cl) & El & Er & Il & Ir).
    assert (P' : parts m' c rest hi) by (apply (parts_extends lo c m m' Q Ext); auto).
    eapply settles_bind.
    { apply (IH (length rest)) with (lo := c); auto; [cbn; lia|]. split; auto. }
    intros (m'', sides') (G'' & P'' & Ext'' & Len). apply settles_ok. split; auto. split; [|split].
    + cbn. exists c. destruct (proj1 Ext'' l El) as (El'' & Sl'' & _). destruct (proj1 Ext'' r Er) as (Er'' & Sr'' & _).
      rewrite Sl'', Sr''. split; [lia|]. split; auto. split; auto. split; [lia|]. split; [lia|]. split; auto.
      intros e Ee I. destruct (proj2 Ext'' e Ee) as [E|(I1 & I2)]; [|lia].
      destruct (proj1 Ext'' e E) as (_ & S1 & S2). rewrite S1 in I. rewrite S2. apply Cl; auto.
    + apply (extends_trans lo hi m m').
      * apply (extends_wider lo c); auto.
      * apply (extends_wider c hi); auto. lia.
    + cbn [length]. rewrite Len. replace (S (S (length rest)) + 1) with ((length rest + 1) + 1 * 2) by lia.
      rewrite Nat.div_add by lia. lia.
Qed.
Lemma rounds_settle k : forall m lo sides hi, good m -> parts m lo sides hi -> hi <= length ps ->
  1 <= length sides -> length sides <= 2 ^ k ->
  settles (fun n => merge_all_sides n k m sides) (fun '(m', sides') =>
    good m' /\ parts m' lo sides' hi /\ length sides' = 1).
Proof.
  induction k as [|k IH]; intros m lo sides hi G P Hb L1 L2.
  - cbn [Nat.pow] in L2. apply settles_ok. split; [exact G|]. split; [exact P|]. lia.
  - cbn [merge_all_sides]. eapply settles_bind; [apply (round_settles m lo sides hi); auto|].
    intros (m', sides') (G' & P' & _ & Len). apply (IH m' lo sides' hi); auto.
    + rewrite Len. apply Nat.div_le_lower_bound; lia.
    + rewrite Len. apply Nat.lt_succ_r. apply Nat.div_lt_upper_bound; [lia|]. cbn in L2. lia.
Qed.
End Build.
