(** The Bentley-Ottmann sweep, part 13: the sweep completes its visits only over segments
    that meet in their common endpoints; [Multisegment.is_valid]. *)
From Coq Require Import QArith Qcanon Bool List Arith Lia.
From Verif Require Import QcTac Model_Base Model_Utils Model_Linear Model_BentleyOttmann Spec_Base
  Spec_Segment Spec_Sweep Spec_Validity Proof_Base Proof_Line Proof_SegRel Proof_SegOps Proof_Sweep Proof_Sweep2 Proof_Sweep3 Proof_Sweep4
  Proof_Sweep5 Proof_Sweep6 Proof_Sweep7
  Proof_Sweep8 Proof_Sweep9 Proof_Sweep10 Proof_Sweep11 Proof_Sweep12 Proof_Sweep14 Proof_Sweep15
  Proof_Ottmann Proof_Ottmann2
  Proof_Ottmann3 Proof_Ottmann4 Proof_Ottmann5 Proof_Ottmann6 Proof_Ottmann7 Proof_Ottmann8
  Proof_Ottmann11 Proof_Ottmann12.
Import ListNotations.
Local Open Scope Qc_scope.

(** ** The first critical abscissa *)
Section Least.
Variable c : ctx.
Hypothesis G : good c.
Notation Sx i := (X c (fst (input c i))).
Notation Ex i := (X c (snd (input c i))).
Notation n := (length (c_ins c)).

Lemma input_order i : (i < n)%nat -> Sx i < Ex i.
Proof. intros L. destruct (g_ins c G i L) as (Q & A & B). apply (X_lt c G); auto. Qed.

Lemma violation i j t : (i < n)%nat -> (j < n)%nat -> i <> j ->
  Sx i <= t -> t <= Ex i -> Sx j <= t -> t <= Ex j -> H c i t = H c j t ->
  ((t = Sx i \/ t = Ex i) /\ (t = Sx j \/ t = Ex j))
  \/ exists f, In f (c_pts c) /\ X c f <= t /\ (inside c (X c f) \/ along c (X c f)).
Proof.
  intros Li Lj N A1 A2 B1 B2 Eh.
  assert (Ins : forall i j, (i < n)%nat -> (j < n)%nat -> i <> j -> Sx i < t -> t < Ex i -> Sx j <= t -> t <= Ex j -> H c i t = H c j t ->
     K c i <> K c j -> exists f, In f (c_pts c) /\ X c f <= t /\ (inside c (X c f) \/ along c (X c f))).
  { intros x y Lx Ly Nxy Q1 Q2 Q3 Q4 Q5 Q6. destruct (g_cross c G x y t Lx Ly Q6 Q5) as (f & F1 & F2 & _).
    exists f. rewrite F2. split; auto. split; [apply Qcle_refl|]. left. exists x, y. auto 10. }
  destruct (Qc_eq_dec (K c i) (K c j)) as [Ek|Nk].
  - (* one line *)
    assert (Line : forall u, H c i u = H c j u).
    { intros u. unfold H in *. rewrite Ek in *. qlra. }
    assert (Near : forall i j, (i < n)%nat -> (j < n)%nat -> i <> j -> Sx i < Sx j -> Sx j < Ex i -> Sx j <= t -> H c i (Sx j) = H c j (Sx j) ->
      exists f, In f (c_pts c) /\ X c f <= t /\ (inside c (X c f) \/ along c (X c f))).
    { intros x y Lx Ly Nxy Q1 Q2 Q3 Q4. exists (fst (input c y)). split; [apply (g_ins c G y Ly)|]. split; auto.
      left. exists x, y. repeat split; auto; try apply Qcle_refl. apply Qclt_le_weak, input_order; auto. }
    destruct (Qc_dec (Sx i) (Sx j)) as [[L|L]|L].
    + destruct (Qclt_le_dec (Sx j) (Ex i)) as [L2|L2]; [right; apply (Near i j); auto|].
      left. assert (t = Ex i) by (apply Qcle_antisym; auto; qlra). assert (t = Sx j) by (apply Qcle_antisym; auto; qlra). auto.
    + destruct (Qclt_le_dec (Sx i) (Ex j)) as [L2|L2]; [right; apply (Near j i); auto|].
      left. assert (t = Ex j) by (apply Qcle_antisym; auto; qlra). assert (t = Sx i) by (apply Qcle_antisym; auto; qlra). auto.
    + right. exists (fst (input c i)). split; [apply (g_ins c G i Li)|]. split; auto. right. exists i, j. auto 10.
  - destruct (Qcle_lt_or_eq _ _ A1) as [A1'|A1']; [destruct (Qcle_lt_or_eq _ _ A2) as [A2'|A2']|].
    + right. apply (Ins i j); auto.
    + destruct (Qcle_lt_or_eq _ _ B1) as [B1'|B1']; [destruct (Qcle_lt_or_eq _ _ B2) as [B2'|B2']|]; [|left; auto|left; auto].
      right. apply (Ins j i); auto.
    + destruct (Qcle_lt_or_eq _ _ B1) as [B1'|B1']; [destruct (Qcle_lt_or_eq _ _ B2) as [B2'|B2']|]; [|left; auto|left; auto].
      right. apply (Ins j i); auto.
Qed.

Definition before_count (R : Qc) : nat := length (filter (fun p => qltb (X c p) R) (c_pts c)).
Lemma filter_sub {A} (f g : A -> bool) l : (forall x, f x = true -> g x = true) ->
  (length (filter f l) <= length (filter g l))%nat.
Proof.
  intros Q. induction l as [|x l IH]; cbn; auto. destruct (f x) eqn:E.
  - rewrite (Q x E). cbn. lia.
  - destruct (g x); cbn; lia.
Qed.
Lemma before_count_lt f R : In f (c_pts c) -> X c f < R -> (before_count (X c f) < before_count R)%nat.
Proof.
  intros I L. unfold before_count. revert I. induction (c_pts c) as [|p l IH]; [intros []|]. intros [->|I]; cbn.
  - rewrite (proj2 (qltb_true _ _) L). rewrite (proj2 (qltb_false _ _) (Qcle_refl _)). cbn.
    apply Nat.lt_succ_r. apply filter_sub. intros x Q. apply qltb_true in Q. apply qltb_true. qlra.
  - apply IH in I. destruct (qltb (X c p) (X c f)) eqn:E.
    + apply qltb_true in E. assert (E2 : X c p < R) by qlra. rewrite (proj2 (qltb_true _ _) E2). cbn. lia.
    + destruct (qltb (X c p) R); cbn; lia.
Qed.

(** If no abscissa is the first critical one, there is none. *)
Lemma no_first_critical : (forall R, calm c R -> inside c R \/ along c R -> False) -> clean c.
Proof.
  intros NF. assert (No : forall m R, (before_count R < m)%nat -> inside c R \/ along c R -> False).
  { induction m as [|m IH]; intros R L Cr; [lia|]. apply (NF R); auto.
    intros i j t Li Lj N Lt A1 A2 B1 B2 Eh.
    destruct (violation i j t Li Lj N A1 A2 B1 B2 Eh) as [Q|(f & If & Lf & Cf)]; auto. exfalso.
    apply (IH (X c f)); auto. assert (LR : X c f < R) by qlra. pose proof (before_count_lt f R If LR). lia. }
  intros i j t Li Lj N A1 A2 B1 B2 Eh.
  destruct (violation i j t Li Lj N A1 A2 B1 B2 Eh) as [Q|(f & If & Lf & Cf)]; auto. exfalso.
  apply (No (S (before_count (X c f))) (X c f)); auto.
Qed.

Lemma upper_abscissa (l : list point) : exists R, forall p, In p l -> X c p < R.
Proof.
  induction l as [|a l [R Q]]; [exists 0; intros p []|].
  exists (if qltb (X c a) R then R else X c a + 1). destruct (qltb_spec (X c a) R) as [L|L]; intros p [<-|I]; auto.
  - qlra.
  - apply Q in I. qlra.
Qed.
End Least.

(** ** The start *)
Section Start.
Variables (segs : list segment) (eps : Qc).
Notation c := (the_ctx [] segs eps).
Hypothesis G : good c.
Hypothesis PR : Forall proper_seg segs.
Notation r0 := (registry_from_segments segs).
Notation o := (from_segments_iterables [] segs).
Notation n := (length (c_ins c)).
Notation Sx i := (X c (fst (input c i))).
Notation Ex i := (X c (snd (input c i))).

Lemma start_n : n = length segs.
Proof. cbn. apply map_length. Qed.
Lemma start_mins : rg_min_collinear r0 = seq 0 n.
Proof. rewrite start_n. reflexivity. Qed.

Lemma start_core t : (forall x, In x (op_queue o) -> t <= EVX c o x) -> core c o t.
Proof.
  intros T. assert (W : wf c o) by (apply init_wf; exact G).
  assert (Q : forall x, (x < size o)%nat -> In x (op_queue o)).
  { intros x Sx. rewrite init_queue. rewrite init_size in Sx. apply in_seq. lia. }
  assert (NP : forall x, ~ popped o x) by (intros x [L I]; apply I, Q, L).
  assert (ND : forall x, ~ done o x).
  { intros x [L I]. apply I, Q. apply (k_opp o (w_linked c o W)), L. }
  assert (NA : forall x, ~ active o x) by (intros x A; apply (NP x), active_popped, A).
  constructor; auto.
  - intros x I. rewrite init_queue in I. rewrite init_size. apply in_seq in I. lia.
  - rewrite init_queue. apply seq_NoDup.
  - intros l L _. apply Q. apply (k_opp o (w_linked c o W)), L.
  - intros l. split; [intros []|intros A; destruct (NA l A)].
  - intros l P. destruct (NP l P).
  - intros l P. destruct (ND l P).
  - intros Y Z (l1 & l2 & l3 & E). destruct l1; discriminate.
  - intros Y Z u P. destruct (NP Y P).
Qed.
Lemma start_pt i : pt o (2 * i)%nat = fst (input c i) /\ pt o (S (2 * i))%nat = snd (input c i).
Proof. apply init_pt. Qed.
Lemma start_whole R : whole c R o.
Proof.
  intros l L. apply init_left in L. destruct L as (i & Li & ->).
  rewrite init_sid by auto. unfold SX, EX. rewrite init_opp_left by auto. destruct (start_pt i) as [-> ->]. auto.
Qed.
Lemma start_steady R t : (forall x, In x (op_queue o) -> t <= EVX c o x) -> steady c R o t.
Proof.
  intros T. constructor; [apply start_core; auto| |apply start_whole].
  intros Y Z (l1 & l2 & E). destruct l1; discriminate.
Qed.
Lemma start_plain : plain c o.
Proof.
  assert (Half : forall e, (e < 2 * n)%nat -> exists i, (i < n)%nat /\ ((e = 2 * i)%nat \/ (e = S (2 * i))%nat)).
  { intros e L. exists (e / 2)%nat. split; [apply Nat.div_lt_upper_bound; lia|].
    pose proof (Nat.div_mod e 2). pose proof (Nat.mod_upper_bound e 2). lia. }
  assert (E0 : forall i, is_event_left (2 * i)%nat = true /\ (2 * i / 2)%nat = i).
  { intros i. split; [unfold is_event_left; rewrite Nat.even_mul; reflexivity|]. rewrite (Nat.mul_comm 2), Nat.div_mul; lia. }
  assert (E1 : forall i, is_event_left (S (2 * i))%nat = false /\ (S (2 * i) / 2)%nat = i).
  { intros i. split; [unfold is_event_left; rewrite Nat.even_succ, Nat.odd_mul; reflexivity|].
    replace (S (2 * i))%nat with (1 + i * 2)%nat by lia. rewrite Nat.div_add by lia. reflexivity. }
  constructor.
  - rewrite init_size. reflexivity.
  - intros e L. destruct (Half e L) as (i & Li & [-> | ->]); unfold place.
    + destruct (E0 i) as [-> ->]. apply start_pt.
    + destruct (E1 i) as [-> ->]. apply start_pt.
  - intros e L. destruct (Half e L) as (i & Li & [-> | ->]); unfold to_event_segment_id.
    + destruct (E0 i) as [-> ->]. apply init_sid; auto.
    + destruct (E1 i) as [-> ->]. rewrite init_opp_right by auto. apply init_sid; auto.
Qed.
Lemma start_queue e : (e < 2 * n)%nat -> In e (op_queue o).
Proof. intros L. rewrite init_queue. apply in_seq. change (length (operands [] segs)) with n. lia. Qed.

(** In terms of segments. *)
Lemma input_ends i s : nth_error segs i = Some s -> endpoint_of s (fst (input c i)) /\ endpoint_of s (snd (input c i)).
Proof.
  intros E. rewrite (input_the_ctx [] segs eps i s E). unfold sorted_pair, to_sorted_pair, endpoint_of.
  destruct (point_lt _ _); cbn; auto.
Qed.
Lemma clean_meets : clean c <-> meet_at_ends segs.
Proof.
  split.
  - intros Cl i j s t p N Es Et Ps Pt.
    assert (Li : (i < n)%nat) by (rewrite start_n; apply nth_error_Some; congruence).
    assert (Lj : (j < n)%nat) by (rewrite start_n; apply nth_error_Some; congruence).
    pose proof (proj1 (input_X_on [] segs eps G i s Es p) Ps) as (A1 & A2 & A3).
    pose proof (proj1 (input_X_on [] segs eps G j t Et p) Pt) as (B1 & B2 & B3).
    destruct (Cl i j (X c p) Li Lj N A1 A2 B1 B2) as [Q1 Q2]; [congruence|].
    assert (F : forall i s, nth_error segs i = Some s -> (i < n)%nat -> py p = H c i (X c p) ->
      X c p = Sx i \/ X c p = Ex i -> endpoint_of s p).
    { intros m u Em Lm Hp [Q|Q]; destruct (input_ends m u Em) as [P1 P2].
      - replace p with (fst (input c m)); auto. apply (same_X [] segs eps); auto. rewrite Hp, Q. symmetry. apply H_start.
      - replace p with (snd (input c m)); auto. apply (same_X [] segs eps); auto. rewrite Hp, Q. symmetry. apply H_end; auto. }
    split; [apply (F i s)|apply (F j t)]; auto.
  - intros M i j t Li Lj N A1 A2 B1 B2 Eh. rewrite start_n in Li, Lj.
    apply nth_error_Some in Li. apply nth_error_Some in Lj.
    destruct (nth_error segs i) as [s|] eqn:Ei; [|congruence].
    destruct (nth_error segs j) as [u|] eqn:Ej; [|congruence].
    set (p := Pt (t - eps * H c i t) (H c i t)).
    assert (Xp : X c p = t) by (unfold X, p; cbn; ring).
    assert (Os : on_seg s p).
    { apply (input_X_on [] segs eps G i s Ei). rewrite Xp. split; auto. }
    assert (Ou : on_seg u p).
    { apply (input_X_on [] segs eps G j u Ej). rewrite Xp. split; auto. }
    destruct (M i j s u p N Ei Ej Os Ou) as [E1 E2].
    apply (input_X_end [] segs eps i s p Ei) in E1. apply (input_X_end [] segs eps j u p Ej) in E2. rewrite Xp in E1, E2. auto.
Qed.

Section Runs.
Context {A : Type}.
Variable visit : A -> intersection -> A + bool.
Hypothesis VT : forall a i a', visit a i = inl a' -> in_relation i = TOUCH.
Variables (fuel : nat) (shape : tree_shape) (pick : queue_choice).

Lemma all_visited_clean a x : sweep_intersections visit fuel shape pick r0 None a = AllVisited x -> clean c.
Proof.
  intros Sw. apply (no_first_critical c G). intros R NB Cr.
  destruct (lower_bound (EVX c o) (op_queue o)) as [t T].
  assert (Mn : forall i, (i < n)%nat -> t <= Sx i).
  { intros i Li. destruct (start_pt i) as [<- _]. apply T. apply start_queue. lia. }
  assert (T' : forall x, In x (op_queue o) -> t - 1 <= EVX c o x) by (intros y I; apply T in I; qlra).
  apply (critical_fails c G eq_refl R NB visit VT shape pick Cr fuel r0 None a x (t - 1)); auto.
  - apply (start_steady R (t - 1) T').
  - destruct Cr as [(i & _ & Li & _ & _ & Q & _)|(i & _ & Li & _ & _ & Q & _)]; apply Mn in Li; [|rewrite Q in Li]; qlra.
  - apply start_mins.
  - apply (plain_ends c); [reflexivity|]. apply start_plain.
  - discriminate.
Qed.

Lemma clean_visited a : meet_at_ends segs -> segs <> [] -> (2 * length segs < fuel)%nat ->
  exists groups, NoDup (map fst groups) /\ (forall q l, In (q, l) groups -> bunch c q l /\ l <> [])
  /\ (forall e, (e < 2 * n)%nat -> In (place c e) (map fst groups))
  /\ sweep_intersections visit fuel shape pick r0 None a
     = visit_groups visit (map (fun g => (fst g, map (fun e => (e / 2)%nat) (snd g))) groups) a.
Proof.
  intros M Ne Lf. apply clean_meets in M. destruct (upper_abscissa c (c_pts c)) as [R RB].
  destruct (lower_bound (EVX c o) (op_queue o)) as [t T].
  apply (clean_run c G eq_refl M R RB visit shape pick fuel r0 t a).
  - apply start_steady. exact T.
  - apply start_plain.
  - apply start_mins.
  - apply start_queue.
  - rewrite start_n. destruct segs; [congruence|cbn; lia].
  - rewrite start_n. exact Lf.
Qed.
End Runs.
End Start.

Lemma multisegment_valid_spec fuel shape pick segs : Forall proper_seg segs -> segs <> [] ->
  (2 * length segs < fuel)%nat ->
  (multisegment_is_valid fuel shape pick segs = Validity true <-> meet_at_ends segs).
Proof.
  intros P Ne Lf. destruct (ctx_exists [] segs P) as (eps & _ & G). unfold multisegment_is_valid.
  assert (VT : forall a i a', visit_touch a i = inl a' -> in_relation i = TOUCH).
  { intros a i a'. unfold visit_touch. destruct (relation_is (in_relation i) TOUCH) eqn:E; [|discriminate].
    destruct (in_relation i); try discriminate. auto. }
  assert (NT : forall a i b, visit_touch a i = inr b -> b = false).
  { intros a i b. unfold visit_touch. destruct (relation_is (in_relation i) TOUCH) eqn:E; [discriminate|]. congruence. }
  split.
  - destruct (sweep_intersections visit_touch fuel shape pick (registry_from_segments segs) None tt) as [a|b| |] eqn:Sw;
      intros Q; try discriminate.
    + apply (clean_meets segs eps G). apply (all_visited_clean segs eps G visit_touch VT fuel shape pick tt a Sw).
    + exfalso. injection Q as ->. revert Sw. generalize (registry_from_segments segs) (@None (point * list nat)) tt.
      clear -NT. assert (V : forall r p pairs a, visit_pairs visit_touch r p pairs a <> ReturnsEarly true).
      { intros r p pairs. induction pairs as [|[i j] l IH]; intros a; cbn; [discriminate|].
        destruct (to_intersection r p i j); [|discriminate]. destruct (visit_touch a i0) eqn:E; auto.
        apply NT in E. congruence. }
      induction fuel as [|fuel IH]; intros r g a; cbn; [discriminate|].
      destruct (op_queue (rg_op r)).
      * destruct g as [[p ids]|]; [|discriminate]. destruct (visit_pairs visit_touch r p (pairs_of ids) a) eqn:E; try discriminate.
        intros [= ->]. apply (V _ _ _ _ E).
      * destruct (registry_pop pick (tick (rg_op r))) as [[e' o']|]; [|discriminate].
        destruct (registry_process shape (set_op r o') e'); [|discriminate]. destruct g as [[p ids]|]; [|apply IH].
        destruct (point_eq _ p); [apply IH|].
        destruct (visit_pairs visit_touch r0 p (pairs_of ids) a) eqn:E; try discriminate; [apply IH|].
        intros [= ->]. apply (V _ _ _ _ E).
  - intros M. destruct (clean_visited segs eps G P visit_touch fuel shape pick tt M Ne Lf) as (groups & _ & _ & _ & ->).
    assert (Q : forall gs a, exists a', visit_groups visit_touch gs a = AllVisited a').
    { intros gs. induction gs as [|[p ids] gs IH]; intros a; cbn [visit_groups]; [eauto|].
      assert (Q : forall l a, exists a', visit_list visit_touch p l a = GoesOn a').
      { intros l. induction l as [|[i j] l IHl]; intros a0; cbn; eauto. }
      destruct (Q (pairs_of ids) a) as [a' ->]. apply IH. }
    destruct (Q (map (fun g => (fst g, map (fun e => (e / 2)%nat) (snd g))) groups) tt) as [a' ->]. reflexivity.
Qed.
