(** Drawings of events in the order of the sweep: what the reduction of the events to contours
    takes for granted, and the turns that it makes. *)
From Coq Require Import QArith Qcanon Bool List Arith Lia Permutation Sorted.
From Verif Require Import QcTac Model_Base Model_Utils Model_Linear Model_Shaped Spec_Base Proof_Base Proof_Parity
  Proof_Ring Proof_Loop Proof_Corner Proof_Corner2 Proof_Connect.
Import ListNotations.
Local Open Scope Qc_scope.

Section Draw.
Variables (eps : Qc) (hg : event -> Qc -> Qc) (sl : event -> Qc).
Variable s : shaped_operation.
Variables (L events : list event).
Notation o := (so s). Notation op := (to_opposite_event o). Notation at_ := (to_event_start o).
Notation lft := is_event_left.
Definition Xe (p : point) : Qc := px p + eps * py p.
Notation X := Xe.
(** The order of the queue. *)
Definition earlier (x y : event) : Prop :=
  X (at_ x) < X (at_ y)
  \/ (X (at_ x) = X (at_ y)
      /\ ((lft x = false /\ lft y = true)
          \/ (lft x = lft y /\ if lft x then sl x < sl y else sl (op y) < sl (op x)))).

Record drawing : Prop := {
  dr_nd : NoDup L;
  dr_op : forall l, In l L -> lft l = true /\ lft (op l) = false /\ op (op l) = l;
  dr_lt : forall l, In l L -> X (at_ l) < X (at_ (op l));
  dr_aff : forall l t u, hg l t - hg l u = sl l * (t - u);
  dr_A : forall l, In l L -> hg l (X (at_ l)) = py (at_ l);
  dr_B : forall l, In l L -> hg l (X (at_ (op l))) = py (at_ (op l));
  dr_inj : forall p q, vertex L at_ (fun l => at_ (op l)) p -> vertex L at_ (fun l => at_ (op l)) q -> X p = X q -> p = q;
  dr_meet : forall i j u, In i L -> In j L -> i <> j -> X (at_ i) <= u -> u <= X (at_ (op i)) ->
    X (at_ j) <= u -> u <= X (at_ (op j)) -> hg i u = hg j u ->
    (u = X (at_ i) \/ u = X (at_ (op i))) /\ (u = X (at_ j) \/ u = X (at_ (op j)));
  dr_even : forall w, degree L at_ (fun l => at_ (op l)) (fun _ => true) w = false;
  dr_events : forall x, In x events <-> exists l, In l L /\ (x = l \/ x = op l);
  dr_Nd : NoDup events;
  dr_sorted : StronglySorted earlier events;
  dr_ids : forall x, In x events -> exists i, start_id s x = Some i /\ (i <= so_current_id s)%nat;
  dr_same : forall x y, In x events -> In y events -> (start_id s x = start_id s y <-> at_ x = at_ y);
  dr_below : forall l f, In l L -> below_result s l = Some f -> In f L /\ earlier f l }.
Hypothesis D : drawing.

Lemma ev_op x : In x events -> In (op x) events.
Proof.
  intros I. apply (dr_events D) in I. destruct I as (l & I & [-> | ->]); apply (dr_events D); exists l; split; auto.
  left. apply (dr_op D l I).
Qed.
Lemma ev_op_op x : In x events -> op (op x) = x.
Proof.
  intros I. apply (dr_events D) in I. destruct I as (l & I & [-> | ->]); destruct (dr_op D l I) as (_ & _ & Q); congruence.
Qed.
Lemma ev_left x : In x events -> lft x = true -> In x L.
Proof.
  intros I Q. apply (dr_events D) in I. destruct I as (l & I & [-> | ->]); auto. destruct (dr_op D l I) as (_ & P & _). congruence.
Qed.
Lemma ev_right x : In x events -> lft x = false -> In (op x) L.
Proof.
  intros I Q. apply (dr_events D) in I. destruct I as (l & I & [-> | ->]); destruct (dr_op D l I) as (P & _ & E); congruence.
Qed.
Lemma ev_vertex x : In x events -> vertex L at_ (fun l => at_ (op l)) (at_ x).
Proof. intros I. apply (dr_events D) in I. destruct I as (l & I & [-> | ->]); exists l; auto. Qed.
Lemma ev_apart x : In x events -> at_ x <> at_ (op x).
Proof.
  intros I E. apply (dr_events D) in I. destruct I as (l & I & [-> | ->]); pose proof (dr_lt D l I) as Q.
  - rewrite <- E in Q. qlra.
  - destruct (dr_op D l I) as (_ & _ & P). rewrite P in E. rewrite E in Q. qlra.
Qed.

(** The events round a point. *)
Definition around (w : point) : list event := filter (fun x => pointb (at_ x) w) events.
Definition ring (w : point) : list event :=
  filter (fun x => negb (lft x)) (around w) ++ rev (filter lft (around w)).
Lemma ring_in w x : In x (ring w) <-> In x events /\ at_ x = w.
Proof.
  unfold ring, around. rewrite in_app_iff, <- in_rev, !filter_In, pointb_true. destruct (lft x); cbn [negb]; intuition discriminate.
Qed.
Lemma NoDup_app_intro {T} (a b : list T) : NoDup a -> NoDup b -> (forall x, In x a -> In x b -> False) -> NoDup (a ++ b).
Proof.
  induction a as [|x a IH]; cbn; intros A B Dj; auto. inversion A; subst. constructor.
  - rewrite in_app_iff. intros [I|I]; auto. apply (Dj x); auto.
  - apply IH; auto. intros y I1 I2. apply (Dj y); auto.
Qed.
Lemma ring_nd w : NoDup (ring w).
Proof.
  pose proof (dr_Nd D) as Nd. apply NoDup_app_intro.
  - apply NoDup_filter, NoDup_filter; auto.
  - apply NoDup_rev, NoDup_filter, NoDup_filter; auto.
  - intros x I J. apply in_rev in J. apply filter_In in I. apply filter_In in J. destruct I as [_ I], J as [_ J].
    rewrite J in I. discriminate.
Qed.
Lemma SS_filter {T} (R : T -> T -> Prop) f l : StronglySorted R l -> StronglySorted R (filter f l).
Proof.
  induction 1 as [|x l So IH F]; cbn; [constructor|]. destruct (f x); auto. constructor; auto.
  rewrite Forall_forall in *. intros y I. apply filter_In in I. apply F, I.
Qed.
Lemma SS_app {T} (R : T -> T -> Prop) a b : StronglySorted R a -> StronglySorted R b ->
  (forall x y, In x a -> In y b -> R x y) -> StronglySorted R (a ++ b).
Proof.
  induction 1 as [|x l So IH F]; cbn; intros B Q; auto. constructor; auto.
  rewrite Forall_forall in *. intros y I. apply in_app_iff in I. destruct I as [I|I]; auto.
Qed.
Lemma SS_rev {T} (R : T -> T -> Prop) l : StronglySorted R l -> StronglySorted (fun x y => R y x) (rev l).
Proof.
  induction 1 as [|x l So IH F]; cbn; [constructor|]. apply SS_app; auto.
  - constructor; constructor.
  - intros y z I [<-|[]]. rewrite Forall_forall in F. apply F. apply in_rev; auto.
Qed.
Lemma SS_impl {T} (R R' : T -> T -> Prop) l : (forall x y, In x l -> In y l -> R x y -> R' x y) -> StronglySorted R l -> StronglySorted R' l.
Proof.
  intros Q So. induction So as [|x l So IH F]; constructor.
  - apply IH. intros y z I J. apply Q; right; auto.
  - rewrite Forall_forall in *. intros y I. apply Q; [left|right|]; auto.
Qed.
Lemma ring_sorted w : StronglySorted (fun y z => goes_before op lft sl y z = true) (ring w).
Proof.
  assert (Aw : forall x, In x (around w) -> at_ x = w) by (intros x I; apply filter_In in I; apply pointb_true, I).
  apply SS_app.
  - apply (SS_impl earlier); [|apply SS_filter, SS_filter, (dr_sorted D)].
    intros x y I J Q. apply filter_In in I. apply filter_In in J. destruct I as [I1 I2], J as [J1 J2]. apply Aw in I1. apply Aw in J1.
    apply negb_true_iff in I2. apply negb_true_iff in J2.
    unfold goes_before. rewrite I2, J2. cbn [orb]. apply qltb_true. unfold earlier in Q. rewrite I1, J1, I2, J2 in Q.
    destruct Q as [Q|[_ [[_ Q]|[_ Q]]]]; auto; [exfalso; qlra|discriminate].
  - apply (SS_impl (fun x y => earlier y x)); [|apply SS_rev, SS_filter, SS_filter, (dr_sorted D)].
    intros x y I J Q. apply in_rev in I. apply in_rev in J. apply filter_In in I. apply filter_In in J. destruct I as [I1 I2], J as [J1 J2]. apply Aw in I1. apply Aw in J1.
    unfold goes_before. rewrite I2, J2. cbn [andb]. apply qltb_true. unfold earlier in Q. rewrite I1, J1, I2, J2 in Q.
    destruct Q as [Q|[_ [[Q _]|[_ Q]]]]; auto; [exfalso; qlra|discriminate].
  - intros x y I J. apply in_rev in J. apply filter_In in I. apply filter_In in J. destruct I as [_ I], J as [_ J].
    apply negb_true_iff in I. unfold goes_before. rewrite I, J. auto.
Qed.
Definition lev := level L op at_ X hg.
Lemma side_op C : closed events op C -> even ring C -> inside events C ->
  forall x, In x events -> side at_ ring lev C (op x) = xorb (side at_ ring lev C x) (C x).
Proof.
  apply (side_opposite L op at_ lft X hg sl (dr_nd D) (dr_op D) (dr_lt D) (dr_aff D) (dr_A D) (dr_B D) (dr_inj D) (dr_meet D)
    events (dr_events D) ring ring_nd ring_in ring_sorted).
Qed.
Lemma all_even : even ring (fun x => mem events x).
Proof.
  intros w. rewrite (xsum_ext _ (fun _ => true)).
  - rewrite (degree_ring L op at_ lft (dr_nd D) (dr_op D) events (dr_events D) ring ring_nd ring_in (fun _ => true) w); [apply (dr_even D)|].
    intros x _. auto.
  - intros x I. apply mem_In. apply ring_in in I. apply I.
Qed.

(** Going to the next event. *)
Definition conn : list nat := events_to_connectivity (length events) o 0 events.
Lemma sorted_comes : StronglySorted (comes o X) events.
Proof.
  apply (SS_impl earlier); [|apply (dr_sorted D)]. intros x y I J [Q|[Q1 Q2]]; [left; auto|right].
  split; [apply (dr_inj D); auto; apply ev_vertex; auto|]. destruct Q2 as [[Q2 Q3]|[Q2 _]]; congruence.
Qed.
Lemma filter_all {T} (f : T -> bool) l : (forall x, In x l -> f x = true) -> filter f l = l.
Proof. induction l as [|x l IH]; intros A; auto. cbn. rewrite A by (left; auto). f_equal. apply IH. intros; apply A; right; auto. Qed.
Lemma filter_none {T} (f : T -> bool) l : (forall x, In x l -> f x = false) -> filter f l = [].
Proof. induction l as [|x l IH]; intros A; auto. cbn. rewrite A by (left; auto). apply IH. intros; apply A; right; auto. Qed.
Lemma map_nth_seq (a b c : list event) : map (fun i => nth i (a ++ b ++ c) O) (seq (length a) (length b)) = b.
Proof.
  revert a. induction b as [|x b IH]; intros a; auto. cbn [length seq map]. f_equal.
  - rewrite app_nth2, Nat.sub_diag by lia. auto.
  - specialize (IH (a ++ [x])). rewrite app_length in IH. cbn [length] in IH. rewrite Nat.add_1_r in IH.
    rewrite <- app_assoc in IH. cbn [app] in IH. exact IH.
Qed.
Lemma find_map {T U} (f : T -> U) (P : U -> bool) (Q : T -> bool) l : (forall x, In x l -> P (f x) = Q x) ->
  find P (map f l) = option_map f (find Q l).
Proof.
  induction l as [|x l IH]; intros A; auto. cbn [map find]. rewrite A by (left; auto). destruct (Q x); auto. apply IH. intros; apply A; right; auto.
Qed.
Lemma next_turn processed : forall x i, free events processed x = true -> index_of x events = Some i ->
  exists j, next_event_id (S (length events)) processed conn i i = Some (Some j)
    /\ nth j events O = turn (free events processed) (ring (at_ x)) x.
Proof.
  intros x i Ux Ix.
  assert (Inx : In x events).
  { destruct (in_dec Nat.eq_dec x events) as [|Nx]; auto. exfalso.
    assert (Q : forall l, ~ In x l -> index_of x l = None).
    { induction l as [|y l IH]; cbn; auto. intros Q. destruct (Nat.eqb_spec y x) as [->|Ne]; [tauto|]. rewrite IH; tauto. }
    rewrite Q in Ix by auto. discriminate. }
  destruct (index_of_spec x events Inx) as (i' & E1 & E2 & E3). assert (i' = i) by congruence. subst i'.
  destruct (connectivity_groups o X (length events) 0 events (le_n _) sorted_comes) as [Ln Gr].
  destruct (Gr x Inx) as (p & rs & ls & q & cp & cq & Ee & Npq & Ars & Als & Ec & Lc). fold conn in Ec, Ln. cbn [Nat.add] in Ec.
  set (r := length rs) in *. set (l := length ls) in *. set (i0 := length p) in *.
  set (R := ids_round i0 r l). set (f := fun a : nat => nth a events O).
  assert (Rg : map f R = ring (at_ x)).
  { unfold R, ids_round. rewrite map_app, map_rev.
    assert (M1 : map f (seq i0 r) = rs) by (unfold f; rewrite Ee; apply map_nth_seq).
    assert (M2 : map f (seq (i0 + r) l) = ls).
    { unfold f. rewrite Ee. rewrite app_assoc. unfold i0, r. rewrite <- app_length. apply map_nth_seq. }
    rewrite M1, M2. unfold ring.
    assert (Ar : around (at_ x) = rs ++ ls).
    { unfold around. rewrite Ee, !filter_app. rewrite (filter_none _ p), (filter_none _ q), (filter_all _ rs), (filter_all _ ls), app_nil_r; auto.
      - intros y I. apply pointb_true. apply (Als y I).
      - intros y I. apply pointb_true. apply (Ars y I).
      - intros y I. apply pointb_false. apply Npq; auto.
      - intros y I. apply pointb_false. apply Npq; auto. }
    rewrite Ar, !filter_app. rewrite (filter_all _ rs), (filter_none _ ls), (filter_none lft rs), (filter_all lft ls), app_nil_r; auto.
    - intros y I. apply (Als y I).
    - intros y I. apply (Ars y I).
    - intros y I. rewrite (proj2 (Als y I)). auto.
    - intros y I. rewrite (proj2 (Ars y I)). auto. }
  assert (Lr : length R = (r + l)%nat) by apply ids_round_length.
  assert (Le : length events = (i0 + (r + (l + length q)))%nat).
  { rewrite Ee. rewrite !app_length. reflexivity. }
  assert (Rb : forall a, In a R -> (i0 <= a /\ a < i0 + r + l)%nat).
  { intros a I. unfold R, ids_round in I. rewrite in_app_iff, <- in_rev, !in_seq in I. lia. }
  assert (Nx : forall m, (m < length R)%nat -> nth (nth m R O) conn O = nth (if (S m =? length R)%nat then O else S m) R O).
  { intros m Lm. rewrite Lr in *. unfold R. rewrite <- group_next by auto. fold R.
    assert (I : In (nth m R O) R) by (apply nth_In; rewrite Lr; auto). apply Rb in I.
    rewrite Ec. rewrite app_nth2 by (rewrite Lc; fold i0; lia). rewrite Lc. fold i0. rewrite app_nth1 by (rewrite connect_group_length; lia). auto. }
  assert (Ir : In i R).
  { assert (J : In x (map f R)) by (rewrite Rg; apply ring_in; auto). apply in_map_iff in J. destruct J as (a & Fa & Ia).
    assert (a = i); [|subst; auto]. apply Rb in Ia as Ba. pose proof (dr_Nd D) as Nd. rewrite NoDup_nth in Nd. apply (Nd a i); try lia. unfold f in Fa. rewrite E3. exact Fa. }
  assert (NdR : NoDup R).
  { apply (NoDup_map_inv f). rewrite Rg. apply ring_nd. }
  destruct (in_split _ _ Ir) as (l1 & l2 & ER).
  assert (Ui : unprocessed processed i = true) by (unfold free in Ux; rewrite Ix in Ux; exact Ux).
  destruct (walk_round conn processed R Nx i l1 l2 ER NdR Ui (l2 ++ l1) [] i (S (length events)) eq_refl) as (j & J1 & J2).
  { assert (length R = length l1 + S (length l2))%nat by (rewrite ER, app_length; auto). rewrite app_length. lia. }
  exists j. split; auto. unfold turn.
  assert (Er : ring (at_ x) = map f l1 ++ x :: map f l2).
  { rewrite <- Rg, ER, map_app. cbn [map]. unfold f at 2. rewrite E3. auto. }
  pose proof (ring_nd (at_ x)) as Nr. rewrite Er in Nr. destruct (nodup_mid _ _ _ Nr) as [N1 _].
  assert (Aa : after x (ring (at_ x)) = map f l2) by (rewrite Er; apply (after_split x (map f l1) (map f l2) N1)).
  assert (Au : upto x (ring (at_ x)) = map f l1 ++ [x]) by (rewrite Er; apply (after_split x (map f l1) (map f l2) N1)).
  rewrite Aa, Au.
  assert (Fm : find (free events processed) (map f ((l2 ++ l1) ++ [i])) = Some (f j)).
  2: { match goal with |- _ = match find _ ?u with Some y => y | None => x end =>
         assert (Eu : u = map f ((l2 ++ l1) ++ [i])) by (rewrite !map_app, <- app_assoc; cbn [map]; change (f i) with (nth i events O); rewrite E3; reflexivity);
         rewrite Eu end.
       match goal with |- _ = match ?u with Some y => y | None => x end => change u with (find (free events processed) (map f ((l2 ++ l1) ++ [i]))) end. rewrite Fm. reflexivity. }
  rewrite (find_map f _ (unprocessed processed)), J2; [reflexivity|].
  intros a Ia. assert (Ra : In a R) by (rewrite ER; rewrite !in_app_iff in *; cbn in *; tauto). apply Rb in Ra.
  unfold free, f. rewrite index_of_nth; [reflexivity|apply (dr_Nd D)|]. assert (Lb : (i0 + r + l <= length events)%nat) by (rewrite Le; lia). exact (Nat.lt_le_trans _ _ _ (proj2 Ra) Lb).
Qed.
End Draw.
