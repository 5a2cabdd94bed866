(** The plane sweep, part 5: what every run preserves whatever the order of the
    sweep line, and termination. *)
From Coq Require Import QArith Qcanon Bool List Arith Lia FinFun.
From Verif Require Import QcTac Model_Base Model_Utils Model_Linear Spec_Base
  Spec_Sweep Proof_Base Proof_Line Proof_Sweep Proof_Sweep2 Proof_Sweep3.
Import ListNotations.
Local Open Scope Qc_scope.

(** ** Lists *)
Lemma search_split fuel root o e : forall entries b f a,
  search fuel root o e entries = (b, f, a) ->
  entries = b ++ match f with Some x => [x] | None => [] end ++ a.
Proof.
  induction fuel as [|fuel IH]; intros entries b f a; cbn [search].
  - intros Q. injection Q as <- <- <-. reflexivity.
  - set (i := (root entries mod length entries)%nat).
    destruct (nth_error entries i) as [x|] eqn:N.
    + pose proof (nth_error_split _ _ N) as (l1 & l2 & El & Hl).
      assert (F1 : firstn i entries = l1) by (rewrite El, firstn_app, <- Hl, firstn_all, Nat.sub_diag; cbn; apply app_nil_r).
      assert (F2 : skipn (S i) entries = l2).
      { rewrite El. change (l1 ++ x :: l2) with (l1 ++ [x] ++ l2). rewrite app_assoc.
        rewrite skipn_app. rewrite skipn_all2 by (rewrite app_length; cbn; lia).
        rewrite app_length. cbn [length]. replace (S i - (length l1 + 1))%nat with O by lia. reflexivity. }
      rewrite F1, F2. destruct (line_key_lt o e x).
      * destruct (search fuel root o e l1) as [[b1 f1] a1] eqn:Q.
        intros Q'. injection Q' as <- <- <-. apply IH in Q. rewrite El. rewrite Q at 1.
        rewrite <- !app_assoc. reflexivity.
      * destruct (line_key_lt o x e).
        -- destruct (search fuel root o e l2) as [[b1 f1] a1] eqn:Q.
           intros Q'. injection Q' as <- <- <-. apply IH in Q. rewrite El. rewrite Q at 1.
           rewrite <- !app_assoc. reflexivity.
        -- intros Q'. injection Q' as <- <- <-. rewrite El. reflexivity.
    + intros Q. injection Q as <- <- <-.
      apply nth_error_None in N. destruct entries; auto. exfalso.
      pose proof (Nat.mod_upper_bound (root (e0 :: entries)) (length (e0 :: entries))) as B.
      fold i in B. cbn [length] in *. lia.
Qed.

Lemma lookup_split shape index o e b f a : lookup shape index o e = (b, f, a) ->
  op_line o = b ++ match f with Some x => [x] | None => [] end ++ a.
Proof. apply search_split. Qed.

Lemma find_In shape index o e x : find_event shape index o e = Some x -> In x (op_line o).
Proof.
  unfold find_event. destruct (lookup shape index o e) as [[b f] a] eqn:Q.
  intros ->. apply lookup_split in Q. rewrite Q. apply in_or_app; right; left; auto.
Qed.
Lemma hd_error_In {A} (l : list A) x : hd_error l = Some x -> In x l.
Proof. destruct l; cbn; [discriminate|]. intros [= ->]. auto. Qed.
Lemma above_In shape index o e x : above_event shape index o e = Some x -> In x (op_line o).
Proof.
  unfold above_event. destruct (lookup shape index o e) as [[b f] a] eqn:Q.
  apply lookup_split in Q. destruct f; [|discriminate]. intros I. apply hd_error_In in I.
  rewrite Q. apply in_or_app; right. right; auto.
Qed.
Lemma below_In shape index o e x : below_event shape index o e = Some x -> In x (op_line o).
Proof.
  unfold below_event. destruct (lookup shape index o e) as [[b f] a] eqn:Q.
  apply lookup_split in Q. destruct f; [|discriminate]. intros I. apply hd_error_In in I.
  apply in_rev in I. rewrite Q. apply in_or_app; left; auto.
Qed.

Lemma drop_event_In e l x : In x (drop_event e l) -> In x l.
Proof.
  induction l as [|y l IH]; cbn; auto. destruct (y =? e)%nat; auto. intros [->|]; auto.
Qed.
Lemma drop_event_length e l : In e l -> length l = S (length (drop_event e l)).
Proof.
  induction l as [|y l IH]; cbn; [tauto|]. destruct (Nat.eqb_spec y e) as [->|N]; auto.
  intros [->|I]; [congruence|]. cbn. rewrite <- IH; auto.
Qed.
Lemma queue_min_In o l : forall best e, queue_min o best l = Some e -> In e (best :: l).
Proof.
  induction l as [|x l IH]; intros best e; cbn [queue_min].
  - intros [= ->]; left; auto.
  - destruct (queue_key_lt o x best) as [[]|]; [| |discriminate]; intros Q; apply IH in Q.
    + right; auto.
    + destruct Q as [->|Q]; [left|right; right]; auto.
Qed.

(** ** Any schedule *)

Lemma steps_trans o o1 o2 : some_steps o o1 -> some_steps o1 o2 -> some_steps o o2.
Proof. induction 1; auto. intros. eapply steps_step; eauto. Qed.
Lemma steps_one o o1 : some_step o o1 -> some_steps o o1.
Proof. intros S. eapply steps_step; [exact S|constructor]. Qed.

Definition base (c : ctx) (o : operation) : Prop :=
  wf c o /\ (forall e, In e (op_queue o) -> (e < size o)%nat)
  /\ (forall l, In l (op_line o) -> left_of o l).

(** Changing the queue, the line and the clock does not touch the pieces. *)
Definition same_pieces (o o' : operation) : Prop :=
  op_first_count o' = op_first_count o /\ op_endpoints o' = op_endpoints o
  /\ op_opposites o' = op_opposites o /\ op_segments_ids o' = op_segments_ids o.
Lemma same_wf c o o' : same_pieces o o' -> wf c o -> wf c o'.
Proof.
  destruct o as [a b d e q l k], o' as [a' b' d' e' q' l' k']. unfold same_pieces; cbn.
  intros (-> & -> & -> & ->) W. destruct W as [[A1 A2 A3] B1 B2 B3 B4 B5 B6 B7 B8 B9 B10].
  constructor; [constructor|..]; auto.
Qed.

(** ** The measure *)
Definition ltbX (a b : Qc) : bool := qltb a b.
Definition inner (c : ctx) (o : operation) (l : event) : nat :=
  length (filter (fun p => qltb (SX c o l) (X c p) && qltb (X c p) (EX c o l)) (c_pts c)).
Definition lefts (o : operation) : list event := map (fun i => (2 * i)%nat) (seq 0 (size o / 2)).
Definition total (c : ctx) (o : operation) : nat :=
  fold_right Nat.add O (map (inner c o) (lefts o)).
Definition work (c : ctx) (o : operation) : nat := (3 * total c o + length (op_queue o))%nat.

Lemma lefts_In o l : linked o -> (In l (lefts o) <-> left_of o l).
Proof.
  intros K. unfold lefts. rewrite in_map_iff. pose proof (k_ids o K) as Hs.
  assert (Hd : (size o / 2)%nat = length (op_segments_ids o)).
  { rewrite <- Hs, (Nat.mul_comm 2), Nat.div_mul; lia. }
  rewrite Hd. split.
  - intros (i & <- & I). apply in_seq in I. split; [|lia].
    apply left_even. exists i; auto.
  - intros [E L]. apply left_even in E. destruct E as [i ->]. exists i. split; auto.
    apply in_seq. lia.
Qed.
Lemma lefts_NoDup o : NoDup (lefts o).
Proof.
  unfold lefts. apply Injective_map_NoDup; [|apply seq_NoDup]. intros x y; lia.
Qed.

Lemma filter_count {A} (f g h : A -> bool) (l : list A) x : In x l ->
  (forall y, (if g y then 1 else 0) + (if h y then 1 else 0) <= (if f y then 1 else 0))%nat ->
  f x = true -> g x = false -> h x = false ->
  (S (length (filter g l) + length (filter h l)) <= length (filter f l))%nat.
Proof.
  intros I A1 F1 G1 H1.
  assert (W : forall l, (length (filter g l) + length (filter h l) <= length (filter f l))%nat).
  { clear I l. induction l as [|y l IH]; cbn; auto. pose proof (A1 y).
    destruct (g y), (h y), (f y); cbn [length] in *; lia. }
  induction l as [|y l IH]; [destruct I|]. cbn [filter]. destruct I as [->|I].
  - rewrite F1, G1, H1. cbn [length]. pose proof (W l). lia.
  - specialize (IH I). pose proof (A1 y). destruct (g y), (h y), (f y); cbn [length] in *; lia.
Qed.

Section Runs.
Variable c : ctx.
Hypothesis G : good c.

Lemma sum_map_ext (f g : event -> nat) l : (forall x, In x l -> f x = g x) ->
  fold_right Nat.add O (map f l) = fold_right Nat.add O (map g l).
Proof.
  intros E. induction l as [|x l IH]; cbn; auto. rewrite E, IH; auto.
  - intros; apply E; right; auto.
  - left; auto.
Qed.
Lemma sum_map_change (f g : event -> nat) l x : NoDup l -> In x l ->
  (forall y, In y l -> y <> x -> g y = f y) ->
  (fold_right Nat.add O (map g l) + f x = fold_right Nat.add O (map f l) + g x)%nat.
Proof.
  intros N I E. induction l as [|y l IH]; [destruct I|]. inversion N; subst. cbn.
  destruct I as [->|I].
  - rewrite (sum_map_ext g f l); [lia|]. intros z Iz. apply E; [right; auto|]. intros ->; auto.
  - rewrite (E y); [|left; auto|intros ->; auto]. assert (IH' := IH H2 I (fun z Iz => E z (or_intror Iz))). lia.
Qed.

Lemma divided_total o l m mid o1 : wf c o -> left_of o l -> cut c o l m mid -> divided o l mid o1 ->
  (S (total c o1) <= total c o)%nat.
Proof.
  intros W L C D. pose proof (wf_divided c o o1 l mid W L D (cut_in _ _ _ _ _ C)
    (cut_l _ _ _ _ _ C) (cut_S _ _ _ _ _ C) (cut_E _ _ _ _ _ C)) as W1.
  assert (EL : lefts o1 = lefts o ++ [size o]).
  { unfold lefts. rewrite (d_size _ _ _ _ D). pose proof (k_ids o (w_linked c o W)) as Hs.
    rewrite <- Hs. replace (S (S (2 * length (op_segments_ids o)))) with (S (length (op_segments_ids o)) * 2)%nat by lia.
    rewrite (Nat.mul_comm 2), !Nat.div_mul by lia. rewrite seq_S, map_app. cbn [map Nat.add].
    rewrite (Nat.mul_comm 2 (length _)). reflexivity. }
  unfold total. rewrite EL, map_app, fold_right_app. cbn [map fold_right].
  assert (FA : forall a xs, fold_right Nat.add a xs = (fold_right Nat.add O xs + a)%nat).
  { intros a xs; induction xs; cbn; lia. }
  rewrite FA.
  pose proof (sum_map_change (inner c o) (inner c o1) (lefts o) l (lefts_NoDup o)
    (proj2 (lefts_In o l (w_linked c o W)) L)) as Sm.
  assert (H0 : forall y, In y (lefts o) -> y <> l -> inner c o1 y = inner c o y).
  { intros y Iy Ny. apply lefts_In in Iy; [|apply W]. unfold inner.
    rewrite (div_S c o o1 l mid D y Iy), (div_E_other c o o1 l mid W L D y Iy Ny). reflexivity. }
  specialize (Sm H0).
  assert (S1 : (S (inner c o1 l + inner c o1 (size o)) <= inner c o l)%nat).
  { unfold inner. rewrite (div_S c o o1 l mid D l L), (div_E_same c o o1 l mid W L D),
      (div_S_new c o o1 l mid D), (div_E_new c o o1 l mid W L D).
    pose proof (cut_S _ _ _ _ _ C) as C1. pose proof (cut_E _ _ _ _ _ C) as C2.
    apply filter_count with (x := mid).
    - apply (cut_in _ _ _ _ _ C).
    - intros y.
      destruct (qltb_spec (SX c o l) (X c y)), (qltb_spec (X c y) (EX c o l)),
        (qltb_spec (X c y) (X c mid)), (qltb_spec (X c mid) (X c y)); cbn; try lia; exfalso; qlra.
    - destruct (qltb_spec (SX c o l) (X c mid)), (qltb_spec (X c mid) (EX c o l)); auto; contradiction.
    - destruct (qltb_spec (X c mid) (X c mid)); [exfalso; qlra|]. apply andb_false_r.
    - destruct (qltb_spec (X c mid) (X c mid)); [exfalso; qlra|]. reflexivity. }
  lia.
Qed.

Lemma cuts_work Y Z o o' : cuts c Y Z o o' -> base c o -> left_of o Y -> left_of o Z ->
  base c o' /\ (work c o' <= work c o)%nat /\ (size o <= size o')%nat /\ op_line o' = op_line o.
Proof.
  induction 1 as [o|o l m mid o1 o2 P C D Cs IH]; intros (W & Q & Ln) LY LZ.
  - split; [split; [auto|split; auto]|auto].
  - assert (L : left_of o l) by (destruct P as [[-> _]|[-> _]]; auto).
    assert (W1 : wf c o1).
    { destruct C as [C1 C2 C3 C4 C5 C6 C7 C8]. apply (wf_divided c o o1 l mid W L D); auto. }
    assert (B1 : base c o1).
    { split; auto. split.
      - intros e. rewrite (d_queue _ _ _ _ D), (d_size _ _ _ _ D). intros I.
        apply in_app_or in I. destruct I as [I|[<-|[<-|[]]]]; try lia. apply Q in I; lia.
      - intros x. rewrite (d_line _ _ _ _ D). intros I. apply (div_left_old c o o1 l mid W D).
        apply Ln; auto. }
    destruct (IH B1) as (B2 & L2 & S2 & E2); try (apply (div_left_old c o o1 l mid W D); auto).
    split; auto. split; [|split].
    + pose proof (divided_total o l m mid o1 W L C D). unfold work in *.
      rewrite (d_queue _ _ _ _ D), app_length in L2. cbn [length] in L2. lia.
    + rewrite (d_size _ _ _ _ D) in S2. lia.
    + rewrite E2. apply (d_line _ _ _ _ D).
Qed.

Lemma detect_self o Y : wf c o -> left_of o Y -> detect_intersection o Y Y = None.
Proof.
  intros W L.
  assert (O1 : orient (to_event_end o Y) (to_event_start o Y) (to_event_start o Y) = COLLINEAR).
  { apply orient_col. unfold area2. ring. }
  assert (O2 : orient (to_event_end o Y) (to_event_start o Y) (to_event_end o Y) = COLLINEAR).
  { apply orient_col. unfold area2. ring. }
  assert (NE : point_eq (to_event_end o Y) (to_event_start o Y) = false).
  { rewrite (point_eq_X c G); [|apply (w_ptE c o W); auto|apply (w_ptS c o W); auto].
    pose proof (w_lt c o W Y L) as Lt. unfold SX, EX in Lt.
    destruct (qeqb_spec (X c (to_event_end o Y)) (X c (to_event_start o Y))) as [E|]; auto.
    unfold to_event_end in E. rewrite E in Lt. exfalso; qlra. }
  assert (NE' : point_eq (to_event_start o Y) (to_event_end o Y) = false).
  { destruct (point_eq (to_event_start o Y) (to_event_end o Y)) eqn:Q; auto.
    apply point_eq_true in Q. rewrite <- NE. symmetry. apply point_eq_true. auto. }
  unfold detect_intersection. rewrite O1, O2, NE, NE', Bool.eqb_reflx. reflexivity.
Qed.

Lemma detect_some o Y Z o' : base c o -> left_of o Y -> left_of o Z ->
  detect_intersection o Y Z = Some o' ->
  Y <> Z /\ cuts c Y Z o o' /\ (apart c o' Y Z \/ coincide c o' Y Z).
Proof.
  intros (W & _) LY LZ Q. destruct (Nat.eq_dec Y Z) as [->|N].
  - rewrite detect_self in Q by auto; discriminate.
  - pose proof (detect_spec c G o Y Z W LY LZ N) as Sp. rewrite Q in Sp. split; auto.
Qed.

Lemma base_same o o' : same_pieces o o' -> incl (op_queue o') (op_queue o) ->
  (forall l, In l (op_line o') -> left_of o l) -> base c o -> base c o'.
Proof.
  intros P Iq Il (W & Q & Ln). split; [eapply same_wf; eauto|].
  destruct P as (P1 & P2 & P3 & P4). unfold left_of, size in *. rewrite P2. split; auto.
Qed.

Lemma some_step_base o o' : some_step o o' -> base c o -> base c o'.
Proof.
  intros [o0 q I|o0 l F|o0|o0 Y Z o1 LY LZ Q] B.
  - apply (base_same o0); auto. + repeat split. + apply B.
  - apply (base_same o0); auto. + repeat split. + apply incl_refl. + apply Forall_forall; auto.
  - apply (base_same o0); auto. + repeat split. + apply incl_refl. + apply B.
  - destruct (detect_some o0 Y Z o1 B LY LZ Q) as (_ & Cs & _).
    apply (cuts_work Y Z o0 o1 Cs B LY LZ).
Qed.
Lemma some_steps_base o o' : some_steps o o' -> base c o -> base c o'.
Proof. induction 1; auto. intros. apply IHsome_steps. eapply some_step_base; eauto. Qed.

Lemma same_pieces_size o o' : same_pieces o o' -> size o' = size o.
Proof. intros (_ & E & _). unfold size; rewrite E; auto. Qed.
Lemma work_same o o' : same_pieces o o' -> op_queue o' = op_queue o -> work c o' = work c o.
Proof.
  destruct o as [a b d e q l k], o' as [a' b' d' e' q' l' k']. unfold same_pieces; cbn.
  intros (-> & -> & -> & ->) ->. reflexivity.
Qed.

Lemma detect_optional_steps o b e o' : base c o ->
  (forall x, b = Some x -> left_of o x) -> (forall x, e = Some x -> left_of o x) ->
  detect_optional o b e = Some o' ->
  some_steps o o' /\ (work c o' <= work c o)%nat /\ (size o <= size o')%nat.
Proof.
  intros B Hb He Q. destruct b as [b|], e as [e|]; cbn in Q;
    try (injection Q as <-; split; [constructor|split; lia]).
  assert (LY := Hb b eq_refl). assert (LZ := He e eq_refl).
  destruct (detect_some o b e o' B LY LZ Q) as (_ & Cs & _).
  destruct (cuts_work b e o o' Cs B LY LZ) as (_ & L1 & L2 & _).
  split; [apply steps_one; exact (step_detect o b e o' LY LZ Q)|auto].
Qed.

Lemma process_steps shape o (e : event) o' : base c o -> (e < size o)%nat ->
  process_event shape o e = Some o' ->
  some_steps o o' /\ (work c o' <= work c o)%nat.
Proof.
  intros B Le. assert (Ln : forall l, In l (op_line o) -> left_of o l) by apply B.
  unfold process_event.
  destruct (is_event_right e) eqn:Er.
  - destruct (is_event_left (to_opposite_event o e)); [|discriminate].
    destruct (find_event shape 0 o (to_opposite_event o e)) as [x|] eqn:F.
    2: { intros [= <-]. split; [constructor|auto]. }
    set (o1 := remove_event shape 3 o x).
    assert (R : exists l, o1 = set_line o l /\ incl l (op_line o)).
    { unfold o1, remove_event. destruct (lookup shape 3 o x) as [[b f] a] eqn:Q.
      exists (b ++ a). split; auto. apply lookup_split in Q. rewrite Q.
      intros y I. apply in_app_or in I. apply in_or_app. destruct I; auto. right. apply in_or_app; auto. }
    destruct R as (l & E1 & I1). intros D.
    assert (S1 : some_step o o1).
    { rewrite E1. apply step_line. apply Forall_forall. intros y Iy. apply Ln, I1, Iy. }
    assert (P1 : same_pieces o o1) by (rewrite E1; repeat split).
    assert (LL : forall y, In y (op_line o) -> left_of o1 y).
    { intros y I. apply Ln in I. unfold left_of in *. rewrite (same_pieces_size o o1 P1). auto. }
    apply detect_optional_steps in D.
    + destruct D as (D1 & D2 & _). split; [eapply steps_step; eauto|].
      rewrite (work_same o o1 P1) in D2; auto. rewrite E1; reflexivity.
    + apply (some_step_base o); auto.
    + intros y Q. apply below_In in Q. auto.
    + intros y Q. apply above_In in Q. auto.
  - destruct (find_event shape 0 o e) as [x|] eqn:F.
    { intros [= <-]. split; [constructor|auto]. }
    assert (Lft : left_of o e).
    { split; auto. unfold is_event_right, is_event_left in *. rewrite <- Nat.negb_odd, Er. reflexivity. }
    set (o1 := add_event shape 1 o e).
    assert (R : exists l, o1 = set_line o l /\ incl l (e :: op_line o)).
    { unfold o1, add_event. destruct (lookup shape 1 o e) as [[b f] a] eqn:Q.
      exists (b ++ e :: a). split; auto. apply lookup_split in Q. rewrite Q.
      intros y I. apply in_app_or in I. destruct I as [I|[->|I]]; [right|left; auto|right];
        apply in_or_app; auto. right; apply in_or_app; auto. }
    destruct R as (l & E1 & I1).
    assert (FL : forall y, In y l -> left_of o y).
    { intros y I. apply I1 in I. destruct I as [->|]; auto. }
    assert (S1 : some_step o o1).
    { rewrite E1. apply step_line. apply Forall_forall. exact FL. }
    assert (P1 : same_pieces o o1) by (rewrite E1; repeat split).
    assert (LL : forall y, left_of o y -> left_of o1 y).
    { intros y I. unfold left_of in *. rewrite (same_pieces_size o o1 P1). auto. }
    assert (LL1 : forall y, In y (op_line o1) -> left_of o1 y).
    { intros y I. apply LL, FL. rewrite E1 in I. exact I. }
    assert (B1 : base c o1) by (apply (some_step_base o); auto).
    assert (We : work c o1 = work c o) by (apply work_same; auto; rewrite E1; reflexivity).
    cbv zeta.
    destruct (detect_optional o1 (Some e) (above_event shape 2 o1 e)) as [o2|] eqn:D; [|discriminate].
    apply detect_optional_steps in D; auto.
    2: { intros y Ey; injection Ey as <-; auto. }
    2: { intros y Q. apply above_In in Q. auto. }
    destruct D as (D1 & D2 & D3). intros D'.
    apply detect_optional_steps in D'.
    + destruct D' as (D1' & D2' & _). split; [|lia].
      eapply steps_step; [exact S1|]. eapply steps_trans; eauto.
    + eapply some_steps_base; eauto.
    + intros y Q. apply below_In in Q. apply LL1 in Q. destruct Q. split; auto. lia.
    + intros y [= <-]. destruct Lft. split; auto. rewrite (same_pieces_size o o1 P1) in D3. lia.
Qed.

Lemma pop_steps o e o' : base c o -> pop o = Some (e, o') ->
  some_step o o' /\ (e < size o)%nat /\ (S (work c o') = work c o)%nat
  /\ In e (op_queue o) /\ o' = set_queue o (drop_event e (op_queue o)).
Proof.
  intros B. unfold pop. destruct (op_queue o) as [|x q] eqn:Eq; [discriminate|].
  destruct (queue_min o x q) as [y|] eqn:Q; [|discriminate]. intros R.
  assert (Ey : y = e) by congruence. subst y.
  assert (Eo : o' = set_queue o (drop_event e (x :: q))) by congruence. subst o'.
  apply queue_min_In in Q.
  split; [|split; [|split; [|split]]]; auto.
  - apply step_queue. rewrite Eq. intros z. exact (drop_event_In e (x :: q) z).
  - destruct B as (_ & Bq & _). apply Bq. rewrite Eq. auto.
  - unfold work. rewrite Eq. pose proof (drop_event_length e (x :: q) Q) as DL.
    change (op_queue (set_queue o (drop_event e (x :: q)))) with (drop_event e (x :: q)).
    change (total c (set_queue o (drop_event e (x :: q)))) with (total c o).
    rewrite DL. lia.
Qed.

Lemma sweep_runs fuel shape limit : forall o events, base c o ->
  ((work c o < fuel)%nat -> sweep fuel shape limit o events <> OutOfFuel)
  /\ forall o' events', sweep fuel shape limit o events = Sweeps o' events' -> some_steps o o'.
Proof.
  induction fuel as [|fuel IH]; intros o events B; cbn [sweep].
  - split; [lia|discriminate].
  - destruct (op_queue o) as [|x q] eqn:Eq.
    + split; [discriminate|]. intros o' events' [= <- _]. constructor.
    + assert (B0 : base c (tick o)) by (eapply some_step_base; [apply step_tick|auto]).
      destruct (pop (tick o)) as [[e o1]|] eqn:P; [|split; discriminate].
      destruct (pop_steps (tick o) e o1 B0 P) as (S1 & Le & W1 & _ & E1).
      assert (B1 : base c o1) by (eapply some_step_base; eauto).
      destruct (process_event shape o1 e) as [o2|] eqn:Pr; [|split; discriminate].
      assert (Le1 : (e < size o1)%nat) by (rewrite E1; exact Le).
      destruct (process_steps shape o1 e o2 B1 Le1 Pr) as (S2 & W2).
      assert (SS : some_steps o o2).
      { eapply steps_step; [apply step_tick|]. eapply steps_step; eauto. }
      destruct (is_beyond limit o2 e).
      * split; [discriminate|]. intros o' events' [= <- _]. auto.
      * assert (B2 : base c o2) by (eapply some_steps_base; eauto).
        assert (work c (tick o) = work c o) by reflexivity.
        destruct (IH o2 (if is_event_right e then events ++ [to_opposite_event o2 e] else events) B2)
          as [T1 T2]. split.
        -- intros. apply T1. lia.
        -- intros o' events' Q. apply T2 in Q. eapply steps_trans; eauto.
Qed.
End Runs.
