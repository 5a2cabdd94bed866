(** The Bentley-Ottmann sweep, part 7: what detections do to the classes of collinear
    segments, and to the events at the first critical abscissa. *)
From Coq Require Import QArith Qcanon Bool List Arith Lia.
From Verif Require Import QcTac Model_Base Model_Utils Model_Linear Model_BentleyOttmann Spec_Base
  Spec_Sweep Proof_Base Proof_Line Proof_Sweep Proof_Sweep2 Proof_Sweep3 Proof_Sweep5 Proof_Sweep7
  Proof_Sweep8 Proof_Sweep9 Proof_Sweep10 Proof_Sweep11 Proof_Sweep12 Proof_Ottmann Proof_Ottmann2
  Proof_Ottmann3 Proof_Ottmann4 Proof_Ottmann5 Proof_Ottmann6.
Import ListNotations.
Local Open Scope Qc_scope.

Notation mins := rg_min_collinear.

Lemma pieces_sid o o' l : same_pieces o o' -> sid o' l = sid o l.
Proof. destruct o, o'; unfold same_pieces; cbn; intros (-> & -> & -> & ->). reflexivity. Qed.

Lemma linked_line o line : linked o -> linked (set_line o line).
Proof. intros [A B C]. constructor; auto. Qed.

(** ** Divisions *)
Lemma divide_effect o l mid o' ts te : linked o -> left_of o l -> divide o l mid = Some (o', ts, te) ->
  (ts = S (size o) /\ te = size o /\ size o' = S (S (size o)) /\ op_queue o' = op_queue o
   /\ pt o' ts = mid /\ pt o' te = mid /\ eid o' ts = sid o l /\ sid o' te = sid o l)
  /\ is_event_left te = true /\ is_event_left ts = false
  /\ (forall m, left_of o m -> sid o' m = sid o m).
Proof.
  intros K L Q. destruct (divide_pieces o l mid K L) as (o1 & o2 & E & D & P & Eq & El).
  rewrite Q in E. injection E as -> -> ->. pose proof (size_even o K) as Ev.
  assert (Odd : is_event_left (S (size o)) = false).
  { unfold is_event_left in *. rewrite Nat.even_succ, <- Nat.negb_even, Ev. reflexivity. }
  split; [|split; [exact Ev|split; [exact Odd|]]].
  - split; auto. split; auto. split; [rewrite (same_pieces_size _ _ P); apply (d_size _ _ _ _ D)|]. split; auto.
    split; [rewrite (pieces_pt _ _ _ P); apply (d_pt2 _ _ _ _ D)|].
    split; [rewrite (pieces_pt _ _ _ P); apply (d_pt1 _ _ _ _ D)|].
    split; [|rewrite (pieces_sid _ _ _ P); apply (d_sid1 _ _ _ _ D)].
    rewrite (pieces_eid _ _ _ P). unfold to_event_segment_id. rewrite Odd, (d_opp2 _ _ _ _ D).
    apply (d_sid _ _ _ _ D); auto.
  - intros m Lm. rewrite (pieces_sid _ _ _ P). apply (d_sid _ _ _ _ D); auto.
Qed.

(** Two events of one segment at a point of the queue. *)
Definition twin (o : operation) (mid : point) : Prop :=
  exists x y, x <> y /\ In x (op_queue o) /\ In y (op_queue o) /\ (x < size o)%nat /\ (y < size o)%nat
    /\ pt o x = mid /\ pt o y = mid /\ eid o x = eid o y.
(** An event of the segment [i] at a point of the queue. *)
Definition single (o : operation) (mid : point) (i : nat) : Prop :=
  exists x, In x (op_queue o) /\ (x < size o)%nat /\ pt o x = mid /\ eid o x = i.

Lemma eid_left o x : is_event_left x = true -> eid o x = sid o x.
Proof. intros L. unfold to_event_segment_id. rewrite L. reflexivity. Qed.

Lemma divide_twin r l mid r' : linked (rg_op r) -> left_of (rg_op r) l ->
  registry_divide r l mid = Some r' -> mins r' = mins r /\ twin (rg_op r') mid
  /\ (forall m, left_of (rg_op r) m -> sid (rg_op r') m = sid (rg_op r) m).
Proof.
  intros K L. unfold registry_divide. destruct (divide (rg_op r) l mid) as [[[o' ts] te]|] eqn:Q; [|discriminate].
  intros [= <-]. cbn [rg_op set_op rg_min_collinear]. split; auto.
  destruct (divide_effect _ _ _ _ _ _ K L Q) as ((E1 & E2 & E3 & E4 & E5 & E6 & E7 & E8) & F1 & F2 & F3).
  split; [|exact F3].
  exists ts, te. split; [congruence|]. cbn [op_queue push set_queue].
  split; [apply in_or_app; left; apply in_or_app; right; left; auto|].
  split; [apply in_or_app; right; left; auto|].
  change (size (push (push o' ts) te)) with (size o'). rewrite E3.
  split; [lia|]. split; [lia|]. split; [exact E5|]. split; [exact E6|].
  change (eid o' ts = eid o' te). rewrite E7, (eid_left o' te F1). auto.
Qed.
Lemma divide_merge_effect r l mid other r' : linked (rg_op r) -> left_of (rg_op r) l -> left_of (rg_op r) other ->
  divide_and_merge r l mid other = Some r' ->
  mins r' = merged (mins r) (sid (rg_op r) other) (sid (rg_op r) l) /\ single (rg_op r') mid (sid (rg_op r) l).
Proof.
  intros K L Lo. unfold divide_and_merge. destruct (divide (rg_op r) l mid) as [[[o' ts] te]|] eqn:Q; [|discriminate].
  intros [= <-]. destruct (divide_effect _ _ _ _ _ _ K L Q) as ((E1 & E2 & E3 & E4 & E5 & E6 & E7 & E8) & F1 & F2 & F3).
  split.
  - rewrite merge_merged. cbn [rg_min_collinear rg_op set_op].
    change (sid (push o' ts) other) with (sid o' other). change (sid (push o' ts) te) with (sid o' te).
    rewrite F3, E8; auto.
  - cbn [rg_op merge_equal_segment_events set_op]. exists ts. cbn [op_queue push set_queue].
    split; [apply in_or_app; right; left; auto|]. change (size (push o' ts)) with (size o'). split; [lia|]. split; [exact E5|exact E7].
Qed.
Lemma checking_effect shape index r l mid r' : linked (rg_op r) -> op_first_count (rg_op r) = O ->
  (forall x, In x (op_line (rg_op r)) -> left_of (rg_op r) x) -> left_of (rg_op r) l ->
  divide_checking_above shape index r l mid = Some r' ->
  twin (rg_op r') mid
  /\ (mins r' = mins r \/ exists x, In x (op_line (rg_op r)) /\ pt (rg_op r) x = pt (rg_op r) l
        /\ pt (rg_op r) (opp (rg_op r) x) = mid
        /\ mins r' = merged (mins r) (sid (rg_op r) l) (sid (rg_op r) x)).
Proof.
  intros K F Ln L. unfold divide_checking_above.
  destruct (registry_above shape index (rg_op r) l) as [x|] eqn:Ab.
  2: { intros Q. destruct (divide_twin _ _ _ _ K L Q) as (A & B & _). auto. }
  destruct (_ && _) eqn:Cd.
  2: { intros Q. destruct (divide_twin _ _ _ _ K L Q) as (A & B & _). auto. }
  destruct (registry_remove shape (S index) (rg_op r) x) as [o1|] eqn:Rm; [|discriminate].
  apply registry_remove_line in Rm; auto. destruct Rm as (line & -> & I).
  destruct (registry_divide (set_op r (set_line (rg_op r) line)) l mid) as [r1|] eqn:Q; [|discriminate].
  intros [= <-]. apply registry_above_In in Ab; auto.
  apply divide_twin in Q; [|apply (linked_line _ _ K)|exact L]. destruct Q as (A & B & Cc). split; [exact B|]. right. exists x.
  apply andb_true_iff in Cd. destruct Cd as [Q1 Q2]. apply point_eq_true in Q1. apply point_eq_true in Q2.
  split; auto. split; auto. split; auto. rewrite merge_merged, A.
  cbn [rg_op set_op] in Cc. rewrite !Cc; auto. apply Ln; auto.
Qed.

Section Critical.
Variable c : ctx.
Hypothesis G : good c.
Hypothesis C0 : c_first c = O.
Variable R : Qc.
Hypothesis NB : calm c R.
Notation S' := (SX c). Notation E' := (EX c). Notation h := (hh c). Notation k := (kk c).
Notation EV := (EVX c).
Notation Sx i := (X c (fst (input c i))).
Notation Ex i := (X c (snd (input c i))).
Notation n := (length (c_ins c)).

Lemma twin_later o o' mid : later c R o o' -> twin o mid -> twin o' mid.
Proof.
  intros La (x & y & N & Ix & Iy & Lx & Ly & Px & Py & E). exists x, y. split; auto.
  pose proof (la_size _ _ _ _ La). split; [apply (la_queue _ _ _ _ La); auto|]. split; [apply (la_queue _ _ _ _ La); auto|].
  split; [lia|]. split; [lia|]. rewrite !(la_pt _ _ _ _ La), !(la_eid _ _ _ _ La); auto.
Qed.

(** Events at [R] which are popped or will be. *)
Definition pres (o : operation) (es : list event) (x : event) : Prop :=
  (x < size o)%nat /\ X c (pt o x) = R /\ (In x es \/ In x (op_queue o)).
Definition live (i : nat) : Prop := (i < n)%nat /\ Sx i <= R /\ R < Ex i.
Definition member (o : operation) (es : list event) (i : nat) : Prop :=
  live i /\ exists x, pres o es x /\ eid o x = i.

Lemma pres_later o o' es x : later c R o o' -> pres o es x -> pres o' es x.
Proof.
  intros La (L & P & I). pose proof (la_size _ _ _ _ La). split; [lia|]. rewrite (la_pt _ _ _ _ La) by auto. split; auto.
  destruct I as [I|I]; auto. right. apply (la_queue _ _ _ _ La); auto.
Qed.
Lemma member_later o o' es i : later c R o o' -> member o es i -> member o' es i.
Proof.
  intros La (L & x & P & E). split; auto. exists x. split; [apply (pres_later o); auto|].
  rewrite (la_eid _ _ _ _ La); auto. apply P.
Qed.

(** Pieces of the sweep line (and a new one) begin before [R], or at [R] by a popped event. *)
Definition begun (o : operation) (es : list event) (x : event) : Prop :=
  left_of o x /\ S' o x <= R /\ (S' o x = R -> In x es).
Lemma begun_later o o' es x : later c R o o' -> begun o es x -> begun o' es x.
Proof.
  intros La (L & A & B). split; [apply (later_left c C0 R o); auto|]. unfold SX in *.
  rewrite (la_pt _ _ _ _ La) by apply L. auto.
Qed.
(** A piece that begins at [R]. *)
Lemma begun_member o es x : wf c o -> begun o es x -> S' o x = R -> member o es (sid o x).
Proof.
  intros W (L & A & B) E. destruct (w_in c o W x L) as [I1 I2]. pose proof (w_lt c o W x L).
  split; [split; [apply (w_sid c o W); auto|split; qlra]|]. exists x. split; [|apply eid_left, L].
  split; [apply L|]. split; auto.
Qed.
Lemma cut_member o o' es l i m mid : wf c o -> left_of o l -> i = sid o l -> single o' mid i ->
  S' o l < X c mid -> X c mid < E' o l -> X c mid = R -> member o' es i \/ m = true.
Proof.
  intros W L -> (x & I & Lx & P & E) A B Er. left. destruct (w_in c o W l L) as [I1 I2].
  split; [split; [apply (w_sid c o W); auto|split; qlra]|]. exists x. split; auto. split; auto. split; auto. congruence.
Qed.

Definition effect (r r' : registry) (Rel : nat -> nat -> Prop) : Prop :=
  mins r' = mins r \/ exists i j, (i < n)%nat /\ (j < n)%nat /\ mins r' = merged (mins r) i j /\ Rel i j.

Section Two.
Variables (shape : tree_shape) (index : nat) (r r' : registry) (Y Z : event) (es : list event).
Notation o := (rg_op r).
Hypothesis B : base c o.
Hypothesis LY : left_of o Y.
Hypothesis LZ : left_of o Z.
Notation a := (S' o Y). Notation b := (E' o Y). Notation u := (S' o Z). Notation v := (E' o Z).
Notation d := (dd c o Y Z).
Notation s := (ds c o Y Z).
Let W : wf c o. Proof. exact (proj1 B). Qed.
Let K : linked o. Proof. exact (w_linked c o W). Qed.
Let LtY : a < b. Proof. exact (w_lt c o W Y LY). Qed.
Let LtZ : u < v. Proof. exact (w_lt c o W Z LZ). Qed.
Let Aff : forall x y, d x - d y = s * (x - y).
Proof. intros x y. exact (sub_affine c o Y Z x y). Qed.

(** The circumstances at [R]. *)
Definition ready : Prop := begun o es Y /\ begun o es Z /\ forall x, In x (op_line o) -> begun o es x.
Definition related (i j : nat) : Prop := ready -> member (rg_op r') es i /\ member (rg_op r') es j.

(** A division at the start of the other piece with a merge. *)
Lemma merge_effect r1 l m : (l = Y /\ m = Z) \/ (l = Z /\ m = Y) -> (forall t, d t = 0) -> Y <> Z ->
  (r1 = r \/ goes c R o (rg_op r1) /\ mins r1 = mins r /\ (forall x, left_of o x -> sid (rg_op r1) x = sid o x)) ->
  S' o l < S' o m -> S' o m < E' o l -> divide_and_merge r1 l (pt o m) m = Some r' ->
  later c R o (rg_op r') ->
  mins r' = merged (mins r) (sid o m) (sid o l) /\ related (sid o m) (sid o l).
Proof.
  intros P Zero N H1 A1 A2 Q La.
  assert (Lm : left_of o l /\ left_of o m /\ l <> m) by (destruct P as [[-> ->]|[-> ->]]; auto).
  destruct Lm as (Ll & Lm & Nlm).
  assert (HH : forall t, h o l t = h o m t).
  { intros t. specialize (Zero t). unfold dd in Zero. destruct P as [[-> ->]|[-> ->]]; qlra. }
  assert (F : linked (rg_op r1) /\ left_of (rg_op r1) l /\ left_of (rg_op r1) m /\ mins r1 = mins r
    /\ sid (rg_op r1) m = sid o m /\ sid (rg_op r1) l = sid o l).
  { destruct H1 as [->|(G1 & M1 & S1)].
    - repeat (split; [auto|]); auto.
    - destruct G1 as (B1 & La1 & _). split; [apply (w_linked c _ (proj1 B1))|].
      split; [apply (later_left c C0 R o); auto|]. split; [apply (later_left c C0 R o); auto|]. auto. }
  destruct F as (K1 & L1 & L2 & M1 & S1 & S2).
  destruct (divide_merge_effect r1 l (pt o m) m r' K1 L1 L2 Q) as [E1 E2].
  rewrite M1, S1, S2 in E1. rewrite S2 in E2. split; auto.
  intros (By & Bz & _).
  assert (Bl : begun o es l /\ begun o es m) by (destruct P as [[-> ->]|[-> ->]]; auto). destruct Bl as [Bl Bm].
  assert (Em : S' o m = R).
  { destruct Bm as (_ & Bm & _). apply Qcle_antisym; auto. apply Qcnot_lt_le. intros Lt.
    destruct Bl as (_ & Bl & _).
    pose proof (w_lt c o W m Lm). apply (no_overlap c R NB o l m); auto; qlra. }
  split.
  - apply (member_later o); auto. apply begun_member; auto.
  - destruct (cut_member o (rg_op r') es l (sid o l) false (pt o m) W Ll eq_refl E2) as [Q2|Q2]; auto; discriminate.
Qed.

Lemma mid_effect l m : (l = Y /\ m = Z) \/ (l = Z /\ m = Y) -> (forall t, d t = 0) -> Y <> Z ->
  S' o l < S' o m -> E' o m < E' o l ->
  divide_by_mid_segment r l m (pt o m) (pt o (opp o m)) = Some r' ->
  mins r' = merged (mins r) (sid o m) (sid o l) /\ related (sid o m) (sid o l).
Proof.
  intros P Zero N A1 A2 Q.
  assert (La : later c R o (rg_op r')) by (apply (mid_segment_goes c C0 R NB r r' Y Z B LY LZ N l m); auto).
  assert (Lm : left_of o l /\ left_of o m /\ l <> m) by (destruct P as [[-> ->]|[-> ->]]; auto).
  destruct Lm as (Ll & Lm & Nlm). pose proof (w_lt c o W m Lm) as Ltm.
  unfold divide_by_mid_segment in Q.
  destruct (registry_divide r l (pt o (opp o m))) as [r1|] eqn:Q1; [|discriminate].
  destruct (divide_twin _ _ _ _ K Ll Q1) as (M1 & _ & S1).
  assert (C1 : cut c o l m (pt o (opp o m))).
  { apply (cut_at c r Y Z B LY LZ); auto; change (X c (pt o (opp o m))) with (E' o m); auto; qlra. }
  destruct (divide_goes c C0 R NB r l m _ r1 B Ll Lm Nlm C1 Q1) as [G1 _].
  apply (merge_effect r1); auto. qlra.
Qed.
Lemma overlapping_effect l m : (l = Y /\ m = Z) \/ (l = Z /\ m = Y) -> (forall t, d t = 0) -> Y <> Z ->
  S' o l < S' o m -> S' o m < E' o l -> E' o l < E' o m ->
  divide_overlapping r l m (pt o m) (pt o (opp o l)) = Some r' ->
  mins r' = merged (mins r) (sid o m) (sid o l) /\ related (sid o m) (sid o l).
Proof.
  intros P Zero N A1 A2 A3 Q.
  assert (La : later c R o (rg_op r')) by (apply (overlapping_goes c C0 R NB r r' Y Z B LY LZ N l m); auto).
  assert (Lm : left_of o l /\ left_of o m /\ l <> m) by (destruct P as [[-> ->]|[-> ->]]; auto).
  destruct Lm as (Ll & Lm & Nlm). pose proof (w_lt c o W m Lm) as Ltm.
  unfold divide_overlapping in Q.
  destruct (registry_divide r m (pt o (opp o l))) as [r1|] eqn:Q1; [|discriminate].
  destruct (divide_twin _ _ _ _ K Lm Q1) as (M1 & _ & S1).
  assert (C1 : cut c o m l (pt o (opp o l))).
  { apply (cut_at c r Y Z B LY LZ); auto; try (change (X c (pt o (opp o l))) with (E' o l); auto; qlra).
    destruct P as [[-> ->]|[-> ->]]; auto. }
  destruct (divide_goes c C0 R NB r m l _ r1 B Lm Ll (not_eq_sym Nlm) C1 Q1) as [G1 _].
  apply (merge_effect r1); auto.
Qed.
(** Pieces with a common start. *)
Lemma start_related x y : left_of o x -> left_of o y -> x <> y -> (forall t, h o x t = h o y t) ->
  S' o x = S' o y -> later c R o (rg_op r') -> (ready -> begun o es x /\ begun o es y) ->
  related (sid o x) (sid o y).
Proof.
  intros Lx Ly N HH E La F Rd. destruct (F Rd) as [Bx By].
  pose proof (w_lt c o W x Lx). pose proof (w_lt c o W y Ly).
  assert (Ex : S' o x = R).
  { destruct Bx as (_ & Bx & _). apply Qcle_antisym; auto. apply Qcnot_lt_le. intros Lt.
    apply (no_overlap c R NB o x y); auto; qlra. }
  split; apply (member_later o); auto; apply begun_member; auto. congruence.
Qed.
Lemma same_start_effect : Y <> Z -> (forall t, d t = 0) -> u = a -> v <> b ->
  (let '(max_end_event, min_end_event) := if qltb v b then (Y, Z) else (Z, Y) in
      match registry_remove shape index o max_end_event with
      | None => None
      | Some o =>
          match divide o max_end_event (to_event_end o min_end_event) with
          | None => None
          | Some (o, _, to_end) =>
              Some (merge_equal_segment_events (set_op r (push o to_end)) Z Y)
          end
      end) = Some r' -> mins r' = merged (mins r) (sid o Z) (sid o Y) /\ related (sid o Z) (sid o Y).
Proof.
  intros N Zero E1 E2 Q.
  assert (La : later c R o (rg_op r')) by (apply (same_start_goes c C0 R NB shape index r Y Z B LY LZ r'); auto).
  split.
  - assert (F : forall l m, (l = Y \/ l = Z) ->
      match registry_remove shape index o l with
      | None => None
      | Some o =>
          match divide o l (to_event_end o m) with
          | None => None
          | Some (o, _, to_end) =>
              Some (merge_equal_segment_events (set_op r (push o to_end)) Z Y)
          end
      end = Some r' -> mins r' = merged (mins r) (sid o Z) (sid o Y)).
    { intros l m P. destruct (registry_remove shape index o l) as [o1|] eqn:Rm; [|discriminate].
      apply registry_remove_line in Rm; [|apply (base_first c C0); auto].
      destruct Rm as (line & -> & I). set (o1 := set_line o line) in *.
      destruct (divide o1 l (to_event_end o1 m)) as [[[o2 ts] te]|] eqn:Q2; [|discriminate].
      intros [= <-]. rewrite merge_merged. cbn [rg_min_collinear rg_op set_op].
      assert (Ll : left_of o1 l) by (destruct P as [-> | ->]; [exact LY|exact LZ]).
      destruct (divide_effect _ _ _ _ _ _ (linked_line _ _ K : linked o1) Ll Q2) as (_ & _ & _ & S1).
      change (sid (push o2 te) Z) with (sid o2 Z). change (sid (push o2 te) Y) with (sid o2 Y).
      rewrite !S1; auto. }
    destruct (qltb v b); [apply (F Y Z)|apply (F Z Y)]; auto.
  - apply start_related; auto.
    + intros t. specialize (Zero t). unfold dd in Zero. qlra.
    + intros (P1 & P2 & _). auto.
Qed.
Lemma sid_lt x : left_of o x -> (sid o x < n)%nat.
Proof. apply (w_sid c o W). Qed.

Lemma collinear_effect : Y <> Z -> (forall t, d t = 0) -> collinear_numbers c shape index r Y Z = Some r' ->
  effect r r' related /\ (u < b -> a < v -> exists i j, (i = sid o Y /\ j = sid o Z \/ i = sid o Z /\ j = sid o Y)
    /\ mins r' = merged (mins r) i j).
Proof.
  intros N Zero.
  assert (F : forall i j, (i = sid o Y /\ j = sid o Z \/ i = sid o Z /\ j = sid o Y) ->
    mins r' = merged (mins r) i j /\ related i j ->
    effect r r' related /\ (u < b -> a < v -> exists i j, (i = sid o Y /\ j = sid o Z \/ i = sid o Z /\ j = sid o Y)
      /\ mins r' = merged (mins r) i j)).
  { intros i j P [Q1 Q2]. split.
    - right. exists i, j. pose proof (sid_lt Y LY). pose proof (sid_lt Z LZ).
      split; [destruct P as [[-> ->]|[-> ->]]; auto|]. split; [destruct P as [[-> ->]|[-> ->]]; auto|]. auto.
    - intros _ _. exists i, j. auto. }
  assert (F1 : forall l m, (l = Y /\ m = Z) \/ (l = Z /\ m = Y) ->
    mins r' = merged (mins r) (sid o m) (sid o l) /\ related (sid o m) (sid o l) ->
    effect r r' related /\ (u < b -> a < v -> exists i j, (i = sid o Y /\ j = sid o Z \/ i = sid o Z /\ j = sid o Y)
      /\ mins r' = merged (mins r) i j)).
  { intros l m P. apply F. destruct P as [[-> ->]|[-> ->]]; auto. }
  unfold collinear_numbers.
  destruct (qeqb_spec u a) as [Eu|Nu].
  { destruct (qeqb_spec v b) as [Ev|Nv]; [discriminate|]. intros Q. apply (F1 Y Z); auto.
    apply same_start_effect; auto. }
  destruct (qeqb_spec v b) as [Ev|Nv].
  { assert (F2 : forall l m, (l = Y /\ m = Z) \/ (l = Z /\ m = Y) -> S' o l < S' o m -> E' o l = E' o m ->
      divide_and_merge r l (pt o m) m = Some r' ->
      mins r' = merged (mins r) (sid o m) (sid o l) /\ related (sid o m) (sid o l)).
    { intros l m P Lt El Q.
      assert (L : left_of o l /\ left_of o m /\ l <> m) by (destruct P as [[-> ->]|[-> ->]]; auto).
      destruct L as (Ll & Lm & Nlm). pose proof (w_lt c o W m Lm) as Ltm.
      apply (merge_effect r); auto; [qlra|].
      apply (divide_and_merge_goes c C0 R NB r l m (pt o m) m r'); auto.
      apply (cut_at c r Y Z B LY LZ); auto. change (X c (pt o m)) with (S' o m). rewrite El; auto. }
    destruct (qltb_spec u a) as [L|L]; intros Q.
    - apply (F1 Z Y); auto.
    - apply (F1 Y Z); auto. apply F2; auto. qne; qlra. }
  destruct (qltb_spec a u) as [B1|B1]; [destruct (qltb_spec u b) as [B2|B2]|]; cbn [andb].
  - destruct (qltb_spec v b) as [B3|B3]; intros Q.
    + apply (F1 Y Z); auto. apply mid_effect; auto.
    + apply (F1 Y Z); auto. apply overlapping_effect; auto. qne; qlra.
  - destruct (qltb_spec u a); cbn [andb]; [exfalso; qlra|]. intros [= <-]. split; [left; auto|]. intros; exfalso; qlra.
  - assert (B1' : u < a) by (qne; qlra).
    destruct (qltb_spec u a); cbn [andb]; [|contradiction].
    destruct (qltb_spec a v) as [B2|B2].
    + destruct (qltb_spec b v) as [B3|B3]; intros Q.
      * apply (F1 Z Y); auto. apply mid_effect; auto.
      * apply (F1 Z Y); auto. apply overlapping_effect; auto. qne; qlra.
    + intros [= <-]. split; [left; auto|]. intros; exfalso; qlra.
Qed.

Lemma checking_case r1 l m mid : base c (rg_op r1) -> left_of (rg_op r1) l -> left_of (rg_op r1) m -> l <> m ->
  cut c (rg_op r1) l m mid -> divide_checking_above shape index r1 l mid = Some r' ->
  twin (rg_op r') mid /\ effect r1 r' (fun i j => begun (rg_op r1) es l ->
    (forall x, In x (op_line (rg_op r1)) -> begun (rg_op r1) es x) ->
    member (rg_op r') es i /\ member (rg_op r') es j).
Proof.
  intros B1 Ll Lm N Cu Q. pose proof (proj1 B1) as W1.
  pose proof (proj1 (proj2 (proj1 (checking_goes c C0 R NB shape index r1 l m mid r' B1 Ll Lm N Cu Q)))) as La.
  assert (Ln : forall x, In x (op_line (rg_op r1)) -> left_of (rg_op r1) x) by (destruct B1 as (_ & _ & ?); auto).
  destruct (checking_effect shape index r1 l mid r' (w_linked c _ W1) (base_first c C0 _ B1) Ln Ll Q) as [T E].
  split; auto. destruct E as [E|(x & Ix & P1 & P2 & E)]; [left; auto|]. right.
  exists (sid (rg_op r1) l), (sid (rg_op r1) x). split; [apply (w_sid c _ W1); auto|].
  split; [apply (w_sid c _ W1); auto|]. split; auto. intros Bl Bx. specialize (Bx x Ix).
  pose proof (Ln x Ix) as Lx. destruct Cu as [Ci Cl _ CS CE _ _ _].
  assert (ES : S' (rg_op r1) x = S' (rg_op r1) l) by (unfold SX; congruence).
  assert (EE : E' (rg_op r1) x = X c mid) by (unfold EX; congruence).
  assert (Nx : x <> l) by (intros ->; rewrite EE in CE; qlra).
  pose proof (w_S c _ W1 x Lx) as X1. pose proof (w_E c _ W1 x Lx) as X2. pose proof (w_S c _ W1 l Ll) as X3.
  rewrite ES in X1. rewrite EE in X2. rewrite P1 in X1. rewrite P2 in X2.
  assert (HH : forall t, h (rg_op r1) x t = h (rg_op r1) l t).
  { apply (col_two c (rg_op r1) x l (S' (rg_op r1) l) (X c mid)); try congruence. intros Q2; rewrite Q2 in CS; qlra. }
  pose proof (w_lt c _ W1 x Lx). pose proof (w_lt c _ W1 l Ll).
  assert (Er : S' (rg_op r1) x = R).
  { destruct Bx as (_ & Bx & _). apply Qcle_antisym; auto. apply Qcnot_lt_le. intros Lt.
    apply (no_overlap c R NB (rg_op r1) x l); auto; qlra. }
  split; apply (member_later (rg_op r1)); auto; apply begun_member; auto. congruence.
Qed.
Lemma effect_mono r1 r2 (P P' : nat -> nat -> Prop) : (forall i j, P i j -> P' i j) -> effect r1 r2 P -> effect r1 r2 P'.
Proof. intros I [E|(i & j & A & B' & E & F)]; [left; auto|right; exists i, j; auto]. Qed.

Lemma detect_effect : registry_detect shape index r Y Z = Some r' -> effect r r' related.
Proof.
  destruct (Nat.eq_dec Y Z) as [->|N].
  { rewrite (registry_detect_self c shape index r Z); auto; discriminate. }
  rewrite (detect_in_numbers c G shape index r Y Z); auto. unfold detect_numbers. cbv zeta.
  assert (Chk : forall mid, cut c o Z Y mid -> divide_checking_above shape index r Z mid = Some r' -> effect r r' related).
  { intros mid Cu Q. destruct (checking_case r Z Y mid B LZ LY (not_eq_sym N) Cu Q) as [_ E].
    revert E. apply effect_mono. intros i j F (A1 & A2 & A3). auto. }
  assert (Div : forall l mid, left_of o l -> registry_divide r l mid = Some r' -> effect r r' related).
  { intros l mid Ll Q. left. apply (divide_twin r l mid r' K Ll Q). }
  assert (Triv : Some r = Some r' -> effect r r' related) by (intros [= <-]; left; auto).
  destruct (orientation_is (sgn (d u)) (sgn (d v))) eqn:Q1.
  { destruct (orientation_is (sgn (d u)) COLLINEAR) eqn:Q2; auto.
    apply sgn_is_col in Q2.
    assert (d v = 0).
    { apply sgn_is_col. rewrite (sgn_zero (d u) Q2) in Q1. destruct (sgn (d v)); auto. }
    intros Q. apply collinear_effect; auto.
    intros t. apply (aff_zero d s u v); auto. intro E. rewrite E in LtZ. qlra. }
  destruct (orientation_is (sgn (d u)) COLLINEAR) eqn:Q2.
  { apply sgn_is_col in Q2. destruct (qltb_spec a u) as [A|A]; cbn [andb]; auto.
    destruct (qltb_spec u b) as [A'|A']; auto. apply (Div Y); auto. }
  destruct (orientation_is (sgn (d v)) COLLINEAR) eqn:Q3.
  { apply sgn_is_col in Q3. destruct (qltb_spec a v) as [A|A]; cbn [andb]; auto.
    destruct (qltb_spec v b) as [A'|A']; auto. apply (Div Y); auto. }
  destruct (orientation_is (sgn (d a)) COLLINEAR) eqn:Q4.
  { apply sgn_is_col in Q4. destruct (orientation_is (sgn (d b)) COLLINEAR); [discriminate|].
    destruct (qltb_spec u a) as [A|A]; cbn [andb]; auto.
    destruct (qltb_spec a v) as [A'|A']; auto. apply Chk. apply (cut_at c r Y Z B LY LZ); auto. }
  destruct (orientation_is (sgn (d b)) COLLINEAR) eqn:Q5.
  { apply sgn_is_col in Q5. destruct (qltb_spec u b) as [A|A]; cbn [andb]; auto.
    destruct (qltb_spec b v) as [A'|A']; auto. apply Chk. apply (cut_at c r Y Z B LY LZ); auto. }
  destruct (orientation_is (sgn (d a)) (sgn (d b))) eqn:Q6; cbn [negb]; auto.
  set (x := to_segments_intersection _ _ _ _).
  destruct (crossing_facts c G r Y Z B LY LZ (cross_signs c r Y Z Q1 Q2 Q3) (cross_signs' c r Y Z Q6 Q4 Q5))
    as (Ix & A1 & A2 & A3 & A4 & NK & P1 & P2). fold x in Ix, A1, A2, A3, A4, P1, P2.
  destruct (registry_divide r Y x) as [r1|] eqn:D; [|discriminate].
  destruct (cross_again c R r Y Z B LY LZ r1 x) as [C1 C2]; auto.
  destruct (divide_goes c C0 R NB r Y Z x r1) as [G1 N1]; auto. intros Q.
  specialize (C2 G1 N1). pose proof G1 as (B1 & La & Il).
  destruct (divide_twin r Y x r1 K LY D) as (M1 & _ & _).
  destruct (checking_case r1 Z Y x) as [_ E]; auto; try (apply (later_left c C0 R o (rg_op r1)); auto).
  unfold effect. rewrite <- M1. revert E. apply effect_mono. intros i j F (T1 & T2 & T3). apply F.
  - apply (begun_later o); auto.
  - intros y Iy. apply (begun_later o); auto.
Qed.

(** Pieces tied at [R] are cut there or merged. *)
Lemma detect_tie : registry_detect shape index r Y Z = Some r' -> a <= R -> R < b -> u <= R -> R < v ->
  d R = 0 -> (a < R \/ u < R \/ forall t, d t = 0) ->
  (exists mid, X c mid = R /\ twin (rg_op r') mid)
  \/ exists i j, i <> j /\ (i < n)%nat /\ (j < n)%nat /\ mins r' = merged (mins r) i j.
Proof.
  destruct (Nat.eq_dec Y Z) as [->|N].
  { rewrite (registry_detect_self c shape index r Z); auto; discriminate. }
  intros Q H1 H2 H3 H4 DR Why.
  assert (Ns : sid o Y <> sid o Z).
  { intros E. destruct (w_disj c o W Y Z LY LZ N E); qlra. }
  assert (Uni : forall x, d x = 0 -> (exists y, d y <> 0) -> x = R).
  { intros x Dx (y & Dy). destruct (Qc_eq_dec x R) as [|Nx]; auto. exfalso. apply Dy. apply (aff_zero d s x R); auto. }
  revert Q. rewrite (detect_in_numbers c G shape index r Y Z); auto. unfold detect_numbers. cbv zeta.
  destruct (orientation_is (sgn (d u)) (sgn (d v))) eqn:Q1.
  { destruct (orientation_is (sgn (d u)) COLLINEAR) eqn:Q2; auto.
    - apply sgn_is_col in Q2.
      assert (d v = 0).
      { apply sgn_is_col. rewrite (sgn_zero (d u) Q2) in Q1. destruct (sgn (d v)); auto. }
      intros Q. right. destruct collinear_effect as [_ F]; auto.
      { intros t. apply (aff_zero d s u v); auto. intro E. rewrite E in LtZ. qlra. }
      destruct F as (i & j & P & M); try qlra. pose proof (sid_lt Y LY). pose proof (sid_lt Z LZ).
      exists i, j. destruct P as [[-> ->]|[-> ->]]; auto.
    - exfalso. destruct (sgn_cases (d u)) as [[E1 F1]|[[E1 F1]|[E1 F1]]], (sgn_cases (d v)) as [[E2 F2]|[[E2 F2]|[E2 F2]]];
        rewrite E1 in *; rewrite E2 in *; cbn in *; try discriminate.
      + pose proof (Aff v R). pose proof (Aff u R). rewrite DR in *. qnra.
      + pose proof (Aff v R). pose proof (Aff u R). rewrite DR in *. qnra. }
  assert (Nv : exists y, d y <> 0).
  { destruct (Qc_eq_dec (d u) 0) as [E|E]; [|exists u; auto]. destruct (Qc_eq_dec (d v) 0) as [E'|E']; [|exists v; auto].
    rewrite E, E' in Q1. discriminate. }
  assert (Why' : a < R \/ u < R).
  { destruct Why as [?|[?|Z0]]; auto. destruct Nv as (y & Ny). destruct Ny. auto. }
  destruct (orientation_is (sgn (d u)) COLLINEAR) eqn:Q2.
  { apply sgn_is_col in Q2. apply Uni in Q2; auto. rewrite Q2 in *.
    destruct (qltb_spec a R) as [A|A]; cbn [andb]; [|exfalso; destruct Why' as [?|L]; [contradiction|qlra]].
    destruct (qltb_spec R b) as [A'|A']; [|contradiction]. intros Q. left. exists (pt o Z). split; auto.
    apply (divide_twin r Y (pt o Z) r' K LY Q). }
  destruct (orientation_is (sgn (d v)) COLLINEAR) eqn:Q3.
  { apply sgn_is_col in Q3. apply Uni in Q3; auto. exfalso. rewrite Q3 in H4. qlra. }
  destruct (orientation_is (sgn (d a)) COLLINEAR) eqn:Q4.
  { apply sgn_is_col in Q4. apply Uni in Q4; auto. destruct (orientation_is (sgn (d b)) COLLINEAR); [discriminate|].
    rewrite Q4. rewrite Q4 in Why'.
    destruct (qltb_spec u R) as [A|A]; cbn [andb]; [|exfalso; destruct Why' as [L|?]; [qlra|contradiction]].
    destruct (qltb_spec R v) as [A'|A']; [|contradiction]. intros Q. left. exists (pt o Y). split; auto.
    apply (checking_case r Z Y (pt o Y)); auto. apply (cut_at c r Y Z B LY LZ); auto;
      change (X c (pt o Y)) with (S' o Y); rewrite Q4; auto. }
  destruct (orientation_is (sgn (d b)) COLLINEAR) eqn:Q5.
  { apply sgn_is_col in Q5. apply Uni in Q5; auto. exfalso. rewrite Q5 in H2. qlra. }
  destruct (orientation_is (sgn (d a)) (sgn (d b))) eqn:Q6; cbn [negb].
  { exfalso. destruct (sgn_cases (d a)) as [[E1 F1]|[[E1 F1]|[E1 F1]]], (sgn_cases (d b)) as [[E2 F2]|[[E2 F2]|[E2 F2]]];
        rewrite E1 in *; rewrite E2 in *; cbn in *; try discriminate.
      + pose proof (Aff b R). pose proof (Aff a R). rewrite DR in *. qnra.
      + pose proof (Aff b R). pose proof (Aff a R). rewrite DR in *. qnra. }
  set (x := to_segments_intersection _ _ _ _).
  destruct (crossing_facts c G r Y Z B LY LZ (cross_signs c r Y Z Q1 Q2 Q3) (cross_signs' c r Y Z Q6 Q4 Q5))
    as (Ix & A1 & A2 & A3 & A4 & NK & P1 & P2). fold x in Ix, A1, A2, A3, A4, P1, P2.
  destruct (registry_divide r Y x) as [r1|] eqn:D; [|discriminate].
  destruct (cross_again c R r Y Z B LY LZ r1 x) as [C1 C2]; auto.
  destruct (divide_goes c C0 R NB r Y Z x r1) as [G1 N1]; auto. intros Q.
  specialize (C2 G1 N1). pose proof G1 as (B1 & La & Il).
  left. exists x. split.
  - apply Uni; auto. unfold dd. rewrite <- P1, <- P2. ring.
  - apply (checking_case r1 Z Y x); auto; apply (later_left c C0 R o (rg_op r1)); auto.
Qed.
End Two.
End Critical.
