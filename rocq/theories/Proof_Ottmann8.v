(** The Bentley-Ottmann sweep, part 8: the events at the first critical abscissa make
    the visit of their intersections fail once something is wrong. *)
From Coq Require Import QArith Qcanon Bool List Arith Lia.
From Verif Require Import QcTac Model_Base Model_Utils Model_Linear Model_BentleyOttmann Spec_Base
  Spec_Sweep Proof_Base Proof_Line Proof_Sweep Proof_Sweep2 Proof_Sweep3 Proof_Sweep5 Proof_Sweep7
  Proof_Sweep8 Proof_Sweep9 Proof_Sweep10 Proof_Sweep11 Proof_Sweep12 Proof_Ottmann Proof_Ottmann2
  Proof_Ottmann3 Proof_Ottmann4 Proof_Ottmann5 Proof_Ottmann6 Proof_Ottmann7.
Import ListNotations.
Local Open Scope Qc_scope.

Lemma registry_find_same shape index o e x : registry_find shape index o e = Some x ->
  pt o x = pt o e /\ pt o (opp o x) = pt o (opp o e).
Proof.
  unfold registry_find. destruct (registry_lookup shape index o e) as [[b f] a].
  destruct (match f with Some x => Some x | None => hd_error (rev b) end) as [y|]; [|discriminate].
  destruct (_ && _) eqn:Q; [|discriminate]. intros [= <-]. apply andb_true_iff in Q. destruct Q as [Q1 Q2].
  apply point_eq_true in Q1. apply point_eq_true in Q2. auto.
Qed.
Lemma closed_mono n (U U' : nat -> Prop) l : (forall i, U i -> U' i) -> closed n U l -> closed n U' l.
Proof. intros F C x L N. destruct (C x L N). auto. Qed.

(** ** Visits *)
Section Visits.
Context {A : Type}.
Variable visit : A -> intersection -> A + bool.
Hypothesis VT : forall a i a', visit a i = inl a' -> in_relation i = TOUCH.

Lemma visit_pairs_touch r p pairs : forall a a', visit_pairs visit r p pairs a = GoesOn a' ->
  forall i j, In (i, j) pairs -> exists x, to_intersection r p i j = Some x /\ in_relation x = TOUCH.
Proof.
  induction pairs as [|[i0 j0] pairs IH]; intros a a' Q i j I; [destruct I|]. cbn [visit_pairs] in Q.
  destruct (to_intersection r p i0 j0) as [x|] eqn:T; [|discriminate].
  destruct (visit a x) as [a1|] eqn:V; [|discriminate]. destruct I as [I|I].
  - injection I as <- <-. exists x. split; auto. apply (VT a x a1 V).
  - apply (IH a1 a' Q i j I).
Qed.

Lemma pairs_of_In {B} (f : B -> nat) (l : list B) x y : In x l -> In y l -> x <> y ->
  In (f x, f y) (pairs_of (map f l)) \/ In (f y, f x) (pairs_of (map f l)).
Proof.
  induction l as [|z l IH]; [intros []|]. intros [->|Ix] [->|Iy] N; cbn [map pairs_of].
  - congruence.
  - left. apply in_or_app; left. apply in_map, in_map, Iy.
  - right. apply in_or_app; left. apply in_map, in_map, Ix.
  - destruct IH as [Q|Q]; auto; [left|right]; apply in_or_app; right; auto.
Qed.

Lemma sweep_step fuel shape pick r g a x : sweep_intersections visit (S fuel) shape pick r g a = AllVisited x ->
  op_queue (rg_op r) <> [] ->
  exists e r', is_head (rg_op r) e /\ registry_process shape (set_op r (popping (rg_op r) e)) e = Some r'
  /\ ((exists ids, g = Some (pt (rg_op r') e, ids)
        /\ sweep_intersections visit fuel shape pick r' (Some (pt (rg_op r') e, ids ++ [eid (rg_op r') e])) a
           = AllVisited x)
      \/ ((forall ids, g <> Some (pt (rg_op r') e, ids)) /\ exists a',
          (g = None \/ exists p ids, g = Some (p, ids) /\ visit_pairs visit r' p (pairs_of ids) a = GoesOn a')
          /\ sweep_intersections visit fuel shape pick r' (Some (pt (rg_op r') e, [eid (rg_op r') e])) a'
             = AllVisited x)).
Proof.
  intros Q Ne. cbn [sweep_intersections] in Q.
  destruct (op_queue (rg_op r)) as [|q0 q] eqn:Eq; [congruence|]. rewrite <- Eq in *.
  destruct (registry_pop pick (tick (rg_op r))) as [[e o']|] eqn:P; [|discriminate].
  apply pop_spec in P. destruct P as [Hd ->].
  destruct (registry_process shape (set_op r (popping (rg_op r) e)) e) as [r'|] eqn:Pr; [|discriminate].
  exists e, r'. split; auto. split; auto. destruct g as [[p ids]|].
  - destruct (point_eq (pt (rg_op r') e) p) eqn:Pe.
    + apply point_eq_true in Pe. left. exists ids. rewrite <- Pe in *. auto.
    + right. split.
      * intros ids' [= E _]. rewrite E in Pe. rewrite (proj2 (point_eq_true _ _) eq_refl) in Pe. discriminate.
      * destruct (visit_pairs visit r' p (pairs_of ids) a) as [a'| |] eqn:V; try discriminate.
        exists a'. split; auto. right. exists p, ids. auto.
  - right. split; [discriminate|]. exists a. auto.
Qed.
Lemma sweep_end fuel shape pick r g a x : sweep_intersections visit (S fuel) shape pick r g a = AllVisited x ->
  op_queue (rg_op r) = [] -> exists p ids, g = Some (p, ids) /\ visit_pairs visit r p (pairs_of ids) a = GoesOn x.
Proof.
  intros Q Eq. cbn [sweep_intersections] in Q. rewrite Eq in Q. destruct g as [[p ids]|]; [|discriminate].
  exists p, ids. split; auto. destruct (visit_pairs visit r p (pairs_of ids) a); try discriminate. congruence.
Qed.
End Visits.

Section Doomed.
Variable c : ctx.
Hypothesis G : good c.
Hypothesis C0 : c_first c = O.
Variable R : Qc.
Hypothesis NB : calm c R.
Notation S' := (SX c). Notation E' := (EX c). Notation h := (hh c). Notation k := (kk c).
Notation EV := (EVX c).
Notation Sx i := (X c (fst (input c i))).
Notation Ex i := (X c (snd (input c i))).
Notation n := (length (c_ins c)).
Notation pres := (pres c R). Notation member := (member c R). Notation begun := (begun c R).
Notation live := (live c R). Notation effect := (effect c).

(** The endpoints of the inputs are the first events. *)
Definition ends (o : operation) : Prop := forall i, (i < n)%nat ->
  (S (2 * i) < size o)%nat /\ pt o (2 * i)%nat = fst (input c i) /\ pt o (S (2 * i))%nat = snd (input c i).
Lemma ends_later o o' : later c R o o' -> ends o -> ends o'.
Proof.
  intros La En i L. destruct (En i L) as (A & B & D). pose proof (la_size _ _ _ _ La). split; [lia|].
  rewrite !(la_pt _ _ _ _ La) by lia. auto.
Qed.

(** ** The weak invariant *)
Record wk (r : registry) (es : list event) : Prop := {
  k_base : base c (rg_op r);
  k_queue : forall x, In x (op_queue (rg_op r)) -> R <= EV (rg_op r) x;
  k_es : forall x, In x es -> (x < size (rg_op r))%nat /\ EV (rg_op r) x = R;
  k_line : forall x, In x (op_line (rg_op r)) -> begun (rg_op r) es x;
  k_dec : decreasing n (mins r);
  k_closed : closed n (member (rg_op r) es) (mins r) }.
Definition flawed (r : registry) (es : list event) : Prop :=
  (exists x y, x <> y /\ pres (rg_op r) es x /\ pres (rg_op r) es y /\ eid (rg_op r) x = eid (rg_op r) y)
  \/ exists i, (i < n)%nat /\ nth i (mins r) O <> i.

Lemma flawed_twin r es mid : twin (rg_op r) mid -> X c mid = R -> flawed r es.
Proof.
  intros (x & y & N & Ix & Iy & Lx & Ly & Px & Py & E) Er. left. exists x, y. split; auto.
  split; [split; auto; split; [congruence|auto]|]. split; auto. split; auto. split; [congruence|auto].
Qed.
Lemma flawed_merged r r' es i j : decreasing n (mins r) -> mins r' = merged (mins r) i j -> (i < n)%nat -> (j < n)%nat ->
  i <> j -> flawed r' es.
Proof. intros D E Li Lj N. right. rewrite E. apply (merged_new n); auto. Qed.

Lemma wk_effect r r' es : wk r es -> base c (rg_op r') -> later c R (rg_op r) (rg_op r') ->
  (forall x, In x (op_line (rg_op r')) -> begun (rg_op r) es x) ->
  effect r r' (fun i j => i = j \/ member (rg_op r') es i /\ member (rg_op r') es j) ->
  wk r' es /\ (flawed r es -> flawed r' es).
Proof.
  intros Wk B' La Li Ef. pose proof (la_size _ _ _ _ La) as Sz. split.
  - constructor; auto.
    + intros x I. destruct (la_pushed _ _ _ _ La x I) as [J|[J1 J2]].
      * unfold EVX. rewrite (la_pt _ _ _ _ La) by (destruct (k_base r es Wk) as (_ & Q & _); auto). apply (k_queue r es Wk); auto.
      * apply (la_new _ _ _ _ La); auto.
    + intros x I. destruct (k_es r es Wk x I) as [A E]. split; [lia|]. unfold EVX. rewrite (la_pt _ _ _ _ La); auto.
    + intros x I. apply (begun_later c C0 R (rg_op r)); auto.
    + destruct Ef as [->|(i & j & L1 & L2 & -> & _)]; [apply (k_dec r es Wk)|]. apply merged_decreasing; auto. apply (k_dec r es Wk).
    + assert (C1 : closed n (member (rg_op r') es) (mins r)).
      { eapply closed_mono; [|apply (k_closed r es Wk)]. intros i. apply member_later; auto. }
      destruct Ef as [->|(i & j & L1 & L2 & -> & M)]; auto.
      apply closed_merged; auto. apply (k_dec r es Wk).
  - intros [(x & y & N & Px & Py & E)|F].
    + left. exists x, y. split; auto. split; [apply (pres_later c C0 R (rg_op r)); auto|].
      split; [apply (pres_later c C0 R (rg_op r)); auto|]. rewrite !(la_eid _ _ _ _ La); auto; [apply Py|apply Px].
    + right. destruct Ef as [->|(i & j & L1 & L2 & -> & _)]; auto. apply (merged_keeps n); auto. apply (k_dec r es Wk).
Qed.

Lemma pop_pres o es e x : pres o es x -> pres (popping o e) (es ++ [e]) x.
Proof.
  intros (L & P & I). split; auto. split; auto. destruct (Nat.eq_dec x e) as [->|N].
  - left. apply in_or_app; right; left; auto.
  - destruct I as [I|I]; [left; apply in_or_app; auto|]. right. apply drop_event_keep; auto.
Qed.
Lemma pop_base o e : base c o -> base c (popping o e).
Proof.
  intros (W & Q & L). split; [apply (same_wf c o); auto; repeat split|]. split; auto.
  intros x I. apply drop_event_In in I. apply Q; auto.
Qed.
Lemma wk_pop r es e : wk r es -> In e (op_queue (rg_op r)) -> EV (rg_op r) e = R ->
  wk (set_op r (popping (rg_op r) e)) (es ++ [e])
  /\ (flawed r es -> flawed (set_op r (popping (rg_op r) e)) (es ++ [e])).
Proof.
  intros Wk Ie Ee. split.
  - constructor.
    + apply pop_base, (k_base r es Wk).
    + intros x I. apply drop_event_In in I. apply (k_queue r es Wk x I).
    + intros x I. apply in_app_or in I. destruct I as [I|[<-|[]]]; [apply (k_es r es Wk x I)|].
      split; auto. destruct (k_base r es Wk) as (_ & Q & _). apply (Q e Ie).
    + intros x I. destruct (k_line r es Wk x I) as (A & B & D). split; auto. split; auto.
      intros Q. apply in_or_app; left. auto.
    + apply (k_dec r es Wk).
    + eapply closed_mono; [|apply (k_closed r es Wk)]. intros i (L & x & P & E). split; auto.
      exists x. split; auto. apply pop_pres; auto.
  - intros [(x & y & N & Px & Py & E)|F]; [left|right; auto].
    exists x, y. split; auto. split; [apply pop_pres; auto|]. split; [apply pop_pres; auto|]. auto.
Qed.

(** ** Processing an event at [R] *)
Definition kept (r r' : registry) (es : list event) : Prop :=
  wk r' es /\ later c R (rg_op r) (rg_op r') /\ (flawed r es -> flawed r' es).
Lemma kept_refl r es : wk r es -> kept r r es.
Proof. intros Wk. split; auto. split; auto. apply (later_refl c C0). Qed.
Lemma kept_trans r1 r2 r3 es : kept r1 r2 es -> kept r2 r3 es -> kept r1 r3 es.
Proof.
  intros (A1 & A2 & A3) (B1 & B2 & B3). split; auto. split; auto. apply (later_trans c C0 R _ (rg_op r2)); auto.
Qed.
Lemma detect_kept shape index r Y Z r' es : wk r es -> begun (rg_op r) es Y -> begun (rg_op r) es Z ->
  registry_detect shape index r Y Z = Some r' -> kept r r' es.
Proof.
  intros Wk BY BZ Q. pose proof (k_base r es Wk) as B.
  destruct (detect_goes c G C0 R NB shape index r Y Z B (proj1 BY) (proj1 BZ) r' Q) as (B' & La & Il).
  destruct (wk_effect r r' es Wk B' La) as [A1 A2].
  - intros x I. apply (k_line r es Wk), Il, I.
  - pose proof (detect_effect c G C0 R NB shape index r r' Y Z es B (proj1 BY) (proj1 BZ) Q) as Ef.
    revert Ef. apply effect_mono. intros i j F. right. apply F. split; auto. split; auto. apply (k_line r es Wk).
  - split; auto.
Qed.
Lemma detect_optional_kept shape index r Y Z r' es : wk r es -> (forall y, Y = Some y -> begun (rg_op r) es y) ->
  (forall z, Z = Some z -> begun (rg_op r) es z) ->
  registry_detect_optional shape index r Y Z = Some r' -> kept r r' es.
Proof.
  intros Wk BY BZ. destruct Y as [y|], Z as [z|]; cbn [registry_detect_optional]; intros Q;
    try (injection Q as <-; apply kept_refl; auto).
  apply (detect_kept shape index r y z); auto.
Qed.
Lemma merge_kept r x y es : wk r es -> left_of (rg_op r) x -> left_of (rg_op r) y ->
  (sid (rg_op r) x = sid (rg_op r) y \/ member (rg_op r) es (sid (rg_op r) x) /\ member (rg_op r) es (sid (rg_op r) y)) ->
  kept r (merge_equal_segment_events r x y) es.
Proof.
  intros Wk Lx Ly M. pose proof (k_base r es Wk) as B. pose proof (proj1 B) as W.
  destruct (wk_effect r (merge_equal_segment_events r x y) es Wk B (later_refl c C0 R _)) as [A1 A2].
  - apply (k_line r es Wk).
  - right. exists (sid (rg_op r) x), (sid (rg_op r) y). split; [apply (w_sid c _ W); auto|].
    split; [apply (w_sid c _ W); auto|]. split; auto.
  - split; auto. split; auto. apply (later_refl c C0 R).
Qed.
Lemma same_two o x y : wf c o -> left_of o x -> left_of o y -> pt o x = pt o y -> pt o (opp o x) = pt o (opp o y) ->
  forall t, h o x t = h o y t.
Proof.
  intros W Lx Ly P1 P2. pose proof (w_S c o W x Lx) as A1. pose proof (w_S c o W y Ly) as A2.
  pose proof (w_E c o W x Lx) as B1. pose proof (w_E c o W y Ly) as B2. pose proof (w_lt c o W x Lx).
  unfold SX, EX in *. rewrite P1 in *. rewrite P2 in *.
  apply (col_two c o x y (X c (pt o y)) (X c (pt o (opp o y)))); try congruence. intros Q; rewrite Q in *; qlra.
Qed.
Lemma wk_line r es line : wk r es -> (forall x, In x line -> begun (rg_op r) es x) ->
  kept r (set_op r (set_line (rg_op r) line)) es.
Proof.
  intros Wk L. pose proof (k_base r es Wk) as (W & Q & _).
  assert (La : later c R (rg_op r) (set_line (rg_op r) line)) by (apply (later_same c C0); [repeat split|reflexivity]).
  destruct (wk_effect r (set_op r (set_line (rg_op r) line)) es Wk) as [A1 A2]; auto.
  - split; [apply (same_wf c (rg_op r)); auto; repeat split|]. split; auto. intros l I. apply (L l I).
  - left; auto.
  - split; auto.
Qed.

Lemma process_kept shape r e es r' : wk r es -> In e es -> registry_process shape r e = Some r' -> kept r r' es.
Proof.
  intros Wk Ie. destruct (k_es r es Wk e Ie) as [Le Ee]. pose proof (k_base r es Wk) as B. pose proof (proj1 B) as W.
  pose proof (base_first c C0 _ B) as F0.
  unfold registry_process. cbv zeta. destruct (is_event_left e) eqn:El.
  - assert (Be : begun (rg_op r) es e).
    { split; [split; auto|]. unfold SX. unfold EVX in Ee. rewrite Ee. split; [apply Qcle_refl|auto]. }
    destruct (registry_find shape 0 (rg_op r) e) as [x|] eqn:Fi.
    + intros [= <-]. pose proof (registry_find_In _ _ _ _ _ F0 Fi) as Ix.
      destruct (registry_find_same _ _ _ _ _ Fi) as [P1 P2]. pose proof (k_line r es Wk x Ix) as Bx.
      apply merge_kept; auto; [apply Bx|apply Be|]. right. split; apply begun_member; auto.
      unfold SX. rewrite P1. exact Ee.
    + destruct (registry_add_line shape 1 (rg_op r) e F0) as (l & Ea & Il). rewrite Ea.
      set (r1 := set_op r (set_line (rg_op r) l)).
      assert (K1 : kept r r1 es).
      { apply wk_line; auto. intros x I. apply Il in I. destruct I as [<-|I]; auto. apply (k_line r es Wk); auto. }
      destruct K1 as (Wk1 & La1 & Fl1). pose proof (base_first c C0 _ (k_base r1 es Wk1)) as F1.
      assert (Be1 : begun (rg_op r1) es e) by (apply (begun_later c C0 R (rg_op r)); auto).
      destruct (registry_detect_optional shape 3 r1 _ (Some e)) as [r2|] eqn:D1; [|discriminate].
      assert (K2 : kept r1 r2 es).
      { revert D1. apply detect_optional_kept; auto.
        - intros y Q. apply registry_below_In in Q; auto. apply (k_line r1 es Wk1); auto.
        - intros z [= <-]. auto. }
      intros D2. assert (K3 : kept r2 r' es).
      { destruct K2 as (Wk2 & La2 & _). revert D2. apply detect_optional_kept; auto.
        - intros y [= <-]. apply (begun_later c C0 R (rg_op r1)); auto.
        - intros z Q. apply registry_above_In in Q; [|apply (base_first c C0), (k_base r2 es Wk2)]. apply (k_line r2 es Wk2); auto. }
      apply (kept_trans r r2); auto. apply (kept_trans r r1); auto. split; auto.
  - destruct (k_opp _ (w_linked c _ W) e Le) as (O1 & O2 & O3). rewrite El in O3. cbn [negb] in O3. rewrite O3.
    destruct (registry_find shape 0 (rg_op r) (opp (rg_op r) e)) as [x|] eqn:Fi.
    2: { intros [= <-]. apply kept_refl; auto. }
    pose proof (registry_find_In _ _ _ _ _ F0 Fi) as Ix.
    destruct (registry_find_same _ _ _ _ _ Fi) as [P1 P2]. pose proof (k_line r es Wk x Ix) as Bx.
    assert (Lo : left_of (rg_op r) (opp (rg_op r) e)) by (split; auto).
    assert (Ex : x = opp (rg_op r) e).
    { destruct (Nat.eq_dec x (opp (rg_op r) e)) as [|Nx]; auto. exfalso.
      pose proof (w_lt c _ W _ Lo) as Lt. pose proof (w_lt c _ W _ (proj1 Bx)) as Lt2.
      assert (ER : E' (rg_op r) (opp (rg_op r) e) = R) by (unfold EX; rewrite O2; exact Ee).
      apply (no_overlap c R NB (rg_op r) x (opp (rg_op r) e)); auto; [apply Bx|apply same_two; auto; apply Bx|..];
        unfold SX, EX in *; rewrite ?P1, ?P2 in *; rewrite ?ER in *; auto. }
    destruct (registry_remove shape 3 (rg_op r) x) as [o1|] eqn:Rm; [|discriminate].
    apply registry_remove_line in Rm; auto. destruct Rm as (line & -> & Il).
    set (r1 := set_op r (set_line (rg_op r) line)).
    assert (K1 : kept r r1 es).
    { apply wk_line; auto. intros y I. apply Il in I. apply (k_line r es Wk); auto. }
    destruct (registry_detect_optional shape 4 r1 _ _) as [r2|] eqn:D1; [|discriminate].
    assert (K2 : kept r1 r2 es).
    { destruct K1 as (Wk1 & La1 & _). revert D1. apply detect_optional_kept; auto.
      - intros y Q. apply registry_below_In in Q; auto. apply (begun_later c C0 R (rg_op r)); auto. apply (k_line r es Wk); auto.
      - intros y Q. apply registry_above_In in Q; auto. apply (begun_later c C0 R (rg_op r)); auto. apply (k_line r es Wk); auto. }
    intros [= <-]. assert (K3 : kept r r2 es) by (apply (kept_trans r r1); auto).
    destruct (negb (e =? x)%nat); auto. rewrite Ex. apply (kept_trans r r2); auto.
    assert (Lo2 : left_of (rg_op r2) (opp (rg_op r) e)).
    { apply (later_left c C0 R (rg_op r)); auto. apply K3. }
    apply merge_kept; auto. apply K3.
Qed.

(** ** Processing any event *)
Definition moved (r r' : registry) : Prop :=
  base c (rg_op r') /\ later c R (rg_op r) (rg_op r') /\ effect r r' (fun _ _ => True).
Lemma moved_refl r : base c (rg_op r) -> moved r r.
Proof. intros B. split; auto. split; [apply (later_refl c C0)|left; auto]. Qed.
Lemma detect_optional_moved shape index r Y Z r' : base c (rg_op r) -> (forall y, Y = Some y -> left_of (rg_op r) y) ->
  (forall z, Z = Some z -> left_of (rg_op r) z) ->
  registry_detect_optional shape index r Y Z = Some r' -> moved r r'.
Proof.
  intros B BY BZ. destruct Y as [y|], Z as [z|]; cbn [registry_detect_optional]; intros Q;
    try (injection Q as <-; apply moved_refl; auto).
  destruct (detect_goes c G C0 R NB shape index r y z B (BY y eq_refl) (BZ z eq_refl) r' Q) as (B' & La & Il).
  split; auto. split; auto.
  pose proof (detect_effect c G C0 R NB shape index r r' y z [] B (BY y eq_refl) (BZ z eq_refl) Q) as Ef.
  revert Ef. apply effect_mono. auto.
Qed.
Lemma merge_moved r x y : base c (rg_op r) -> left_of (rg_op r) x -> left_of (rg_op r) y ->
  moved r (merge_equal_segment_events r x y).
Proof.
  intros B Lx Ly. split; auto. split; [apply (later_refl c C0 R)|]. right.
  exists (sid (rg_op r) x), (sid (rg_op r) y). split; [apply (w_sid c _ (proj1 B)); auto|].
  split; [apply (w_sid c _ (proj1 B)); auto|]. auto.
Qed.
Lemma process_moved shape r (e : event) r' : base c (rg_op r) -> (e < size (rg_op r))%nat ->
  registry_process shape r e = Some r' -> exists r1 r2, mins r1 = mins r
    /\ later c R (rg_op r) (rg_op r1) /\ moved r1 r2 /\ moved r2 r'.
Proof.
  intros B Le. pose proof (proj1 B) as W. pose proof (base_first c C0 _ B) as F0.
  assert (Ln : forall x, In x (op_line (rg_op r)) -> left_of (rg_op r) x) by (destruct B as (_ & _ & ?); auto).
  unfold registry_process. cbv zeta. destruct (is_event_left e) eqn:El.
  - assert (Be : left_of (rg_op r) e) by (split; auto).
    destruct (registry_find shape 0 (rg_op r) e) as [x|] eqn:Fi.
    + intros [= <-]. pose proof (registry_find_In _ _ _ _ _ F0 Fi) as Ix.
      exists r, r. split; auto. split; [apply (later_refl c C0)|]. split; [apply moved_refl; auto|]. apply merge_moved; auto.
    + destruct (registry_add_line shape 1 (rg_op r) e F0) as (l & Ea & Il). rewrite Ea.
      set (r1 := set_op r (set_line (rg_op r) l)).
      assert (B1 : base c (rg_op r1)).
      { split; [apply (same_wf c (rg_op r)); auto; repeat split|]. split; [apply B|].
        intros x I. apply Il in I. destruct I as [<-|I]; auto. apply Ln; auto. }
      assert (La : later c R (rg_op r) (rg_op r1)) by (apply (later_same c C0); [repeat split|reflexivity]).
      assert (Ln1 : forall x, In x (op_line (rg_op r1)) -> left_of (rg_op r1) x) by (destruct B1 as (_ & _ & ?); auto).
      pose proof (base_first c C0 _ B1) as F1.
      destruct (registry_detect_optional shape 3 r1 (registry_below shape 2 (rg_op r1) e) (Some e)) as [r2|] eqn:D1; [|discriminate].
      assert (K2 : moved r1 r2).
      { revert D1. apply detect_optional_moved; auto.
        - intros y Q. apply registry_below_In in Q; auto.
        - intros z [= <-]. auto. }
      intros D2. exists r1, r2. split; auto. split; auto. split; auto.
      destruct K2 as (B2 & La2 & _). revert D2. apply detect_optional_moved; auto.
      * intros y [= <-]. apply (later_left c C0 R (rg_op r1)); auto.
      * intros z Q. apply registry_above_In in Q; [|apply (base_first c C0); auto]. destruct B2 as (_ & _ & ?); auto.
  - destruct (k_opp _ (w_linked c _ W) e Le) as (O1 & O2 & O3). rewrite El in O3. cbn [negb] in O3. rewrite O3.
    destruct (registry_find shape 0 (rg_op r) (opp (rg_op r) e)) as [x|] eqn:Fi.
    2: { intros [= <-]. exists r, r. split; auto. split; [apply (later_refl c C0)|]. split; apply moved_refl; auto. }
    pose proof (registry_find_In _ _ _ _ _ F0 Fi) as Ix.
    destruct (registry_remove shape 3 (rg_op r) x) as [o1|] eqn:Rm; [|discriminate].
    apply registry_remove_line in Rm; auto. destruct Rm as (line & -> & Il).
    set (r1 := set_op r (set_line (rg_op r) line)).
    assert (B1 : base c (rg_op r1)).
    { split; [apply (same_wf c (rg_op r)); auto; repeat split|]. split; [apply B|].
      intros y I. apply Il in I. apply Ln; auto. }
    assert (La : later c R (rg_op r) (rg_op r1)) by (apply (later_same c C0); [repeat split|reflexivity]).
    destruct (registry_detect_optional shape 4 r1 (registry_below shape 2 (rg_op r) x) (registry_above shape 1 (rg_op r) x)) as [r2|] eqn:D1; [|discriminate].
    assert (K2 : moved r1 r2).
    { revert D1. apply detect_optional_moved; auto.
      - intros y Q. apply registry_below_In in Q; auto. apply Ln; auto.
      - intros y Q. apply registry_above_In in Q; auto. apply Ln; auto. }
    intros [= <-]. exists r1, r2. split; auto. split; auto. split; auto. pose proof K2 as (B2 & La2 & _).
    destruct (negb (e =? x)%nat); [|apply moved_refl; auto]. apply merge_moved; auto;
      apply (later_left c C0 R (rg_op r1)); auto; [apply Ln; auto|]. split; auto.
Qed.

(** ** The visit *)
Definition seen (o : operation) (es : list event) (i : nat) : Prop := live i /\ exists x, In x es /\ eid o x = i.

Lemma touch_fails r i j p : ends (rg_op r) -> live i -> live j -> i <> j -> are_collinear r i j <> Some false ->
  forall x, to_intersection r p i j = Some x -> in_relation x <> TOUCH.
Proof.
  intros En (Li & A1 & A2) (Lj & B1 & B2) N Col x. unfold to_intersection. cbv zeta.
  rewrite (proj2 (Nat.eqb_neq i j) N). destruct (are_collinear r i j) as [[|]|]; [|congruence|discriminate].
  assert (Es : forall i, (i < n)%nat -> to_segment_start (rg_op r) i = fst (input c i) /\ to_segment_end (rg_op r) i = snd (input c i)).
  { intros q Lq. destruct (En q Lq) as (_ & P1 & P2). unfold to_segment_start, to_segment_end, segment_id_to_left_event, segment_id_to_right_event.
    rewrite Nat.add_1_r. auto. }
  destruct (Es i Li) as [-> ->]. destruct (Es j Lj) as [-> ->].
  assert (Q : point_eq (point_max (fst (input c i)) (fst (input c j))) (point_min (snd (input c i)) (snd (input c j))) = false).
  { destruct (point_eq _ _) eqn:Q; auto. apply point_eq_true in Q. exfalso.
    assert (M1 : X c (point_max (fst (input c i)) (fst (input c j))) <= R) by (unfold point_max; destruct (point_gt _ _); auto).
    assert (M2 : R < X c (point_min (snd (input c i)) (snd (input c j)))) by (unfold point_min; destruct (point_lt _ _); auto).
    rewrite Q in M1. qlra. }
  rewrite Q. intros [= <-].
  repeat match goal with |- context [if ?b then _ else _] => destruct b end; cbn [in_relation]; discriminate.
Qed.

Section Loop.
Context {A : Type}.
Variable visit : A -> intersection -> A + bool.
Hypothesis VT : forall a i a', visit a i = inl a' -> in_relation i = TOUCH.

Lemma visit_fails r o0 es p a a' : ends (rg_op r) -> decreasing n (mins r) ->
  ((exists x y, x <> y /\ In x es /\ In y es /\ eid o0 x = eid o0 y) \/ knit n (seen o0 es) (mins r)) ->
  visit_pairs visit r p (pairs_of (map (eid o0) es)) a = GoesOn a' -> False.
Proof.
  intros En D H V. pose proof (visit_pairs_touch visit VT r p _ a a' V) as T.
  destruct H as [(x & y & N & Ix & Iy & E)|(i & j & N & Li & Lj & (Vi & x & Ix & Ei) & (Vj & y & Iy & Ej) & Rt)].
  - assert (Q : exists i, In (i, i) (pairs_of (map (eid o0) es))).
    { destruct (pairs_of_In (eid o0) es x y Ix Iy N) as [Q|Q]; rewrite E in Q; eauto. }
    destruct Q as [i Q]. destruct (T i i Q) as (z & Ez & Rz). unfold to_intersection in Ez. cbv zeta in Ez.
    rewrite Nat.eqb_refl in Ez. injection Ez as <-. discriminate.
  - assert (Nxy : x <> y) by congruence.
    destruct (pairs_of_In (eid o0) es x y Ix Iy Nxy) as [Q|Q]; rewrite Ei, Ej in Q;
      destruct (T _ _ Q) as (z & Ez & Rz); revert Rz.
    + apply (touch_fails r i j p); auto. apply (collinear_root r n); auto.
    + apply (touch_fails r j i p); auto. apply (collinear_root r n); auto.
Qed.

Definition grouped (g : option (point * list nat)) (o : operation) (es : list event) : Prop :=
  (es = [] /\ forall p ids, g = Some (p, ids) -> X c p <> R)
  \/ exists p, X c p = R /\ In p (c_pts c) /\ g = Some (p, map (eid o) es).

(** The group after an event at [R]. *)
Lemma grouped_step g o0 es o' e : grouped g o0 es -> later c R (popping o0 e) o' -> (forall x, In x es -> (x < size o0)%nat) ->
  (e < size o0)%nat -> In (pt o0 e) (c_pts c) -> EV o0 e = R ->
  (forall ids, g = Some (pt o' e, ids) -> grouped (Some (pt o' e, ids ++ [eid o' e])) o' (es ++ [e]))
  /\ ((forall ids, g <> Some (pt o' e, ids)) -> grouped (Some (pt o' e, [eid o' e])) o' (es ++ [e])).
Proof.
  intros Gr La Le Ls Ip Er.
  assert (Pe : pt o' e = pt o0 e) by (apply (la_pt _ _ _ _ La e Ls)).
  split.
  - intros ids ->. destruct Gr as [[_ Q]|(p & E1 & E2 & E3)].
    + exfalso. apply (Q _ _ eq_refl). rewrite Pe. exact Er.
    + right. exists (pt o' e). injection E3 as <- ->. split; auto. split; auto. rewrite map_app. cbn [map]. f_equal. f_equal.
      f_equal. apply map_ext_in. intros x Ix. symmetry. apply (la_eid _ _ _ _ La). exact (Le x Ix).
  - intros Q. destruct Gr as [[-> _]|(p & E1 & E2 & E3)].
    + right. exists (pt o' e). rewrite Pe. split; [exact Er|]. split; auto.
    + exfalso. apply (Q (map (eid o0) es)). rewrite E3. f_equal. f_equal.
      apply (X_inj c G); auto; rewrite Pe; auto. rewrite E1. symmetry. exact Er.
Qed.

Lemma flawed_es r es : wk r es -> flawed r es -> (forall x, In x (op_queue (rg_op r)) -> EV (rg_op r) x <> R) ->
  (exists x y, x <> y /\ In x es /\ In y es /\ eid (rg_op r) x = eid (rg_op r) y)
  \/ closed n (seen (rg_op r) es) (mins r) /\ exists i, (i < n)%nat /\ nth i (mins r) O <> i.
Proof.
  intros Wk Fl Q.
  assert (P : forall x, pres (rg_op r) es x -> In x es).
  { intros x (L & E & [I|I]); auto. destruct (Q x I). exact E. }
  destruct Fl as [(x & y & N & Px & Py & E)|Fl].
  - left. exists x, y. auto.
  - right. split; auto. eapply closed_mono; [|apply (k_closed r es Wk)].
    intros i (L & x & Px & E). split; auto. exists x. auto.
Qed.

Lemma flawed_nonempty r es : wk r es -> flawed r es -> (forall x, In x (op_queue (rg_op r)) -> EV (rg_op r) x <> R) -> es <> [].
Proof.
  intros Wk Fl Q ->. destruct (flawed_es r [] Wk Fl Q) as [(x & y & _ & [] & _)|(C & i & L & N)].
  destruct (C i L N) as [(_ & x & [] & _) _].
Qed.

Lemma doomed shape pick : forall fuel r g es a x, wk r es -> flawed r es -> ends (rg_op r) -> grouped g (rg_op r) es ->
  sweep_intersections visit fuel shape pick r g a = AllVisited x -> False.
Proof.
  induction fuel as [|fuel IH]; intros r g es a x Wk Fl En Gr Sw; [discriminate|].
  pose proof (k_base r es Wk) as B.
  assert (Les : forall y, In y es -> (y < size (rg_op r))%nat) by (intros y Iy; apply (k_es r es Wk y Iy)).
  destruct (op_queue (rg_op r)) as [|q0 q] eqn:Eq.
  - destruct (sweep_end visit fuel shape pick r g a x Sw Eq) as (p & ids & -> & V).
    assert (Q : forall y, In y (op_queue (rg_op r)) -> EV (rg_op r) y <> R) by (rewrite Eq; intros y []).
    destruct Gr as [[E _]|(p' & E1 & E2 & [= -> ->])]; [exact (flawed_nonempty r es Wk Fl Q E)|].
    apply (visit_fails r (rg_op r) es p' a x); auto; [apply (k_dec r es Wk)|].
    destruct (flawed_es r es Wk Fl Q) as [H|[H1 H2]]; auto. right. apply closed_knit; auto. apply (k_dec r es Wk).
  - assert (Ne : op_queue (rg_op r) <> []) by (rewrite Eq; discriminate). clear q0 q Eq.
    destruct (sweep_step visit fuel shape pick r g a x Sw Ne) as (e & r' & Hd & Pr & Cs).
    pose proof (k_queue r es Wk e (proj1 Hd)) as Le.
    assert (Ls : (e < size (rg_op r))%nat) by (destruct B as (_ & Q & _); apply Q, Hd).
    assert (Ip : In (pt (rg_op r) e) (c_pts c)) by (apply ev_pts; auto; apply B).
    destruct (Qc_eq_dec (EV (rg_op r) e) R) as [Er|Nr].
    + destruct (wk_pop r es e Wk (proj1 Hd) Er) as [Wk1 Fl1].
      assert (Ie : In e (es ++ [e])) by (apply in_or_app; right; left; auto).
      destruct (process_kept shape _ e (es ++ [e]) r' Wk1 Ie Pr) as (Wk2 & La & Fl2).
      assert (En2 : ends (rg_op r')) by (apply (ends_later (popping (rg_op r) e)); auto).
      destruct (grouped_step g (rg_op r) es (rg_op r') e Gr La Les Ls Ip Er) as [G1 G2].
      destruct Cs as [(ids & Eg & Sw')|(Ng & a' & _ & Sw')].
      * apply (IH r' _ (es ++ [e]) a x Wk2 (Fl2 (Fl1 Fl)) En2 (G1 ids Eg) Sw').
      * apply (IH r' _ (es ++ [e]) a' x Wk2 (Fl2 (Fl1 Fl)) En2 (G2 Ng) Sw').
    + assert (Q : forall y, In y (op_queue (rg_op r)) -> EV (rg_op r) y <> R).
      { intros y Iy Ey. destruct (head_least c G (rg_op r) e y B Hd Iy) as [Lq _]. rewrite Ey in Lq.
        apply Nr. apply Qcle_antisym; auto. }
      destruct Gr as [[E _]|(p' & E1 & E2 & Eg)]; [exact (flawed_nonempty r es Wk Fl Q E)|].
      destruct (process_moved shape (set_op r (popping (rg_op r) e)) e r' (pop_base _ e B) Ls Pr) as (r1 & r2 & M1 & La1 & (B2 & La2 & Ef2) & (B3 & La3 & Ef3)).
      assert (La : later c R (popping (rg_op r) e) (rg_op r')).
      { apply (later_trans c C0 R _ (rg_op r2)); auto. apply (later_trans c C0 R _ (rg_op r1)); auto. }
      assert (Pe : pt (rg_op r') e = pt (rg_op r) e) by (apply (la_pt _ _ _ _ La e Ls)).
      destruct Cs as [(ids & Eg' & _)|(_ & a' & [Hn|(p & ids & Eg' & V)] & _)].
      * assert (Ep : p' = pt (rg_op r') e) by congruence. apply Nr. rewrite Ep, Pe in E1. exact E1.
      * congruence.
      * rewrite Eg in Eg'. injection Eg' as <- <-.
        assert (D0 : decreasing n (mins r)) by apply (k_dec r es Wk). cbn [set_op rg_min_collinear] in M1.
        assert (D2 : decreasing n (mins r2)).
        { destruct Ef2 as [->|(i & j & L1 & L2 & -> & _)]; rewrite M1; auto. apply merged_decreasing; auto. }
        assert (D3 : decreasing n (mins r')).
        { destruct Ef3 as [->|(i & j & L1 & L2 & -> & _)]; auto. apply merged_decreasing; auto. }
        apply (visit_fails r' (rg_op r) es p' a a'); auto.
        { apply (ends_later (popping (rg_op r) e)); auto. }
        destruct (flawed_es r es Wk Fl Q) as [H|[H1 H2]]; auto. right.
        assert (K0 : knit n (seen (rg_op r) es) (mins r)) by (apply closed_knit; auto).
        assert (K2 : knit n (seen (rg_op r) es) (mins r2) /\ half_closed n (seen (rg_op r) es) (mins r2)).
        { destruct Ef2 as [->|(i & j & L1 & L2 & -> & _)]; rewrite M1.
          - split; auto. apply closed_half; auto.
          - split; [apply knit_merged; auto; apply closed_half; auto|apply closed_merged_half; auto]. }
        destruct K2 as [K2 Hc2].
        destruct Ef3 as [->|(i & j & L1 & L2 & -> & _)]; auto. apply knit_merged; auto.
Qed.
End Loop.
End Doomed.
