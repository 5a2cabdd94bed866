(** The Bentley-Ottmann sweep, part 12: over segments which meet in their common
    endpoints only the sweep visits every endpoint once. *)
From Coq Require Import QArith Qcanon Bool List Arith Lia Permutation.
From Verif Require Import QcTac Model_Base Model_Utils Model_Linear Model_BentleyOttmann Spec_Base
  Spec_Sweep Proof_Base Proof_Line Proof_Sweep Proof_Sweep2 Proof_Sweep3 Proof_Sweep5 Proof_Sweep7
  Proof_Sweep8 Proof_Sweep9 Proof_Sweep10 Proof_Sweep11 Proof_Sweep12 Proof_Ottmann Proof_Ottmann2
  Proof_Ottmann3 Proof_Ottmann4 Proof_Ottmann5 Proof_Ottmann6 Proof_Ottmann7 Proof_Ottmann8
  Proof_Ottmann11.
Import ListNotations.
Local Open Scope Qc_scope.

Section Pure.
Context {A : Type}.
Variable visit : A -> intersection -> A + bool.

(** The visit of pairs of different segments touching in a point. *)
Fixpoint visit_list (p : point) (pairs : list (nat * nat)) (a : A) : consumed A :=
  match pairs with
  | [] => GoesOn a
  | (i, j) :: rest =>
      match visit a (Intersection i j TOUCH p p) with
      | inl a => visit_list p rest a
      | inr b => ReturnsEarly b
      end
  end.
Fixpoint visit_groups (groups : list (point * list nat)) (a : A) : intersections_outcome A :=
  match groups with
  | [] => AllVisited a
  | (p, ids) :: rest =>
      match visit_list p (pairs_of ids) a with
      | GoesOn a => visit_groups rest a
      | ReturnsEarly b => Returned b
      | VisitRaises => SweepRaises
      end
  end.

Lemma visit_pairs_list r p pairs :
  (forall i j, In (i, j) pairs -> to_intersection r p i j = Some (Intersection i j TOUCH p p)) ->
  forall a, visit_pairs visit r p pairs a = visit_list p pairs a.
Proof.
  induction pairs as [|[i j] rest IH]; intros Q a; cbn [visit_pairs visit_list]; auto.
  rewrite (Q i j (or_introl eq_refl)). destruct (visit a _); auto. apply IH. intros; apply Q; right; auto.
Qed.
End Pure.

Lemma pairs_of_members ids i j : In (i, j) (pairs_of ids) -> In i ids /\ In j ids.
Proof.
  induction ids as [|a ids IH]; cbn; [tauto|]. intros I. apply in_app_or in I. destruct I as [I|I].
  - apply in_map_iff in I. destruct I as (x & [= <- <-] & I). auto.
  - apply IH in I. tauto.
Qed.
Lemma pairs_of_neq ids i j : NoDup ids -> In (i, j) (pairs_of ids) -> i <> j.
Proof.
  induction 1 as [|a ids N D IH]; cbn; [tauto|]. intros I. apply in_app_or in I. destruct I as [I|I]; auto.
  apply in_map_iff in I. destruct I as (x & [= <- <-] & I). intros ->. auto.
Qed.

Section Twelve.
Variable c : ctx.
Hypothesis G : good c.
Hypothesis C0 : c_first c = O.
Notation EV := (EVX c).
Notation Sx i := (X c (fst (input c i))).
Notation Ex i := (X c (snd (input c i))).
Notation n := (length (c_ins c)).

Definition clean : Prop := forall i j t, (i < n)%nat -> (j < n)%nat -> i <> j ->
  Sx i <= t -> t <= Ex i -> Sx j <= t -> t <= Ex j -> H c i t = H c j t ->
  (t = Sx i \/ t = Ex i) /\ (t = Sx j \/ t = Ex j).
Hypothesis CL : clean.
Variable R : Qc.
Hypothesis RB : forall p, In p (c_pts c) -> X c p < R.
Lemma clean_calm : calm c R.
Proof. intros i j t Li Lj N _. apply CL; auto. Qed.
Notation steady := (steady c R).

(** The point and the segment of an event of the input. *)
Definition place (e : event) : point :=
  if is_event_left e then fst (input c (e / 2)) else snd (input c (e / 2)).
Record plain (o : operation) : Prop := {
  p_size : size o = (2 * n)%nat;
  p_pt : forall e, (e < 2 * n)%nat -> pt o e = place e;
  p_eid : forall e, (e < 2 * n)%nat -> eid o e = (e / 2)%nat }.
Lemma half_lt e : (e < 2 * n)%nat -> (e / 2 < n)%nat.
Proof. intros L. apply Nat.div_lt_upper_bound; lia. Qed.
Lemma place_pts e : (e < 2 * n)%nat -> In (place e) (c_pts c).
Proof. intros L. unfold place. destruct (g_ins c G (e / 2)%nat (half_lt e L)) as (_ & A & B). destruct (is_event_left e); auto. Qed.
Lemma place_half x y : (x < 2 * n)%nat -> place x = place y -> (x / 2 = y / 2)%nat -> x = y.
Proof.
  intros Lx Ep Eh. destruct (g_ins c G (x / 2)%nat (half_lt x Lx)) as (L & A & B).
  assert (Q : is_event_left x = is_event_left y).
  { unfold place in Ep. rewrite <- Eh in Ep. destruct (is_event_left x), (is_event_left y); auto; exfalso;
      rewrite Ep in L; apply (lex_irrefl _ L). }
  unfold is_event_left in Q. pose proof (Nat.div_mod x 2). pose proof (Nat.div_mod y 2).
  assert (M : (x mod 2 = y mod 2)%nat).
  { rewrite <- !Nat.bit0_mod. unfold Nat.b2n. rewrite !Nat.bit0_odd, <- !Nat.negb_even, Q. reflexivity. }
  lia.
Qed.
Lemma plain_ends o : plain o -> ends c o.
Proof.
  intros [A B D] i L. rewrite A. split; [lia|].
  rewrite !B by lia. unfold place, is_event_left.
  replace (2 * i / 2)%nat with i by (rewrite (Nat.mul_comm 2), Nat.div_mul; lia).
  replace (S (2 * i) / 2)%nat with i.
  2: { replace (S (2 * i))%nat with (1 + i * 2)%nat by lia. rewrite Nat.div_add by lia. reflexivity. }
  rewrite (Nat.even_succ (2 * i)), Nat.even_mul, Nat.odd_mul. cbn. auto.
Qed.

Lemma plain_later o e o' : NoDup (op_queue o) -> plain o -> base c o' -> later c R (popping o e) o' ->
  plain o' /\ forall x, In x (op_queue o') <-> In x (op_queue o) /\ x <> e.
Proof.
  intros Nd [P1 P2 P3] B La. pose proof (la_size _ _ _ _ La) as Sz. change (size (popping o e)) with (size o) in Sz.
  assert (Es : size o' = size o).
  { destruct (Nat.eq_dec (size o') (size o)) as [|N]; auto. exfalso.
    assert (L : (size o < size o')%nat) by lia.
    pose proof (la_new _ _ _ _ La (size o) (le_n _) L) as Q.
    pose proof (RB _ (ev_pts c o' (size o) (proj1 B) L)). qlra. }
  split.
  - constructor; [congruence| |].
    + intros x Lx. rewrite (la_pt _ _ _ _ La); [apply P2; auto|]. change (size (popping o e)) with (size o). lia.
    + intros x Lx. rewrite (la_eid _ _ _ _ La); [apply P3; auto|]. change (size (popping o e)) with (size o). lia.
  - intros x. split.
    + intros I. destruct (la_pushed _ _ _ _ La x I) as [J|[J1 J2]].
      * apply drop_event_iff in J; auto.
      * exfalso. change (size (popping o e)) with (size o) in J1. lia.
    + intros [I N]. apply (la_queue _ _ _ _ La). apply drop_event_keep; auto.
Qed.

Section Loop.
Context {A : Type}.
Variable visit : A -> intersection -> A + bool.

Lemma clean_intersection r p i j : rg_min_collinear r = seq 0 n -> ends c (rg_op r) -> (i < n)%nat -> (j < n)%nat -> i <> j ->
  p = fst (input c i) \/ p = snd (input c i) ->
  to_intersection r p i j = Some (Intersection i j TOUCH p p).
Proof.
  intros Mi En Li Lj N Ep. unfold to_intersection. cbv zeta. rewrite (proj2 (Nat.eqb_neq i j) N).
  assert (M : forall i, (i < n)%nat -> to_min_collinear_segment_id r i = Some i).
  { intros m Lm. unfold to_min_collinear_segment_id. rewrite Mi. cbn [min_collinear_loop]. rewrite seq_nth by auto.
    cbn [Nat.add]. rewrite Nat.eqb_refl. reflexivity. }
  unfold are_collinear. rewrite !M by auto. rewrite (proj2 (Nat.eqb_neq i j) N).
  assert (Es : to_segment_start (rg_op r) i = fst (input c i) /\ to_segment_end (rg_op r) i = snd (input c i)).
  { destruct (En i Li) as (_ & P1 & P2). unfold to_segment_start, to_segment_end, segment_id_to_left_event, segment_id_to_right_event.
    rewrite Nat.add_1_r. auto. }
  destruct Es as [-> ->].
  destruct Ep as [-> | ->]; rewrite (proj2 (point_eq_true _ _) eq_refl); rewrite ?orb_true_r; reflexivity.
Qed.

(** The events of a group. *)
Definition bunch (p : point) (es : list event) : Prop :=
  NoDup es /\ forall e, In e es <-> (e < 2 * n)%nat /\ place e = p.
Notation ids es := (map (fun e : event => (e / 2)%nat) es).
Lemma bunch_ids p es : (forall e, In e es -> (e < 2 * n)%nat /\ place e = p) -> NoDup es -> NoDup (ids es).
Proof.
  induction es as [|e es IH]; intros Q D; cbn; [constructor|]. inversion D; subst. constructor.
  - intros I. apply in_map_iff in I. destruct I as (x & E & I).
    destruct (Q e (or_introl eq_refl)) as [L1 P1]. destruct (Q x (or_intror I)) as [L2 P2].
    assert (x = e) by (apply place_half; auto; congruence). subst x. contradiction.
  - apply IH; auto. intros; apply Q; right; auto.
Qed.
Lemma bunch_visit r p es a : rg_min_collinear r = seq 0 n -> ends c (rg_op r) -> bunch p es ->
  visit_pairs visit r p (pairs_of (ids es)) a = visit_list visit p (pairs_of (ids es)) a.
Proof.
  intros Mi En [D Q]. apply visit_pairs_list. intros i j I.
  assert (N : i <> j).
  { apply (pairs_of_neq (ids es)); auto. apply (bunch_ids p); auto. intros; apply Q; auto. }
  apply pairs_of_members in I. destruct I as [I J]. apply in_map_iff in I. apply in_map_iff in J.
  destruct I as (x & <- & I). destruct J as (y & <- & J). apply Q in I. apply Q in J.
  apply clean_intersection; auto; try (apply half_lt; tauto). destruct I as [L <-]. unfold place. destruct (is_event_left x); auto.
Qed.

(** A state of the run: [es] is the part of the group at [p] popped so far. *)
Record running (r : registry) (p : point) (es : list event) : Prop := {
  r_steady : steady (rg_op r) (X c p);
  r_plain : plain (rg_op r);
  r_mins : rg_min_collinear r = seq 0 n;
  r_p : In p (c_pts c);
  r_nd : NoDup es;
  r_es : forall e, In e es -> (e < 2 * n)%nat /\ place e = p /\ ~ In e (op_queue (rg_op r));
  r_at : forall e, (e < 2 * n)%nat -> place e = p -> In e es \/ In e (op_queue (rg_op r));
  r_past : forall e, (e < 2 * n)%nat -> In e (op_queue (rg_op r)) \/ X c (place e) <= X c p }.

Lemma clean_step shape r t e : steady (rg_op r) t -> plain (rg_op r) -> rg_min_collinear r = seq 0 n -> is_head (rg_op r) e ->
  (e < 2 * n)%nat /\ exists o2, registry_process shape (set_op r (popping (rg_op r) e)) e = Some (set_op r o2)
  /\ steady o2 (X c (place e)) /\ plain o2 /\ (forall x, In x (op_queue o2) <-> In x (op_queue (rg_op r)) /\ x <> e)
  /\ (S (length (op_queue o2)) = length (op_queue (rg_op r)))%nat /\ pt o2 e = place e /\ eid o2 e = (e / 2)%nat.
Proof.
  intros V Pl Mi Hd. pose proof (s_core _ _ _ _ V) as C.
  assert (Le : (e < 2 * n)%nat) by (rewrite <- (p_size _ Pl); apply (i_qsz _ _ _ C), Hd).
  assert (Ee : EV (rg_op r) e = X c (place e)) by (unfold EVX; rewrite (p_pt _ Pl); auto).
  assert (Lr : EV (rg_op r) e < R) by (rewrite Ee; apply RB, place_pts; auto).
  destruct (calm_step c G C0 R clean_calm shape r t e n V Hd Lr Mi eq_refl) as (o2 & Q & V2 & La).
  rewrite Ee in V2. pose proof (s_core _ _ _ _ V2) as C2.
  destruct (plain_later (rg_op r) e o2 (i_qnd _ _ _ C) Pl (core_base c _ _ C2) La) as [Pl2 Qu].
  split; auto. exists o2. split; auto. split; auto. split; auto. split; auto.
  split; [|split; [apply p_pt|apply p_eid]; auto].
  assert (L1 : length (op_queue (rg_op r)) = length (e :: op_queue o2)).
  { apply Nat.le_antisymm; apply NoDup_incl_length.
    - apply (i_qnd _ _ _ C).
    - intros x I. destruct (Nat.eq_dec x e) as [->|N]; [left; auto|right]. apply Qu; auto.
    - constructor; [|apply (i_qnd _ _ _ C2)]. intros I. apply Qu in I. tauto.
    - intros x [<-|I]; [apply Hd|]. apply Qu in I. tauto. }
  rewrite L1. reflexivity.
Qed.

Definition beyond (p : point) (groups : list (point * list event)) : Prop :=
  forall q es, In (q, es) groups -> X c p < X c q /\ In q (c_pts c) /\ bunch q es.
Notation named := (map (fun g : point * list event => (fst g, ids (snd g)))).

Lemma clean_loop shape pick : forall fuel r p es a, running r p es -> (length (op_queue (rg_op r)) < fuel)%nat ->
  exists es' groups, bunch p es' /\ beyond p groups /\ NoDup (map fst groups)
  /\ (forall e, In e (op_queue (rg_op r)) -> In (place e) (p :: map fst groups))
  /\ (forall q l, In (q, l) groups -> l <> [])
  /\ sweep_intersections visit fuel shape pick r (Some (p, ids es)) a
     = visit_groups visit ((p, ids es') :: named groups) a.
Proof.
  induction fuel as [|fuel IH]; intros r p es a Rn Lf; [lia|].
  destruct Rn as [V Pl Mi Ip Nd Hes Hat Hpast]. pose proof (s_core _ _ _ _ V) as C.
  destruct (op_queue (rg_op r)) as [|q0 q] eqn:Eq.
  - assert (Bu : bunch p es).
    { split; auto. intros e. split; [intros I; destruct (Hes e I) as (H1 & H2 & _); auto|].
      intros [L P]. destruct (Hat e L P) as [|[]]; auto. }
    exists es, []. split; auto. split; [intros ? ? []|]. split; [constructor|]. split; [intros ? []|].
    split; [intros ? ? []|].
    cbn [sweep_intersections]. rewrite Eq. cbn [visit_groups map]. rewrite (bunch_visit r p es a Mi (plain_ends _ Pl) Bu).
    destruct (visit_list visit p (pairs_of (ids es)) a); reflexivity.
  - rewrite <- Eq in *. assert (Ne : op_queue (rg_op r) <> []) by (rewrite Eq; discriminate).
    destruct (pop_total pick (rg_op r) Ne) as (e & Pop & Hd).
    destruct (clean_step shape r (X c p) e V Pl Mi Hd) as (Le & o2 & Pr & V2 & Pl2 & Qu & Len & P2 & I2).
    assert (Sw : sweep_intersections visit (S fuel) shape pick r (Some (p, ids es)) a =
      if point_eq (place e) p then sweep_intersections visit fuel shape pick (set_op r o2) (Some (p, ids es ++ [(e / 2)%nat])) a
      else match visit_pairs visit (set_op r o2) p (pairs_of (ids es)) a with
           | GoesOn a => sweep_intersections visit fuel shape pick (set_op r o2) (Some (place e, [(e / 2)%nat])) a
           | ReturnsEarly b => Returned b
           | VisitRaises => SweepRaises
           end).
    { cbn [sweep_intersections]. rewrite Eq, Pop, Pr. cbn [rg_op set_op]. rewrite P2, I2. reflexivity. }
    assert (Lx : X c p <= X c (place e)).
    { pose proof (i_q1 _ _ _ C e (proj1 Hd)) as Q. unfold EVX in Q. rewrite (p_pt _ Pl) in Q; auto. }
    assert (Nes : ~ In e es) by (intros I; destruct (Hes e I) as (_ & _ & Q); apply Q, Hd).
    rewrite Sw. destruct (point_eq (place e) p) eqn:Ep.
    + apply point_eq_true in Ep.
      assert (Rn : running (set_op r o2) p (es ++ [e])).
      { constructor; auto.
        - cbn. rewrite <- Ep. auto.
        - apply (Permutation_NoDup (l := e :: es)); [apply Permutation_cons_append|constructor; auto].
        - intros x I. apply in_app_or in I. destruct I as [I|[<-|[]]].
          + destruct (Hes x I) as (H1 & H2 & H3). split; auto. split; auto. cbn. intros J. apply Qu in J. tauto.
          + split; auto. split; auto. cbn. intros J. apply Qu in J. tauto.
        - intros x Lx' Px. cbn. destruct (Nat.eq_dec x e) as [->|N]; [left; apply in_or_app; right; left; auto|].
          destruct (Hat x Lx' Px) as [I|I]; [left; apply in_or_app; auto|right; apply Qu; auto].
        - intros x Lx'. cbn. destruct (Nat.eq_dec x e) as [->|N]; [right; rewrite Ep; apply Qcle_refl|].
          destruct (Hpast x Lx') as [I|I]; auto. left. apply Qu; auto. }
      destruct (IH (set_op r o2) p (es ++ [e]) a Rn) as (es' & groups & H1 & H2 & H3 & H4 & H5 & H6); [cbn; lia|].
      exists es', groups. split; auto. split; auto. split; auto. split; [|split; auto].
      * intros x I. destruct (Nat.eq_dec x e) as [->|N]; [left; auto|]. apply H4. cbn. apply Qu; auto.
      * rewrite <- H6, map_app. reflexivity.
    + assert (Np : place e <> p). { intros Q. rewrite Q, (proj2 (point_eq_true _ _) eq_refl) in Ep. discriminate. }
      assert (Lt : X c p < X c (place e)).
      { destruct (Qcle_lt_or_eq _ _ Lx) as [|Q]; auto. exfalso. apply Np. symmetry. apply (X_inj c G); auto. apply place_pts; auto. }
      assert (Far : forall x, In x (op_queue (rg_op r)) -> X c (place e) <= X c (place x)).
      { intros x I. destruct (head_least c G (rg_op r) e x (core_base c _ _ C) Hd I) as [Q _]. unfold EVX in Q.
        rewrite !(p_pt _ Pl) in Q; auto. rewrite <- (p_size _ Pl). apply (i_qsz _ _ _ C); auto. }
      assert (Bu : bunch p es).
      { split; auto. intros x. split; [intros I; destruct (Hes x I) as (H1 & H2 & _); auto|].
        intros [L P]. destruct (Hat x L P) as [|I]; auto. exfalso. apply Far in I. rewrite P in I. qlra. }
      rewrite (bunch_visit (set_op r o2) p es a Mi (plain_ends _ Pl2) Bu).
      assert (Rn : running (set_op r o2) (place e) [e]).
      { constructor; auto.
        - apply place_pts; auto.
        - constructor; auto. constructor.
        - intros x [<-|[]]. split; auto. split; auto. cbn. intros J. apply Qu in J. tauto.
        - intros x Lx' Px. cbn. destruct (Nat.eq_dec x e) as [->|N]; [left; left; auto|right]. apply Qu. split; auto.
          destruct (Hpast x Lx') as [I|I]; auto. exfalso. rewrite Px in I. qlra.
        - intros x Lx'. cbn. destruct (Nat.eq_dec x e) as [->|N]; [right; apply Qcle_refl|].
          destruct (Hpast x Lx') as [I|I]; [left; apply Qu; auto|right]. qlra. }
      pose proof (fun a => IH (set_op r o2) (place e) [e] a Rn) as IH'.
      destruct (visit_list visit p (pairs_of (ids es)) a) as [a1|b|] eqn:Vl.
      * destruct (IH' a1) as (es' & groups & H1 & H2 & H3 & H4 & H5 & H6); [cbn; lia|].
        exists es, ((place e, es') :: groups). split; auto. split; [|split; [|split; [|split]]].
        -- intros q' l [E|I]; [injection E as <- <-; split; auto; split; auto; apply place_pts; auto|].
           destruct (H2 q' l I) as (K1 & K2 & K3). split; auto. qlra.
        -- cbn. constructor; auto. intros I. apply in_map_iff in I. destruct I as ([q' l] & E & I). cbn in E. subst q'.
           destruct (H2 (place e) l I) as [K1 _]. qlra.
        -- intros x I. destruct (Nat.eq_dec x e) as [->|N]; [right; left; auto|]. right. apply H4. cbn. apply Qu; auto.
        -- intros q' l [E|I]; [injection E as <- <-|eapply H5; eauto]. intros ->.
           destruct (proj2 (proj2 H1 e)); auto.
        -- cbn [visit_groups map fst snd]. rewrite Vl. exact H6.
      * (* the visit returns early: any completion of the groups will do *)
        destruct (IH' a) as (es' & groups & H1 & H2 & H3 & H4 & H5 & H6); [cbn; lia|].
        exists es, ((place e, es') :: groups). split; auto. split; [|split; [|split; [|split]]].
        -- intros q' l [E|I]; [injection E as <- <-; split; auto; split; auto; apply place_pts; auto|].
           destruct (H2 q' l I) as (K1 & K2 & K3). split; auto. qlra.
        -- cbn. constructor; auto. intros I. apply in_map_iff in I. destruct I as ([q' l] & E & I). cbn in E. subst q'.
           destruct (H2 (place e) l I) as [K1 _]. qlra.
        -- intros x I. destruct (Nat.eq_dec x e) as [->|N]; [right; left; auto|]. right. apply H4. cbn. apply Qu; auto.
        -- intros q' l [E|I]; [injection E as <- <-|eapply H5; eauto]. intros ->.
           destruct (proj2 (proj2 H1 e)); auto.
        -- cbn [visit_groups map fst snd]. rewrite Vl. reflexivity.
      * exfalso. clear -Vl. revert a Vl. generalize (pairs_of (ids es)). intros l. induction l as [|[i j] l IH]; intros a; cbn; [discriminate|].
        destruct (visit a _); [apply IH|discriminate].
Qed.

(** The run from the start. *)
Lemma clean_run shape pick fuel r t a : steady (rg_op r) t -> plain (rg_op r) -> rg_min_collinear r = seq 0 n ->
  (forall e, (e < 2 * n)%nat -> In e (op_queue (rg_op r))) -> (0 < n)%nat -> (2 * n < fuel)%nat ->
  exists groups, NoDup (map fst groups) /\ (forall q l, In (q, l) groups -> bunch q l /\ l <> [])
  /\ (forall e, (e < 2 * n)%nat -> In (place e) (map fst groups))
  /\ sweep_intersections visit fuel shape pick r None a = visit_groups visit (named groups) a.
Proof.
  intros V Pl Mi All Pos Lf. pose proof (s_core _ _ _ _ V) as C.
  assert (Lq : length (op_queue (rg_op r)) = (2 * n)%nat).
  { rewrite <- (seq_length (2 * n) 0). apply Nat.le_antisymm; apply NoDup_incl_length.
    - apply (i_qnd _ _ _ C).
    - intros x I. apply in_seq. apply (i_qsz _ _ _ C) in I. rewrite (p_size _ Pl) in I. lia.
    - apply seq_NoDup.
    - intros x I. apply in_seq in I. apply All. lia. }
  assert (Ne : op_queue (rg_op r) <> []) by (intros Q; rewrite Q in Lq; cbn in Lq; lia).
  destruct fuel as [|fuel]; [lia|].
  destruct (pop_total pick (rg_op r) Ne) as (e & Pop & Hd).
  destruct (clean_step shape r t e V Pl Mi Hd) as (Le & o2 & Pr & V2 & Pl2 & Qu & Len & P2 & I2).
  assert (Rn : running (set_op r o2) (place e) [e]).
  { constructor; auto.
    - apply place_pts; auto.
    - constructor; auto. constructor.
    - intros x [<-|[]]. split; auto. split; auto. cbn. intros J. apply Qu in J. tauto.
    - intros x Lx' Px. cbn. destruct (Nat.eq_dec x e) as [->|N]; [left; left; auto|right]. apply Qu. split; auto.
    - intros x Lx'. cbn. destruct (Nat.eq_dec x e) as [->|N]; [right; apply Qcle_refl|left]. apply Qu; auto. }
  destruct (clean_loop shape pick fuel (set_op r o2) (place e) [e] a Rn) as (es' & groups & H1 & H2 & H3 & H4 & H5 & H6); [cbn; lia|].
  exists ((place e, es') :: groups). split; [|split; [|split]].
  - cbn. constructor; auto. intros I. apply in_map_iff in I. destruct I as ([q' l] & E & I). cbn in E. subst q'.
    destruct (H2 (place e) l I) as [K1 _]. qlra.
  - intros q' l [E|I]; [injection E as <- <-|split; [apply (H2 q' l I)|eapply H5; eauto]]. split; auto. intros ->.
    destruct (proj2 (proj2 H1 e)); auto.
  - intros x Lx. destruct (Nat.eq_dec x e) as [->|N]; [left; auto|]. apply H4. cbn. apply Qu; auto.
  - cbn [map fst snd]. rewrite <- H6. cbn [sweep_intersections]. destruct (op_queue (rg_op r)) eqn:Eq; [congruence|].
    rewrite Pop, Pr. cbn [rg_op set_op]. rewrite P2, I2. reflexivity.
Qed.
End Loop.
End Twelve.
