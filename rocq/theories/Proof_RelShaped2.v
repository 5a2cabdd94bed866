(** Relating polygons, part 2: what the state says about the handled pieces. *)
From Coq Require Import QArith Qcanon Bool List Arith Lia.
From Verif Require Import QcTac Model_Base Model_Utils Model_Linear Model_Mixed Model_Shaped Model_RelateLinear Model_RelateShaped
  Spec_Base Spec_Sweep
  Proof_Base Proof_Line Proof_Sweep Proof_Sweep2 Proof_Sweep3 Proof_Sweep5 Proof_Sweep7
  Proof_Sweep8 Proof_Sweep9 Proof_Sweep10 Proof_Sweep11 Proof_Sweep12 Proof_Sweep13 Proof_Sweep14 Proof_Parity
  Proof_Flags Proof_Flags2 Proof_Flags3 Proof_Region Proof_Select Proof_RelSweep2 Proof_RelSweep3 Proof_RelShaped1.
Import ListNotations.
Local Open Scope Qc_scope.

Notation evfirst := is_event_from_first_operand.
(** A piece of an operand within the other one, outside it, one that shows that the operand [b]
    is not a subset, that the operands have a common area. *)
Definition within (v : view) (l : event) : bool := kind_is (vk v l) NO_OVERLAP && vo v l.
Definition without (v : view) (l : event) : bool := kind_is (vk v l) NO_OVERLAP && negb (vo v l).
Definition bad (o : operation) (v : view) (b : bool) (l : event) : bool :=
  if Bool.eqb (firstop o l) b then without v l || kind_is (vk v l) DIFFERENT_ORIENTATION else within v l.
Definition meet (v : view) (l : event) : bool := within v l || kind_is (vk v l) SAME_ORIENTATION.
Definition sflag (b : bool) (r : shaped_state) : bool := if b then ss_first_is_subset r else ss_second_is_subset r.
Definition iflag (b : bool) (r : shaped_state) : bool :=
  if b then ss_first_boundary_intersects_second_interior r else ss_second_boundary_intersects_first_interior r.
Definition extreme (r : shaped_state) : bool :=
  ss_has_continuous_intersection r && negb (ss_first_is_subset r) && negb (ss_second_is_subset r).

Section Fold.
Variable s : shaped_operation.
Notation o := (so s).
Notation v := (view_of s).
Notation lt_ e := (to_left_event o e).
Lemma by_event r e :
  (forall b, sflag b (update_by_event s r e) = sflag b r && negb (bad o v b (lt_ e)))
  /\ ss_has_continuous_intersection (update_by_event s r e) = ss_has_continuous_intersection r || meet v (lt_ e)
  /\ (forall b, iflag b (update_by_event s r e) = iflag b r || (Bool.eqb (evfirst o e) b && within v (lt_ e)))
  /\ ss_boundaries_intersect (update_by_event s r e) = ss_boundaries_intersect r.
Proof.
  unfold update_by_event, classify_event, bad, meet, within, without, is_event_from_first_operand. cbn [vk vo view_of].
  destruct (kind_of s (lt_ e)), (other_flag s (lt_ e)), (firstop o (lt_ e)); cbn;
    (split; [intros []; cbn; destruct r; cbn; rewrite ?andb_true_r, ?andb_false_r; reflexivity|]);
    (split; [destruct r; cbn; rewrite ?orb_true_r, ?orb_false_r; reflexivity|]);
    (split; [intros []; cbn; destruct r; cbn; rewrite ?orb_true_r, ?orb_false_r; reflexivity|destruct r; reflexivity]).
Qed.
Lemma by_events L : forall r,
  (forall b, sflag b (fold_left (update_by_event s) L r) = true <-> sflag b r = true /\ forall e, In e L -> bad o v b (lt_ e) = false)
  /\ (ss_has_continuous_intersection (fold_left (update_by_event s) L r) = true <->
      ss_has_continuous_intersection r = true \/ exists e, In e L /\ meet v (lt_ e) = true)
  /\ (forall b, iflag b (fold_left (update_by_event s) L r) = true <->
      iflag b r = true \/ exists e, In e L /\ evfirst o e = b /\ within v (lt_ e) = true)
  /\ ss_boundaries_intersect (fold_left (update_by_event s) L r) = ss_boundaries_intersect r.
Proof.
  induction L as [|e L IH]; intros r; cbn [fold_left].
  - split; [|split; [|split; auto]].
    + intros b. split; [intros A; split; auto; intros e []|tauto].
    + split; auto. intros [A|(e & [] & _)]; auto.
    + intros b. split; auto. intros [A|(e & [] & _)]; auto.
  - destruct (IH (update_by_event s r e)) as (A & B & D & E). destruct (by_event r e) as (A' & B' & D' & E').
    split; [|split; [|split; [|congruence]]].
    + intros b. rewrite A, A', andb_true_iff, negb_true_iff. split.
      * intros [[Q1 Q2] Q3]. split; auto. intros x [<-|Ix]; auto.
      * intros [Q1 Q2]. split; [split; auto; apply Q2; left; auto|]. intros x Ix. apply Q2. right; auto.
    + rewrite B, B', orb_true_iff. split.
      * intros [[Q|Q]|(x & Ix & Q)]; [left; auto|right; exists e; split; [left; auto|auto]|right; exists x; split; [right; auto|auto]].
      * intros [Q|(x & [<-|Ix] & Q)]; [left; left; auto|left; right; auto|right; exists x; auto].
    + intros b. rewrite D, D', orb_true_iff, andb_true_iff, Bool.eqb_true_iff. split.
      * intros [[Q|[Q1 Q2]]|(x & Ix & Q)]; [left; auto|right; exists e; split; [left; auto|auto]|right; exists x; split; [right; auto|auto]].
      * intros [Q|(x & [<-|Ix] & Q)]; [left; left; auto|left; right; auto|right; exists x; auto].
Qed.
(** Edges of one operand on both sides of the boundary of the other. *)
Definition crossing (L : list event) (f : bool) : Prop := exists e e', In e L /\ In e' L /\ evfirst o e = f /\ evfirst o e' = f
  /\ within v (lt_ e) = true /\ without v (lt_ e') = true.
Definition remembered (L : list event) (f : bool) (flag : option bool) : Prop :=
  forall b, flag = Some b -> exists e, In e L /\ evfirst o e = f /\ kind_of s (lt_ e) = NO_OVERLAP /\ other_flag s (lt_ e) = b.
Lemma cross_loop L : forall seen sf ff, remembered seen false sf -> remembered seen true ff ->
  edges_cross_loop s L sf ff = true -> exists f, crossing (seen ++ L) f.
Proof.
  induction L as [|e L IH]; intros seen sf ff Rs Rf E; cbn [edges_cross_loop] in E; [discriminate|].
  assert (Mono : forall f g, remembered seen f g -> remembered (seen ++ [e]) f g).
  { intros f g R b Q. destruct (R b Q) as (x & Ix & D). exists x. split; auto. apply in_or_app. left; auto. }
  replace (seen ++ e :: L) with ((seen ++ [e]) ++ L) by (rewrite <- app_assoc; reflexivity).
  destruct (kind_is (kind_of s (lt_ e)) NO_OVERLAP) eqn:Ek; [|apply (IH (seen ++ [e]) sf ff); auto].
  assert (Ek' : kind_of s (lt_ e) = NO_OVERLAP) by (destruct (kind_of s (lt_ e)); auto; discriminate).
  assert (New : remembered (seen ++ [e]) (firstop o (lt_ e)) (Some (other_flag s (lt_ e)))).
  { intros b Q. injection Q as <-. exists e. split; [apply in_or_app; right; left; auto|]. split; auto. }
  assert (Found : forall b, remembered seen (firstop o (lt_ e)) (Some b) -> Bool.eqb b (other_flag s (lt_ e)) = false ->
    exists f, crossing ((seen ++ [e]) ++ L) f).
  { intros b R Q. destruct (R b eq_refl) as (x & Ix & Fx & Kx & Ox).
    assert (I1 : In x ((seen ++ [e]) ++ L)) by (apply in_or_app; left; apply in_or_app; left; auto).
    assert (I2 : In e ((seen ++ [e]) ++ L)) by (apply in_or_app; left; apply in_or_app; right; left; auto).
    exists (firstop o (lt_ e)). unfold crossing, within, without. cbn [vk vo view_of].
    destruct b.
    - exists x, e. split; auto. split; auto. split; auto. split; auto. rewrite Kx, Ek', Ox. cbn.
      split; auto. destruct (other_flag s (lt_ e)); auto; discriminate.
    - exists e, x. split; auto. split; auto. split; auto. split; auto. rewrite Kx, Ek', Ox. cbn.
      split; auto. destruct (other_flag s (lt_ e)); auto; discriminate. }
  destruct (firstop o (lt_ e)) eqn:Ef.
  - destruct ff as [b|].
    + destruct (Bool.eqb b (other_flag s (lt_ e))) eqn:Eb; [apply (IH (seen ++ [e]) sf (Some b)); auto|].
      apply (Found b); auto.
    + apply (IH (seen ++ [e]) sf (Some (other_flag s (lt_ e)))); auto.
  - destruct sf as [b|].
    + destruct (Bool.eqb b (other_flag s (lt_ e))) eqn:Eb; [apply (IH (seen ++ [e]) (Some b) ff); auto|].
      apply (Found b); auto.
    + apply (IH (seen ++ [e]) (Some (other_flag s (lt_ e))) ff); auto.
Qed.
Lemma has_cross L : has_edges_cross s L = true -> exists f, crossing L f.
Proof. intros E. apply (cross_loop L [] None None) in E; auto; intros b Q; discriminate. Qed.
End Fold.

Section Update.
Variable c : ctx.
Hypothesis G : good c.
Hypothesis N : nc c.
Variable int : list bool.
Variable sel : bool -> bool -> overlap_kind -> bool.
Hypothesis Ee : evn c.
Variable init : bool -> bool.
Notation S' := (SX c). Notation E' := (EX c). Notation h := (hh c). Notation k := (kk c).
Notation EV := (EVX c). Notation inv := (inv c).
Notation flags := (flags c int sel).
(** What is known when all the events before [t] were taken into account. *)
Record described (o : operation) (v : view) (t : Qc) (r : shaped_state) : Prop := {
  d_sub : forall b, sflag b r = true <-> init b = true /\ forall l, popped o l -> S' o l < t -> bad o v b l = false;
  d_cont : ss_has_continuous_intersection r = true <-> exists l, popped o l /\ S' o l < t /\ meet v l = true;
  d_int : extreme r = false -> forall b, iflag b r = true <->
    exists l, popped o l /\ S' o l < t /\ firstop o l = b /\ within v l = true;
  d_bnd : extreme r = false -> ss_boundaries_intersect r = true <->
    exists x y, (x < size o)%nat /\ (y < size o)%nat /\ ~ In x (op_queue o) /\ ~ In y (op_queue o)
      /\ EV o x = EV o y /\ EV o x < t /\ evfirst o x = true /\ evfirst o y = false }.

Section At.
Variables (s : shaped_operation) (t : Qc) (group : list event).
Notation o := (so s).
Notation v := (view_of s).
Notation lt_ e := (to_left_event o e).
Hypothesis V : inv o t.
Hypothesis Gm : forall e, In e group <-> (e < size o)%nat /\ ~ In e (op_queue o) /\ EV o e = t.
Hypothesis Gn : group <> [].
Hypothesis Qt : forall x, In x (op_queue o) -> t < EV o x.
Hypothesis Fl : flags o nobody v.
Let C := v_core c o t V.
Let W := i_wf c o t C.
Lemma past x : (x < size o)%nat -> ~ In x (op_queue o) -> EV o x <= t.
Proof.
  intros Lx Qx. destruct (is_event_left x) eqn:R.
  - apply (i_S _ _ _ C x). split; [split; auto|auto].
  - destruct (k_opp o (w_linked c o W) x Lx) as (Lo & Oo & Eo). rewrite R in Eo. cbn in Eo.
    assert (D : done o (opp o x)) by (split; [split; auto|rewrite Oo; auto]).
    pose proof (i_E _ _ _ C _ D) as E. unfold EX in E. rewrite Oo in E. exact E.
Qed.
(** The handled pieces. *)
Lemma handled t' l : t < t' -> (popped o l /\ S' o l < t') <-> (popped o l /\ S' o l < t) \/ exists e, In e group /\ lt_ e = l.
Proof.
  intros Lt. split.
  - intros [P L]. pose proof (i_S _ _ _ C l P) as Le. destruct (Qcle_lt_or_eq _ _ Le) as [A|A]; [left; auto|right].
    exists l. split; [apply Gm; split; [apply P|split; [apply P|exact A]]|]. unfold to_left_event.
    destruct P as [[P _] _]. rewrite P. reflexivity.
  - intros [[P L]|(e & Ie & <-)]; [split; auto; qlra|].
    destruct (group_piece c o t group V Gm Qt e Ie) as (_ & P & L & _). split; auto. qlra.
Qed.
Variable r : shaped_state.
Hypothesis D : described o v t r.
Hypothesis Nx : extreme r = false.
(** The effect of a list of the pieces of the group that stands for all of them. *)
Lemma stands (L : list event) (r0 : shaped_state) t' : t < t' -> incl L group ->
  (forall e, In e group -> exists e', In e' L /\ evfirst o e' = evfirst o e /\ vo v (lt_ e') = vo v (lt_ e) /\ vk v (lt_ e') = vk v (lt_ e)) ->
  (forall b, sflag b r0 = sflag b r) -> ss_has_continuous_intersection r0 = ss_has_continuous_intersection r ->
  (forall b, iflag b r0 = iflag b r) ->
  (ss_boundaries_intersect r0 = true <-> ss_boundaries_intersect r = true
     \/ exists x y, In x group /\ In y group /\ evfirst o x = true /\ evfirst o y = false) ->
  described o v t' (fold_left (update_by_event s) L r0).
Proof.
  intros Lt Inc Rep R1 R2 R3 R4. destruct (by_events s L r0) as (A1 & A2 & A3 & A4).
  constructor.
  - intros b. rewrite A1, R1, (d_sub _ _ _ _ D b). split.
    + intros [[I0 B] B2]. split; auto. intros l P Ls.
      destruct (proj1 (handled t' l Lt) (conj P Ls)) as [[_ Q]|(e & Ie & <-)]; [apply B; auto|].
      destruct (Rep e Ie) as (e' & Ie' & F' & O' & K'). specialize (B2 e' Ie').
      unfold bad, within, without in *. rewrite O', K' in B2. unfold is_event_from_first_operand in F'. rewrite F' in B2. exact B2.
    + intros [I0 B]. split; [split; auto|].
      * intros l P Ls. apply B; auto. qlra.
      * intros e Ie. destruct (proj2 (handled t' (lt_ e) Lt)) as [P Q]; [right; exists e; split; auto|]. apply B; auto.
  - rewrite A2, R2, (d_cont _ _ _ _ D). split.
    + intros [(l & P & Ls & M)|(e & Ie & M)].
      * exists l. split; auto. split; auto. qlra.
      * destruct (proj2 (handled t' (lt_ e) Lt)) as [P Q]; [right; exists e; split; auto|]. exists (lt_ e). auto.
    + intros (l & P & Ls & M). destruct (proj1 (handled t' l Lt) (conj P Ls)) as [[_ Q]|(e & Ie & <-)]; [left; exists l; auto|].
      right. destruct (Rep e Ie) as (e' & Ie' & F' & O' & K'). exists e'. split; auto. unfold meet, within in *. rewrite O', K'. exact M.
  - intros _ b. rewrite A3, R3, (d_int _ _ _ _ D Nx b). split.
    + intros [(l & P & Ls & M)|(e & Ie & F & M)].
      * exists l. split; auto. split; auto. qlra.
      * destruct (proj2 (handled t' (lt_ e) Lt)) as [P Q]; [right; exists e; split; auto|]. exists (lt_ e). auto.
    + intros (l & P & Ls & F & M). destruct (proj1 (handled t' l Lt) (conj P Ls)) as [[_ Q]|(e & Ie & <-)]; [left; exists l; auto|].
      right. destruct (Rep e Ie) as (e' & Ie' & F' & O' & K'). exists e'. split; auto. split; [rewrite F'; exact F|]. unfold within in *. rewrite O', K'. exact M.
  - intros _. rewrite A4, R4, (d_bnd _ _ _ _ D Nx). split.
    + intros [(x & y & Lx & Ly & Qx & Qy & E1 & E2 & F1 & F2)|(x & y & Ix & Iy & F1 & F2)].
      * exists x, y. repeat (split; [assumption|]). split; [qlra|]. split; auto.
      * destruct (proj1 (Gm x) Ix) as (Lx & Qx & Tx). destruct (proj1 (Gm y) Iy) as (Ly & Qy & Ty).
        exists x, y. split; auto. split; auto. split; auto. split; auto. split; [congruence|]. split; [rewrite Tx; auto|auto].
    + intros (x & y & Lx & Ly & Qx & Qy & E1 & E2 & F1 & F2). pose proof (past x Lx Qx) as Px.
      destruct (Qcle_lt_or_eq _ _ Px) as [A|A].
      * left. exists x, y. repeat (split; [assumption|]). assumption.
      * right. exists x, y. split; [apply Gm; auto|]. split; [apply Gm; split; auto; split; auto; congruence|auto].
Qed.
Lemma update_shaped_spec : exists r', update_shaped s group r = Some r' /\ forall t', t < t' -> described o v t' r'.
Proof.
  unfold update_shaped. destruct (all_same (map (evfirst o) group)) eqn:Es.
  - assert (Same : forall x y, In x group -> In y group -> evfirst o x = evfirst o y).
    { intros x y Ix Iy. apply (proj1 (all_same_spec _) Es); apply in_map; auto. }
    destruct group as [|e0 rest] eqn:Eg; [congruence|]. rewrite <- Eg in *. assert (Hd : hd O group = e0) by (rewrite Eg; reflexivity). rewrite Hd.
    assert (I0 : In e0 group) by (rewrite Eg; left; auto).
    set (f := evfirst o e0). assert (Sf : forall x, In x group -> evfirst o x = f) by (intros x Ix; apply Same; auto).
    assert (Kd : forall x, In x group -> vk v (lt_ x) = NO_OVERLAP) by (intros x Ix; apply (alone_kind c N int sel o t group V Gm Qt f Sf v Fl x Ix)).
    assert (Ot : forall x, In x group -> vo v (lt_ x) = vo v (lt_ e0)).
    { intros x Ix. rewrite !(alone_other c G int sel Ee o t group V Gm Qt f Sf v Fl) by auto.
      assert (Q : pt o x = pt o e0).
      { apply (Proof_Sweep.X_inj c G); [apply event_pt; auto; apply Gm; auto|apply event_pt; auto; apply Gm; auto|].
        destruct (proj1 (Gm x) Ix) as (_ & _ & A). destruct (proj1 (Gm e0) I0) as (_ & _ & B). unfold EVX in A, B. congruence. }
      rewrite Q. reflexivity. }
    exists (update_by_event s r e0). split.
    + pose proof (Kd e0 I0) as K0. cbn [vk view_of] in K0. unfold update_by_event, classify_event. cbv zeta. rewrite K0.
      destruct (other_flag s (lt_ e0)); reflexivity.
    + intros t' Lt. apply (stands [e0] r t' Lt); auto.
      * intros x [<-|[]]. auto.
      * intros x Ix. exists e0. split; [left; auto|]. split; [rewrite (Sf x Ix); reflexivity|]. split; [symmetry; apply Ot; auto|].
        rewrite (Kd x Ix). apply Kd; auto.
      * split; auto. intros [A|(x & y & Ix & Iy & F1 & F2)]; auto. pose proof (Same x y Ix Iy). congruence.
  - destruct (has_edges_cross s group) eqn:Ec.
    + eexists. split; [reflexivity|]. intros t' Lt. apply has_cross in Ec. destruct Ec as (f & e & e' & Ie & Ie' & F1 & F2 & M1 & M2).
      destruct (proj2 (handled t' (lt_ e) Lt)) as [P Q]; [right; exists e; split; auto|].
      destruct (proj2 (handled t' (lt_ e') Lt)) as [P' Q']; [right; exists e'; split; auto|].
      constructor.
      * intros b. split; [destruct b; discriminate|]. intros [_ B]. exfalso.
        unfold is_event_from_first_operand in F1, F2.
        destruct (Bool.bool_dec b f) as [->|Nb].
        -- specialize (B _ P' Q'). unfold bad in B. rewrite F2, Bool.eqb_reflx, M2 in B. discriminate.
        -- specialize (B _ P Q). unfold bad in B. rewrite F1 in B. destruct (Bool.eqb f b) eqn:E; [apply Bool.eqb_prop in E; congruence|]. congruence.
      * split; auto. intros _. exists (lt_ e). split; auto. split; auto. unfold meet. rewrite M1. reflexivity.
      * intros X0. discriminate.
      * intros X0. discriminate.
    + eexists. split; [reflexivity|]. intros t' Lt. apply (stands group _ t' Lt); auto.
      * intros x Ix. exact Ix.
      * intros x Ix. exists x. auto.
      * cbn. split; auto. intros _. right.
        assert (Ex : exists x y, In x group /\ In y group /\ evfirst o x <> evfirst o y).
        { clear - Es. destruct group as [|e0 rest]; [discriminate|].
          assert (A : (exists x, In x rest /\ evfirst o x <> evfirst o e0) \/ (forall x, In x rest -> evfirst o x = evfirst o e0)).
          { induction rest as [|x rest IH]; [right; intros x []|].
            destruct (Bool.bool_dec (evfirst o x) (evfirst o e0)) as [Q|Q]; [|left; exists x; split; [left; auto|auto]].
            assert (Es' : all_same (map (evfirst o) (e0 :: rest)) = false).
            { destruct (all_same (map (evfirst o) (e0 :: rest))) eqn:T; auto. rewrite <- Es. symmetry. apply all_same_spec.
              pose proof (proj1 (all_same_spec _) T) as T'. cbn [map]. intros a b Ia Ib.
              assert (Z : forall a, In a (evfirst o e0 :: evfirst o x :: map (evfirst o) rest) -> a = evfirst o e0).
              { intros z [<-|[<-|Iz]]; auto. apply T'; [right; auto|left; auto]. }
              rewrite (Z a Ia), (Z b Ib). reflexivity. }
            destruct (IH Es') as [(z & Iz & Nz)|A]; [left; exists z; split; [right; auto|auto]|right].
            intros z [<-|Iz]; auto. }
          destruct A as [(x & Ix & Nx)|A]; [exists x, e0; split; [right; auto|split; [left; auto|auto]]|].
          exfalso. rewrite (proj2 (all_same_spec _)) in Es; [discriminate|].
          assert (Z : forall a, In a (map (evfirst o) (e0 :: rest)) -> a = evfirst o e0).
          { intros a Ia. apply in_map_iff in Ia. destruct Ia as (x & <- & [<-|Ix]); auto. }
          intros a b Ia Ib. rewrite (Z a Ia), (Z b Ib). reflexivity. }
        destruct Ex as (x & y & Ix & Iy & Nf).
        destruct (evfirst o x) eqn:Fx; destruct (evfirst o y) eqn:Fy; try (exfalso; apply Nf; reflexivity);
          [exists x, y|exists y, x]; split; auto.
Qed.
End At.
End Update.
