(** The plane sweep, part 17: points of an arrangement. *)
From Coq Require Import QArith Qcanon Bool List Arith Lia.
From Verif Require Import QcTac Model_Base Model_Utils Model_Linear Spec_Base Spec_Segment Spec_Clip
  Spec_Sweep Proof_Base Proof_Line Proof_SegRel Proof_SegOps Proof_SegLoops Proof_SegUnion Proof_Sweep Proof_Sweep9 Proof_Sweep15
  Proof_Sweep16.
Import ListNotations.
Local Open Scope Qc_scope.

(** A part of a way that meets none of finitely many points. *)
Lemma walk (P : list point) p q : p <> q -> exists r, strictly_between p q r
  /\ (forall x, strictly_between p r x -> strictly_between p q x)
  /\ forall x, In x P -> ~ strictly_between p r x.
Proof.
  intros N. assert (Tr : forall r, strictly_between p q r -> forall x, strictly_between p r x -> strictly_between p q x).
  { intros r (t & T0 & T1 & ->) x (u & U0 & U1 & ->). exists (t * u). split; [qnra|]. split; [qnra|].
    unfold lerp; cbn; f_equal; ring. }
  induction P as [|x P (r & R1 & R2 & R3)].
  - exists (lerp p q (/ (1 + 1))). assert (Q : strictly_between p q (lerp p q (/ (1 + 1)))).
    { exists (/ (1 + 1)). split; [reflexivity|]. split; reflexivity. }
    split; auto. split; [apply Tr; auto|]. intros x [].
  - destruct (point_dec p r) as [E|Nr].
    { exfalso. apply strictly_between_iff in R1; auto. destruct R1 as (_ & A & _). auto. }
    assert (Dc : {strictly_between p r x} + {~ strictly_between p r x}).
    { destruct (between_dec p r x) as [B|B].
      - destruct (point_dec x p) as [E|N1]; [right; intros Q; apply strictly_between_iff in Q; tauto|].
        destruct (point_dec x r) as [E|N2]; [right; intros Q; apply strictly_between_iff in Q; tauto|].
        left. apply strictly_between_iff; auto.
      - right. intros Q. apply B, strictly_between_between; auto. }
    destruct Dc as [D|D].
    + exists x. assert (Sx : strictly_between p q x) by auto. split; auto. split; [apply Tr; auto|].
      intros y [<-|I] Q.
      * apply strictly_between_iff in Q; [tauto|]. apply strictly_between_iff in D; auto. intros ->. tauto.
      * apply (R3 y I). destruct D as (t & T0 & T1 & ->), Q as (u & U0 & U1 & ->).
        exists (t * u). split; [qnra|]. split; [qnra|]. unfold lerp; cbn; f_equal; ring.
    + exists r. split; auto. split; auto. intros y [<-|I]; auto.
Qed.

Lemma not_open (x y s : Qc) : ~ ((x < s /\ s < y) \/ (y < s /\ s < x)) ->
  (s <= x /\ s <= y) \/ (x <= s /\ y <= s).
Proof.
  intros N. destruct (Qclt_le_dec x s) as [A|A], (Qclt_le_dec y s) as [B|B].
  - right; split; qlra.
  - destruct (Qclt_le_dec s y); [exfalso; apply N; left; auto|right; split; qlra].
  - destruct (Qclt_le_dec s x); [exfalso; apply N; right; auto|right; split; qlra].
  - left; auto.
Qed.
(** Where no endpoint of [s] is met, [s] is not left. *)
Lemma stay u s p q m : proper_seg u -> proper_seg s -> seg_subset s u -> on_seg u p -> on_seg u q -> p <> q ->
  strictly_between p q m -> on_seg s m ->
  ~ strictly_between p q (seg_start s) -> ~ strictly_between p q (seg_end s) ->
  inside_seg s m /\ on_seg s p.
Proof.
  intros Pu Ps Sb Op Oq N M Om N1 N2.
  assert (A : on_seg u (seg_start s)) by (apply Sb, between_start).
  assert (B : on_seg u (seg_end s)) by (apply Sb, between_end).
  destruct u as [a b]; unfold proper_seg, on_seg in *; cbn [seg_start seg_end] in *.
  destruct Op as (tp & _ & _ & ->), Oq as (tq & _ & _ & ->), A as (s0 & _ & _ & Ea), B as (s1 & _ & _ & Eb).
  destruct s as [x y]. cbn [seg_start seg_end] in *. subst x y. unfold inside_seg. cbn [seg_start seg_end].
  pose proof M as M'. destruct M' as (v & _ & _ & Em). rewrite lerp_lerp in Em. set (tm := tp + v * (tq - tp)) in Em.
  clearbody tm. subst m.
  assert (N' : tp <> tq) by (intros ->; auto). assert (Ns : s0 <> s1) by (intros ->; auto).
  assert (SB : forall i j l, i <> j -> strictly_between (lerp a b i) (lerp a b j) (lerp a b l) <->
    (i < l /\ l < j) \/ (j < l /\ l < i)).
  { intros i j l Nij. rewrite strictly_between_iff by (intros Q; apply lerp_eq in Q; auto).
    rewrite between_lerp' by auto. rewrite !(lerp_eq a b) by auto. split.
    - intros ([Q|Q] & Q1 & Q2); [left|right]; qne; split; qlra.
    - intros Q. split; [destruct Q; [left|right]; split; qlra|]. split; intros ->; destruct Q; qlra. }
  rewrite SB in M, N1, N2 by auto. rewrite between_lerp' in Om by auto.
  rewrite SB by auto. rewrite between_lerp' by auto.
  pose proof (not_open _ _ _ N1) as C1. pose proof (not_open _ _ _ N2) as C2.
  destruct M as [M|M], Om as [O|O], C1 as [C1|C1], C2 as [C2|C2]; try (exfalso; qlra);
    (split; [(left; split; qlra) + (right; split; qlra)|(left; split; qlra) + (right; split; qlra)]).
Qed.

(** Walking along a proper segment from one of its points. *)
Lemma way_inside s p : proper_seg s -> on_seg s p -> exists e, e <> p /\ on_seg s e
  /\ forall r, strictly_between p e r -> inside_seg s r.
Proof.
  intros P O. assert (Q : exists e, e <> p /\ endpoint_of s e).
  { destruct (point_dec (seg_start s) p) as [<-|Ne].
    - exists (seg_end s). split; [apply not_eq_sym; auto|right; auto].
    - exists (seg_start s). split; auto. left; auto. }
  destruct Q as (e & Ne & En). exists e. split; auto. split; [apply endpoint_on; auto|].
  intros r R. unfold inside_seg. unfold on_seg in O. destruct s as [a b]; cbn [seg_start seg_end proper_seg] in *.
  destruct O as (t & T0 & T1 & ->). destruct R as (v & V0 & V1 & ->).
  destruct En as [En|En]; cbn in En; subst e.
  - exists (t + v * (0 - t)). assert (T : t <> 0) by (intros ->; apply Ne; symmetry; apply lerp_0).
    split; [qne; qnra|]. split; [qne; qnra|]. unfold lerp; cbn; f_equal; ring.
  - exists (t + v * (1 - t)). assert (T : t <> 1) by (intros ->; apply Ne; symmetry; apply lerp_1).
    split; [qne; qnra|]. split; [qne; qnra|]. unfold lerp; cbn; f_equal; ring.
Qed.

(** Meeting at endpoints only. *)
Lemma meet_ends_tod s t : proper_seg s -> proper_seg t ->
  (forall p, on_seg s p -> on_seg t p -> endpoint_of s p /\ endpoint_of t p) -> touch_or_disjoint s t.
Proof.
  intros Ps Pt M. assert (NS : ~ share_continuum s t).
  { intros (p & q & N & A & B & C & D).
    set (m := lerp p q (/ (1 + 1))). assert (Sm : strictly_between p q m).
    { exists (/ (1 + 1)). split; [reflexivity|]. split; reflexivity. }
    assert (Os : on_seg s m) by (apply (on_seg_convex s p q m); auto).
    assert (Ot : on_seg t m) by (apply (on_seg_convex t p q m); auto).
    destruct (M m Os Ot) as [E _]. destruct (M p A B) as [E1 _]. destruct (M q C D) as [E2 _].
    apply strictly_between_iff in Sm; auto. destruct Sm as (_ & S1 & S2).
    destruct E as [E|E], E1 as [E1|E1], E2 as [E2|E2]; congruence. }
  destruct (not_share_cases s t Ps Pt NS) as [(p & (A & B & _) & I & _)|[T|D]].
  - exfalso. destruct (M p A B) as [E _]. apply (endpoint_not_inside s p); auto.
  - left; auto.
  - right; auto.
Qed.

Lemma tod_no_inside s t p : touch_or_disjoint s t -> proper_seg s -> proper_seg t ->
  inside_seg s p -> inside_seg t p -> False.
Proof.
  intros T Ps Pt Is It. destruct T as [(q & (A & B & C) & E)|D].
  - assert (p = q) by (apply C; apply inside_on; auto). subst q.
    destruct E as [E|E]; [apply (endpoint_not_inside s p)|apply (endpoint_not_inside t p)]; auto.
  - apply D. exists p. split; apply inside_on; auto.
Qed.

(** ** Arrangements *)
Section Points.
Variables (first second : list segment) (limit : option Qc) (L : list (segment * nat)).
Notation inputs := (first ++ second).
Hypothesis N1 : non_crossing first.
Hypothesis N2 : non_crossing second.
Hypothesis A : arranged first second limit L.

Lemma part_proper s i : In (s, i) L -> proper_seg s.
Proof. intros I. destruct (a_part _ _ _ _ A s i I) as (u & _ & P & _). auto. Qed.
Lemma input_proper i u : nth_error inputs i = Some u -> proper_seg u.
Proof.
  intros E. apply nth_error_In in E. pose proof (inputs_proper first second N1 N2) as F.
  rewrite Forall_forall in F. auto.
Qed.

(** Equal pieces belong to different operands. *)
Lemma one_each s i j : In (s, i) L -> In (s, j) L -> i <> j ->
  (i <? length first)%nat <> (j <? length first)%nat.
Proof.
  intros I J N E. destruct (a_part _ _ _ _ A s i I) as (u & Eu & P & Su).
  destruct (a_part _ _ _ _ A s j J) as (v & Ev & _ & Sv).
  destruct (nth_error_side first second i j u v E N Eu Ev) as (r & i' & j' & Hr & N' & F1 & F2).
  assert (T : touch_or_disjoint u v).
  { destruct Hr as [-> | ->]; [apply (non_crossing_nth first i' j')|apply (non_crossing_nth second i' j')]; auto. }
  apply (tod_no_share u v T). exists (seg_start s), (seg_end s). split; auto.
  pose proof (between_start (seg_start s) (seg_end s)) as B1.
  pose proof (between_end (seg_start s) (seg_end s)) as B2.
  split; [apply Su; exact B1|]. split; [apply Sv; exact B1|]. split; [apply Su; exact B2|apply Sv; exact B2].
Qed.

(** Different pieces do not cross. *)
Lemma pieces_apart s i t j : In (s, i) L -> In (t, j) L -> s <> t -> touch_or_disjoint s t.
Proof.
  intros I J N. apply meet_ends_tod; try (eapply part_proper; eauto; fail).
  intros p Os Ot. destruct (a_meet _ _ _ _ A s i t j p) as [|Q]; auto; [congruence|contradiction].
Qed.
Lemma list_non_crossing l : NoDup l -> (forall s, In s l -> exists i, In (s, i) L) -> non_crossing l.
Proof.
  intros ND H. split.
  - apply Forall_forall. intros s I. destruct (H s I) as (i & J). eapply part_proper; eauto.
  - induction ND as [|s l NI ND IH]; constructor.
    + apply Forall_forall. intros t I. destruct (H s (or_introl eq_refl)) as (i & Ii).
      destruct (H t (or_intror I)) as (j & Jj). apply (pieces_apart s i t j); auto. congruence.
    + apply IH. intros t I. apply H. right; auto.
Qed.

(** A way along a whole input starts with a piece. *)
Definition whole (u : segment) : Prop := forall x q, limit = Some x -> on_seg u q -> px q <= x.
Lemma way_start i u p q : nth_error inputs i = Some u -> whole u -> on_seg u p -> on_seg u q -> p <> q ->
  exists s m, In (s, i) L /\ on_seg s p /\ inside_seg s m /\ strictly_between p q m.
Proof.
  intros E Wh Op Oq N.
  destruct (walk (flat_map (fun e => [seg_start (fst e); seg_end (fst e)]) L) p q N) as (r & R1 & R2 & R3).
  assert (Nr : p <> r) by (intros <-; apply strictly_between_iff in R1; tauto).
  set (m := lerp p r (/ (1 + 1))). assert (Sm : strictly_between p r m).
  { exists (/ (1 + 1)). split; [reflexivity|]. split; reflexivity. }
  assert (Or : on_seg u r) by (apply (on_seg_convex u p q r); auto).
  assert (Om : on_seg u m) by (apply (on_seg_convex u p r m); auto).
  destruct (a_whole _ _ _ _ A i u m E Om) as [(s & I & O)|(x & y & El & Oy & Lx)].
  - destruct (a_part _ _ _ _ A s i I) as (u' & E' & Ps & Sb). assert (u' = u) by congruence. subst u'.
    destruct (stay u s p r m) as [Im Osp]; auto.
    + eapply input_proper; eauto.
    + apply R3. apply in_flat_map. exists (s, i). split; auto. left; auto.
    + apply R3. apply in_flat_map. exists (s, i). split; auto. right; left; auto.
    + exists s, m. auto.
  - exfalso. pose proof (Wh x y El Oy). qlra.
Qed.

Lemma covered p : limit = None -> ((exists s i, In (s, i) L /\ on_seg s p) <-> on_segs inputs p).
Proof.
  intros El. split.
  - intros (s & i & I & O). destruct (a_part _ _ _ _ A s i I) as (u & E & _ & Sb).
    exists u. split; [eapply nth_error_In; eauto|auto].
  - intros (u & I & O). apply In_nth_error in I. destruct I as (i & E).
    destruct (a_whole _ _ _ _ A i u p E O) as [(s & J & Q)|(x & q & Q & _)]; [|congruence].
    exists s, i. auto.
Qed.

Lemma nth_first i u : nth_error inputs i = Some u -> (i < length first)%nat -> In u first.
Proof. intros E Li. rewrite nth_error_app1 in E by auto. eapply nth_error_In; eauto. Qed.
Lemma nth_second i u : nth_error inputs i = Some u -> (length first <= i)%nat -> In u second.
Proof. intros E Li. rewrite nth_error_app2 in E by auto. eapply nth_error_In; eauto. Qed.
Lemma first_nth u : In u first -> exists i, (i < length first)%nat /\ nth_error inputs i = Some u.
Proof.
  intros I. apply In_nth_error in I. destruct I as (i & E).
  assert (Li : (i < length first)%nat) by (apply nth_error_Some; congruence).
  exists i. split; auto. rewrite nth_error_app1; auto.
Qed.
Lemma second_nth u : In u second -> exists i, (length first <= i)%nat /\ nth_error inputs i = Some u.
Proof.
  intros I. apply In_nth_error in I. destruct I as (i & E). exists (length first + i)%nat.
  split; [lia|]. rewrite nth_error_app2 by lia. rewrite <- E. f_equal. lia.
Qed.

(** *** Intersection *)
Lemma pair_common s i j p : In (s, i) L -> In (s, j) L -> i <> j -> on_seg s p ->
  on_common_continuum_lists first second p.
Proof.
  assert (Go : forall i j, In (s, i) L -> In (s, j) L -> (i < length first)%nat -> (length first <= j)%nat ->
    on_seg s p -> on_common_continuum_lists first second p).
  { clear i j. intros i j I J Li Lj O.
    destruct (a_part _ _ _ _ A s i I) as (u & Eu & P & Su). destruct (a_part _ _ _ _ A s j J) as (v & Ev & _ & Sv).
    exists u, v. split; [eapply nth_first; eauto|]. split; [eapply nth_second; eauto|].
    split; auto. exists (seg_start s), (seg_end s). split; auto.
    pose proof (between_start (seg_start s) (seg_end s)) as B1.
    pose proof (between_end (seg_start s) (seg_end s)) as B2.
    split; [apply Su; exact B1|]. split; [apply Sv; exact B1|]. split; [apply Su; exact B2|apply Sv; exact B2]. }
  intros I J N O. pose proof (one_each s i j I J N) as D.
  destruct (Nat.ltb_spec i (length first)), (Nat.ltb_spec j (length first)); try congruence.
  - apply (Go i j); auto.
  - apply (Go j i); auto.
Qed.
Lemma common_pair_whole i j u v p : nth_error inputs i = Some u -> nth_error inputs j = Some v -> i <> j ->
  whole u -> on_common_continuum u v p -> exists s, In (s, i) L /\ In (s, j) L /\ on_seg s p.
Proof.
  intros Eu Ev N Wh (Sh & Ou & Ov).
  assert (Q : exists q, p <> q /\ on_seg u q /\ on_seg v q).
  { destruct Sh as (a & b & Nab & A1 & A2 & A3 & A4). destruct (point_dec p a) as [->|].
    - exists b. auto.
    - exists a. auto. }
  destruct Q as (q & Npq & Q1 & Q2).
  destruct (way_start i u p q Eu Wh Ou Q1 Npq) as (s & m & I & Os & Im & Sm).
  exists s. split; auto. split; auto. apply (a_match _ _ _ _ A s i j v m I N Ev Im).
  apply (on_seg_convex v p q m); auto.
Qed.
Lemma common_pair p : Forall whole first \/ Forall whole second ->
  ((exists s i j, i <> j /\ In (s, i) L /\ In (s, j) L /\ on_seg s p)
   <-> on_common_continuum_lists first second p).
Proof.
  intros Wh. split.
  - intros (s & i & j & N & I & J & O). apply (pair_common s i j p); auto.
  - intros (u & v & Iu & Iv & Q). apply first_nth in Iu. apply second_nth in Iv.
    destruct Iu as (i & Li & Ei), Iv as (j & Lj & Ej). assert (N : i <> j) by lia.
    destruct Wh as [Wh|Wh]; rewrite Forall_forall in Wh.
    + destruct (common_pair_whole i j u v p Ei Ej N) as (s & I & J & O); auto.
      * apply Wh. eapply nth_first; eauto.
      * exists s, i, j. auto.
    + destruct (common_pair_whole j i v u p Ej Ei) as (s & I & J & O); auto.
      * apply Wh. eapply nth_second; eauto.
      * apply common_continuum_sym; auto.
      * exists s, i, j. auto.
Qed.

(** *** Differences *)
Lemma rest_first s i p : In (s, i) L -> (i < length first)%nat -> (forall j, In (s, j) L -> (j < length first)%nat) ->
  on_seg s p -> in_difference_lists first second p.
Proof.
  intros I Li F O. destruct (a_part _ _ _ _ A s i I) as (u & Eu & P & Su).
  exists u. split; [eapply nth_first; eauto|]. split; auto.
  destruct (way_inside s p P O) as (q & Nq & Oq & W). exists q. split; auto. split; auto.
  intros r R (v & Iv & Ov). apply W in R. apply second_nth in Iv. destruct Iv as (j & Lj & Ej).
  assert (J : In (s, j) L) by (apply (a_match _ _ _ _ A s i j v r I); auto; lia).
  apply F in J. lia.
Qed.
Lemma rest_second s i p : In (s, i) L -> (length first <= i)%nat -> (forall j, In (s, j) L -> (length first <= j)%nat) ->
  on_seg s p -> in_difference_lists second first p.
Proof.
  intros I Li F O. destruct (a_part _ _ _ _ A s i I) as (u & Eu & P & Su).
  exists u. split; [eapply nth_second; eauto|]. split; auto.
  destruct (way_inside s p P O) as (q & Nq & Oq & W). exists q. split; auto. split; auto.
  intros r R (v & Iv & Ov). apply W in R. apply first_nth in Iv. destruct Iv as (j & Lj & Ej).
  assert (J : In (s, j) L) by (apply (a_match _ _ _ _ A s i j v r I); auto; lia).
  apply F in J. lia.
Qed.
Lemma first_rest p : Forall whole first -> in_difference_lists first second p ->
  exists s i, In (s, i) L /\ (i < length first)%nat /\ (forall j, In (s, j) L -> j = i) /\ on_seg s p.
Proof.
  intros Wh (u & Iu & Ou & q & Nq & Oq & W). rewrite Forall_forall in Wh. pose proof (Wh u Iu) as Whu.
  apply first_nth in Iu. destruct Iu as (i & Li & Ei).
  destruct (way_start i u p q Ei Whu Ou Oq (fun e => Nq (eq_sym e))) as (s & m & I & Os & Im & Sm).
  exists s, i. split; auto. split; auto. split; auto. intros j J.
  destruct (Nat.eq_dec j i) as [|N]; auto. exfalso.
  pose proof (one_each s i j I J (fun e => N (eq_sym e))) as D.
  destruct (Nat.ltb_spec i (length first)); [|lia]. destruct (Nat.ltb_spec j (length first)); [congruence|].
  destruct (a_part _ _ _ _ A s j J) as (v & Ev & _ & Sv). apply (W m Sm). exists v.
  split; [eapply nth_second; eauto|]. apply Sv, inside_on; auto.
Qed.
Lemma second_rest p : Forall whole second -> in_difference_lists second first p ->
  exists s i, In (s, i) L /\ (length first <= i)%nat /\ (forall j, In (s, j) L -> j = i) /\ on_seg s p.
Proof.
  intros Wh (u & Iu & Ou & q & Nq & Oq & W). rewrite Forall_forall in Wh. pose proof (Wh u Iu) as Whu.
  apply second_nth in Iu. destruct Iu as (i & Li & Ei).
  destruct (way_start i u p q Ei Whu Ou Oq (fun e => Nq (eq_sym e))) as (s & m & I & Os & Im & Sm).
  exists s, i. split; auto. split; auto. split; auto. intros j J.
  destruct (Nat.eq_dec j i) as [|N]; auto. exfalso.
  pose proof (one_each s i j I J (fun e => N (eq_sym e))) as D.
  destruct (Nat.ltb_spec i (length first)); [lia|]. destruct (Nat.ltb_spec j (length first)); [|congruence].
  destruct (a_part _ _ _ _ A s j J) as (v & Ev & _ & Sv). apply (W m Sm). exists v.
  split; [eapply nth_first; eauto|]. apply Sv, inside_on; auto.
Qed.
End Points.
