(** [Segment.relate_to] for a multisegment: the invariant of the loop. *)
From Coq Require Import QArith Qcanon Bool List ZArith Lia.
From Verif Require Import QcTac Model_Base Model_Geometry Model_Segment Model_Contour Model_Relate
  Spec_Base Spec_Segment Spec_Clip Spec_Relate Proof_Base Proof_Line Proof_SegRel Proof_SegOps Proof_SegOps2
  Proof_Relate Proof_Relate2.
Import ListNotations.
Local Open Scope Qc_scope.

Section Line.
Variables (a b : point).
Hypothesis L : lex_lt a b.
Notation base := (Seg a b).
Let N : a <> b := a_neq_b a b L.

(** The points of the base that parts lying along it cover. *)
Definition covered (D : list segment) (w : Qc) : Prop :=
  exists t, In t D /\ share_continuum base t /\ on_seg t (lerp a b w).

(** Covered are: what is before [x], what is after [y], and the intervals [cs]. *)
Definition intervals (D : list segment) (x y : Qc) (cs : list (Qc * Qc)) : Prop :=
  0 <= x /\ x <= y /\ y <= 1 /\
  (forall c, In c cs -> x <= fst c /\ fst c < snd c /\ snd c <= y) /\
  (forall c c', In c cs -> In c' cs -> c = c' \/ snd c <= fst c' \/ snd c' <= fst c) /\
  forall w, 0 <= w -> w <= 1 ->
    (covered D w <-> (0 < x /\ w <= x) \/ (y < 1 /\ y <= w) \/ exists c, In c cs /\ inside_iv w c).

Lemma covered_app D t w : covered (D ++ [t]) w <->
  covered D w \/ (share_continuum base t /\ on_seg t (lerp a b w)).
Proof.
  unfold covered. split.
  - intros (t' & I & S). apply in_app_iff in I. destruct I as [I|[<-|[]]]; eauto.
  - intros [(t' & I & S)|S]; [exists t'|exists t]; rewrite in_app_iff; cbn; tauto.
Qed.

Lemma intervals_apart D x y cs t : ~ share_continuum base t ->
  intervals D x y cs -> intervals (D ++ [t]) x y cs.
Proof.
  intros S (A & B & C & E & F & G). repeat split; auto; try apply E; auto.
  - intros H'. apply covered_app in H'. destruct H' as [H'|(H' & _)]; [apply G; auto|contradiction].
  - intros H'. apply covered_app. left. apply G; auto.
Qed.

(** The open interior of a new part is not covered yet. *)
Lemma fresh D t u v : Forall proper_seg D -> at_coords a b t u v ->
  (forall d, In d D -> ~ share_continuum d t) ->
  forall w, u < w -> w < v -> 0 <= w -> w <= 1 -> ~ covered D w.
Proof.
  intros P K F w A B W0 W1 (d & I & S & O).
  rewrite Forall_forall in P.
  destruct (share_coords a b L d (P d I) S) as (u' & v' & K' & S1 & S2).
  apply (at_coords_on a b L d u' v' w K') in O. destruct K' as (M' & E'). destruct K as (M & E).
  apply (F d I).
  assert (X : exists x y, x < y /\ u <= x /\ y <= v /\ u' <= x /\ y <= v').
  { destruct (Qclt_le_dec u u') as [H1|H1], (Qclt_le_dec v v') as [H2|H2];
      [exists u', v|exists u', v'|exists u, v|exists u, v']; repeat split; qlra. }
  destruct X as (x & y & X1 & X2 & X3 & X4 & X5).
  exists (lerp a b x), (lerp a b y). split; [intros Q; apply lerp_inj in Q; auto; qlra|].
  rewrite !(at_coords_on a b L d u' v' _ (conj M' E')), !(at_coords_on a b L t u v _ (conj M E)).
  repeat split; qlra.
Qed.

Lemma fresh_bounds D x y cs t u v : Forall proper_seg D -> at_coords a b t u v ->
  (forall d, In d D -> ~ share_continuum d t) -> intervals D x y cs ->
  forall u' v', u <= u' -> v' <= v -> 0 <= u' -> v' <= 1 -> u' < v' ->
  (0 < x -> x <= u') /\ (y < 1 -> v' <= y) /\
  forall c, In c cs -> snd c <= u' \/ v' <= fst c.
Proof.
  intros P K F (A & B & C & E & G & H) u' v' Q1 Q2 Q3 Q4 Q5.
  pose proof (fresh D t u v P K F) as FR.
  assert (G' : forall p q, p < q -> (forall w, p <= w /\ w <= q -> 0 <= w -> w <= 1 -> covered D w) ->
            q <= u' \/ v' <= p).
  { intros p q M Cov. apply gap_disjoint; auto. intros w W1 W2 W3.
    apply (FR w); try qlra. apply Cov; auto; qlra. }
  split; [|split].
  - intros X. destruct (G' 0 x X) as [Y|Y]; auto; [|qlra].
    intros w W1 W2 W3. apply H; auto. left. tauto.
  - intros Y. destruct (G' y 1 Y) as [X|X]; auto; [|qlra].
    intros w W1 W2 W3. apply H; auto. right; left. tauto.
  - intros c I. destruct (E c I) as (E1 & E2 & E3). apply G'; auto.
    intros w W1 W2 W3. apply H; auto. right; right. exists c. split; auto.
Qed.

(** A part that continues the left end. *)
Lemma intervals_left D x y cs t u v : Forall proper_seg D -> at_coords a b t u v ->
  (forall d, In d D -> ~ share_continuum d t) -> intervals D x y cs ->
  u <= x -> 0 <= v -> v <= 1 -> (u < 0 -> x = 0) -> (0 <= u -> u = x) -> 0 < v ->
  intervals (D ++ [t]) v y cs.
Proof.
  intros P K F IV U V0 V1 UX UX' V2.
  assert (X : x < v).
  { destruct (Qclt_le_dec u 0) as [Z|Z]; [rewrite (UX Z); auto|]. rewrite <- (UX' Z). apply K. }
  pose proof IV as (A & B & C & E & G & H).
  destruct (fresh_bounds D x y cs t u v P K F IV x v U (Qcle_refl v) A V1 X) as (F1 & F2 & F3).
  assert (VY : v <= y) by (destruct (Qc_eq_dec y 1) as [->|]; auto; apply F2; qne; qlra).
  split; [auto|]. split; [auto|]. split; [auto|]. split.
  { intros c I. destruct (E c I) as (E1 & E2 & E3). destruct (F3 c I); [qlra|]. repeat split; auto. }
  split; [auto|]. intros w W0 W1. rewrite covered_app, (H w W0 W1), (at_coords_on a b L t u v w K).
  assert (S : share_continuum base t).
  { apply (coords_share a b L t u v K); auto. destruct K as (K & _). qlra. }
  destruct K as (K & _). split.
  - intros [[(Q1 & Q2)|[Q|Q]]|(_ & Q1 & Q2)]; auto; left; split; auto; qlra.
  - intros [(Q1 & Q2)|[Q|Q]]; auto.
    destruct (Qclt_le_dec x w) as [W|W]; [right; split; auto; split; qlra|].
    destruct (Qclt_le_dec u 0) as [Z|Z].
    + right. split; auto. split; qlra.
    + destruct (Qc_eq_dec x 0) as [->|Nx].
      * right. split; auto. split; qlra.
      * left. left. split; [qne; qlra|auto].
Qed.

Lemma intervals_right D x y cs t u v : Forall proper_seg D -> at_coords a b t u v ->
  (forall d, In d D -> ~ share_continuum d t) -> intervals D x y cs ->
  y <= v -> 0 <= u -> u < 1 -> (1 < v -> y = 1) -> (v <= 1 -> v = y) ->
  intervals (D ++ [t]) x u cs.
Proof.
  intros P K F IV V U0 U1 VY VY'.
  assert (X : u < y).
  { destruct (Qclt_le_dec 1 v) as [Z|Z]; [rewrite (VY Z); auto|]. rewrite <- (VY' Z). apply K. }
  pose proof IV as (A & B & C & E & G & H).
  destruct (fresh_bounds D x y cs t u v P K F IV u y (Qcle_refl u) V U0 C X) as (F1 & F2 & F3).
  assert (XU : x <= u) by (destruct (Qc_eq_dec x 0) as [->|]; auto; apply F1; qne; qlra).
  split; [auto|]. split; [auto|]. split; [qlra|]. split.
  { intros c I. destruct (E c I) as (E1 & E2 & E3). destruct (F3 c I); [|qlra]. repeat split; auto. }
  split; [auto|]. intros w W0 W1. rewrite covered_app, (H w W0 W1), (at_coords_on a b L t u v w K).
  assert (S : share_continuum base t).
  { apply (coords_share a b L t u v K); auto. destruct K as (K & _). qlra. }
  destruct K as (K & _). split.
  - intros [[Q|[(Q1 & Q2)|Q]]|(_ & Q1 & Q2)]; auto; right; left; split; auto; qlra.
  - intros [Q|[(Q1 & Q2)|Q]]; auto.
    destruct (Qclt_le_dec w y) as [W|W]; [right; split; auto; split; qlra|].
    destruct (Qclt_le_dec 1 v) as [Z|Z].
    + right. split; auto. split; qlra.
    + destruct (Qc_eq_dec y 1) as [->|Ny].
      * right. split; auto. split; qlra.
      * left. right. left. split; [qne; qlra|auto].
Qed.

Lemma intervals_mid D x y cs t u v : Forall proper_seg D -> at_coords a b t u v ->
  (forall d, In d D -> ~ share_continuum d t) -> intervals D x y cs ->
  0 <= u -> v <= 1 ->
  intervals (D ++ [t]) x y (cs ++ [(u, v)]).
Proof.
  intros P K F IV U V. pose proof IV as (A & B & C & E & G & H).
  destruct (fresh_bounds D x y cs t u v P K F IV u v (Qcle_refl u) (Qcle_refl v) U V (proj1 K)) as (F1 & F2 & F3).
  assert (S : share_continuum base t).
  { apply (coords_share a b L t u v K); destruct K as (K & _); qlra. }
  assert (XU : x <= u) by (destruct (Qc_eq_dec x 0) as [->|]; auto; apply F1; qne; qlra).
  assert (VY : v <= y) by (destruct (Qc_eq_dec y 1) as [->|]; auto; apply F2; qne; qlra).
  split; [auto|]. split; [auto|]. split; [auto|]. split.
  { intros c I. apply in_app_iff in I. destruct I as [I|[<-|[]]]; auto. cbn. destruct K. auto. }
  split.
  { intros c c' I I'. apply in_app_iff in I, I'. destruct I as [I|[J|[]]], I' as [I'|[J'|[]]].
    - apply G; auto.
    - subst c'. cbn. right. exact (F3 c I).
    - subst c. cbn. right. destruct (F3 c' I'); auto.
    - left. congruence. }
  intros w W0 W1. rewrite covered_app, (H w W0 W1), (at_coords_on a b L t u v w K). split.
  - intros [[Q|[Q|(c & I & Q)]]|(_ & Q)].
    + auto.
    + auto.
    + right; right. exists c. rewrite in_app_iff. auto.
    + right; right. exists (u, v). rewrite in_app_iff. cbn. auto.
  - intros [Q|[Q|(c & I & Q)]]; auto. apply in_app_iff in I. destruct I as [I|[<-|[]]]; eauto 6.
Qed.

(** Whether the base is covered by all the parts, given the covered intervals. *)
Lemma chain_or_gap D x y cs : Forall proper_seg D -> intervals D x y cs ->
  let chain := match cs with
               | [] => x = y
               | _ :: _ => (exists c, In c cs /\ fst c = x) /\ (exists c, In c cs /\ snd c = y) /\
                   forall c, In c cs -> snd c = y \/ exists c', In c' cs /\ fst c' = snd c
               end in
  (chain -> forall p, on_seg base p -> on_segs D p) /\
  (~ chain -> ~ forall p, on_seg base p -> on_segs D p).
Proof.
  intros P (A & B & C & E & G & H) chain.
  assert (Cov : forall w, 0 <= w -> w <= 1 -> covered D w -> on_segs D (lerp a b w)).
  { intros w _ _ (t & I & _ & O). exists t; auto. }
  assert (Gap : forall lo hi, lo < hi -> 0 <= lo -> hi <= 1 ->
     (forall w, lo < w -> w < hi -> ~ covered D w) -> ~ forall p, on_seg base p -> on_segs D p).
  { intros lo hi M B1 B2 Fr All.
    destruct (room a b L D lo hi P M B1 B2) as (lo' & hi' & R1 & R2 & R3 & R4).
    pose proof (half_twice lo' hi') as HT. remember (half lo' hi') as h eqn:Eh. clear Eh.
    assert (h1 : lo' < h) by qlra. assert (h2 : h < hi') by qlra.
    destruct (All (lerp a b h)) as (t & I & O); [apply (on_base a b L); split; qlra|].
    apply (R4 t h I); auto. intros S. apply (Fr h); [qlra|qlra|]. exists t; auto. }
  split.
  - intros Ch p O. destruct (base_ex a b p O) as (w & -> & W0 & W1). apply Cov; auto. apply H; auto.
    destruct (Qclt_le_dec w x) as [X|X]; [left; split; qlra|].
    destruct (Qclt_le_dec y w) as [Y|Y]; [right; left; split; qlra|].
    destruct cs as [|c0 cs].
    + assert (Ch' : x = y) by exact Ch. clear Ch chain. destruct (Qc_eq_dec x 0) as [Z|Z].
      * right; left. split; qlra.
      * left. split; qne; qlra.
    + destruct Ch as (C1 & _ & C3). right; right.
      apply (chain_covers (c0 :: cs) x y w); auto. intros c I. apply E; auto.
  - intros NC. destruct cs as [|c0 cs].
    + assert (NC' : x <> y) by exact NC. clear NC chain. apply (Gap x y); auto; [qne; qlra|].
      intros w W1 W2 K. apply H in K; try qlra. destruct K as [K|[K|(c & [] & _)]]; qlra.
    + set (all := c0 :: cs) in *.
      assert (MinMax : (exists m, In m all /\ forall c, In c all -> fst m <= fst c) /\
                       (exists m, In m all /\ forall c, In c all -> snd c <= snd m)).
      { unfold all. clear. revert c0. induction cs as [|c cs IH]; intros c0.
        - split; exists c0; (split; [left; auto|]); intros c [<-|[]]; qlra.
        - destruct (IH c) as ((m & Im & Gm) & (k & Ik & Gk)). split.
          + destruct (Qclt_le_dec (fst c0) (fst m)) as [Q|Q].
            * exists c0. split; [left; auto|]. intros d [<-|I]; [qlra|]. specialize (Gm d I). qlra.
            * exists m. split; [right; auto|]. intros d [<-|I]; auto.
          + destruct (Qclt_le_dec (snd k) (snd c0)) as [Q|Q].
            * exists c0. split; [left; auto|]. intros d [<-|I]; [qlra|]. specialize (Gk d I). qlra.
            * exists k. split; [right; auto|]. intros d [<-|I]; auto. }
      destruct MinMax as ((m & Im & Gm) & (k & Ik & Gk)).
      destruct (E m Im) as (Em1 & Em2 & Em3). destruct (E k Ik) as (Ek1 & Ek2 & Ek3).
      destruct (Qc_eq_dec (fst m) x) as [X|X].
      2: { apply (Gap x (fst m)); auto; try (qne; qlra). intros w W1 W2 K. apply H in K; try qlra.
           destruct K as [K|[K|(c & I & K1 & K2)]]; [qlra|qlra|]. specialize (Gm c I). qlra. }
      destruct (Qc_eq_dec (snd k) y) as [Y|Y].
      2: { apply (Gap (snd k) y); auto; try (qne; qlra). intros w W1 W2 K. apply H in K; try qlra.
           destruct K as [K|[K|(c & I & K1 & K2)]]; [qlra|qlra|]. specialize (Gk c I). qlra. }
      assert (Br : exists c, In c all /\ snd c <> y /\ forall c', In c' all -> fst c' <> snd c).
      { assert (Dec : forall c : Qc * Qc, (snd c = y \/ exists c', In c' all /\ fst c' = snd c) \/
                      (snd c <> y /\ forall c', In c' all -> fst c' <> snd c)).
        { intros c. destruct (Qc_eq_dec (snd c) y) as [Q|Q]; [auto|].
          destruct (in_dec Qc_eq_dec (snd c) (map fst all)) as [J|J].
          - apply in_map_iff in J. destruct J as (c' & J1 & J2). left; right. eauto.
          - right. split; auto. intros c' I' Q'. apply J. apply in_map_iff. eauto. }
        assert (Q : forall l : list (Qc * Qc), (forall c, In c l -> snd c = y \/ exists c', In c' all /\ fst c' = snd c) \/
                      exists c, In c l /\ snd c <> y /\ forall c', In c' all -> fst c' <> snd c).
        { induction l as [|c l [IH|(c' & I & IH)]].
          - left. intros c [].
          - destruct (Dec c) as [Q|Q]; [|right; exists c; cbn; auto].
            left. intros c' [<-|I]; auto.
          - right. exists c'. cbn; auto. }
        destruct (Q all) as [Q'|Q']; auto. exfalso. apply NC. split; [eauto|]. split; [eauto|]. auto. }
      destruct Br as (c & I & Ny & Nf). destruct (E c I) as (E1 & E2 & E3).
      assert (My : snd c < y) by (qne; qlra).
      destruct (broken_chain all c) with (hi := y) as (hi & H1 & H2 & H3); auto.
      { intros d Id. apply E; auto. }
      apply (Gap (snd c) hi); auto; try qlra. intros w W1 W2 K. apply H in K; try qlra.
      destruct K as [K|[K|(d & Id & K)]]; [qlra|qlra|]. apply (H3 w W1 W2 d Id K).
Qed.
End Line.
