(** [Segment.relate_to] for a multisegment: the intervals of the segment covered by
    the segments of the multisegment. *)
From Coq Require Import QArith Qcanon Bool List ZArith Lia.
From Verif Require Import QcTac Model_Base Model_Geometry Model_Segment Model_Contour Model_Relate
  Spec_Base Spec_Segment Spec_Clip Spec_Relate Proof_Base Proof_Line Proof_SegRel Proof_SegOps Proof_SegOps2.
Import ListNotations.
Local Open Scope Qc_scope.

Notation half x y := ((x + y) / (1 + 1)).
Lemma half_twice x y : half x y + half x y = x + y.
Proof. field. discriminate. Qed.

(** ** Intervals *)
Definition inside_iv (w : Qc) (c : Qc * Qc) : Prop := fst c <= w /\ w <= snd c.

Lemma gap_disjoint u v p q : u < v -> p < q ->
  (forall w, u < w -> w < v -> ~ (p <= w /\ w <= q)) -> q <= u \/ v <= p.
Proof.
  intros L M G. destruct (Qclt_le_dec u q) as [A|A]; [|auto].
  destruct (Qclt_le_dec p v) as [B|B]; [|auto]. exfalso.
  assert (X : exists lo, u <= lo /\ p <= lo /\ lo < v /\ lo < q).
  { destruct (Qclt_le_dec u p); [exists p|exists u]; repeat split; qlra. }
  destruct X as (lo & X1 & X2 & X3 & X4).
  assert (Y : exists hi, hi <= v /\ hi <= q /\ lo < hi).
  { destruct (Qclt_le_dec v q); [exists v|exists q]; repeat split; qlra. }
  destruct Y as (hi & Y1 & Y2 & Y3). pose proof (half_twice lo hi) as H.
  apply (G (half lo hi)); [| |split]; revert H; generalize (half lo hi); intros h H; qlra.
Qed.

Lemma greatest_end (cs : list (Qc * Qc)) (w : Qc) :
  (exists c, In c cs /\ fst c <= w) ->
  exists c, In c cs /\ fst c <= w /\ forall c', In c' cs -> fst c' <= w -> snd c' <= snd c.
Proof.
  induction cs as [|c cs IH]; [intros (c & [] & _)|]. intros (c0 & I0 & L0).
  assert (K : (exists c', In c' cs /\ fst c' <= w) \/ forall c', In c' cs -> w < fst c').
  { clear. induction cs as [|c cs [(c' & I & L)|A]].
    - right. intros c' [].
    - left. exists c'. cbn; auto.
    - destruct (Qclt_le_dec w (fst c)) as [L|L].
      + right. intros c' [<-|I]; auto.
      + left. exists c. cbn; auto. }
  destruct K as [K|K].
  - destruct (IH K) as (m & Im & Lm & Gm).
    destruct (Qclt_le_dec w (fst c)) as [L|L].
    + exists m. repeat split; cbn; auto. intros c' [<-|I] L'; auto. qlra.
    + destruct (Qclt_le_dec (snd m) (snd c)) as [M|M].
      * exists c. repeat split; cbn; auto. intros c' [<-|I] L'; [qlra|]. specialize (Gm c' I L'). qlra.
      * exists m. repeat split; cbn; auto. intros c' [<-|I] L'; auto.
  - destruct I0 as [<-|I0]; [|specialize (K c0 I0); qlra].
    exists c. repeat split; cbn; auto. intros c' [<-|I] L'; [qlra|]. specialize (K c' I). qlra.
Qed.

(** A chain of intervals from [x] to [y] covers everything between. *)
Lemma chain_covers (cs : list (Qc * Qc)) x y w :
  (forall c, In c cs -> fst c < snd c) ->
  (exists c, In c cs /\ fst c = x) ->
  (forall c, In c cs -> snd c = y \/ exists c', In c' cs /\ fst c' = snd c) ->
  x <= w -> w <= y -> exists c, In c cs /\ inside_iv w c.
Proof.
  intros P (c0 & I0 & E0) C Lx Ly.
  destruct (greatest_end cs w) as (c & I & L & G); [exists c0; split; auto; qlra|].
  exists c. split; auto. split; auto. destruct (Qclt_le_dec (snd c) w) as [M|M]; auto. exfalso.
  destruct (C c I) as [E|(c' & I' & E')]; [qlra|].
  assert (L' : fst c' <= w) by qlra. specialize (G c' I' L'). specialize (P c' I'). qlra.
Qed.

(** If the chain is broken, some open interval is free. *)
Lemma broken_chain (cs : list (Qc * Qc)) c :
  (forall c, In c cs -> fst c < snd c) ->
  (forall c c', In c cs -> In c' cs -> c = c' \/ snd c <= fst c' \/ snd c' <= fst c) ->
  In c cs -> (forall c', In c' cs -> fst c' <> snd c) ->
  forall hi, snd c < hi -> exists hi', snd c < hi' /\ hi' <= hi /\
    forall w, snd c < w -> w < hi' -> forall c', In c' cs -> ~ inside_iv w c'.
Proof.
  intros P D I N hi L.
  assert (K : forall c', In c' cs -> snd c' <= snd c \/ snd c < fst c').
  { intros c' I'. destruct (D c c' I I') as [<-|[E|E]].
    - left. qlra.
    - right. specialize (N c' I'). qne; qlra.
    - left. specialize (P c I). qlra. }
  revert K. clear -L. induction cs as [|d cs IH]; intros K.
  - exists hi. split; [auto|split; [qlra|]]. intros w _ _ c' [].
  - destruct IH as (hi' & A & B & C); [intros c' I'; apply K; cbn; auto|].
    destruct (K d (or_introl eq_refl)) as [E|E].
    + exists hi'. repeat split; auto. intros w W1 W2 c' [<-|I'].
      * intros (_ & Q). qlra.
      * apply C; auto.
    + destruct (Qclt_le_dec (fst d) hi') as [M|M].
      * exists (fst d). repeat split; auto; [qlra|]. intros w W1 W2 c' [<-|I'].
        -- intros (Q & _). qlra.
        -- apply C; auto. qlra.
      * exists hi'. repeat split; auto. intros w W1 W2 c' [<-|I'].
        -- intros (Q & _). qlra.
        -- apply C; auto.
Qed.

Section Line.
Variables (a b : point).
Hypothesis L : lex_lt a b.
Notation base := (Seg a b).
Lemma a_neq_b : a <> b.
Proof. apply lex_lt_neq; auto. Qed.
Lemma on_base w : on_seg base (lerp a b w) <-> 0 <= w /\ w <= 1.
Proof.
  pose proof (between_lerp a b 0 1 w L) as K. rewrite lerp_0, lerp_1 in K. apply K. qlra.
Qed.
Lemma base_ex p : on_seg base p -> exists w, p = lerp a b w /\ 0 <= w /\ w <= 1.
Proof. intros (w & A & B & ->). eauto. Qed.

(** Segments that share no continuum with the base leave room in every interval. *)
Lemma room (l : list segment) lo hi : Forall proper_seg l -> lo < hi -> 0 <= lo -> hi <= 1 ->
  exists lo' hi', lo <= lo' /\ lo' < hi' /\ hi' <= hi /\
    forall t w, In t l -> ~ share_continuum base t -> lo' < w -> w < hi' -> ~ on_seg t (lerp a b w).
Proof.
  induction l as [|t l IH]; intros P M B1 B2.
  - exists lo, hi. repeat split; auto; try qlra; intros ? ? [].
  - inversion P as [|? ? Pt_ Pl]; subst. destruct (IH Pl M B1 B2) as (lo' & hi' & A & B & C & D).
    assert (X : share_continuum base t \/ ~ share_continuum base t).
    { destruct (segment_relate_total base t a_neq_b Pt_) as (r & E).
      apply (segment_relate_spec base t r a_neq_b Pt_) in E.
      destruct r; cbn in E; try contradiction.
      - left. apply subset_continuum; try apply E; exact a_neq_b.
      - left. apply share_continuum_sym, subset_continuum; try apply E; auto.
      - right. destruct E as (p & K & _). exact (only_common_no_continuum _ _ _ K).
      - right. intros (p & q & _ & H1 & H2 & _). eauto.
      - left. apply subset_continuum; [exact a_neq_b|]. intros p. apply E.
      - left. apply E.
      - right. destruct E as (p & K & _). exact (only_common_no_continuum _ _ _ K). }
    destruct X as [X|X].
    + exists lo', hi'. repeat split; auto. intros t' w [<-|I] N; [contradiction|]. apply D; auto.
    + destruct (not_share_common base t a_neq_b Pt_ X) as [(p & Op & Ot & U)|N].
      * destruct (base_ex p Op) as (w0 & -> & W0 & W1).
        destruct (Qclt_le_dec lo' w0) as [M1|M1].
        -- assert (Y : exists hi'', lo' < hi'' /\ hi'' <= hi' /\ hi'' <= w0).
           { destruct (Qclt_le_dec w0 hi'); [exists w0|exists hi']; repeat split; qlra. }
           destruct Y as (hi'' & Y1 & Y2 & Y3). exists lo', hi''. repeat split; auto; [qlra|].
           intros t' w [<-|I] N Z1 Z2.
           ++ intros O. assert (E : lerp a b w = lerp a b w0).
              { apply U; auto. apply on_base. split; qlra. }
              apply lerp_inj in E; [|exact a_neq_b]. qlra.
           ++ apply D; auto. qlra.
        -- exists lo', hi'. repeat split; auto. intros t' w [<-|I] N Z1 Z2.
           ++ intros O. assert (E : lerp a b w = lerp a b w0).
              { apply U; auto. apply on_base. split; qlra. }
              apply lerp_inj in E; [|exact a_neq_b]. qlra.
           ++ apply D; auto.
      * exists lo', hi'. repeat split; auto. intros t' w [<-|I] NS Z1 Z2.
        -- intros O. apply N. exists (lerp a b w). split; auto. apply on_base. split; qlra.
        -- apply D; auto.
Qed.
End Line.
