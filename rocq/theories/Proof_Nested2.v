(** In a correctly oriented valid polygon an edge leads to the left where the inside is below it. *)
From Coq Require Import QArith Qcanon Bool List Arith Lia Permutation.
From Verif Require Import QcTac Model_Base Model_Utils Model_Geometry Model_Contour Model_Linear Model_Mixed Model_Shaped Proof_Base Proof_Line Proof_SegOps Proof_SegOps2 Proof_SegLoops
  Proof_Bounds Proof_Contour Proof_Contour2 Proof_Edges Proof_Shrink Proof_RelateP Proof_Relate6 Proof_Sweep4 Proof_Sweep6 Proof_Sweep17 Proof_Locate Proof_Locate2 Proof_Locate4 Proof_Parity Proof_Corner
  Proof_Ray Proof_Orient Proof_Nested Spec_Base Spec_Segment Spec_Clip Spec_Contour Spec_Relate Spec_Shaped.
Import ListNotations.
Local Open Scope Qc_scope.

Lemma on_reverse_tod s t p : touch_or_disjoint s t -> on_seg s p -> on_seg t p -> endpoint_of s p \/ endpoint_of t p.
Proof.
  intros [(q & (A & B & U) & E)|D] Os Ot.
  - assert (p = q) by (apply U; auto). subst. auto.
  - exfalso. apply D. exists p. auto.
Qed.

Section Side.
Variable eps : Qc.
Notation X := (Xs eps).
Lemma sound_proper e : proper_seg e -> rising eps [seg_start e; seg_end e] -> sound_edge eps e.
Proof.
  intros P R. unfold sound_edge. pose proof (sorted_pair_lt e P) as L. fold (lo e) (hi e) in L.
  destruct (lo_hi e) as [[A B]|[A B]]; rewrite A, B in *; apply R; cbn; auto.
Qed.
Lemma alone A e B q : non_crossing (A ++ e :: B) -> on_seg e q -> (forall x, In x (A ++ e :: B) -> X (seg_start x) <> X q /\ X (seg_end x) <> X q) ->
  forall x, In x (A ++ B) -> ~ on_seg x q.
Proof.
  intros [_ F] O Gn x I Ox. apply FOP_app_inv in F. destruct F as (_ & F & C).
  assert (T : touch_or_disjoint e x).
  { apply in_app_iff in I. destruct I as [I|I]; [apply touch_or_disjoint_sym, C; auto; left; auto|].
    inversion F as [|? ? F1 F2]; subst. rewrite Forall_forall in F1. auto. }
  assert (J : In x (A ++ e :: B)) by (apply in_app_iff in I; apply in_app_iff; cbn; tauto).
  assert (K : In e (A ++ e :: B)) by (apply in_app_iff; cbn; auto).
  destruct (Gn x J), (Gn e K).
  destruct (on_reverse_tod _ _ _ T O Ox) as [[-> | ->]|[-> | ->]]; congruence.
Qed.
Lemma xsum_all {A} (f g : A -> bool) l : (forall x, In x l -> f x = g x) -> xsum f l = xsum g l.
Proof. apply xsum_ext. Qed.

Theorem polygon_side b hs : valid_polygon (Poly b hs) -> contour_orientation b = COUNTERCLOCKWISE -> (forall h, In h hs -> contour_orientation h = CLOCKWISE) ->
  rising eps (concat (b :: hs)) -> forall e q, In e (outlines (b :: hs)) -> on_seg e q -> (forall v, In v (concat (b :: hs)) -> X v <> X q) ->
  xsum (below_seg eps q) (outlines (b :: hs)) = negb (segment_flag e).
Proof.
  intros [V1 V2 V3 V4] Ob Oh Ri e q Ie On Gn. unfold rings in *; cbn [border holes] in *.
  assert (Vx : forall r x, In r (b :: hs) -> In x (edges r) -> In (seg_start x) (concat (b :: hs)) /\ In (seg_end x) (concat (b :: hs))).
  { intros r x I J. apply edges_In in J. destruct J. split; apply in_concat; exists r; auto. }
  assert (Ge : forall x, In x (outlines (b :: hs)) -> X (seg_start x) <> X q /\ X (seg_end x) <> X q).
  { intros x I. apply in_flat_map in I. destruct I as (r & I & J). destruct (Vx r x I J). auto. }
  assert (Sd : Forall (sound_edge eps) (outlines (b :: hs))).
  { apply Forall_forall. intros x I. destruct V2 as [Pr _]. rewrite Forall_forall in Pr. apply sound_proper; auto.
    apply in_flat_map in I. destruct I as (r & I & J). destruct (Vx r x I J) as [J1 J2]. intros u w [<-|[<-|[]]] [<-|[<-|[]]]; apply Ri; auto. }
  destruct (nudge eps (outlines (b :: hs)) q Sd) as (up & dn & Xu & Xd & Fu & Fd & Nu).
  { intros x I. destruct (Ge x I). destruct (lo_hi x) as [[-> ->]|[-> ->]]; auto. }
  assert (Par : forall z r, X z = X q -> off_outlines (b :: hs) z -> In r (b :: hs) -> (inside_ring r z <-> xsum (below_seg eps z) (edges r) = true)).
  { intros z r Xz Oz I. assert (Oc : ~ on_contour r z) by (intros C; apply Oz, on_outlines; exists r; auto).
    rewrite (inside_parity r z Oc). rewrite (parity_below eps); [tauto| | |apply even_edges].
    - intros (s & J & Os). apply Oc. exists s. auto.
    - intros v Iv. rewrite Xz. apply Gn. apply in_flat_map in Iv. destruct Iv as (x & J & K). destruct (Vx r x I J). destruct K as [<-|[<-|[]]]; auto. }
  assert (Same : forall r, (forall x, In x (edges r) -> In x (outlines (b :: hs)) /\ ~ on_seg x q) ->
    xsum (below_seg eps up) (edges r) = xsum (below_seg eps q) (edges r) /\ xsum (below_seg eps dn) (edges r) = xsum (below_seg eps q) (edges r)).
  { intros r Nr. split; apply xsum_ext; intros x I; destruct (Nr x I) as [J K]; apply (proj2 (Nu x J) K). }
  assert (Own : forall A B, (forall x, In x (A ++ B) -> In x (outlines (b :: hs)) /\ ~ on_seg x q) ->
    xsum (below_seg eps up) (A ++ e :: B) = negb (xsum (below_seg eps dn) (A ++ e :: B))).
  { intros A B Na. destruct (proj1 (Nu e Ie) On) as (_ & U & D). rewrite !xsum_app. cbn [xsum]. rewrite U, D.
    assert (Ea : xsum (below_seg eps up) A = xsum (below_seg eps dn) A).
    { apply xsum_ext. intros x I. destruct (Na x) as [J K]; [apply in_app_iff; auto|]. destruct (proj2 (Nu x J) K). congruence. }
    assert (Eb : xsum (below_seg eps up) B = xsum (below_seg eps dn) B).
    { apply xsum_ext. intros x I. destruct (Na x) as [J K]; [apply in_app_iff; auto|]. destruct (proj2 (Nu x J) K). congruence. }
    rewrite Ea, Eb. destruct (xsum (below_seg eps dn) A), (xsum (below_seg eps dn) B); auto. }
  assert (Rr : forall r, In r (b :: hs) -> rising eps r).
  { intros r I u w Iu Iw. apply Ri; apply in_concat; exists r; auto. }
  assert (Gr : forall r, In r (b :: hs) -> forall v, In v r -> X v <> X q).
  { intros r I v Iv. apply Gn, in_concat. exists r. auto. }
  rewrite Forall_forall in V1.
  unfold outlines. rewrite xsum_flat.
  apply in_flat_map in Ie as Ie'. destruct Ie' as (r & Ir & Ier). destruct Ir as [<-|Ir].
  - apply in_split in Ier as Sp. destruct Sp as (A & B & Eb).
    assert (Al : forall x, In x (A ++ B ++ outlines hs) -> ~ on_seg x q).
    { apply (alone A e (B ++ outlines hs) q); auto.
      - unfold outlines in *. cbn [flat_map] in V2. rewrite Eb in V2. rewrite <- app_assoc in V2. exact V2.
      - intros x I. apply Ge. unfold outlines. cbn [flat_map]. rewrite Eb. rewrite <- app_assoc. exact I. }
    assert (Ob' : xsum (below_seg eps up) (edges b) = negb (xsum (below_seg eps dn) (edges b))).
    { rewrite Eb. apply Own. intros x I. split.
      - unfold outlines. cbn [flat_map]. rewrite Eb. apply in_app_iff in I. apply in_app_iff. left. apply in_app_iff. cbn. tauto.
      - apply Al. rewrite app_assoc. apply in_app_iff. left. auto. }
    assert (Z : exists z, X z = X q /\ off_outlines (b :: hs) z /\ xsum (below_seg eps z) (edges b) = false
       /\ forall h, In h hs -> xsum (below_seg eps z) (edges h) = xsum (below_seg eps q) (edges h)).
    { assert (Sh : forall h, In h hs -> xsum (below_seg eps up) (edges h) = xsum (below_seg eps q) (edges h) /\ xsum (below_seg eps dn) (edges h) = xsum (below_seg eps q) (edges h)).
      { intros h I. apply Same. intros x J. split; [apply in_flat_map; exists h; split; [right; auto|auto]|].
        apply Al. apply in_app_iff. right. apply in_app_iff. right. apply in_flat_map. exists h. auto. }
      destruct (xsum (below_seg eps dn) (edges b)) eqn:D; [exists up|exists dn]; repeat split; auto; intros h I; apply (Sh h I). }
    destruct Z as (z & Xz & Oz & Zb & Zh). cbn [xsum].
    rewrite (xsum_false _ hs).
    + rewrite (ring_side eps b) with (e := e); auto; [|apply V1; left; auto|apply Rr; left; auto|apply Gr; left; auto].
      rewrite Ob. destruct (segment_flag e); auto.
    + intros h I. rewrite <- (Zh h I). destruct (xsum (below_seg eps z) (edges h)) eqn:Q; auto. exfalso.
      assert (inside_ring h z) by (apply Par; auto; right; auto).
      assert (inside_ring b z) by (apply (V3 z h); auto).
      assert (xsum (below_seg eps z) (edges b) = true) by (apply Par; auto; left; auto). congruence.
  - apply in_split in Ir as Sr. destruct Sr as (H1 & H2 & Eh). apply in_split in Ier as Sp. destruct Sp as (A & B & Eb).
    assert (Eo : outlines (b :: hs) = (edges b ++ outlines H1 ++ A) ++ e :: (B ++ outlines H2)).
    { unfold outlines. rewrite Eh. cbn [flat_map]. rewrite flat_map_app. cbn [flat_map]. rewrite Eb, <- !app_assoc. cbn [app]. auto. }
    assert (Al : forall x, In x ((edges b ++ outlines H1 ++ A) ++ (B ++ outlines H2)) -> ~ on_seg x q).
    { apply (alone _ e _ q); auto; rewrite <- Eo; auto. }
    assert (Ir' : In r (b :: hs)) by (right; auto).
    assert (Or' : xsum (below_seg eps up) (edges r) = negb (xsum (below_seg eps dn) (edges r))).
    { rewrite Eb. apply Own. intros x I. split.
      - rewrite Eo. rewrite !in_app_iff in *. cbn. rewrite in_app_iff. tauto.
      - apply Al. rewrite !in_app_iff in *. tauto. }
    assert (Oth : forall h, In h (b :: H1 ++ H2) -> In h (b :: hs) /\ forall x, In x (edges h) -> In x (outlines (b :: hs)) /\ ~ on_seg x q).
    { intros h I. assert (J : In h (b :: hs)) by (destruct I as [<-|I]; [left; auto|right; rewrite Eh; apply in_app_iff in I; apply in_app_iff; cbn; tauto]).
      split; auto. intros x K. split; [apply in_flat_map; exists h; auto|]. apply Al. rewrite !in_app_iff. destruct I as [<-|I]; [tauto|].
      apply in_app_iff in I. assert (In x (outlines H1) \/ In x (outlines H2)) by (destruct I; [left|right]; apply in_flat_map; exists h; auto). tauto. }
    assert (Z : exists z, X z = X q /\ off_outlines (b :: hs) z /\ xsum (below_seg eps z) (edges r) = true
       /\ forall h, In h (b :: H1 ++ H2) -> xsum (below_seg eps z) (edges h) = xsum (below_seg eps q) (edges h)).
    { assert (Sh : forall h, In h (b :: H1 ++ H2) -> xsum (below_seg eps up) (edges h) = xsum (below_seg eps q) (edges h) /\ xsum (below_seg eps dn) (edges h) = xsum (below_seg eps q) (edges h)).
      { intros h I. apply Same, Oth, I. }
      destruct (xsum (below_seg eps dn) (edges r)) eqn:D; [exists dn|exists up]; repeat split; auto; intros h I; apply (Sh h I). }
    destruct Z as (z & Xz & Oz & Zr & Zh).
    assert (Inr : inside_ring r z) by (apply Par; auto).
    assert (Inb : inside_ring b z) by (apply (V3 z r); auto).
    assert (Sb : xsum (below_seg eps q) (edges b) = true) by (rewrite <- Zh by (left; auto); apply Par; auto; left; auto).
    assert (So : forall h, In h (H1 ++ H2) -> xsum (below_seg eps q) (edges h) = false).
    { intros h I. rewrite <- Zh by (right; auto). destruct (xsum (below_seg eps z) (edges h)) eqn:Q; auto. exfalso.
      assert (inside_ring h z) by (apply Par; auto; apply Oth; right; auto).
      specialize (V4 z Oz). rewrite Eh in V4. apply FOP_app_inv in V4. destruct V4 as (_ & F & C).
      apply in_app_iff in I. destruct I as [I|I]; [apply (C h r); auto; left; auto|].
      inversion F as [|? ? F1 F2]; subst. rewrite Forall_forall in F1. apply (F1 h I). auto. }
    cbn [xsum]. rewrite Eh, xsum_app. cbn [xsum]. rewrite Sb.
    rewrite (xsum_false _ H1) by (intros h I; apply So, in_app_iff; auto). rewrite (xsum_false _ H2) by (intros h I; apply So, in_app_iff; auto).
    rewrite (ring_side eps r) with (e := e); auto; [|apply Gr; auto]. rewrite (Oh r Ir). destruct (segment_flag e); auto.
Qed.
End Side.
