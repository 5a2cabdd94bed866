(** Moving a point off finitely many places, and the even-odd rule. *)
From Coq Require Import QArith Qcanon Bool List Arith Lia Permutation.
From Verif Require Import QcTac Model_Base Model_Geometry Model_Contour Spec_Base Spec_Segment Spec_Contour Spec_Clip Spec_Relate Spec_Shaped
  Proof_Base Proof_Line Proof_Locate Proof_Locate3 Proof_Locate4 Proof_Corner Proof_Parity Proof_Ray Proof_Nested.
Import ListNotations.
Local Open Scope Qc_scope.

Lemma Qcmult_nonneg (a b : Qc) : 0 <= a -> 0 <= b -> 0 <= a * b. Proof. intros. qnra. Qed.
Lemma Qcmult_pos (a b : Qc) : 0 < a -> 0 < b -> 0 < a * b. Proof. intros. qnra. Qed.
(** A short enough horizontal move misses a segment that does not contain the point. *)
Lemma miss_one e q : ~ on_seg e q -> exists d, 0 < d /\ forall s, 0 <= s -> s <= d -> ~ on_seg e (Pt (px q + s) (py q)).
Proof.
  intros Off. destruct e as [a b]. unfold on_seg in *. cbn [seg_start seg_end] in *.
  destruct (Qc_eq_dec (py a) (py b)) as [Eh|Nh].
  - destruct (Qc_eq_dec (py a) (py q)) as [Eq|Nq].
    + destruct (Qclt_le_dec (px q) (px a)) as [La|La], (Qclt_le_dec (px q) (px b)) as [Lb|Lb].
      * destruct (Qclt_le_dec (px a) (px b)) as [Lab|Lab].
        -- destruct (qmid 0 (px a - px q)) as (d & D1 & D2); [qlra|]. exists d. split; auto. intros s S0 S1 (t & T0 & T1 & E).
           apply (f_equal px) in E. unfold lerp in E; cbn [px] in E. assert (0 <= t * (px b - px a)) by (apply Qcmult_nonneg; qlra). qlra.
        -- destruct (qmid 0 (px b - px q)) as (d & D1 & D2); [qlra|]. exists d. split; auto. intros s S0 S1 (t & T0 & T1 & E).
           apply (f_equal px) in E. unfold lerp in E; cbn [px] in E. assert (0 <= (1 - t) * (px a - px b)) by (apply Qcmult_nonneg; qlra).
           replace (px a + t * (px b - px a)) with (px b + (1 - t) * (px a - px b)) in E by ring. qlra.
      * exfalso. apply Off. exists ((px q - px a) / (px b - px a)). assert (D : px b - px a < 0) by qlra. assert (D' : px b - px a <> 0) by (intros Z; qlra).
        set (t := (px q - px a) / (px b - px a)). assert (Et : t * (px b - px a) = px q - px a) by (unfold t; field; auto). clearbody t.
        split; [|split].
        -- apply Qcnot_lt_le. intros Q. assert (0 < (- t) * (- (px b - px a))) by (apply Qcmult_pos; qlra).
           replace (- t * - (px b - px a)) with (t * (px b - px a)) in * by ring. qlra.
        -- apply Qcnot_lt_le. intros Q. assert (0 < (t - 1) * (- (px b - px a))) by (apply Qcmult_pos; qlra).
           replace ((t - 1) * - (px b - px a)) with ((px b - px a) - t * (px b - px a)) in * by ring. qlra.
        -- unfold lerp. apply point_ext; cbn [px py]; [rewrite Et; ring|rewrite Eh in *; rewrite <- Eq; ring].
      * exfalso. apply Off. assert (D : 0 < px b - px a) by qlra. assert (D' : px b - px a <> 0) by (intros Z; qlra). exists ((px q - px a) / (px b - px a)).
        set (t := (px q - px a) / (px b - px a)). assert (Et : t * (px b - px a) = px q - px a) by (unfold t; field; auto). clearbody t.
        split; [|split].
        -- apply Qcnot_lt_le. intros Q. assert (0 < (- t) * (px b - px a)) by (apply Qcmult_pos; qlra).
           replace (- t * (px b - px a)) with (- (t * (px b - px a))) in * by ring. qlra.
        -- apply Qcnot_lt_le. intros Q. assert (0 < (t - 1) * (px b - px a)) by (apply Qcmult_pos; qlra).
           replace ((t - 1) * (px b - px a)) with (t * (px b - px a) - (px b - px a)) in * by ring. qlra.
        -- unfold lerp. apply point_ext; cbn [px py]; [rewrite Et; ring|rewrite Eh in *; rewrite <- Eq; ring].
      * assert (Ne : px q <> px a).
        { intros Z. apply Off. exists 0. split; [apply Qcle_refl|]. split; [qlra|]. unfold lerp. apply point_ext; cbn [px py]; [rewrite Z; ring|rewrite Eq; ring]. }
        assert (Ne' : px q <> px b).
        { intros Z. apply Off. exists 1. split; [qlra|]. split; [apply Qcle_refl|]. unfold lerp. apply point_ext; cbn [px py]; [rewrite Z; ring|rewrite <- Eq, <- Eh; ring]. }
        exists 1. split; [qlra|]. intros s S0 S1 (t & T0 & T1 & E). apply (f_equal px) in E. unfold lerp in E; cbn [px] in E.
        assert (0 <= t * (px q - px b)) by (apply Qcmult_nonneg; qlra). assert (0 <= (1 - t) * (px q - px a)) by (apply Qcmult_nonneg; qlra).
        assert (Z : s + (t * (px q - px b) + (1 - t) * (px q - px a)) = 0).
        { replace (t * (px q - px b) + (1 - t) * (px q - px a)) with (px q - (px a + t * (px b - px a))) by ring. rewrite <- E. ring. }
        assert (s = 0) by qlra. assert (Z1 : t * (px q - px b) = 0) by qlra. assert (Z2 : (1 - t) * (px q - px a) = 0) by qlra.
        apply Qcmult_integral in Z1. apply Qcmult_integral in Z2. destruct Z1 as [Z1|Z1], Z2 as [Z2|Z2].
        -- qlra.
        -- apply Ne. qlra.
        -- apply Ne'. qlra.
        -- apply Ne. qlra.
    + exists 1. split; [qlra|]. intros s _ _ (t & _ & _ & E). apply (f_equal py) in E. unfold lerp in E; cbn [py] in E.
      apply Nq. rewrite E. rewrite Eh. ring.
  - assert (D' : py b - py a <> 0) by (intros Z; apply Nh; qlra).
    set (u := (py q - py a) / (py b - py a)). set (s0 := px a + u * (px b - px a) - px q).
    assert (Un : forall s t, Pt (px q + s) (py q) = lerp a b t -> t = u /\ s = s0).
    { intros s t E. pose proof (f_equal px E) as Ex. pose proof (f_equal py E) as Ey. unfold lerp in Ex, Ey; cbn [px py] in Ex, Ey.
      assert (t = u) by (unfold u; rewrite Ey; field; auto). split; auto. unfold s0. subst t. rewrite <- Ex. ring. }
    destruct (Qclt_le_dec 0 s0) as [P|P].
    + destruct (qmid 0 s0 P) as (d & D1 & D2). exists d. split; auto. intros s S0 S1 (t & T0 & T1 & E). apply Un in E. destruct E as [_ E]. qlra.
    + exists 1. split; [qlra|]. intros s S0 S1 (t & T0 & T1 & E). pose proof (Un _ _ E) as [E1 E2]. assert (Es : s = 0) by qlra. apply Off.
      exists t. split; auto. split; auto. rewrite <- E, Es. apply point_ext; cbn; ring.
Qed.
Lemma miss_all segs q : ~ on_segs segs q -> exists d, 0 < d /\ forall s, 0 <= s -> s <= d -> ~ on_segs segs (Pt (px q + s) (py q)).
Proof.
  induction segs as [|e segs IH]; intros Off.
  - exists 1. split; [qlra|]. intros s _ _ (x & [] & _).
  - destruct IH as (d & P & B); [intros (x & I & O); apply Off; exists x; split; auto; right; auto|].
    destruct (miss_one e q) as (d' & P' & B'); [intros O; apply Off; exists e; split; auto; left; auto|].
    exists (if qltb d d' then d else d'). destruct (qltb_spec d d') as [L|L].
    + split; auto. intros s S0 S1 (x & [<-|I] & O); [apply (B' s); auto; qlra|apply (B s); auto; exists x; auto].
    + split; auto. intros s S0 S1 (x & [<-|I] & O); [apply (B' s); auto; qlra|apply (B s); auto; [qlra|exists x; auto]].
Qed.
(** A nearby point that is none of the given ones, joined to [q] without meeting the segments. *)
Lemma shift segs (F : list point) q : ~ on_segs segs q ->
  exists q', ~ In q' F /\ forall e x, In e segs -> on_seg e x -> ~ on_seg (Seg q q') x.
Proof.
  intros Off. set (F' := map (fun f => Seg f f) (filter (fun f => negb (point_eq f q)) F)).
  assert (Sg : forall f x, on_seg (Seg f f) x <-> x = f).
  { intros f x. unfold on_seg, between; cbn [seg_start seg_end]. split.
    - intros (t & _ & _ & ->). unfold lerp. apply point_ext; cbn; ring.
    - intros ->. exists 0. split; [apply Qcle_refl|]. split; [qlra|]. unfold lerp. apply point_ext; cbn; ring. }
  destruct (miss_all (segs ++ F') q) as (d & P & B).
  - intros (x & I & O). apply in_app_or in I. destruct I as [I|I]; [apply Off; exists x; auto|].
    unfold F' in I. apply in_map_iff in I. destruct I as (f & <- & I). apply Sg in O. apply filter_In in I. destruct I as [_ I].
    rewrite O in I. destruct (point_eq f f) eqn:Q; [discriminate|]. rewrite (proj2 (point_eq_true f f) eq_refl) in Q. discriminate.
  - exists (Pt (px q + d) (py q)). split.
    + intros I. apply (B d); [qlra|apply Qcle_refl|]. exists (Seg (Pt (px q + d) (py q)) (Pt (px q + d) (py q))). split; [|apply Sg; auto].
      apply in_or_app. right. unfold F'. apply (in_map (fun f => Seg f f)). apply filter_In. split; auto.
      destruct (point_eq (Pt (px q + d) (py q)) q) eqn:Q; auto. apply point_eq_true in Q. exfalso. apply (f_equal px) in Q. cbn [px] in Q. qlra.
    + intros e x I O (t & T0 & T1 & E). cbn [seg_start seg_end] in E.
      assert (Ex : x = Pt (px q + t * d) (py q)) by (rewrite E; unfold lerp; apply point_ext; cbn [px py]; ring). rewrite Ex in O. clear E Ex.
      apply (B (t * d)); [apply Qcmult_nonneg; qlra| |exists e; split; [apply in_or_app; auto|exact O]].
      assert (0 <= (1 - t) * d) by (apply Qcmult_nonneg; qlra). replace ((1 - t) * d) with (d - t * d) in * by ring. qlra.
Qed.

(** The even-odd rule. *)
Definition insideb (vs : list point) (q : point) : bool := match region_location vs q with INTERIOR => true | _ => false end.
Lemma insideb_true vs q : insideb vs q = true <-> inside_ring vs q.
Proof. unfold insideb, inside_ring. destruct (region_location vs q); split; intros; congruence. Qed.
Lemma counts_odd l q : exists k, counts (fun vs => inside_ring vs q) l k /\ Nat.odd k = xsum (fun vs => insideb vs q) l.
Proof.
  induction l as [|vs l (k & C & O)]; [exists 0%nat; split; [constructor|auto]|]. cbn [xsum]. destruct (insideb vs q) eqn:B.
  - exists (S k). split; [constructor; auto; apply insideb_true; auto|]. rewrite Nat.odd_succ, <- Nat.negb_odd, O. destruct (xsum _ l); auto.
  - exists k. split; [constructor; auto; intros Q; apply insideb_true in Q; congruence|]. rewrite O. destruct (xsum _ l); auto.
Qed.
Lemma counts_fun {A} (P : A -> Prop) l j k : counts P l j -> counts P l k -> j = k.
Proof. intros C. revert k. induction C; intros k D; inversion D; subst; auto; contradiction. Qed.
Lemma odd_xsum l q : inside_odd l q <-> xsum (fun vs => insideb vs q) l = true.
Proof.
  destruct (counts_odd l q) as (k & C & O). split.
  - intros (j & Cj & Oj). rewrite (counts_fun _ _ _ _ Cj C) in Oj. congruence.
  - intros Q. exists k. split; auto. congruence.
Qed.
Lemma insideb_parity vs q : ~ on_contour vs q -> insideb vs q = parity (edges vs) q.
Proof.
  intros Off. pose proof (inside_parity vs q Off) as E. rewrite <- insideb_true in E.
  destruct (insideb vs q), (parity (edges vs) q); auto; exfalso; destruct E as [E1 E2]; [specialize (E1 eq_refl)|specialize (E2 eq_refl)]; discriminate.
Qed.
Lemma polygon_odd p q : valid_polygon p -> off_outlines (rings p) q -> (inside_polygon p q <-> inside_odd (rings p) q).
Proof.
  intros V Off. destruct p as [b hs]. destruct V as [_ _ Vw Va]. unfold rings in *; cbn [border holes] in *. rewrite odd_xsum. cbn [xsum].
  unfold inside_polygon. destruct (api_polygon b hs q) as (Ap & _ & _). rewrite Ap. clear Ap.
  specialize (Va q Off). assert (Vw' : forall h, In h hs -> inside_ring h q -> inside_ring b q) by (intros h; apply Vw; auto).
  assert (Nb : forall h, In h (b :: hs) -> region_location h q <> BOUNDARY).
  { intros h I Q. apply api_boundary in Q. apply Off. apply on_outlines. exists h. auto. }
  assert (Hs : (forall h, In h hs -> region_location h q = EXTERIOR) /\ xsum (fun vs => insideb vs q) hs = false
     \/ (exists h, In h hs /\ inside_ring h q) /\ xsum (fun vs => insideb vs q) hs = true).
  { assert (Nb' : forall h, In h hs -> region_location h q <> BOUNDARY) by (intros h I; apply Nb; right; auto). clear Nb Vw Vw' Off.
    induction hs as [|h hs IH]; [left; split; auto; intros h []|]. inversion Va as [|? ? V1 V2]; subst.
    destruct IH as [[E X]|[E X]]; auto; [intros k I; apply Nb'; right; auto| |]; cbn [xsum]; rewrite X; destruct (insideb h q) eqn:B; cbn [xorb].
    - right. split; auto. exists h. split; [left; auto|]. apply insideb_true; auto.
    - left. split; auto. intros k [<-|I]; auto. unfold insideb in B. pose proof (Nb' h (or_introl eq_refl)). destruct (region_location h q); congruence.
    - exfalso. destruct E as (k & I & Ik). rewrite Forall_forall in V1. apply (V1 k I). split; auto. apply insideb_true; auto.
    - right. split; auto. destruct E as (k & I & Ik). exists k. split; auto. right; auto. }
  destruct Hs as [[E ->]|[(h & I & Ih) ->]].
  - rewrite xorb_false_r, insideb_true. unfold inside_ring. tauto.
  - assert (B : insideb b q = true) by (apply insideb_true; apply (Vw' h); auto). rewrite B. cbn [xorb]. split; [|discriminate].
    intros [_ E]. specialize (E h I). unfold inside_ring in Ih. rewrite Ih in E. discriminate E.
Qed.
