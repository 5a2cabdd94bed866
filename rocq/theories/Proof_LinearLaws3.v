(** Expressions of linear geometries. *)
From Coq Require Import QArith Qcanon Bool List Arith Lia.
From Verif Require Import QcTac Model_Base Model_Box Model_Geometry Model_Contour Model_Segment Model_Linear Model_MixedClip Model_LinearOperators
  Spec_Base Spec_Segment Spec_Clip Spec_Contour Spec_Bounds Spec_Sweep Spec_Shaped Spec_Multipolygon Spec_RelateShaped Spec_Tight Spec_MixedClip Spec_LinearLaws
  Proof_Base Proof_Line Proof_SegRel Proof_SegOps Proof_SegOps2 Proof_SegOps3 Proof_SegLoops Proof_SegUnion Proof_Locate Proof_Sweep17 Proof_Sweep19 Proof_Sweep20
  Proof_RelateMulti3 Proof_Tight7 Proof_Tight9 Proof_Tight10 Proof_Located Proof_LinearLaws1 Proof_LinearLaws2.
Import ListNotations.
Local Open Scope Qc_scope.

Lemma contains_located b p : geometry_contains b p = true <-> geometry_locate b p <> EXTERIOR.
Proof.
  assert (E : geometry_contains b p = negb (location_is (geometry_locate b p) EXTERIOR)) by (destruct b; reflexivity).
  rewrite E. destruct (geometry_locate b p); cbn; split; congruence.
Qed.
Lemma contained_almost a b : linear_input a -> valid_shaped b ->
  almost_same (on_contained_piece a b) (fun p => on_segs (parts a) p /\ geometry_contains b p = true).
Proof.
  intros Va Vb. assert (Pa : Forall proper_seg (parts a)) by (apply linear_proper; destruct a; try exact Va; exact Logic.I).
  pose proof (proper_parts b Vb) as Pb. destruct (lonely (parts a) _ Pa Pb) as (F & H).
  exists F. intros p N. split.
  - intros (s & t & Is & Sub & _ & O & C). split; [exists s; split; [exact Is|apply Sub, O]|apply C, O].
  - intros [O C]. destruct (geometry_locate b p) eqn:L.
    + apply outlined_located in L; [|exact Vb]. destruct L as (t & It & Ot). destruct O as (s & Is & Os).
      rewrite Forall_forall in Pa, Pb.
      destruct (intersect_segments s t (Pa s Is) (Pb t It)) as [(Sh & r & _ & Pr & K)|(Sh & _)].
      * exists s, r. split; [exact Is|]. split; [intros x X; apply K, X|]. split; [exact Pr|]. split; [apply K; split; assumption|].
        intros x X. apply contains_located. assert (B : geometry_locate b x = BOUNDARY).
        { apply outlined_located; [exact Vb|]. exists t. split; [exact It|apply K, X]. }
        rewrite B. discriminate.
      * exfalso. apply N. apply (H s t); assumption.
    + apply contains_located in C. contradiction.
    + destruct O as (s & Is & Os).
      assert (W : on_contained_piece (GSegment s) b p).
      { apply contained_piece; [exact Vb|]. apply inside_walk.
        - apply Forall_forall. intros q Q. apply (each (polygons_of b)); [apply (proj1 (polygons_valid b Vb))|exact Q].
        - apply (proj1 (located b p Vb)), L.
        - rewrite Forall_forall in Pa. apply Pa, Is.
        - exact Os. }
      destruct W as (s' & t & [<-|[]] & W). exists s, t. split; [exact Is|exact W].
Qed.
Lemma linear_inside fuel shape a b : linear_valid a -> valid_shaped b -> (enough (length (parts a) + shaped_size b) <= fuel)%nat ->
  gives (linear_and_shaped fuel shape a b) (on_contained_piece a b)
  /\ gives (linear_and_shaped fuel shape b a) (on_contained_piece a b).
Proof.
  intros Va Vb Fuel. destruct a as [|s|l|vs|p|ps]; try contradiction.
  - assert (N : forall p, on_segs (parts GEmpty) p <-> on_contained_piece GEmpty b p).
    { intros p. split; [intros (s & [] & _)|intros (s & t & [] & _)]. }
    destruct b; try contradiction; cbn [linear_and_shaped]; split; exact (gives_same _ _ _ (gives_itself GEmpty Logic.I) N).
  - destruct (mixed_and_contained fuel shape (GSegment s) b Va Vb Fuel) as [(g & E & G & C) (g' & E' & G' & C')].
    destruct b; try contradiction; cbn [linear_and_shaped]; (split; [exact (gives_good _ _ g E G C)|exact (gives_good _ _ g' E' G' C')]).
  - destruct (mixed_and_contained fuel shape _ b Va Vb Fuel) as [(g & E & G & C) (g' & E' & G' & C')].
    destruct b; try contradiction; cbn [linear_and_shaped]; (split; [exact (gives_good _ _ g E G C)|exact (gives_good _ _ g' E' G' C')]).
  - destruct (mixed_and_contained fuel shape _ b Va Vb Fuel) as [(g & E & G & C) (g' & E' & G' & C')].
    destruct b; try contradiction; cbn [linear_and_shaped]; (split; [exact (gives_good _ _ g E G C)|exact (gives_good _ _ g' E' G' C')]).
Qed.
Lemma contained_valid a b : linear_valid a -> valid_shaped b ->
  almost_same (on_contained_piece a b) (fun p => on_segs (parts a) p /\ geometry_contains b p = true).
Proof.
  intros Va Vb. destruct a as [|s|l|vs|p|ps]; try contradiction; try (apply contained_almost; assumption).
  exists []. intros p _. split; [intros (s & t & [] & _)|intros [(s & [] & _) _]].
Qed.
Lemma almost_both op P Q P' Q' : (forall a a' b b', (a <-> a') -> (b <-> b') -> (op a b <-> op a' b')) ->
  almost_same P P' -> almost_same Q Q' -> almost_same (fun p : point => op (P p) (Q p) : Prop) (fun p => op (P' p) (Q' p)).
Proof.
  intros M (F & H) (G & K). exists (F ++ G). intros p N. rewrite in_app_iff in N. apply M; [apply H|apply K]; tauto.
Qed.
Lemma almost_of P Q : (forall p, P p <-> Q p) -> almost_same P Q.
Proof. intros H. exists []. intros p _. apply H. Qed.

Definition sound (e : lexpr) : Prop := (exists g, comes_to e g)
  /\ forall g, comes_to e g -> linear_valid g /\ almost_same (on_geometry g) (denotes e).
(** An operator on expressions. *)
Lemma sound_both (run : nat -> geometry -> geometry -> option clip_outcome) (C : geometry -> geometry -> point -> Prop) (op : Prop -> Prop -> Prop) e f :
  (forall fuel a b, linear_valid a -> linear_valid b -> (enough (length (parts a) + length (parts b)) <= fuel)%nat -> gives (run fuel a b) (C a b)) ->
  (forall a b, linear_valid a -> linear_valid b -> almost_same (C a b) (fun p => op (on_geometry a p) (on_geometry b p))) ->
  (forall a a' b b', (a <-> a') -> (b <-> b') -> (op a b <-> op a' b')) ->
  sound e -> sound f ->
  let result g := exists h k fuel, comes_to e h /\ comes_to f k
    /\ (enough (length (parts h) + length (parts k)) <= fuel)%nat /\ run fuel h k = Some (Clips g) in
  (exists g, result g) /\ forall g, result g -> linear_valid g /\ almost_same (on_geometry g) (fun p => op (denotes e p) (denotes f p)).
Proof.
  intros R A M [(h & Eh) He] [(k & Ek) Hf]. cbn zeta. split.
  - destruct (R _ h k (proj1 (He h Eh)) (proj1 (Hf k Ek)) (le_n _)) as (g & E & _).
    exists g, h, k, (enough (length (parts h) + length (parts k))). split; [exact Eh|]. split; [exact Ek|]. split; [apply le_n|exact E].
  - clear h k Eh Ek. intros g (h & k & fuel & Eh & Ek & Fu & E).
    destruct (He h Eh) as [Vh Ah]. destruct (Hf k Ek) as [Vk Ak].
    destruct (R fuel h k Vh Vk Fu) as (g' & E' & V & K).
    assert (g' = g) by (rewrite E in E'; injection E'; auto). subst g'.
    split; [exact V|]. apply (almost_same_trans _ (C h k)); [apply almost_of, K|].
    apply (almost_same_trans _ _ _ (A h k Vh Vk)). apply (almost_both op); assumption.
Qed.
Lemma sound_one (run : nat -> geometry -> option clip_outcome) b e : valid_shaped b ->
  (forall fuel a, linear_valid a -> (enough (length (parts a) + shaped_size b) <= fuel)%nat -> gives (run fuel a) (on_contained_piece a b)) ->
  sound e ->
  let result g := exists h fuel, comes_to e h /\ (enough (length (parts h) + shaped_size b) <= fuel)%nat /\ run fuel h = Some (Clips g) in
  (exists g, result g) /\ forall g, result g -> linear_valid g /\ almost_same (on_geometry g) (fun p => denotes e p /\ geometry_contains b p = true).
Proof.
  intros Vb R [(h & Eh) He]. cbn zeta. split.
  - destruct (R _ h (proj1 (He h Eh)) (le_n _)) as (g & E & _).
    exists g, h, (enough (length (parts h) + shaped_size b)). split; [exact Eh|]. split; [apply le_n|exact E].
  - clear h Eh. intros g (h & fuel & Eh & Fu & E). destruct (He h Eh) as [Vh Ah].
    destruct (R fuel h Vh Fu) as (g' & E' & V & K).
    assert (g' = g) by (rewrite E in E'; injection E'; auto). subst g'.
    split; [exact V|]. apply (almost_same_trans _ (on_contained_piece h b)); [apply almost_of, K|].
    apply (almost_same_trans _ _ _ (contained_valid h b Vh Vb)).
    apply (almost_both and); [tauto|exact Ah|apply almost_refl].
Qed.
Theorem expressions e : lvalid e -> sound e.
Proof.
  induction e as [g|shape e IHe f IHf|shape e IHe f IHf|shape e IHe f IHf|shape e IHe f IHf|shape e IHe b|shape b e IHe]; cbn [lvalid]; intros V.
  - split; [exists g; reflexivity|]. intros h E. cbn in E. subst h. split; [exact V|apply almost_refl].
  - apply (sound_both (fun fuel => linear_and fuel shape) C_and and); try tauto.
    + intros fuel a b. apply and_linear.
    + intros a b Va Vb. apply common_almost; apply linear_proper; assumption.
  - apply (sound_both (fun fuel => linear_or fuel shape) C_or or); try tauto.
    + intros fuel a b. apply or_linear.
    + intros a b Va Vb. apply almost_refl.
  - apply (sound_both (fun fuel => linear_sub fuel shape) C_sub (fun x y => x /\ ~ y)); try tauto.
    + intros fuel a b. apply sub_linear.
    + intros a b Va Vb. apply difference_almost; apply linear_proper; assumption.
  - apply (sound_both (fun fuel => linear_xor fuel shape) C_xor (fun x y => (x /\ ~ y) \/ (y /\ ~ x))); try tauto.
    + intros fuel a b. apply xor_linear.
    + intros a b Va Vb. unfold C_xor.
      apply (almost_both or); [tauto|apply difference_almost|apply difference_almost]; apply linear_proper; assumption.
  - apply (sound_one (fun fuel h => linear_and_shaped fuel shape h b) b); try tauto.
    intros fuel a Va Fu. apply (linear_inside fuel shape a b); tauto.
  - apply (sound_one (fun fuel h => linear_and_shaped fuel shape b h) b); try tauto.
    intros fuel a Va Fu. apply (linear_inside fuel shape a b); tauto.
Qed.
(** What the expressions denote decides what they come to. *)
Theorem same_denotation e f : lvalid e -> lvalid f -> almost_same (denotes e) (denotes f) -> law e f.
Proof.
  intros Ve Vf A. destruct (expressions e Ve) as [Xe He]. destruct (expressions f Vf) as [Xf Hf].
  split; [exact Xe|]. split; [exact Xf|]. intros g h Eg Eh.
  destruct (He g Eg) as [Vg Ag]. destruct (Hf h Eh) as [Vh Ah].
  apply almost_equal; [apply linear_proper, Vg|apply linear_proper, Vh|].
  apply (almost_same_trans _ _ _ Ag), (almost_same_trans _ _ _ A), almost_same_sym, Ah.
Qed.
Lemma denotes_dec e p : lvalid e -> denotes e p \/ ~ denotes e p.
Proof.
  induction e as [g|shape e IHe f IHf|shape e IHe f IHf|shape e IHe f IHf|shape e IHe f IHf|shape e IHe b|shape b e IHe]; cbn [lvalid denotes]; intros V; try (destruct V as [V1 V2]; try specialize (IHe V1); try specialize (IHf V2); try specialize (IHe V2); tauto).
  - destruct (on_segs_dec (parts g) p); [left|right]; assumption.
  - destruct V as [V1 V2]. specialize (IHe V1). destruct (geometry_contains b p); [tauto|right; intros [_ K]; discriminate].
  - destruct V as [V1 V2]. specialize (IHe V1). destruct (geometry_contains b p); [tauto|right; intros [_ K]; discriminate].
Qed.
