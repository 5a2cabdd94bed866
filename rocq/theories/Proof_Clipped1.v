(** A linear geometry without a shaped one, and its laws with the other operators. *)
From Coq Require Import QArith Qcanon Bool List Arith Lia Permutation.
From Verif Require Import QcTac Model_Base Model_Box Model_Geometry Model_Contour Model_Segment Model_Linear Model_Mixed Model_MixedClip Model_MixedDiff Model_LinearOperators
  Spec_Base Spec_Segment Spec_Clip Spec_Contour Spec_Bounds Spec_Sweep Spec_Shaped Spec_Multipolygon Spec_RelateShaped Spec_Tight Spec_MixedClip Spec_MixedDiff Spec_LinearLaws Spec_ClippedLaws
  Proof_Base Proof_Line Proof_SegRel Proof_SegOps Proof_SegOps2 Proof_SegOps3 Proof_SegLoops Proof_SegUnion Proof_Locate Proof_Sweep17 Proof_Sweep19 Proof_Sweep20
  Proof_RelateMulti3 Proof_Tight7 Proof_Tight9 Proof_Tight10 Proof_Located Proof_Mix10 Proof_LinearLaws1 Proof_LinearLaws2 Proof_LinearLaws3.
Import ListNotations.
Local Open Scope Qc_scope.

Lemma not_contains b p : geometry_contains b p = false <-> geometry_locate b p = EXTERIOR.
Proof.
  pose proof (contains_located b p) as H. destruct (geometry_contains b p), (geometry_locate b p); split; intros X; try reflexivity; try discriminate;
    exfalso; try (apply (proj1 H); [reflexivity|reflexivity]); assert (X' : false = true) by (apply H; discriminate); discriminate.
Qed.
Lemma uncontained_almost a b : several_input a -> valid_shaped b ->
  almost_same (on_uncontained_piece a b) (fun p => on_segs (parts a) p /\ geometry_contains b p = false).
Proof.
  intros Va Vb. assert (Pa : Forall proper_seg (parts a)) by (apply linear_proper, two_valid, Va).
  pose proof (proper_parts b Vb) as Pb. set (l := outlines (geometry_rings b)) in *.
  destruct (lonely (parts a) l Pa Pb) as (F & H). destruct (endpoints_of l) as (G & K).
  exists (F ++ G). intros p N. rewrite in_app_iff in N. split.
  - intros (s & q & Is & Os & Oq & Nq & Free). split; [exists s; split; assumption|]. apply not_contains.
    destruct (geometry_locate b p) eqn:L.
    + exfalso. apply outlined_located in L; [|exact Vb]. destruct L as (t & It & Ot). fold l in It.
      assert (Ps : proper_seg s) by (rewrite Forall_forall in Pa; apply Pa, Is).
      assert (Pt : proper_seg t) by (rewrite Forall_forall in Pb; apply Pb, It).
      destruct (share_dec s t Ps Pt) as [Sh|Sh]; [|apply N; left; apply (H s t); assumption].
      pose proof (share_line s t q Ps Pt Sh Oq) as Z. destruct (collinear_lerp _ _ _ Pt Z) as (y & Ey).
      destruct Ot as (x & X0 & X1 & Ex).
      assert (x <> 0). { intros E. apply N. right. apply (K t); [exact It|]. left. rewrite Ex, E. apply lerp_0. }
      assert (x <> 1). { intros E. apply N. right. apply (K t); [exact It|]. right. rewrite Ex, E. apply lerp_1. }
      destruct (stay (seg_start t) (seg_end t) x y Pt) as (r & R1 & R2).
      * apply Qcle_lt_or_eq in X0. destruct X0 as [L|E]; [exact L|]. exfalso. auto.
      * apply Qcle_lt_or_eq in X1. destruct X1 as [L|E]; [exact L|]. exfalso. auto.
      * intros E. apply Nq. rewrite Ex, Ey, E. reflexivity.
      * assert (C : geometry_contains b r = false) by (apply Free; rewrite Ex, Ey; exact R1).
        apply not_contains in C. assert (B : geometry_locate b r = BOUNDARY).
        { apply outlined_located; [exact Vb|]. exists t. split; [exact It|exact R2]. }
        rewrite C in B. discriminate.
    + reflexivity.
    + exfalso. destruct (inside_near (polygons_of b) p q) as (r & R & J).
      * apply Forall_forall. intros w W. apply (each (polygons_of b)); [apply (proj1 (polygons_valid b Vb))|exact W].
      * apply (proj1 (located b p Vb)), L.
      * exact Nq.
      * specialize (Free r R). apply (shaped_contains b r Vb) in J. rewrite J in Free. discriminate.
  - intros [(s & Is & Os) C]. apply not_contains in C. rewrite Forall_forall in Pa.
    destruct (outside_near b p s Vb C (Pa s Is) Os) as (w & Nw & Ow & Free).
    exists s, w. split; [exact Is|]. split; [exact Os|]. split; [exact Ow|]. split; [exact Nw|].
    intros r R. destruct (geometry_contains b r) eqn:D; [|reflexivity]. exfalso. apply (Free r R), (shaped_contains b r Vb), D.
Qed.

(** The segments of a difference. *)
Lemma difference_proper a g (L rest : list segment) : several_input a -> incl rest (parts a) -> non_crossing L ->
  Permutation (parts g) (L ++ map turned L ++ rest) -> Forall proper_seg (parts g).
Proof.
  intros Va I NL Pm. assert (Pa : Forall proper_seg (parts a)) by (apply linear_proper, two_valid, Va).
  rewrite Forall_forall in *. intros s Is. apply (Permutation_in _ Pm) in Is. rewrite !in_app_iff in Is.
  destruct NL as [PL _]. rewrite Forall_forall in PL.
  destruct Is as [Is|[Is|Is]]; [apply PL, Is| |apply Pa, I, Is].
  apply in_map_iff in Is. destruct Is as (t & <- & It). intros E. apply (PL t It). symmetry. exact E.
Qed.
Lemma sub_runs fuel shape a b : several_input a -> valid_shaped b -> (enough (length (parts a) + shaped_size b) <= fuel)%nat ->
  exists g, mixed_sub fuel shape a b = Some (Clips g) /\ Forall proper_seg (parts g)
  /\ (forall q, on_geometry g q -> on_geometry a q /\ geometry_locate b q <> INTERIOR)
  /\ (forall q, on_geometry a q -> geometry_locate b q = EXTERIOR -> on_geometry g q)
  /\ (boxes_meet a b -> almost_same (on_geometry g) (fun p => on_geometry a p /\ geometry_contains b p = false)).
Proof.
  intros Va Vb Fu. destruct (mixed_sub_doubled fuel shape a b Va Vb Fu) as (g & L & rest & E & I & NL & Pm).
  exists g. split; [exact E|]. split; [apply (difference_proper a g L rest); assumption|].
  destruct (mixed_sub_bounds fuel shape a b Va Vb Fu) as (g' & E' & B1 & B2).
  assert (g' = g) by (rewrite E in E'; injection E'; auto). subst g'.
  split; [exact B1|]. split; [exact B2|]. intros M.
  destruct (mixed_sub_exact fuel shape a b Va Vb Fu M) as (g' & E2 & X).
  assert (g' = g) by (rewrite E in E2; injection E2; auto). subst g'.
  apply (almost_same_trans _ (on_uncontained_piece a b)); [apply almost_of, X|]. apply uncontained_almost; assumption.
Qed.

(** Expressions. *)
Section Expressions.
Variables (e : lexpr) (b : geometry).
Hypothesis Ve : lvalid e.
Hypothesis Vb : valid_shaped b.
Theorem leaves_points shape g : leaves shape e b g ->
  Forall proper_seg (parts g) /\ almost_same (on_geometry g) (denotes_outside e b).
Proof.
  intros (h & fuel & C & Vh & M & Fu & E). destruct (expressions e Ve) as [_ X]. destruct (X h C) as [_ A].
  destruct (sub_runs fuel shape h b Vh Vb Fu) as (g' & E' & P & _ & _ & Al).
  assert (g' = g) by (rewrite E in E'; injection E'; auto). subst g'. split; [exact P|].
  apply (almost_same_trans _ _ _ (Al M)). unfold denotes_outside. destruct A as (F & A). exists F. intros p N. rewrite (A p N). reflexivity.
Qed.
Theorem leaves_something shape h : comes_to e h -> several_input h -> boxes_meet h b -> exists g, leaves shape e b g.
Proof.
  intros C Vh M. destruct (sub_runs _ shape h b Vh Vb (le_n _)) as (g & E & _).
  exists g, h, (enough (length (parts h) + shaped_size b)). repeat (split; [assumption || apply le_n|]). exact E.
Qed.
End Expressions.
Theorem leaves_same e e' b b' s s' g g' : lvalid e -> lvalid e' -> valid_shaped b -> valid_shaped b' ->
  almost_same (denotes_outside e b) (denotes_outside e' b') -> leaves s e b g -> leaves s' e' b' g' -> same_points_as g g'.
Proof.
  intros Ve Ve' Vb Vb' D L L'. destruct (leaves_points e b Ve Vb s g L) as [P A]. destruct (leaves_points e' b' Ve' Vb' s' g' L') as [P' A'].
  intros p. apply (almost_equal (parts g) (parts g') P P').
  apply (almost_same_trans _ _ _ A). apply (almost_same_trans _ _ _ D). apply almost_same_sym, A'.
Qed.
(** The same as an expression without [-] of a shaped geometry. *)
Theorem leaves_expression e f b s g h : lvalid e -> lvalid f -> valid_shaped b ->
  almost_same (denotes_outside e b) (denotes f) -> leaves s e b g -> comes_to f h -> same_points_as g h.
Proof.
  intros Ve Vf Vb D L C. destruct (leaves_points e b Ve Vb s g L) as [P A]. destruct (expressions f Vf) as [_ X]. destruct (X h C) as [V' A'].
  intros p. apply (almost_equal (parts g) (parts h) P (linear_proper h V')).
  apply (almost_same_trans _ _ _ A). apply (almost_same_trans _ _ _ D). apply almost_same_sym, A'.
Qed.
(** [e - b] is [e - (e & b)]. *)
Theorem leaves_rest e b s t u g h : lvalid e -> valid_shaped b -> leaves s e b g -> comes_to (LSub t e (LInside u e b)) h -> same_points_as g h.
Proof.
  intros Ve Vb L C. apply (leaves_expression e (LSub t e (LInside u e b)) b s g h); cbn [lvalid]; [assumption|tauto|assumption| |assumption|assumption].
  apply almost_of. intros p. unfold denotes_outside. cbn [denotes]. destruct (geometry_contains b p); intuition congruence.
Qed.
(** [(e | f) - b] consists of [e - b] and [f - b]. *)
Lemma segs_app k l p : on_segs (k ++ l) p <-> on_segs k p \/ on_segs l p.
Proof.
  unfold on_segs. split.
  - intros (s & I & O). apply in_app_iff in I. destruct I as [I|I]; [left|right]; exists s; split; assumption.
  - intros [(s & I & O)|(s & I & O)]; exists s; (split; [apply in_app_iff|exact O]); [left|right]; exact I.
Qed.
Theorem leaves_union e f b s t u v g g1 g2 : lvalid e -> lvalid f -> valid_shaped b ->
  leaves s (LOr t e f) b g -> leaves u e b g1 -> leaves v f b g2 ->
  forall p, on_geometry g p <-> on_geometry g1 p \/ on_geometry g2 p.
Proof.
  intros Ve Vf Vb L L1 L2. destruct (leaves_points _ b (conj Ve Vf : lvalid (LOr t e f)) Vb s g L) as [P A].
  destruct (leaves_points e b Ve Vb u g1 L1) as [P1 A1]. destruct (leaves_points f b Vf Vb v g2 L2) as [P2 A2].
  intros p. change (on_segs (parts g) p <-> on_segs (parts g1) p \/ on_segs (parts g2) p). rewrite <- segs_app.
  apply (almost_equal (parts g) (parts g1 ++ parts g2) P); [apply Forall_app; split; assumption|].
  apply (almost_same_trans _ _ _ A).
  apply (almost_same_trans _ (fun p => denotes_outside e b p \/ denotes_outside f b p)).
  - apply almost_of. intros q. unfold denotes_outside. cbn [denotes]. tauto.
  - apply (almost_same_trans _ (fun p => on_geometry g1 p \/ on_geometry g2 p)).
    + apply almost_same_sym. apply (almost_both or); [tauto|assumption|assumption].
    + apply almost_of. intros q. rewrite segs_app. reflexivity.
Qed.
(** For the other operators finitely many common points may be over. *)
Theorem leaves_operators e f b g1 g2 u v : lvalid e -> lvalid f -> valid_shaped b -> leaves u e b g1 -> leaves v f b g2 ->
  forall s t g,
  (leaves s (LAnd t e f) b g -> almost_same (on_geometry g) (fun p => on_geometry g1 p /\ on_geometry g2 p))
  /\ (leaves s (LSub t e f) b g -> almost_same (on_geometry g) (fun p => on_geometry g1 p /\ ~ on_geometry g2 p))
  /\ (leaves s (LXor t e f) b g -> almost_same (on_geometry g)
        (fun p => (on_geometry g1 p /\ ~ on_geometry g2 p) \/ (on_geometry g2 p /\ ~ on_geometry g1 p))).
Proof.
  intros Ve Vf Vb L1 L2 s t g. destruct (leaves_points e b Ve Vb u g1 L1) as [_ A1]. destruct (leaves_points f b Vf Vb v g2 L2) as [_ A2].
  split; [|split]; intros L.
  - destruct (leaves_points _ b (conj Ve Vf : lvalid (LAnd t e f)) Vb s g L) as [_ A].
    apply (almost_same_trans _ _ _ A). apply (almost_same_trans _ (fun p => denotes_outside e b p /\ denotes_outside f b p)).
    + apply almost_of. intros q. unfold denotes_outside. cbn [denotes]. tauto.
    + apply almost_same_sym. apply (almost_both and); [tauto|assumption|assumption].
  - destruct (leaves_points _ b (conj Ve Vf : lvalid (LSub t e f)) Vb s g L) as [_ A].
    apply (almost_same_trans _ _ _ A). apply (almost_same_trans _ (fun p => denotes_outside e b p /\ ~ denotes_outside f b p)).
    + apply almost_of. intros q. unfold denotes_outside. cbn [denotes]. tauto.
    + apply almost_same_sym. apply (almost_both (fun P Q => P /\ ~ Q)); [tauto|assumption|assumption].
  - destruct (leaves_points _ b (conj Ve Vf : lvalid (LXor t e f)) Vb s g L) as [_ A].
    apply (almost_same_trans _ _ _ A).
    apply (almost_same_trans _ (fun p => (denotes_outside e b p /\ ~ denotes_outside f b p) \/ (denotes_outside f b p /\ ~ denotes_outside e b p))).
    + apply almost_of. intros q. unfold denotes_outside. cbn [denotes]. tauto.
    + apply almost_same_sym. apply (almost_both (fun P Q => (P /\ ~ Q) \/ (Q /\ ~ P))); [tauto|assumption|assumption].
Qed.

(** The two parts of a linear geometry. *)
Section Parts.
Variables (fuel fuel' : nat) (shape shape' : tree_shape) (a b g h : geometry).
Hypothesis Va : several_input a.
Hypothesis Vb : valid_shaped b.
Hypothesis Fuel : (enough (length (parts a) + shaped_size b) <= fuel)%nat.
Hypothesis Fuel' : (enough (length (parts a) + shaped_size b) <= fuel')%nat.
Hypothesis In : mixed_and fuel shape a b = Some (Clips g).
Hypothesis Out : mixed_sub fuel' shape' a b = Some (Clips h).
Lemma input_linear : linear_input a.
Proof. generalize Va. clear. intros [M N]. destruct a; try contradiction; split; assumption. Qed.
Lemma in_points : linear_valid g /\ (forall q, on_geometry g q <-> on_contained_piece a b q)
  /\ almost_same (on_geometry g) (fun p => on_geometry a p /\ geometry_contains b p = true).
Proof.
  destruct (mixed_and_contained fuel shape a b input_linear Vb Fuel) as [(g' & E & G & C) _].
  assert (g' = g) by (rewrite In in E; injection E; auto). subst g'.
  split; [apply good_linear, G|]. split; [exact C|].
  apply (almost_same_trans _ (on_contained_piece a b)); [apply almost_of, C|]. apply contained_almost; [exact input_linear|exact Vb].
Qed.
Lemma out_points : Forall proper_seg (parts h)
  /\ (forall q, on_geometry h q -> on_geometry a q /\ geometry_locate b q <> INTERIOR)
  /\ (forall q, on_geometry a q -> geometry_locate b q = EXTERIOR -> on_geometry h q)
  /\ (boxes_meet a b -> almost_same (on_geometry h) (fun p => on_geometry a p /\ geometry_contains b p = false)).
Proof.
  destruct (sub_runs fuel' shape' a b Va Vb Fuel') as (h' & E & R).
  assert (h' = h) by (rewrite Out in E; injection E; auto). subst h'. exact R.
Qed.
(** Together they cover [a]. *)
Theorem parts_cover : forall q, on_geometry a q <-> on_geometry g q \/ on_geometry h q.
Proof.
  destruct in_points as (Vg & C & (F & Ag)). destruct out_points as (Ph & B1 & B2 & _).
  assert (Pa : Forall proper_seg (parts a)) by (apply linear_proper, two_valid, Va).
  intros q. split.
  - intros O. apply segs_app. apply (almost_within (parts a) (parts g ++ parts h) F Pa); [apply Forall_app; split; [apply linear_proper, Vg|exact Ph]| |exact O].
    intros p N Op. apply segs_app. destruct (geometry_contains b p) eqn:K.
    + left. apply (Ag p N). split; [exact Op|exact K].
    + right. apply B2; [exact Op|apply not_contains, K].
  - intros [O|O]; [|apply B1, O]. apply C in O. destruct O as (s & t & Is & Sub & _ & Ot & _). exists s. split; [exact Is|apply Sub, Ot].
Qed.
(** Their common points are on the border, and few. *)
Theorem parts_border : forall q, on_geometry g q -> on_geometry h q -> geometry_locate b q = BOUNDARY.
Proof.
  destruct in_points as (_ & C & _). destruct out_points as (_ & B1 & _). intros q G H.
  apply C in G. destruct G as (s & t & _ & _ & _ & Ot & K). specialize (K q Ot). apply contains_located in K.
  destruct (B1 q H) as [_ L]. destruct (geometry_locate b q); congruence.
Qed.
Theorem parts_few : boxes_meet a b -> exists F : list point, forall q, on_geometry g q -> on_geometry h q -> List.In q F.
Proof.
  intros M. destruct in_points as (_ & _ & (F & Ag)). destruct out_points as (_ & _ & _ & Ah). destruct (Ah M) as (G & A).
  assert (D : forall (q : point) l, List.In q l \/ ~ List.In q l) by (intros q l; destruct (in_dec point_dec q l); auto).
  exists (F ++ G). intros q Og Oh. rewrite in_app_iff. destruct (D q F) as [I|I]; [left; exact I|]. destruct (D q G) as [J|J]; [right; exact J|].
  apply (Ag q I) in Og. apply (A q J) in Oh. destruct Og as [_ X], Oh as [_ Y]. congruence.
Qed.
(** Everything inside; nothing inside. *)
Theorem all_inside : (forall q, on_geometry g q <-> on_geometry a q) <-> forall q, on_geometry a q -> geometry_contains b q = true.
Proof.
  destruct in_points as (Vg & C & A). split.
  - intros H q O. apply H in O. apply C in O. destruct O as (s & t & _ & _ & _ & Ot & K). apply K, Ot.
  - intros H. apply (almost_equal (parts g) (parts a)); [apply linear_proper, Vg|apply linear_proper, two_valid, Va|].
    apply (almost_same_trans _ _ _ A). apply almost_of. intros q. split; [intros [O _]; exact O|]. intros O. split; [exact O|apply H, O].
Qed.
Theorem none_outside : boxes_meet a b -> (parts h = [] <-> forall q, on_geometry a q -> geometry_contains b q = true).
Proof.
  intros M. destruct out_points as (Ph & B1 & B2 & Ah). split.
  - intros E q O. destruct (geometry_contains b q) eqn:K; [reflexivity|]. apply not_contains in K.
    destruct (B2 q O K) as (s & Is & _). change (List.In s (parts h)) in Is. rewrite E in Is. destruct Is.
  - intros H. assert (X : forall q, on_segs (parts h) q <-> on_segs [] q).
    { apply (almost_equal (parts h) []); [exact Ph|constructor|]. apply (almost_same_trans _ _ _ (Ah M)).
      apply almost_of. intros q. split; [|intros (s & [] & _)]. intros [O K]. rewrite (H q O) in K. discriminate. }
    destruct (parts h) as [|s k]; [reflexivity|]. exfalso.
    destruct (proj1 (X (seg_start s))) as (t & [] & _). exists s. split; [left; reflexivity|apply between_start].
Qed.
End Parts.
