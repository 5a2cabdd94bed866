(** Relating polygons, part 8: the relation of two lists of outlines. *)
From Coq Require Import QArith Qcanon Bool List Arith Lia.
From Verif Require Import QcTac Model_Base Model_Utils Model_Geometry Model_Contour Model_Linear Model_Mixed Model_Shaped Model_Relate Model_RelateLinear Model_RelateShaped
  Spec_Base Spec_Segment Spec_Clip Spec_Contour Spec_Relate Spec_Sweep Spec_Shaped Spec_RelateShaped
  Proof_Base Proof_Line Proof_Edges Proof_Locate Proof_Locate3 Proof_Locate4 Proof_Sweep Proof_Sweep4 Proof_Sweep6 Proof_Sweep8 Proof_Sweep15 Proof_Sweep18 Proof_Parity
  Proof_Flags Proof_Flags3 Proof_Corner Proof_Region Proof_Select Proof_Ray Proof_Orient Proof_Nested Proof_Nested2 Proof_Bridge
  Proof_RelateP Proof_Odd Proof_Clip Proof_Ready Proof_RelSweep4 Proof_RelShaped2 Proof_RelShaped3 Proof_RelShaped4 Proof_RelShaped5 Proof_RelShaped6 Proof_RelShaped7.
Import ListNotations.
Local Open Scope Qc_scope.

(** The relation where an operand may be known not to be a part of the other one. *)
Definition points_relation (i1 i2 : Prop) (in1 on1 in2 on2 : point -> Prop) (r : relation) : Prop :=
  let reg1 x := in1 x \/ on1 x in
  let reg2 x := in2 x \/ on2 x in
  let part12 := i1 /\ forall x, reg1 x -> reg2 x in
  let part21 := i2 /\ forall x, reg2 x -> reg1 x in
  let interiors_meet := exists x, in1 x /\ in2 x in
  let outlines_meet := exists x, on1 x /\ on2 x in
  match r with
  | DISJOINT => ~ exists x, reg1 x /\ reg2 x
  | TOUCH => (exists x, reg1 x /\ reg2 x) /\ ~ interiors_meet
  | OVERLAP => interiors_meet /\ ~ part12 /\ ~ part21
  | EQUAL => part12 /\ part21
  | WITHIN => part12 /\ ~ part21 /\ ~ outlines_meet
  | COVER => part21 /\ ~ part12 /\ ~ outlines_meet
  | ENCLOSED => part12 /\ ~ part21 /\ outlines_meet /\ exists x, on1 x /\ in2 x
  | ENCLOSES => part21 /\ ~ part12 /\ outlines_meet /\ exists x, on2 x /\ in1 x
  | COMPONENT => part12 /\ ~ part21 /\ forall x, on1 x -> on2 x
  | COMPOSITE => part21 /\ ~ part12 /\ forall x, on2 x -> on1 x
  | CROSS => False
  end.

Section Relation.
Variables ra rb : list (list point).
Notation A := (outlines ra). Notation B := (outlines rb).
Hypothesis NA : non_crossing A.
Hypothesis NB : non_crossing B.
Hypothesis Side : forall (f : bool) eps, rising eps (ends_of (full A B f)) -> forall e q, In e (full A B f) -> on_seg e q ->
  (forall v, In v (ends_of (full A B f)) -> Xs eps v <> Xs eps q) -> xsum (below_seg eps q) (full A B f) = negb (segment_flag e).
Hypothesis BN : B <> [].
Variables (shape : tree_shape) (fuel : nat) (m : Qc) (d : bool) (init : bool -> bool).
Hypothesis Bound : forall e, In e (opf A B d) -> px (hi e) <= m.
Hypothesis Fuel : (enough (length (A ++ B)) <= fuel)%nat.
Notation op := (opf A B).

Lemma bound_on p : on_op A B d p -> px p <= m.
Proof.
  intros O. assert (O' : on_segs (op d) p) by (unfold on_op in O; destruct d; exact O). destruct O' as (e & I & Q). specialize (Bound e I).
  assert (N : non_crossing (op d)) by (destruct d; auto). destruct N as [P _]. rewrite Forall_forall in P. specialize (P e I).
  apply sorted_pair_on in Q. pose proof (sorted_pair_lt e P) as L. change (fst (sorted_pair e)) with (lo e) in *. change (snd (sorted_pair e)) with (hi e) in *.
  destruct Q as (t & T0 & T1 & ->). unfold lerp; cbn [px].
  assert (Le : px (lo e) <= px (hi e)) by (destruct L as [L|[L _]]; [qlra|rewrite L; qlra]).
  assert (0 <= (1 - t) * (px (hi e) - px (lo e))) by (apply Qcmult_nonneg; qlra).
  replace ((1 - t) * (px (hi e) - px (lo e))) with (px (hi e) - (px (lo e) + t * (px (hi e) - px (lo e)))) in * by ring. qlra.
Qed.

Lemma run_relation : exists s r eps, clip_shaped A B = Some s
  /\ shaped_to_relation fuel shape s (init true) (init false) m = Relates (shaped_state_relation r)
  /\ good (the_ctx A B eps) /\ verdict A B eps init r.
Proof.
  destruct (eps_exists (all_points (operands A B) ++ ends_of A ++ ends_of B)) as (eps & Pe & Mo).
  set (c := the_ctx A B eps).
  assert (Ri : rising eps (all_points (operands A B) ++ ends_of A ++ ends_of B)) by (intros p r Ip Ir L; apply Mo; auto).
  assert (Pr : forall s, In s (operands A B) -> lex_lt (fst s) (snd s)).
  { intros s I. unfold operands in I. apply in_map_iff in I. destruct I as (x & <- & I). apply sorted_pair_lt.
    apply in_app_or in I. destruct I as [I|I]; [pose proof (proj1 NA) as Q|pose proof (proj1 NB) as Q]; rewrite Forall_forall in Q; auto. }
  assert (G : good c). { apply good_rising; auto. intros p r Ip Ir. apply Ri; apply in_or_app; left; auto. }
  assert (Rf : forall f, rising eps (ends_of (full A B f))).
  { intros f p r Ip Ir. apply Ri; apply in_or_app; right; apply in_or_app; destruct f; auto. }
  assert (N : nc c) by (apply nc_holds; auto).
  assert (FA : filter (fun _ => true) A = A) by (apply filter_every; auto). assert (FB : filter (fun _ => true) B = B) by (apply filter_every; auto).
  assert (Snd : forall f, Forall (sound_edge eps) (full A B f)).
  { intros f. apply (snd_op ra rb eps G f). }
  assert (Ev : forall f, even_ends (full A B f)) by (intros f; apply (even_op ra rb f)).
  assert (Cv : forall (f : bool) (e g : segment), In e (full A B f) -> In g (full A B (negb f)) -> Xs eps (lo e) < Xs eps (hi g) ->
    Xs eps (lo g) < Xs eps (hi e) -> keep (fun _ => true) (fun _ => true) f e = true) by (intros [] e g _ _ _ _; reflexivity).
  pose proof (the_evn A B (fun _ => true) (fun _ => true) eps Snd Ev Cv) as Ee. rewrite FA, FB in Ee.
  assert (G' : good (the_ctx (filter (fun _ => true) A) (filter (fun _ => true) B) eps)) by (rewrite FA, FB; exact G).
  pose proof (the_ori A B (fun _ => true) (fun _ => true) eps G' Snd (fun f e q => Side f eps (Rf f) e q) Cv) as Or. rewrite FA, FB in Or.
  destruct (shaped_verdict A B eps NA NB G N Ee Or init shape m d bound_on fuel) as (s & r & E1 & E2 & Vd); auto.
  { intros Q. apply app_eq_nil in Q. tauto. }
  exists s, r, eps. auto.
Qed.

Theorem outlines_relation : exists s r, clip_shaped A B = Some s /\ shaped_to_relation fuel shape s (init true) (init false) m = Relates r
  /\ points_relation (init true = true) (init false = true) (inn A) (on_segs A) (inn B) (on_segs B) r.
Proof.
  destruct run_relation as (s & r & eps & Es & Er & G & Vd). exists s, (shaped_state_relation r). split; auto. split; auto.
  assert (RegP : forall l x, reg l x <-> inn l x \/ on_segs l x) by (intros l x; unfold reg; tauto).
  assert (L12 : (forall x, inn A x \/ on_segs A x -> inn B x \/ on_segs B x) <-> lies ra rb true).
  { unfold lies. cbn [opf negb]. split; intros Q x; specialize (Q x); rewrite ?RegP in *; auto. }
  assert (L21 : (forall x, inn B x \/ on_segs B x -> inn A x \/ on_segs A x) <-> lies ra rb false).
  { unfold lies. cbn [opf negb]. split; intros Q x; specialize (Q x); rewrite ?RegP in *; auto. }
  assert (La : forall b, (init b = true /\ lies ra rb b) <-> sflag b r = true).
  { intros b. rewrite (lies_area ra rb eps NA NB G b). destruct (sflag b r) eqn:E.
    - split; auto. intros _. apply (f_sub _ _ _ _ _ Vd b E).
    - split; [|discriminate]. intros [Q0 Q]. destruct (f_notsub _ _ _ _ _ Vd b E) as [Z|Z]; [congruence|contradiction]. }
  assert (P12 := La true). assert (P21 := La false). rewrite <- L12 in P12. rewrite <- L21 in P21. cbn [sflag] in P12, P21.
  assert (Co : ss_has_continuous_intersection r = true -> exists x, inn A x /\ inn B x).
  { intros E. apply (area_both ra rb eps G). apply (f_cont _ _ _ _ _ Vd E). }
  assert (Inner := fun b x => inner_outline ra rb eps NA NB G b x).
  destruct (extreme r) eqn:Ex.
  - unfold extreme in Ex. apply andb_true_iff in Ex. destruct Ex as [Ex E2]. apply andb_true_iff in Ex. destruct Ex as [E0 E1].
    apply negb_true_iff in E1, E2. unfold shaped_state_relation. rewrite E0, E1, E2 in *.
    destruct (ss_boundaries_intersect r); cbn [points_relation]; rewrite P12, P21; (split; [auto|]); split; discriminate.
  - assert (Ap : ss_has_continuous_intersection r = false -> ~ exists x, inn A x /\ inn B x).
    { intros E Q. apply (area_both ra rb eps G) in Q. apply (f_apart _ _ _ _ _ Vd Ex E Q). }
    assert (It : forall b, iflag b r = true <-> exists x, on_segs (op b) x /\ inn (op (negb b)) x).
    { intros b. rewrite (f_int _ _ _ _ _ Vd Ex b). split.
      - intros (t & i & Gt & Wc). apply (wcol_point ra rb eps G b t i Gt Wc).
      - intros (x & On & In). apply (point_wcol ra rb eps G b x On In). }
    pose proof (It true) as I1. pose proof (It false) as I2. cbn [iflag opf negb] in I1, I2.
    assert (Bn : ss_boundaries_intersect r = true <-> exists x, on_segs A x /\ on_segs B x).
    { rewrite (f_bnd _ _ _ _ _ Vd Ex). split; intros (x & Q); exists x; exact Q. }
    assert (Cp1 : ss_first_is_subset r = true -> ss_first_boundary_intersects_second_interior r = false -> forall x, on_segs A x -> on_segs B x).
    { intros S1 E x O. pose proof (proj2 (proj2 P12 S1)) as S3. destruct (S3 x (or_intror O)) as [Q|Q]; auto. assert (Z : exists x, on_segs A x /\ inn B x) by (exists x; auto). apply I1 in Z. congruence. }
    assert (Cp2 : ss_second_is_subset r = true -> ss_second_boundary_intersects_first_interior r = false -> forall x, on_segs B x -> on_segs A x).
    { intros S1 E x O. pose proof (proj2 (proj2 P21 S1)) as S3. destruct (S3 x (or_intror O)) as [Q|Q]; auto. assert (Z : exists x, on_segs B x /\ inn A x) by (exists x; auto). apply I2 in Z. congruence. }
    unfold shaped_state_relation.
    destruct (ss_boundaries_intersect r) eqn:Eb.
    + destruct (ss_first_is_subset r) eqn:S1, (ss_second_is_subset r) eqn:S2.
      * cbn [points_relation]. rewrite P12, P21. auto.
      * destruct (ss_first_boundary_intersects_second_interior r) eqn:E; cbn [points_relation]; rewrite P12, P21.
        -- (split; [auto|]); (split; [discriminate|]); split; [apply Bn; auto|apply I1; auto].
        -- (split; [auto|]); (split; [discriminate|]); auto.
      * destruct (ss_second_boundary_intersects_first_interior r) eqn:E; cbn [points_relation]; rewrite P12, P21.
        -- (split; [auto|]); (split; [discriminate|]); split; [apply Bn; auto|apply I2; auto].
        -- (split; [auto|]); (split; [discriminate|]); auto.
      * destruct (ss_has_continuous_intersection r) eqn:E; cbn [points_relation].
        -- rewrite P12, P21. (split; [auto|]); split; discriminate.
        -- split; [|auto]. destruct (proj1 Bn eq_refl) as (x & O1 & O2). exists x. auto.
    + assert (Nb : ~ exists x, on_segs A x /\ on_segs B x) by (intros Q; apply Bn in Q; discriminate).
      destruct (ss_second_is_subset r) eqn:S2.
      * cbn [points_relation]. rewrite P21. split; [auto|]. split; [|auto]. rewrite P12. intros S1.
        destruct B as [|g l] eqn:EB; [congruence|]. rewrite <- EB in *.
        assert (Og : on_segs B (seg_start g)) by (exists g; split; [rewrite EB; left; auto|apply between_start]).
        destruct (proj2 (proj2 P21 eq_refl) _ (or_intror Og)) as [Q|Q]; [|apply Nb; exists (seg_start g); auto].
        destruct (Inner false (seg_start g) Og Q) as [Q1 _]. apply Q1. cbn [negb]. apply (proj2 (La true)). exact S1.
      * destruct (ss_first_is_subset r) eqn:S1.
        -- cbn [points_relation]. rewrite P12, P21. (split; [auto|]); (split; [discriminate|]); auto.
        -- destruct (ss_has_continuous_intersection r) eqn:E; cbn [points_relation]; [rewrite P12, P21; (split; [auto|]); split; discriminate|].
           intros (x & [R1|R1] & [R2|R2]).
           ++ apply (Ap eq_refl). exists x; auto.
           ++ destruct (Inner false x R2 R1) as [_ Q]. exact (Ap eq_refl Q).
           ++ destruct (Inner true x R1 R2) as [_ Q]. exact (Ap eq_refl Q).
           ++ apply Nb. exists x; auto.
Qed.
End Relation.
