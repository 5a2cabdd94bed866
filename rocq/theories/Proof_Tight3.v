(** The outline of the result of an operation on two lists of polygons: both sides of it. *)
From Coq Require Import QArith Qcanon Bool List Arith Lia Permutation.
From Verif Require Import QcTac Model_Base Model_Utils Model_Box Model_Geometry Model_Contour Model_Linear Model_Mixed Model_Shaped Model_Multipolygon Spec_Base Spec_Segment Spec_Clip Spec_Contour
  Spec_Relate Spec_Bounds Spec_Sweep Spec_Shaped Spec_Multipolygon Spec_RelateShaped Spec_Tight
  Proof_Base Proof_Line Proof_SegRel Proof_SegOps Proof_Relate6 Proof_SegLoops Proof_Contour Proof_Contour2 Proof_Edges Proof_Bounds Proof_Shrink Proof_Locate Proof_Locate3 Proof_Locate4 Proof_Sweep4 Proof_Sweep6 Proof_Sweep18 Proof_Parity
  Proof_Corner Proof_Region Proof_Ray Proof_Orient Proof_Nested Proof_Nested2 Proof_Bridge Proof_Odd Proof_Clip Proof_Ready Proof_Polygons Proof_Multi Proof_Multi2 Proof_Multi3
  Proof_RelateShaped Proof_Mix6 Proof_Tight1 Proof_Tight2.
Import ListNotations.
Local Open Scope Qc_scope.

Definition two_sided (S0 : list segment) (rs : list (list point)) : Prop := forall x d (v : bool), on_segs (outlines rs) x -> 0 < d ->
  exists z, close_to d x z /\ ~ on_segs S0 z /\ parity (outlines rs) z = v.

Lemma parity_app a b q : parity (a ++ b) q = xorb (parity a q) (parity b q).
Proof. induction a as [|s a IH]; [symmetry; apply xorb_false_l|]. cbn [app parity fold_right] in *. unfold parity in *. cbn [fold_right]. rewrite IH. symmetry. apply xorb_assoc. Qed.
Lemma off_segs_app a b x : ~ on_segs (a ++ b) x <-> ~ on_segs a x /\ ~ on_segs b x.
Proof. rewrite on_segs_app. tauto. Qed.
Lemma join_sides P S0 (F : list point) ps D : no_overlaps (P ++ outlines D) -> even_ends P -> Forall proper_seg S0 ->
  (forall x, on_segs (outlines ps) x -> on_segs P x) -> (forall z, ~ In z F -> ~ on_segs S0 z -> parity (outlines ps) z = parity P z) -> two_sided S0 (ps ++ D).
Proof.
  intros No Ev PS On Pa x d v O Pd. rewrite outlines_app, on_segs_app in O.
  destruct (both_near (P ++ outlines D) S0 F x d No) with (v := v) as (z & Z1 & Z2 & Z3 & Z4 & Z5); auto.
  - apply even_app; auto. apply even_outlines.
  - apply on_segs_app. destruct O as [O|O]; auto.
  - exists z. split; auto. split; auto. rewrite outlines_app, parity_app, (Pa z) by auto. rewrite <- parity_app. exact Z5.
Qed.
Lemma overlaps_app a b : no_overlaps a -> no_overlaps b -> (forall s t, In s a -> In t b -> ~ share_continuum s t) -> no_overlaps (a ++ b).
Proof. intros [A1 A2] [B1 B2] C. split; [apply Forall_app; auto|]. apply FOP_app; auto. Qed.
Lemma share_sub s s' t : seg_subset s s' -> share_continuum s t -> share_continuum s' t.
Proof. intros Q (p & q & N & A & B & C & D). exists p, q. auto 6. Qed.
Lemma same_subset s t : same_segment s t -> seg_subset s t /\ seg_subset t s.
Proof. intros [-> | ->]; split; intros p O; auto; unfold on_seg in *; cbn [reverse_seg seg_start seg_end] in *; apply between_sym; auto. Qed.
Lemma prepared_edge l r e : prepared_list l r -> In e (outlines r) -> exists e0, In e0 (outlines (flat_map rings l)) /\ seg_subset e e0.
Proof.
  intros P I. destruct (outlines_same _ _ (pl_same _ _ P)) as (m & Pm & F).
  assert (J : exists e0, In e0 (outlines (flat_map rings l)) /\ same_segment e0 e); [|destruct J as (e0 & J & Q); exists e0; split; auto; apply same_subset; auto].
  assert (G : forall a b, Forall2 same_segment a b -> In e b -> exists e0, In e0 a /\ same_segment e0 e).
  { clear. induction 1 as [|x y a b S F IH]; [intros []|]. intros [<-|I]; [exists x; split; auto; left; auto|]. destruct (IH I) as (z & J & Q). exists z. split; auto. right; auto. }
  first [ destruct (G _ _ F I) as (e0 & J & Q); exists e0; split; auto; apply (Permutation_in _ (Permutation_sym Pm)); auto
        | destruct (G _ _ F (Permutation_in _ (Permutation_sym Pm) I)) as (e0 & J & Q); exists e0; split; auto
        | destruct (G _ _ F (Permutation_in _ Pm I)) as (e0 & J & Q); exists e0; split; auto ].
Qed.
Lemma parity_prepared l r q : prepared_list l r -> ~ on_segs (outlines (flat_map rings l)) q -> parity (outlines r) q = parity (outlines (flat_map rings l)) q.
Proof.
  intros P O. rewrite <- !insideb_outlines; [symmetry; apply Forall2_rings_inside, (pl_same _ _ P)|exact O|].
  intros Q. apply O. apply (on_list l r q P); auto.
Qed.
Lemma part_apart f l e g : non_crossing (outlines (flat_map rings l)) -> In e (outlines (flat_map rings (filter f l))) ->
  In g (outlines (flat_map rings (filter (fun p => negb (f p)) l))) -> ~ share_continuum e g.
Proof.
  intros N. apply no_overlaps_nc in N. destruct N as [_ N]. induction l as [|p l IH]; [intros []|].
  cbn [flat_map] in N. rewrite outlines_app in N. apply FOP_app_inv in N. destruct N as (_ & N & C).
  assert (Sub : forall h x, In x (outlines (flat_map rings (filter h l))) -> In x (outlines (flat_map rings l))).
  { clear. intros h x I. rewrite outlines_rings in *. apply in_flat_map in I. destruct I as (a & I & J). apply filter_In in I. apply in_flat_map. exists a. tauto. }
  cbn [filter]. destruct (f p); cbn [negb flat_map]; intros I J.
  - rewrite outlines_app in I. apply in_app_or in I. destruct I as [I|I]; [apply C; auto; apply (Sub (fun p => negb (f p))); auto|apply IH; auto].
  - rewrite outlines_app in J. apply in_app_or in J. destruct J as [J|J]; [|apply IH; auto]. intros Sh. apply (C g e J); [apply (Sub f); auto|apply share_continuum_sym; auto].
Qed.

Section Made.
Variables k k' : list polygon.
Hypothesis V : valid_polygons k.
Hypothesis V' : valid_polygons k'.
Variables r r' : list (list point).
Hypothesis P : prepared_list k r.
Hypothesis P' : prepared_list k' r'.
Notation A := (outlines r). Notation B := (outlines r').
Variables (kA kB : segment -> bool).
Hypothesis Cov : forall (f : bool) e g, In e (full A B f) -> In g (full A B (negb f)) -> px (lo e) <= px (hi g) -> px (lo g) <= px (hi e) -> keep kA kB f e = true.
Variable op2 : bool -> bool -> bool.
Variable sel : bool -> bool -> overlap_kind -> bool.
Hypothesis Se : selects op2 sel.
Hypothesis Zero : forall f : bool, (forall e, In e (full A B f) -> keep kA kB f e = true) \/ (forall a, at2 op2 f a false = false).
Variable from_result : shaped_operation -> event -> bool.
Hypothesis FR : forall s e, from_result s e = sel (is_left_event_from_first_operand (so s) e) (other_flag s e) (kind_of s e).
Variable limit : option Qc.
Hypothesis Lim : match limit with None => True | Some m => exists f : bool,
  (forall a, (if f then op2 false a else op2 a false) = false) /\ forall e, In e (opf (filter kA A) (filter kB B) f) -> px (hi e) <= m end.
Variables (shape : tree_shape) (fuel : nat).
Hypothesis Fuel : (enough (lists_count k k') <= fuel)%nat.
Notation OA := (outlines (flat_map rings k)). Notation OB := (outlines (flat_map rings k')).

Definition made (ps : list polygon) (pieces : list segment) : Prop :=
  non_crossing pieces /\ even_ends pieces
  /\ (forall x, on_segs (outlines (flat_map rings ps)) x -> on_segs pieces x)
  /\ (forall g, In g pieces -> exists e, (In e OA \/ In e OB) /\ seg_subset g e)
  /\ exists F, forall q, ~ In q F -> ~ on_segs OA q -> ~ on_segs OB q ->
      parity pieces q = op2 (parity OA q) (parity OB q) /\ parity (outlines (flat_map rings ps)) q = op2 (parity OA q) (parity OB q).
Lemma lists_made : exists ps pieces, run_polygons from_result fuel shape limit (filter kA A) (filter kB B) = Some ps /\ made ps pieces /\ Forall simple_contour (flat_map rings ps) /\ non_crossing (outlines (flat_map rings ps)).
Proof.
  destruct (run_made r r' kA kB (pl_nc _ _ P) (pl_nc _ _ P') (list_sides k k' r r' P P') Cov op2 sel Se Zero from_result FR limit Lim shape fuel (lists_fuel k k' r r' P P' kA kB fuel Fuel))
    as (ps & Er & Sim & Nc & Ev & On & Sub & Pp & Pr).
  exists ps, (run_pieces from_result fuel shape limit (filter kA A) (filter kB B)). split; auto. split; [|exact Sim]. split; auto. split; auto. split; auto. split.
  - intros g I. destruct (Sub g I) as (e & J & Q). destruct J as [J|J]; [destruct (prepared_edge k r e P J) as (e0 & J0 & Q0)|destruct (prepared_edge k' r' e P' J) as (e0 & J0 & Q0)];
      exists e0; (split; auto); intros x O; auto.
  - exists (all_points (operands (filter kA A) (filter kB B)) ++ ends_of A ++ ends_of B). intros q Nq O1 O2.
    assert (O1' : ~ on_segs A q) by (intros O; apply O1, (on_list k r q P); auto). assert (O2' : ~ on_segs B q) by (intros O; apply O2, (on_list k' r' q P'); auto).
    rewrite <- (parity_prepared k r q P O1), <- (parity_prepared k' r' q P' O2). auto.
Qed.
End Made.

Section Kept.
Variables l l' : list polygon.
Hypothesis V : valid_polygons l.
Hypothesis V' : valid_polygons l'.
Variables f f' : polygon -> bool.
Notation k := (filter f l). Notation k' := (filter f' l').
Notation m := (filter (fun p => negb (f p)) l). Notation m' := (filter (fun p => negb (f' p)) l').
Notation O t := (outlines (flat_map rings t)).
Notation S0 := (O l ++ O l').
Let Vk : valid_polygons k := valid_filter f l V.
Let Vk' : valid_polygons k' := valid_filter f' l' V'.
Lemma proper_S0 : Forall proper_seg S0.
Proof. apply Forall_app. split; [apply (proj1 (vm_edges _ V))|apply (proj1 (vm_edges _ V'))]. Qed.
Lemma S0_off z : ~ on_segs S0 z -> ~ on_segs (O k) z /\ ~ on_segs (O k') z.
Proof. intros Q. apply off_segs_app in Q. destruct Q as [Q1 Q2]. split; intros J; apply filter_outlines in J; auto. Qed.
Lemma made_alone op2 ps P : made k k' op2 ps P -> two_sided S0 (flat_map rings ps).
Proof.
  intros (Nc & Ev & On & Sub & F & Pa). rewrite <- (app_nil_r (flat_map rings ps)). apply (join_sides P S0 F); auto using proper_S0.
  - change (outlines []) with (@nil segment). rewrite app_nil_r. apply no_overlaps_nc; auto.
  - intros z Nz Oz. destruct (S0_off z Oz) as [O1 O2]. destruct (Pa z Nz O1 O2) as [-> ->]. auto.
Qed.
Lemma sub_O h t e : In e (O (filter h t)) -> In e (O t).
Proof. rewrite !outlines_rings. intros I. apply in_flat_map in I. destruct I as (a & I & J). apply filter_In in I. apply in_flat_map. exists a. tauto. Qed.
(** With what was left out, when that shares no piece with the other operand. *)
Lemma made_both op2 ps P : (forall e g, In e (O m) -> In g (O l') -> ~ share_continuum e g) -> (forall e g, In e (O m') -> In g (O l) -> ~ share_continuum e g) ->
  made k k' op2 ps P -> two_sided S0 (flat_map rings (ps ++ m ++ m')).
Proof.
  intros X X' (Nc & Ev & On & Sub & F & Pa). rewrite flat_map_app. apply (join_sides P S0 F); auto using proper_S0.
  - apply overlaps_app; [apply no_overlaps_nc; auto| |].
    + rewrite flat_map_app, outlines_app. apply overlaps_app; [apply no_overlaps_nc, (vm_edges _ (valid_filter _ l V))|apply no_overlaps_nc, (vm_edges _ (valid_filter _ l' V'))|].
      intros s t I J. apply X; auto. apply (sub_O _ _ _ J).
    + intros s t I J Sh. destruct (Sub s I) as (e & Q & Ss). apply (share_sub s e t Ss) in Sh. rewrite flat_map_app, outlines_app in J. apply in_app_or in J.
      destruct Q as [Q|Q], J as [J|J].
      * apply (part_apart f l e t (vm_edges _ V) Q J Sh).
      * apply (X' t e J); [apply (sub_O _ _ _ Q)|apply share_continuum_sym; auto].
      * apply (X t e J); [apply (sub_O _ _ _ Q)|apply share_continuum_sym; auto].
      * apply (part_apart f' l' e t (vm_edges _ V') Q J Sh).
  - intros z Nz Oz. destruct (S0_off z Oz) as [O1 O2]. destruct (Pa z Nz O1 O2) as [-> ->]. auto.
Qed.
(** With what was left out of the first operand, when that has no area in common with the box of the second. *)
Lemma made_first b' ps P : (forall q, some_inside l' q -> inside_box b' q) -> (forall x, on_segs (O l') x -> in_box b' x) ->
  (forall p, In p m -> do_boxes_have_no_common_area (polygon_box p) b' = true) ->
  made k k' (fun a b => a && negb b) ps P -> two_sided S0 (flat_map rings (ps ++ m)).
Proof.
  intros Bd Bo X (Nc & Ev & On & Sub & F & Pa). rewrite flat_map_app. apply (join_sides P S0 F); auto using proper_S0.
  2:{ intros z Nz Oz. destruct (S0_off z Oz) as [O1 O2]. destruct (Pa z Nz O1 O2) as [-> ->]. auto. }
  apply overlaps_app; [apply no_overlaps_nc; auto|apply no_overlaps_nc, (vm_edges _ (valid_filter _ l V))|].
  intros s t I J Sh. destruct (Sub s I) as (e & [Q|Q] & Ss); [apply (part_apart f l e t (vm_edges _ V) Q J), (share_sub s e t Ss Sh)|].
  rewrite outlines_rings in J. apply in_flat_map in J. destruct J as (p & Ip & J).
  assert (Vp : valid_polygon p). { pose proof (vm_each _ (valid_filter (fun p => negb (f p)) l V)) as E. rewrite Forall_forall in E. auto. }
  destruct Sh as (q1 & q2 & Nq & A1 & A2 & B1 & B2).
  assert (Cx : forall g, on_seg g q1 -> on_seg g q2 -> seg_subset (Seg q1 q2) g) by (intros g C1 C2 y Oy; exact (between_trans _ _ _ _ _ C1 C2 Oy)).
  set (S1 := P ++ O k' ++ S0).
  assert (PS1 : Forall proper_seg S1). { apply Forall_app; split; [apply Nc|]. apply Forall_app; split; [apply (proj1 (vm_edges _ Vk'))|apply proper_S0]. }
  destruct (flip_near S1 F (Seg q1 q2) q1 1 [P; O k'; outlines (rings p)] PS1) as (w & up & down & Ow & U1 & U2 & U3 & U4 & Cl & Fl); auto.
  { apply between_start. }
  { vm_compute. reflexivity. }
  { repeat (apply Forall_cons || apply Forall_nil).
    - split; [intros y Iy; apply in_or_app; auto|]. split; [apply no_overlaps_nc; auto|]. split; auto. exists s. auto.
    - split; [intros y Iy; apply in_or_app; right; apply in_or_app; auto|]. split; [apply no_overlaps_nc, (vm_edges _ Vk')|]. split; [apply even_outlines|]. exists e. auto.
    - split; [intros y Iy; apply in_or_app; right; apply in_or_app; right; apply in_or_app; left; rewrite outlines_rings; apply in_flat_map; exists p; split; auto; apply filter_In in Ip; apply Ip|].
      split; [apply no_overlaps_nc, (vp_edges _ Vp)|]. split; [apply even_outlines|]. exists t. auto. }
  pose proof (Fl P (or_introl eq_refl)) as FP. pose proof (Fl (O k') (or_intror (or_introl eq_refl))) as FB. pose proof (Fl (outlines (rings p)) (or_intror (or_intror (or_introl eq_refl)))) as FD. clear Fl.
  assert (Wb : in_box (polygon_box p) w). { apply boundary_box; auto. exists t. split; auto. apply (Cx t); auto. }
  assert (Wb' : in_box b' w). { apply Bo. exists e. split; [apply (sub_O _ _ _ Q)|]. apply (Cx e); auto. }
  assert (St : forall z, z = up \/ z = down -> off_outlines (rings p) z /\ off_outlines (flat_map rings k) z /\ off_outlines (flat_map rings k') z /\ parity P z = parity (O k) z && negb (parity (O k') z)).
  { intros z Z. destruct (Cl z Z) as (_ & C2 & C3). unfold S1 in C3. apply off_segs_app in C3. destruct C3 as [_ C3]. apply off_segs_app in C3. destruct C3 as [_ C3].
    destruct (S0_off z C3) as [C4 C5]. split; [|split; auto; split; auto; apply (Pa z C2 C4 C5)].
    intros (y & Iy & Oy). apply C3. exists y. split; auto. apply in_or_app; left. rewrite outlines_rings. apply in_flat_map. exists p. split; auto. apply filter_In in Ip; apply Ip. }
  assert (InP : forall z, z = up \/ z = down -> parity (outlines (rings p)) z = true -> inside_box (polygon_box p) z /\ parity (O k) z = false).
  { intros z Z E. destruct (St z Z) as (D1 & D2 & D3 & _). assert (Ii : inside_polygon p z) by (apply polygon_odd; auto; apply odd_xsum; rewrite insideb_outlines; auto).
    split; [apply inside_polygon_box; auto|]. destruct (parity (O k) z) eqn:E2; auto. exfalso. apply (filter_apart f l z V); [|exists p; auto].
    apply list_odd; auto. rewrite insideb_outlines; auto. }
  assert (InB : forall z, z = up \/ z = down -> parity (O k') z = true -> inside_box b' z).
  { intros z Z E. destruct (St z Z) as (D1 & D2 & D3 & _). apply Bd. apply (some_filter f' l' z). left. apply list_odd; auto. rewrite insideb_outlines; auto. }
  assert (Fin : forall z z', (z = up \/ z = down) -> (z' = up \/ z' = down) -> parity (outlines (rings p)) z = true -> parity (O k') z' = true -> parity P z = negb (parity P z') -> False).
  { intros z z' Z Z' E E' Fp. destruct (St z Z) as (_ & _ & _ & Q1). destruct (St z' Z') as (_ & _ & _ & Q2). destruct (InP z Z E) as [_ Q3]. rewrite Q3 in Q1. rewrite E' in Q2.
    cbn [negb andb] in Q1, Q2. rewrite andb_false_r in Q2. rewrite Q1, Q2 in Fp. discriminate. }
  specialize (X p Ip). destruct Wb as ((W1 & W2) & (W3 & W4)), Wb' as ((W1' & W2') & (W3' & W4')).
  assert (Sp : (px w = max_x (polygon_box p) /\ px w = min_x b') \/ (px w = min_x (polygon_box p) /\ px w = max_x b')
      \/ (py w = max_y (polygon_box p) /\ py w = min_y b') \/ (py w = min_y (polygon_box p) /\ py w = max_y b')).
  { unfold do_boxes_have_no_common_area, box_disjoint_with, box_touches in X. clear - X W1 W2 W3 W4 W1' W2' W3' W4'.
    repeat rewrite ?orb_true_iff, ?andb_true_iff, ?qltb_true, ?qleb_true, ?qeqb_true in X.
    repeat match goal with H : _ \/ _ |- _ => destruct H | H : _ /\ _ |- _ => destruct H end; try (exfalso; qlra).
    all: first [left; split; qlra|right; left; split; qlra|right; right; left; split; qlra|right; right; right; split; qlra]. }
  assert (Nu : forall (z z' : point) (D : list segment), parity D z = negb (parity D z') -> parity D z = true \/ parity D z' = true) by (intros z z' D Q0; destruct (parity D z'); auto).
  assert (NFP : parity P down = negb (parity P up)) by (rewrite FP; destruct (parity P down); auto).
  destruct (Nu _ _ _ FB) as [Eb|Eb], (Nu _ _ _ FD) as [Ed|Ed].
  - destruct (InB up (or_introl eq_refl) Eb) as ((G1 & G2) & (G3 & G4)). destruct (InP up (or_introl eq_refl) Ed) as (((H1 & H2) & (H3 & H4)) & _).
    destruct Sp as [[E1 E2]|[[E1 E2]|[[E1 E2]|[E1 E2]]]]; qlra.
  - apply (Fin down up); auto.
  - apply (Fin up down); auto.
  - destruct (InB down (or_intror eq_refl) Eb) as ((G1 & G2) & (G3 & G4)). destruct (InP down (or_intror eq_refl) Ed) as (((H1 & H2) & (H3 & H4)) & _).
    destruct Sp as [[E1 E2]|[[E1 E2]|[[E1 E2]|[E1 E2]]]]; qlra.
Qed.
End Kept.
