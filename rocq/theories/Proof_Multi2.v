(** The four operations on lists of polygons, some of which are left out of the sweep. *)
From Coq Require Import QArith Qcanon Bool List Arith Lia Permutation.
From Verif Require Import QcTac Model_Base Model_Utils Model_Box Model_Geometry Model_Contour Model_Linear Model_Mixed Model_Shaped Model_Multipolygon Spec_Base Spec_Segment Spec_Clip Spec_Contour
  Spec_Relate Spec_Bounds Spec_Sweep Spec_Shaped Spec_Multipolygon
  Proof_SegOps Proof_Base Proof_Line Proof_Contour Proof_Edges Proof_Bounds Proof_Shrink Proof_Locate Proof_Locate3 Proof_Locate4 Proof_SegLoops Proof_Sweep4 Proof_Sweep6 Proof_Sweep18 Proof_Parity
  Proof_Corner Proof_Region Proof_Ray Proof_Orient Proof_Nested Proof_Nested2 Proof_Bridge Proof_Odd Proof_Clip Proof_Ready Proof_Polygons Proof_Multi.
Import ListNotations.
Local Open Scope Qc_scope.

Definition clips_lists (op : Prop -> Prop -> Prop) (l l' : list polygon) (outcome : clip_outcome) : Prop :=
  exists g, outcome = Clips g /\ shaped g /\ Forall nondegenerate (geometry_rings g)
    /\ (forall x, on_segs (outlines (geometry_rings g)) x -> on_segs (outlines (flat_map rings l)) x \/ on_segs (outlines (flat_map rings l')) x)
    /\ forall q, off_outlines (flat_map rings l) q -> off_outlines (flat_map rings l') q -> (inside_odd (geometry_rings g) q <-> op (some_inside l q) (some_inside l' q)).

Lemma lists_nondegenerate l : valid_polygons l -> Forall nondegenerate (flat_map rings l).
Proof.
  intros V. apply Forall_forall. intros vs I. apply in_flat_map in I. destruct I as (p & I & J).
  pose proof (vm_each _ V) as E. rewrite Forall_forall in E. specialize (E p I). pose proof (rings_nondegenerate p E) as N. rewrite Forall_forall in N. auto.
Qed.
Lemma concat_same (l r : list (list point)) (v : point) : Forall2 same_cycle l r -> In v (concat r) -> In v (concat l).
Proof.
  intros F I. apply in_concat in I. destruct I as (vs & I1 & I2). apply in_concat. induction F as [|a b l m S F IH]; [destruct I1|]. destruct I1 as [->|I1].
  - exists a. split; [left; auto|]. apply (Permutation_in _ (Permutation_sym (same_cycle_permutation _ _ S))); auto.
  - destruct (IH I1) as (y & J1 & J2). exists y. split; auto. right; auto.
Qed.

Section Lists.
Variables k k' : list polygon.
Hypothesis V : valid_polygons k.
Hypothesis V' : valid_polygons k'.
Variables r r' : list (list point).
Hypothesis P : prepared_list k r.
Hypothesis P' : prepared_list k' r'.
Notation A := (outlines r). Notation B := (outlines r').
(** The abscissas of the boxes. *)
Definition spread (l : list polygon) (low high : Qc) : Prop := forall p, In p l -> low <= min_x (polygon_box p) /\ max_x (polygon_box p) <= high.

Lemma list_range l s low high e : valid_polygons l -> prepared_list l s -> spread l low high -> In e (outlines s) ->
  low <= px (lo e) /\ px (lo e) <= high /\ low <= px (hi e) /\ px (hi e) <= high.
Proof.
  clear. intros Vl Pl Sp I. assert (Q : forall x, In x [lo e; hi e] -> low <= px x /\ px x <= high).
  { intros x J. assert (K : In x (ends_of (outlines s))).
    { unfold ends_of. apply in_flat_map. exists e. split; auto. cbn in J |- *. destruct (lo_hi e) as [[A1 A2]|[A1 A2]]; rewrite A1, A2 in J; tauto. }
    apply concat_ends in K. apply (concat_same _ _ x (pl_same _ _ Pl)) in K. apply in_concat in K. destruct K as (vs & K1 & K2).
    apply in_flat_map in K1. destruct K1 as (p & K1 & K3). pose proof (vm_each _ Vl) as E. rewrite Forall_forall in E.
    destruct (vertices_range p x (E p K1)) as [R1 R2]; [apply in_concat; exists vs; auto|]. destruct (Sp p K1) as [S1 S2]. unfold polygon_box in *. split; qlra. }
  destruct (Q (lo e)) as [Q1 Q2]; [cbn; auto|]. destruct (Q (hi e)) as [Q3 Q4]; [cbn; auto|]. auto.
Qed.
Lemma list_sides (f : bool) eps : rising eps (ends_of (full A B f)) -> forall e q, In e (full A B f) -> on_seg e q ->
  (forall v, In v (ends_of (full A B f)) -> Xs eps v <> Xs eps q) -> xsum (below_seg eps q) (full A B f) = negb (segment_flag e).
Proof. destruct f; [apply (pl_side _ _ P)|apply (pl_side _ _ P')]. Qed.
Lemma on_list l s q : prepared_list l s -> on_segs (outlines s) q <-> on_segs (outlines (flat_map rings l)) q.
Proof.
  clear. intros Pl. pose proof (off_same _ _ q (pl_same _ _ Pl)) as E. unfold off_outlines in E. split; intros O.
  - destruct (on_segs_dec (outlines (flat_map rings l)) q); auto. exfalso. tauto.
  - destruct (on_segs_dec (outlines s) q); auto. exfalso. tauto.
Qed.
Lemma inside_list l s q : valid_polygons l -> prepared_list l s -> off_outlines (flat_map rings l) q -> some_inside l q <-> xsum (ins q) s = true.
Proof. clear. intros Vl Pl Off. rewrite (list_odd l q Vl Off), (Forall2_rings_inside _ _ q (pl_same _ _ Pl)). tauto. Qed.
Definition lists_count (l l' : list polygon) : nat := (length (concat (flat_map rings l)) + length (concat (flat_map rings l')))%nat.
Lemma lists_fuel kA kB fuel : (enough (lists_count k k') <= fuel)%nat -> (enough (length (filter kA A ++ filter kB B)) <= fuel)%nat.
Proof.
  intros F. etransitivity; [|exact F]. apply enough_mono. rewrite app_length. unfold lists_count.
  rewrite (same_lengths _ _ (pl_same _ _ P)), (same_lengths _ _ (pl_same _ _ P')), <- !outlines_length.
  pose proof (filter_len kA A). pose proof (filter_len kB B). lia.
Qed.

Variables (kA kB : segment -> bool).
Hypothesis Cov : forall (f : bool) e g, In e (full A B f) -> In g (full A B (negb f)) -> px (lo e) <= px (hi g) -> px (lo g) <= px (hi e) -> keep kA kB f e = true.
Variable op2 : bool -> bool -> bool.
Variable sel : bool -> bool -> overlap_kind -> bool.
Hypothesis Se : selects op2 sel.
Hypothesis Zero : forall f : bool, (forall e, In e (full A B f) -> keep kA kB f e = true) \/ (forall a, at2 op2 f a false = false).
Variable from_result : shaped_operation -> event -> bool.
Hypothesis FR : forall s e, from_result s e = sel (is_left_event_from_first_operand (so s) e) (other_flag s e) (kind_of s e).
Variable limit : option Qc.
Hypothesis Lim : match limit with None => True | Some m => exists f : bool,
  (forall a, (if f then op2 false a else op2 a false) = false) /\ forall e, In e (opf (filter kA A) (filter kB B) f) -> px (hi e) <= m end.
Variables (shape : tree_shape) (fuel : nat).
Hypothesis Fuel : (enough (lists_count k k') <= fuel)%nat.
Variable op : Prop -> Prop -> Prop.
Hypothesis Op : forall a b : bool, op2 a b = true <-> op (a = true) (b = true).
Hypothesis OpM : forall a b c d : Prop, (a <-> b) -> (c <-> d) -> (op a c <-> op b d).

Lemma lists_run : exists ps, run_polygons from_result fuel shape limit (filter kA A) (filter kB B) = Some ps
  /\ Forall nondegenerate (flat_map rings ps)
  /\ (forall x, on_segs (outlines (flat_map rings ps)) x -> on_segs (outlines (flat_map rings k)) x \/ on_segs (outlines (flat_map rings k')) x)
  /\ (forall q, off_outlines (flat_map rings k) q -> off_outlines (flat_map rings k') q -> (xsum (ins q) (flat_map rings ps) = true <-> op (some_inside k q) (some_inside k' q)))
  /\ (k <> [] -> op2 true true = true -> op2 true false = true -> ps <> []).
Proof.
  destruct (run_all r r' kA kB (pl_nc _ _ P) (pl_nc _ _ P') list_sides Cov op2 sel Se Zero from_result FR limit Lim shape fuel (lists_fuel kA kB fuel Fuel))
    as (ps & Er & Ng & Sub & Odd).
  exists ps. split; auto. split; auto. split; [|split].
  - intros x O. rewrite <- (on_list k r x P), <- (on_list k' r' x P'). auto.
  - intros q O1 O2. rewrite Odd.
    + rewrite Op. apply OpM; symmetry; apply inside_list; auto.
    + intros O. apply (on_list k r q P) in O. contradiction.
    + intros O. apply (on_list k' r' q P') in O. contradiction.
  - intros Nk T1 T2 ->.
    assert (Sm : Forall simple_contour (flat_map rings k)).
    { apply Forall_forall. intros vs I. apply in_flat_map in I. destruct I as (p & I & J). pose proof (vm_each _ V) as E. rewrite Forall_forall in E.
      pose proof (vp_simple _ (E p I)) as S. rewrite Forall_forall in S. auto. }
    destruct (inner_point r B (pl_nc _ _ P)) as (q & O1 & O2 & Q).
    + intros E. pose proof (pl_same _ _ P) as F. rewrite E in F. destruct k as [|p l]; [congruence|]. cbn [flat_map rings app] in F. inversion F.
    + intros I. pose proof (pl_same _ _ P) as F. clear - I Sm F. induction F as [|a b l m S F IH]; [destruct I|].
      inversion Sm as [|? ? [[S1 _] _] S2]; subst. destruct I as [->|I]; auto. rewrite (same_cycle_length _ _ S) in S1. cbn in S1. lia.
    + apply (pl_nc _ _ P').
    + specialize (Odd q O1 O2). rewrite Q in Odd. cbn [flat_map xsum] in Odd. destruct (xsum _ r'); congruence.
Qed.
End Lists.

Lemma some_filter f l q : some_inside l q <-> some_inside (filter f l) q \/ some_inside (filter (fun p => negb (f p)) l) q.
Proof.
  unfold some_inside. split.
  - intros (p & I & J). destruct (f p) eqn:E; [left|right]; exists p; (split; auto); apply filter_In; rewrite E; auto.
  - intros [(p & I & J)|(p & I & J)]; apply filter_In in I; exists p; tauto.
Qed.
Lemma filter_apart f l q : valid_polygons l -> some_inside (filter f l) q -> some_inside (filter (fun p => negb (f p)) l) q -> False.
Proof.
  intros V (p & I & J) (p' & I' & J'). apply filter_In in I. apply filter_In in I'. destruct I as [I F], I' as [I' F'].
  assert (N : p <> p') by (intros ->; rewrite F in F'; discriminate). pose proof (vm_apart _ V) as Ap.
  clear - I I' N Ap J J'. induction l as [|x l IH]; [destruct I|]. inversion Ap as [|? ? A1 A2]; subst. rewrite Forall_forall in A1.
  destruct I as [->|I], I' as [->|I']; auto; [apply (A1 p' I' q); auto|apply (A1 p I q); auto].
Qed.
Lemma filter_outlines f l x : on_segs (outlines (flat_map rings (filter f l))) x -> on_segs (outlines (flat_map rings l)) x.
Proof.
  intros O. destruct (on_segs_dec (outlines (flat_map rings l)) x) as [Y|N]; auto. exfalso. apply (off_filter f l x N); auto.
Qed.
Lemma filter_count f l : (length (concat (flat_map rings (filter f l))) <= length (concat (flat_map rings l)))%nat.
Proof.
  induction l as [|p l IH]; auto. cbn [filter flat_map]. rewrite concat_app, app_length. destruct (f p); [cbn [flat_map]; rewrite concat_app, app_length|]; lia.
Qed.
Lemma spread_of l : spread l (least_x l) (greatest_x l).
Proof.
  intros p I. unfold least_x, greatest_x. split.
  - assert (Q : forall v l, In v l -> min_of l <= v).
    { clear. intros v [|w l]; [intros []|]. intros I. cbn [min_of]. assert (G : forall l w, fold_left q_min l w <= w /\ forall v, In v l -> fold_left q_min l w <= v).
      { clear. induction l as [|u l IH]; intros w; [split; [apply Qcle_refl|intros v []]|]. cbn [fold_left]. destruct (IH (q_min w u)) as [G1 G2].
        assert (M : q_min w u <= w /\ q_min w u <= u) by (unfold q_min; qcase; split; qlra). split; [qlra|]. intros v [<-|I]; [qlra|auto]. }
      destruct (G l w) as [G1 G2]. destruct I as [<-|I]; auto. }
    apply Q. apply (in_map (fun p => min_x (polygon_box p))); auto.
  - assert (Q : forall v l, In v l -> v <= Model_Linear.max_of l).
    { clear. intros v [|w l]; [intros []|]. intros I. cbn [Model_Linear.max_of]. assert (G : forall l w, w <= fold_left q_max l w /\ forall v, In v l -> v <= fold_left q_max l w).
      { clear. induction l as [|u l IH]; intros w; [split; [apply Qcle_refl|intros v []]|]. cbn [fold_left]. destruct (IH (q_max w u)) as [G1 G2].
        assert (M : w <= q_max w u /\ u <= q_max w u) by (unfold q_max; qcase; split; qlra). split; [qlra|]. intros v [<-|I]; [qlra|auto]. }
      destruct (G l w) as [G1 G2]. destruct I as [<-|I]; auto. }
    apply Q. apply (in_map (fun p => max_x (polygon_box p))); auto.
Qed.
Lemma spread_one p : spread [p] (min_x (polygon_box p)) (max_x (polygon_box p)).
Proof. intros x [<-|[]]. split; apply Qcle_refl. Qed.

Section Kept.
Variables l l' : list polygon.
Hypothesis V : valid_polygons l.
Hypothesis V' : valid_polygons l'.
Variables f f' : polygon -> bool.
Notation k := (filter f l). Notation k' := (filter f' l').
Notation m := (filter (fun p => negb (f p)) l). Notation m' := (filter (fun p => negb (f' p)) l').
(** What is left out has no common points with the other operand. *)
Hypothesis Ap : forall q, some_inside m q -> some_inside l' q -> False.
Hypothesis Ap' : forall q, some_inside m' q -> some_inside l q -> False.
Variables (shape : tree_shape) (fuel : nat).
Hypothesis Fuel : (enough (lists_count l l') <= fuel)%nat.
Lemma kept_fuel : (enough (lists_count k k') <= fuel)%nat.
Proof. etransitivity; [|exact Fuel]. apply enough_mono. unfold lists_count. pose proof (filter_count f l). pose proof (filter_count f' l'). lia. Qed.
Let Vk : valid_polygons k := valid_filter f l V.
Let Vk' : valid_polygons k' := valid_filter f' l' V'.

Theorem kept_intersection low high low' high' : spread k low high -> spread k' low' high' ->
  clips_lists and l l' (clip_polygons shaped_intersection collect_maybe_empty_polygons fuel shape (Some (q_min high high'))
    (reaching (q_max low low') (q_min high high') (polygons_segments k)) (reaching (q_max low low') (q_min high high') (polygons_segments k'))).
Proof.
  intros Sp Sp'. destruct (prepare_list k Vk) as (r & P), (prepare_list k' Vk') as (r' & P'). rewrite (pl_segments _ _ P), (pl_segments _ _ P').
  change (reaching ?a ?b ?s) with (filter (reach a b) s). set (lw := q_max low low'). set (hg := q_min high high').
  destruct (lists_run k k' Vk Vk' r r' P P' (reach lw hg) (reach lw hg)) with (op2 := andb) (sel := sel_intersection) (from_result := shaped_intersection)
    (limit := Some hg) (shape := shape) (fuel := fuel) (op := and) as (ps & Er & Ng & Sub & Odd & _).
  - intros b e g I J L1 L2. assert (Q : reach lw hg e = true); [|destruct b; exact Q]. apply reach_true. unfold lw, hg, q_max, q_min. pose proof (lo_le_hi e).
    destruct b; cbn [full negb] in I, J; [destruct (list_range k r low high e Vk P Sp I) as (? & ? & ? & ?), (list_range k' r' low' high' g Vk' P' Sp' J) as (? & ? & ? & ?)
      |destruct (list_range k' r' low' high' e Vk' P' Sp' I) as (? & ? & ? & ?), (list_range k r low high g Vk P Sp J) as (? & ? & ? & ?)]; repeat qcase; split; qlra.
  - apply selects_intersection.
  - intros [] ; right; intros []; reflexivity.
  - auto.
  - unfold hg, q_min. destruct (qltb_spec high' high) as [L|L]; [exists false|exists true]; (split; [intros []; reflexivity|]); intros e I; cbn [opf] in I; apply filter_In in I; destruct I as [I _].
    + destruct (list_range k' r' low' high' e Vk' P' Sp' I) as (? & ? & ? & ?); auto.
    + destruct (list_range k r low high e Vk P Sp I) as (? & ? & ? & ?); auto.
  - apply kept_fuel.
  - intros [] []; cbn; intuition discriminate.
  - intros a b c d; tauto.
  - destruct (collect_maybe ps) as (g & Cg & Sg & Rg). exists g. split; [rewrite (run_clips _ collect_maybe_empty_polygons _ _ _ _ _ ps Er), Cg; auto|].
    split; auto. rewrite Rg. split; auto. split.
    + intros x O. apply Sub in O. destruct O as [O|O]; apply filter_outlines in O; auto.
    + intros q O1 O2. rewrite odd_xsum, Odd by (apply off_filter; auto). rewrite (some_filter f l q), (some_filter f' l' q).
      specialize (Ap q). specialize (Ap' q). rewrite (some_filter f' l' q) in Ap. rewrite (some_filter f l q) in Ap'. tauto.
Qed.
Theorem kept_difference low high : spread k low high ->
  clips_lists (fun a b => a /\ ~ b) l l' (clip_polygons shaped_difference (fun ps => collect_maybe_empty_polygons (ps ++ m)) fuel shape (Some high)
    (polygons_segments k) (reaching low high (polygons_segments k'))).
Proof.
  intros Sp. destruct (prepare_list k Vk) as (r & P), (prepare_list k' Vk') as (r' & P'). rewrite (pl_segments _ _ P), (pl_segments _ _ P').
  change (reaching ?a ?b ?s) with (filter (reach a b) s). rewrite <- (filter_all (outlines r)) at 1.
  destruct (lists_run k k' Vk Vk' r r' P P' (fun _ => true) (reach low high)) with (op2 := fun a b => a && negb b) (sel := sel_difference) (from_result := shaped_difference)
    (limit := Some high) (shape := shape) (fuel := fuel) (op := fun a b => a /\ ~ b) as (ps & Er & Ng & Sub & Odd & _).
  - intros [] e g I J L1 L2; auto. cbn [keep]. apply reach_true. cbn [full negb] in I, J. destruct (list_range k r low high g Vk P Sp J) as (? & ? & ? & ?). split; qlra.
  - apply selects_difference.
  - intros []; [left; auto|right; intros []; reflexivity].
  - auto.
  - exists true. split; [auto|]. intros e I. cbn [opf] in I. rewrite filter_all in I. destruct (list_range k r low high e Vk P Sp I) as (? & ? & ? & ?); auto.
  - apply kept_fuel.
  - intros [] []; cbn; intuition discriminate.
  - intros a b c d; tauto.
  - destruct (collect_maybe (ps ++ m)) as (g & Cg & Sg & Rg). exists g. split; [rewrite (run_clips _ (fun ps => collect_maybe_empty_polygons (ps ++ m)) _ _ _ _ _ ps Er), Cg; auto|].
    split; auto. rewrite Rg, flat_map_app. split; [apply Forall_app; split; auto; apply lists_nondegenerate, valid_filter; auto|]. split.
    + intros x O. rewrite outlines_app, on_segs_app in O. destruct O as [O|O]; [|apply filter_outlines in O; auto]. apply Sub in O. destruct O as [O|O]; apply filter_outlines in O; auto.
    + intros q O1 O2. rewrite odd_xsum, xsum_app. pose proof (Odd q (off_filter f l q O1) (off_filter f' l' q O2)) as E.
      pose proof (list_odd m q (valid_filter _ l V) (off_filter _ l q O1)) as E2. pose proof (filter_apart f l q V) as Ap2.
      rewrite (some_filter f l q), (some_filter f' l' q).
      specialize (Ap q). specialize (Ap' q). rewrite (some_filter f' l' q) in Ap. rewrite (some_filter f l q) in Ap'.
      clear - Ap Ap' E E2 Ap2. destruct (xsum _ (flat_map rings ps)), (xsum _ (flat_map rings m)); cbn [xorb]; intuition congruence.
Qed.
Theorem kept_union : k <> [] ->
  clips_lists or l l' (clip_polygons shaped_union (fun ps => collect_non_empty_polygons (ps ++ m ++ m')) fuel shape None (polygons_segments k) (polygons_segments k')).
Proof.
  intros Nk. destruct (prepare_list k Vk) as (r & P), (prepare_list k' Vk') as (r' & P'). rewrite (pl_segments _ _ P), (pl_segments _ _ P').
  rewrite <- (filter_all (outlines r)) at 1. rewrite <- (filter_all (outlines r')) at 1.
  destruct (lists_run k k' Vk Vk' r r' P P' (fun _ => true) (fun _ => true)) with (op2 := orb) (sel := sel_union) (from_result := shaped_union)
    (limit := @None Qc) (shape := shape) (fuel := fuel) (op := or) as (ps & Er & Ng & Sub & Odd & Ne).
  - intros [] e g; auto.
  - apply selects_union.
  - intros []; left; auto.
  - auto.
  - auto.
  - apply kept_fuel.
  - intros [] []; cbn; intuition discriminate.
  - intros a b c d; tauto.
  - specialize (Ne Nk eq_refl eq_refl). destruct (collect_non_empty (ps ++ m ++ m')) as (g & Cg & Sg & Rg); [destruct ps; [congruence|discriminate]|].
    exists g. split; [rewrite (run_clips _ (fun ps => collect_non_empty_polygons (ps ++ m ++ m')) _ _ _ _ _ ps Er), Cg; auto|].
    split; auto. rewrite Rg, !flat_map_app. split; [apply Forall_app; split; auto; apply Forall_app; split; apply lists_nondegenerate, valid_filter; auto|]. split.
    + intros x O. rewrite !outlines_app, !on_segs_app in O. destruct O as [O|[O|O]]; [|apply filter_outlines in O; auto|apply filter_outlines in O; auto].
      apply Sub in O. destruct O as [O|O]; apply filter_outlines in O; auto.
    + intros q O1 O2. rewrite odd_xsum, !xsum_app. pose proof (Odd q (off_filter f l q O1) (off_filter f' l' q O2)) as E.
      pose proof (list_odd m q (valid_filter _ l V) (off_filter _ l q O1)) as E2. pose proof (filter_apart f l q V) as Ap2.
      pose proof (list_odd m' q (valid_filter _ l' V') (off_filter _ l' q O2)) as E3. pose proof (filter_apart f' l' q V') as Ap3.
      rewrite (some_filter f l q), (some_filter f' l' q).
      specialize (Ap q). specialize (Ap' q). rewrite (some_filter f' l' q) in Ap. rewrite (some_filter f l q) in Ap'.
      clear - Ap Ap' E E2 E3 Ap2 Ap3. destruct (xsum _ (flat_map rings ps)), (xsum _ (flat_map rings m)), (xsum _ (flat_map rings m')); cbn [xorb]; intuition congruence.
Qed.
Theorem kept_symmetric :
  clips_lists (fun a b => (a /\ ~ b) \/ (b /\ ~ a)) l l'
    (clip_polygons shaped_symmetric_difference (fun ps => collect_maybe_empty_polygons (ps ++ m ++ m')) fuel shape None (polygons_segments k) (polygons_segments k')).
Proof.
  destruct (prepare_list k Vk) as (r & P), (prepare_list k' Vk') as (r' & P'). rewrite (pl_segments _ _ P), (pl_segments _ _ P').
  rewrite <- (filter_all (outlines r)) at 1. rewrite <- (filter_all (outlines r')) at 1.
  destruct (lists_run k k' Vk Vk' r r' P P' (fun _ => true) (fun _ => true)) with (op2 := xorb) (sel := sel_symmetric) (from_result := shaped_symmetric_difference)
    (limit := @None Qc) (shape := shape) (fuel := fuel) (op := fun a b => (a /\ ~ b) \/ (b /\ ~ a)) as (ps & Er & Ng & Sub & Odd & _).
  - intros [] e g; auto.
  - apply selects_symmetric.
  - intros []; left; auto.
  - auto.
  - auto.
  - apply kept_fuel.
  - intros [] []; cbn; intuition congruence.
  - intros a b c d; tauto.
  - destruct (collect_maybe (ps ++ m ++ m')) as (g & Cg & Sg & Rg).
    exists g. split; [rewrite (run_clips _ (fun ps => collect_maybe_empty_polygons (ps ++ m ++ m')) _ _ _ _ _ ps Er), Cg; auto|].
    split; auto. rewrite Rg, !flat_map_app. split; [apply Forall_app; split; auto; apply Forall_app; split; apply lists_nondegenerate, valid_filter; auto|]. split.
    + intros x O. rewrite !outlines_app, !on_segs_app in O. destruct O as [O|[O|O]]; [|apply filter_outlines in O; auto|apply filter_outlines in O; auto].
      apply Sub in O. destruct O as [O|O]; apply filter_outlines in O; auto.
    + intros q O1 O2. rewrite odd_xsum, !xsum_app. pose proof (Odd q (off_filter f l q O1) (off_filter f' l' q O2)) as E.
      pose proof (list_odd m q (valid_filter _ l V) (off_filter _ l q O1)) as E2. pose proof (filter_apart f l q V) as Ap2.
      pose proof (list_odd m' q (valid_filter _ l' V') (off_filter _ l' q O2)) as E3. pose proof (filter_apart f' l' q V') as Ap3.
      rewrite (some_filter f l q), (some_filter f' l' q).
      specialize (Ap q). specialize (Ap' q). rewrite (some_filter f' l' q) in Ap. rewrite (some_filter f l q) in Ap'.
      clear - Ap Ap' E E2 E3 Ap2 Ap3. destruct (xsum _ (flat_map rings ps)), (xsum _ (flat_map rings m)), (xsum _ (flat_map rings m')); cbn [xorb]; intuition congruence.
Qed.
End Kept.
