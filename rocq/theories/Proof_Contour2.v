(** Equality and hashing of compounds; orientation against the signed area. *)
From Coq Require Import QArith Qcanon Bool List ZArith Lia Permutation.
From Verif Require Import QcTac Model_Base Model_Box Model_Geometry Model_Utils Model_Contour
  Spec_Base Spec_Segment Spec_Contour Proof_Base Proof_Line Proof_SegRel Proof_Bounds Proof_Utils Proof_Contour.
Import ListNotations.
Local Open Scope Qc_scope.

Lemma frozenset_includes_spec {A} (same : A -> A -> bool) (R : A -> A -> Prop) l r :
  (forall x y, In x l -> In y r -> same y x = true <-> R x y) ->
  (frozenset_includes same l r = true <-> forall x, In x l -> exists y, In y r /\ R x y).
Proof.
  intros H. unfold frozenset_includes. rewrite forallb_forall. split; intros K x I.
  - specialize (K x I). apply existsb_exists in K. destruct K as (y & J & S).
    exists y. split; auto. apply H; auto.
  - apply existsb_exists. destruct (K x I) as (y & J & S). exists y. split; auto. apply H; auto.
Qed.
Lemma frozenset_eq_spec {A} (same : A -> A -> bool) (R : A -> A -> Prop) l r :
  (forall x y, R x y -> R y x) ->
  (forall x y, In x l -> In y r -> same y x = true <-> R x y) ->
  (forall x y, In x r -> In y l -> same y x = true <-> R x y) ->
  (frozenset_eq same l r = true <-> same_set R l r).
Proof.
  intros Sy H1 H2. unfold frozenset_eq, same_set. rewrite andb_true_iff.
  rewrite (frozenset_includes_spec same R l r H1), (frozenset_includes_spec same R r l H2).
  split; intros [K1 K2]; split; auto; intros y I; destruct (K2 y I) as (x & J & S); eauto.
Qed.

Section SameSet.
Context {A : Type} (R : A -> A -> Prop).
Hypothesis Rr : forall x, R x x.
Hypothesis Rs : forall x y, R x y -> R y x.
Hypothesis Rt : forall x y z, R x y -> R y z -> R x z.

Lemma same_set_refl l : same_set R l l.
Proof. split; eauto. Qed.
Lemma same_set_sym l r : same_set R l r -> same_set R r l.
Proof. intros [K1 K2]; split; intros x I; [destruct (K2 x I) as (y & J & S)|destruct (K1 x I) as (y & J & S)]; eauto. Qed.
Lemma same_set_trans l m r : same_set R l m -> same_set R m r -> same_set R l r.
Proof.
  intros [K1 K2] [L1 L2]; split; intros x I.
  - destruct (K1 x I) as (y & J & S). destruct (L1 y J) as (z & Jz & Sz). eauto.
  - destruct (L2 x I) as (y & J & S). destruct (K2 y J) as (z & Jz & Sz). eauto.
Qed.
Lemma Forall2_in_l {B C} (P : B -> C -> Prop) l r x : Forall2 P l r -> In x l ->
  exists y, In y r /\ P x y.
Proof.
  induction 1 as [|a b l r H F IH]; intros I; [destruct I|]. destruct I as [<-|I].
  - exists b; cbn; auto.
  - destruct (IH I) as (y & J & S). exists y; cbn; auto.
Qed.
Lemma Forall2_in_r {B C} (P : B -> C -> Prop) l r y : Forall2 P l r -> In y r ->
  exists x, In x l /\ P x y.
Proof.
  induction 1 as [|a b l r H F IH]; intros I; [destruct I|]. destruct I as [<-|I].
  - exists a; cbn; auto.
  - destruct (IH I) as (z & J & S). exists z; cbn; auto.
Qed.
Lemma same_multiset_set l r : same_multiset R l r -> same_set R l r.
Proof.
  intros (r' & P & F). split; intros x I.
  - destruct (Forall2_in_l _ _ _ _ F I) as (y & J & S). exists y. split; auto.
    apply (Permutation_in y P); auto.
  - apply (Permutation_in x (Permutation_sym P)) in I.
    apply (Forall2_in_r _ _ _ _ F I).
Qed.
Lemma same_multiset_length l r : same_multiset R l r -> length l = length r.
Proof. intros (r' & P & F). rewrite <- (Permutation_length P). clear P. induction F; cbn; auto. Qed.
Lemma distinct_permutation l l' : Permutation l l' -> pairwise_distinct R l -> pairwise_distinct R l'.
Proof.
  unfold pairwise_distinct. induction 1; intros D; auto.
  - inversion D as [|? ? F D']; subst. apply FOP_cons; auto.
    rewrite Forall_forall in *. intros z I. apply F. apply (Permutation_in z (Permutation_sym H)); auto.
  - inversion D as [|? ? F D']; subst. inversion D' as [|? ? F' D'']; subst.
    inversion F as [|? ? N F'']; subst.
    apply FOP_cons; [apply Forall_cons; [|assumption]; intro K; apply N, Rs, K|].
    apply FOP_cons; auto.
Qed.
Lemma distinct_multiset l : forall r, (length r <= length l)%nat -> pairwise_distinct R l ->
  (forall x, In x l -> exists y, In y r /\ R x y) -> same_multiset R l r.
Proof.
  unfold pairwise_distinct. induction l as [|x l IH]; intros r L D K.
  - destruct r; cbn in L; [|lia]. exists []. split; auto.
  - inversion D as [|? ? F D']; subst. rewrite Forall_forall in F.
    destruct (K x) as (y & J & S); [cbn; auto|].
    destruct (in_split y r J) as (r1 & r2 & ->).
    destruct (IH (r1 ++ r2)) as (r' & P & F2).
    + rewrite app_length in *; cbn in L; lia.
    + auto.
    + intros z I. destruct (K z) as (w & Jw & Sw); [cbn; auto|].
      exists w. split; auto. rewrite in_app_iff in *. destruct Jw as [|[<-|]]; auto.
      exfalso. apply (F z I). eapply Rt; eauto.
    + exists (y :: r'). split; [|constructor; auto].
      transitivity (y :: r1 ++ r2); [constructor; auto|]. apply Permutation_middle.
Qed.
Lemma same_multiset_refl l : same_multiset R l l.
Proof. exists l. split; auto. induction l; constructor; auto. Qed.
End SameSet.

(** ** Segments *)
Lemma same_segment_refl s : same_segment s s. Proof. left; auto. Qed.
Lemma same_segment_sym s t : same_segment s t -> same_segment t s.
Proof. intros [->| ->]; [left; auto|right; destruct s; reflexivity]. Qed.
Lemma same_segment_trans s t u : same_segment s t -> same_segment t u -> same_segment s u.
Proof. intros [->| ->] [->| ->]; [left|right|right|left]; auto; destruct s; reflexivity. Qed.
Lemma point_frozenset l r : frozenset_eq point_eq l r = true <-> forall p : point, In p l <-> In p r.
Proof.
  rewrite (frozenset_eq_spec point_eq eq l r);
    [|auto|intros; rewrite point_eq_true; split; auto..].
  split.
  - intros [K1 K2] p. split; intros I.
    + destruct (K1 p I) as (y & J & ->); auto.
    + destruct (K2 p I) as (y & J & ->); auto.
  - intros K; split; intros p I; exists p; split; auto; apply K; auto.
Qed.
Lemma segment_same_spec s t : segment_same s t = true <-> same_segment s t.
Proof.
  unfold segment_same. rewrite andb_true_iff, point_frozenset. unfold same_segment.
  rewrite <- segment_eq_spec. split; [tauto|]. intros H; split; auto.
  apply segment_hash_consistent; auto.
Qed.
Lemma multisegment_eq_spec l r : multisegment_eq l r = true <-> same_set same_segment l r.
Proof.
  apply frozenset_eq_spec; [apply same_segment_sym| |]; intros x y _ _;
    rewrite segment_same_spec; split; apply same_segment_sym.
Qed.
Lemma multisegment_hash_consistent l r : multisegment_eq l r = true ->
  multisegment_hash_same l r = true.
Proof.
  unfold multisegment_eq, multisegment_hash_same, frozenset_eq, frozenset_includes.
  rewrite !andb_true_iff, !forallb_forall. intros [H K]; split; intros x I;
    [specialize (H x I)|clear H; rename K into H; specialize (H x I)];
    apply existsb_exists in H; destruct H as (y & J & S); apply existsb_exists; exists y;
    split; auto; unfold segment_same in S; apply andb_true_iff in S; tauto.
Qed.

(** ** Contours *)
Lemma nondegenerate_ori vs : nondegenerate vs -> contour_orientation vs <> COLLINEAR.
Proof.
  intros (L & D & C) O. destruct (at_least_ex vs) as (x & t & A); [intros ->; cbn in L; lia|].
  assert (Rt := at_least_rotation _ _ _ A). assert (Lt := rotation_length _ _ Rt). cbn in Lt.
  destruct t as [|c r]; cbn in Lt; [lia|].
  rewrite (contour_orientation_at _ _ _ A) in O by discriminate.
  apply orient_col in O. cbn [hd] in O. apply (C (last (c :: r) x) x c); auto.
  exists r. split; auto. rewrite !last_cons. auto.
Qed.
Lemma nondegenerate_ne vs : nondegenerate vs -> vs <> [].
Proof. intros (L & _) ->. cbn in L. lia. Qed.
Lemma contour_same_spec c d : nondegenerate c -> (contour_same c d = true <-> same_cycle c d).
Proof.
  intros N. unfold contour_same. rewrite andb_true_iff, points_eq_true.
  rewrite <- (contour_eq_spec c d (nondegenerate_ne _ N)) by apply N.
  split; [tauto|]. intros H; split; auto. apply hash_consistent; auto.
  - destruct N; lia.
  - apply N.
  - apply nondegenerate_ori; auto.
Qed.
Lemma contours_eq_spec l r : Forall nondegenerate l -> Forall nondegenerate r ->
  (frozenset_eq contour_same l r = true <-> same_set same_cycle l r).
Proof.
  rewrite !Forall_forall. intros Nl Nr. apply frozenset_eq_spec; [apply same_cycle_sym| |].
  - intros x y _ J. rewrite contour_same_spec; auto. split; apply same_cycle_sym.
  - intros x y _ J. rewrite contour_same_spec; auto. split; apply same_cycle_sym.
Qed.
Lemma polygon_eq_spec p q : nondegenerate_polygon p -> nondegenerate_polygon q ->
  (polygon_eq p q = true <-> same_polygon p q).
Proof.
  intros (Bp & Hp & Dp) (Bq & Hq & Dq). unfold polygon_eq, same_polygon.
  rewrite !andb_true_iff, Nat.eqb_eq, contours_eq_spec by auto.
  rewrite contour_eq_spec by (apply nondegenerate_ne || apply Bp; auto).
  split.
  - intros [[B L] S]. split; auto.
    apply (distinct_multiset same_cycle same_cycle_sym same_cycle_trans); auto; [lia|]. apply S.
  - intros [B S]. repeat split; auto.
    + apply (same_multiset_length _ _ _ S).
    + apply (same_multiset_set same_cycle _ _ S).
    + apply (same_multiset_set same_cycle _ _ S).
Qed.
Lemma same_contours_hash c d : nondegenerate c -> same_cycle c d ->
  points_eq (contour_hash_key c) (contour_hash_key d) = true.
Proof.
  intros N S. apply contour_same_spec in S; auto. unfold contour_same in S.
  apply andb_true_iff in S; tauto.
Qed.
Lemma polygon_hash_consistent p q : nondegenerate_polygon p -> nondegenerate_polygon q ->
  polygon_eq p q = true -> polygon_hash_same p q = true.
Proof.
  intros Np Nq E. apply polygon_eq_spec in E; auto. destruct E as [B S].
  apply same_multiset_set in S. destruct S as [S1 S2].
  destruct Np as (Bp & Hp & Dp), Nq as (Bq & Hq & Dq). rewrite Forall_forall in Hp, Hq.
  unfold polygon_hash_same. rewrite same_contours_hash by auto.
  unfold frozenset_eq, frozenset_includes. cbn [andb]. rewrite andb_true_iff.
  rewrite !forallb_forall. split; intros x I; apply existsb_exists.
  - destruct (S1 x I) as (y & J & S). exists y. split; auto.
    apply same_contours_hash; auto. apply same_cycle_sym; auto.
  - destruct (S2 x I) as (y & J & S). exists y. split; auto. apply same_contours_hash; auto.
Qed.
Lemma Forall2_sym {A} (R : A -> A -> Prop) l r : (forall x y, R x y -> R y x) ->
  Forall2 R l r -> Forall2 R r l.
Proof. intros S. induction 1; constructor; auto. Qed.
Lemma same_polygon_refl p : same_polygon p p.
Proof. split; [apply same_cycle_refl|apply same_multiset_refl, same_cycle_refl]. Qed.
Lemma Forall2_permutation {A} (R : A -> A -> Prop) l l' : Permutation l l' -> forall r, Forall2 R l r ->
  exists r', Permutation r r' /\ Forall2 R l' r'.
Proof.
  induction 1; intros r F.
  - inversion F; subst. exists []; auto.
  - inversion F as [|? y ? r1 Rxy F1]; subst. destruct (IHPermutation _ F1) as (r' & P & F').
    exists (y :: r'). auto.
  - inversion F as [|? u ? r1 Ru F1]; subst. inversion F1 as [|? v ? r2 Rv F2]; subst.
    exists (v :: u :: r2). split; [apply perm_swap|auto].
  - destruct (IHPermutation1 _ F) as (r1 & P1 & F1). destruct (IHPermutation2 _ F1) as (r2 & P2 & F2).
    exists r2. split; auto. transitivity r1; auto.
Qed.
Lemma same_multiset_sym {A} (R : A -> A -> Prop) l r : (forall x y, R x y -> R y x) ->
  same_multiset R l r -> same_multiset R r l.
Proof.
  intros S (r' & P & F). apply Forall2_sym in F; auto.
  destruct (Forall2_permutation R r' r P l F) as (l' & P' & F').
  exists l'. split; auto. symmetry; auto.
Qed.
Lemma Forall2_trans {A} (R : A -> A -> Prop) l m r : (forall x y z, R x y -> R y z -> R x z) ->
  Forall2 R l m -> Forall2 R m r -> Forall2 R l r.
Proof.
  intros T F. revert r. induction F; intros r G; inversion G; subst; constructor; eauto.
Qed.
Lemma same_multiset_trans {A} (R : A -> A -> Prop) l m r : (forall x y z, R x y -> R y z -> R x z) ->
  same_multiset R l m -> same_multiset R m r -> same_multiset R l r.
Proof.
  intros T (m' & P & F) (r' & Q & G).
  destruct (Forall2_permutation R m m' (Permutation_sym P) r' G) as (r'' & P' & G').
  exists r''. split; [transitivity r'; auto; symmetry; auto|]. apply (Forall2_trans R l m' r''); auto.
Qed.
Lemma same_polygon_sym p q : same_polygon p q -> same_polygon q p.
Proof.
  intros [B H]. split; [apply same_cycle_sym; auto|]. apply same_multiset_sym; auto. apply same_cycle_sym.
Qed.
Lemma same_polygon_trans p q r : same_polygon p q -> same_polygon q r -> same_polygon p r.
Proof.
  intros [B H] [B' H']. split; [eapply same_cycle_trans; eauto|].
  apply (same_multiset_trans same_cycle _ (holes q)); auto. apply same_cycle_trans.
Qed.
Lemma multipolygon_eq_spec l r : Forall nondegenerate_polygon l -> Forall nondegenerate_polygon r ->
  (multipolygon_eq l r = true <-> same_set same_polygon l r).
Proof.
  rewrite !Forall_forall. intros Nl Nr.
  assert (K : forall x y, nondegenerate_polygon x -> nondegenerate_polygon y ->
    (polygon_same y x = true <-> same_polygon x y)).
  { intros x y Nx Ny. unfold polygon_same. rewrite andb_true_iff, polygon_eq_spec by auto.
    split; [intros [_ S]; apply same_polygon_sym; auto|].
    intros S. apply same_polygon_sym in S. split; auto.
    apply polygon_hash_consistent; auto. apply polygon_eq_spec; auto. }
  apply frozenset_eq_spec; [apply same_polygon_sym| |]; intros x y I J; apply K; auto.
Qed.
Lemma multipolygon_hash_consistent l r : multipolygon_eq l r = true ->
  multipolygon_hash_same l r = true.
Proof.
  unfold multipolygon_eq, multipolygon_hash_same, frozenset_eq, frozenset_includes.
  rewrite !andb_true_iff, !forallb_forall. intros [H K]; split; intros x I;
    [specialize (H x I)|clear H; rename K into H; specialize (H x I)];
    apply existsb_exists in H; destruct H as (y & J & S); apply existsb_exists; exists y;
    split; auto; unfold polygon_same in S; apply andb_true_iff in S; tauto.
Qed.

(** ** Orientation and signed area *)
Definition fan (o : point) (l : list segment) : Qc :=
  fold_right (fun s acc => area2 o (seg_start s) (seg_end s) + acc) 0 l.
Definition cross (o v : point) : Qc := px o * py v - py o * px v.
Lemma edges_from_fan o f l : l <> [] ->
  shoelace_sum (edges_from f l) = fan o (edges_from f l) + (cross o f - cross o (hd f l)).
Proof.
  induction l as [|v l IH]; [congruence|]. intros _. destruct l as [|w l].
  - cbn. unfold area2, cross. ring.
  - change (edges_from f (v :: w :: l)) with (Seg v w :: edges_from f (w :: l)).
    cbn [shoelace_sum fan fold_right]. fold (fan o (edges_from f (w :: l))).
    rewrite IH by discriminate. cbn [hd seg_start seg_end]. unfold area2, cross. ring.
Qed.
Lemma signed_area2_fan o vs : signed_area2 vs = fan o (edges vs).
Proof.
  unfold signed_area2, edges. destruct vs as [|v vs]; [reflexivity|].
  rewrite (edges_from_fan o) by discriminate. cbn [hd]. ring.
Qed.

