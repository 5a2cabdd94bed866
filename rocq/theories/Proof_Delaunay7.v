(** The divide-and-conquer triangulation, part 7: the statements used by
    [Prop_Delaunay]. *)
From Coq Require Import QArith Qcanon Bool List Arith Lia Sorted.
From Verif Require Import QcTac Model_Base Model_Utils Model_Mesh Spec_Base Spec_Mesh Proof_Base
  Proof_Mesh Proof_Mesh2 Proof_Mesh3 Proof_Delaunay Proof_Delaunay2 Proof_Delaunay3 Proof_Delaunay4 Proof_Delaunay5 Proof_Delaunay6.
Import ListNotations.
Local Open Scope nat_scope.

Lemma triangles_well_formed (points : list point) : exists N ts,
  (forall fuel, N <= fuel -> delaunay_triangles fuel points = Ok ts) /\
  (forall a b c, In (a, b, c) ts -> In a points /\ In b points /\ In c points /\
     lex_lt a b /\ lex_lt a c /\ (0 < area2 a b c)%Qc) /\
  NoDup ts.
Proof.
  destruct (delaunay_settles points) as ((m, sides) & B & N & H).
  destruct (built_triangles points m sides B) as (ts & T & Ok_ & Nd). exists N, ts. split; [|split; auto].
  - intros fuel L. unfold delaunay_triangles. rewrite H by auto. exact T.
  - intros a b c I. exact (Ok_ _ I).
Qed.
(** More fuel does not change a result: so every result is the one above. *)
Lemma drop_more step : forall n n' m base e r, n <= n' -> drop_candidates step n m base e = Ok r -> drop_candidates step n' m base e = Ok r.
Proof.
  induction n as [|n IH]; intros [|n'] m base e r L; try discriminate; [lia|]. cbn [drop_candidates].
  destruct (step m e); try discriminate. cbn [bind]. destruct (to_end m a); try discriminate. cbn [bind].
  destruct (orient_point_to_edge m base a0); try discriminate. cbn [bind].
  destruct (orientation_is a1 CLOCKWISE); auto.
  destruct (to_end m base); try discriminate. cbn [bind]. destruct (to_start m base); try discriminate. cbn [bind].
  destruct (to_end m e); try discriminate. cbn [bind].
  destruct (location_is _ INTERIOR); auto. destruct (delete_edge m e); try discriminate. cbn [bind]. apply IH. lia.
Qed.
Lemma candidate_more step n n' m base e r : n <= n' -> find_candidate step n m base e = Ok r -> find_candidate step n' m base e = Ok r.
Proof.
  intros L. unfold find_candidate. destruct (to_end m e); try discriminate. cbn [bind].
  destruct (orient_point_to_edge m base a); try discriminate. cbn [bind]. destruct (negb _); auto.
  destruct (drop_candidates step n m base e) eqn:E; try discriminate. rewrite (drop_more step n n' m base e _ L E). auto.
Qed.
Lemma left_more n n' m base r : n <= n' -> find_left_candidate n m base = Ok r -> find_left_candidate n' m base = Ok r.
Proof.
  intros L. unfold find_left_candidate. destruct (to_left_from_start m (to_opposite_edge base)); try discriminate. cbn [bind].
  apply candidate_more; auto.
Qed.
Lemma right_more n n' m base r : n <= n' -> find_right_candidate n m base = Ok r -> find_right_candidate n' m base = Ok r.
Proof.
  intros L. unfold find_right_candidate. destruct (to_right_from_start m base); try discriminate. cbn [bind].
  apply candidate_more; auto.
Qed.
Lemma rise_more : forall n n' i i' m base r, n <= n' -> i <= i' -> rise_bubble n i m base = Ok r -> rise_bubble n' i' m base = Ok r.
Proof.
  induction n as [|n IH]; intros [|n'] i i' m base r L Li; try discriminate; [lia|]. cbn [rise_bubble].
  destruct (find_left_candidate i m base) as [(m1, lc)| |] eqn:E1; try discriminate. rewrite (left_more i i' m base _ Li E1). cbn [bind].
  destruct (find_right_candidate i m1 base) as [(m2, rc)| |] eqn:E2; try discriminate. rewrite (right_more i i' m1 base _ Li E2). cbn [bind].
  assert (Sub : forall x y, (let* '(m, base_edge) := connect_edges m2 x y in rise_bubble n i m base_edge) = Ok r ->
    (let* '(m, base_edge) := connect_edges m2 x y in rise_bubble n' i' m base_edge) = Ok r).
  { intros x y. destruct (connect_edges m2 x y) as [(m3, e)| |]; try discriminate. cbn [bind]. apply IH; lia. }
  destruct lc as [l|], rc as [rr|]; auto.
  destruct (to_end m2 rr); try discriminate. cbn [bind]. destruct (to_end m2 l); try discriminate. cbn [bind].
  destruct (to_end m2 base); try discriminate. cbn [bind]. destruct (to_start m2 base); try discriminate. cbn [bind].
  destruct (location_is _ INTERIOR); auto.
Qed.
Lemma base_more : forall n n' m f s r, n <= n' -> find_base_sides n m f s = Ok r -> find_base_sides n' m f s = Ok r.
Proof.
  induction n as [|n IH]; intros [|n'] m f s r L; try discriminate; [lia|]. cbn [find_base_sides].
  destruct (to_start m s); try discriminate. cbn [bind]. destruct (orient_point_to_edge m f a); try discriminate. cbn [bind].
  destruct (orientation_is a0 COUNTERCLOCKWISE).
  - destruct (to_left_from_end m f); try discriminate. cbn [bind]. apply IH. lia.
  - destruct (to_start m f); try discriminate. cbn [bind]. destruct (orient_point_to_edge m s a1); try discriminate. cbn [bind].
    destruct (orientation_is a2 CLOCKWISE); auto. destruct (to_right_from_end m s); try discriminate. cbn [bind]. apply IH. lia.
Qed.
Lemma merge_more n n' m s1 s2 r : n <= n' -> merge n m s1 s2 = Ok r -> merge n' m s1 s2 = Ok r.
Proof.
  intros L. unfold merge. destruct s1 as (fl, fr), s2 as (sl, sr). unfold build_base_edge.
  destruct (find_base_sides n m fr sl) as [(f, s)| |] eqn:E; try discriminate. rewrite (base_more n n' m fr sl _ L E). cbn [bind].
  destruct (connect_edges m (to_opposite_edge s) f) as [(m1, base)| |]; try discriminate. cbn [bind].
  destruct (rise_bubble n n m1 base) eqn:E2; try discriminate. rewrite (rise_more n n' n n' m1 base _ L L E2). auto.
Qed.
Lemma round_more : forall sides n n' m r, n <= n' -> merge_sides n m sides = Ok r -> merge_sides n' m sides = Ok r.
Proof.
  fix IH 1. intros [|s1 [|s2 rest]] n n' m r L; auto. cbn [merge_sides].
  destruct (merge n m s1 s2) as [(m1, s)| |] eqn:E; try discriminate. rewrite (merge_more n n' m s1 s2 _ L E). cbn [bind].
  destruct (merge_sides n m1 rest) as [(m2, ss)| |] eqn:E2; try discriminate. rewrite (IH rest n n' m1 _ L E2). auto.
Qed.
Lemma rounds_more k : forall n n' m sides r, n <= n' -> merge_all_sides n k m sides = Ok r -> merge_all_sides n' k m sides = Ok r.
Proof.
  induction k as [|k IH]; intros n n' m sides r L; auto. cbn [merge_all_sides].
  destruct (merge_sides n m sides) as [(m1, s)| |] eqn:E; try discriminate. rewrite (round_more sides n n' m _ L E). cbn [bind].
  apply IH; auto.
Qed.
Lemma build_more n n' m r : n <= n' -> build_delaunay_triangulation n m = Ok r -> build_delaunay_triangulation n' m = Ok r.
Proof.
  intros L. unfold build_delaunay_triangulation. destruct (_ <? 2); auto. destruct (to_base_cases _) as [(s, t)|]; auto.
  destruct (create_segments m s 0) as (m1, l1). destruct (create_triangles m1 (2 * s) t 0) as [(m2, l2)| |]; try discriminate. cbn [bind].
  match goal with |- context [merge_all_sides n ?k ?x ?y] => destruct (merge_all_sides n k x y) as [(m3, l3)| |] eqn:E end; try discriminate.
  rewrite (rounds_more _ n n' _ _ _ L E). auto.
Qed.
Lemma triangles_more n n' points r : n <= n' -> delaunay_triangles n points = Ok r -> delaunay_triangles n' points = Ok r.
Proof.
  intros L. unfold delaunay_triangles, delaunay_from_points.
  match goal with |- context [build_delaunay_triangulation n ?x] => destruct (build_delaunay_triangulation n x) as [(m, s)| |] eqn:E end; try discriminate.
  rewrite (build_more n n' _ _ L E). auto.
Qed.

Lemma triangles_canonical (points : list point) fuel ts a b c a' b' c' :
  delaunay_triangles fuel points = Ok ts -> In (a, b, c) ts -> In (a', b', c') ts ->
  (forall p, In p [a; b; c] <-> In p [a'; b'; c']) -> (a, b, c) = (a', b', c').
Proof.
  intros D I I' S. destruct (triangles_well_formed points) as (N & ts' & H & Ok_ & _).
  assert (ts = ts') as ->.
  { pose proof (triangles_more fuel (fuel + N) points ts ltac:(lia) D) as X. rewrite H in X by lia. congruence. }
  destruct (Ok_ _ _ _ I) as (_ & _ & _ & L1 & L2 & A). destruct (Ok_ _ _ _ I') as (_ & _ & _ & L1' & L2' & A').
  assert (Ea : a = a').
  { destruct (proj1 (S a)) as [X|[X|[X|[]]]]; [left; auto|auto| |].
    - exfalso. subst b'. destruct (proj2 (S a')) as [X|[X|[X|[]]]]; [left; auto| | |]; subst.
      + apply (lex_irrefl _ L1').
      + apply (lex_asym _ _ L1 L1').
      + apply (lex_asym _ _ L2 L1').
    - exfalso. subst c'. destruct (proj2 (S a')) as [X|[X|[X|[]]]]; [left; auto| | |]; subst.
      + apply (lex_irrefl _ L2').
      + apply (lex_asym _ _ L1 L2').
      + apply (lex_asym _ _ L2 L2'). }
  subst a'.
  assert (Nb : b <> a) by (intros ->; apply (lex_irrefl _ L1)).
  assert (Nc : c <> a) by (intros ->; apply (lex_irrefl _ L2)).
  assert (Nbc : b <> c) by (intros ->; unfold area2 in A; qlra).
  destruct (proj1 (S b)) as [X|[X|[X|[]]]]; [right; left; auto|congruence| |].
  - subst b'. destruct (proj1 (S c)) as [X|[X|[X|[]]]]; [right; right; left; auto|congruence|congruence|]. subst. reflexivity.
  - subst c'. destruct (proj1 (S c)) as [X|[X|[X|[]]]]; [right; right; left; auto|congruence| |congruence].
    subst b'. exfalso. unfold area2 in *. qlra.
Qed.

Lemma mesh_well_formed (points : list point) : exists N m sides,
  (forall fuel, N <= fuel -> delaunay_from_points fuel points = Ok (m, sides)) /\
  quad_structure m /\ (forall p, In p (m_endpoints m) <-> In p points) /\
  (forall i j, i < j -> j < length (m_endpoints m) ->
     lex_lt (nth i (m_endpoints m) (Pt 0 0)) (nth j (m_endpoints m) (Pt 0 0))) /\
  (forall e f, edge m e -> edge m f -> start m e = start m f -> end_of m e = end_of m f -> e = f) /\
  (sides = None <-> length (m_endpoints m) < 2).
Proof.
  destruct (delaunay_settles points) as ((m, sides) & B & N & H). exists N, m, sides. split; auto.
  destruct B as ((Q & Pe & Sm) & Sd). split; auto. split; [|split; [|split; auto]].
  - intros p. rewrite Pe, deduplicate_in, sort_in. reflexivity.
  - intros i j. rewrite Pe. apply sorted_at. apply deduplicate_sorted, sort_sorted.
  - rewrite Pe. destruct sides as [(l, r)|]; [|split; auto; intros; apply Sd].
    split; [discriminate|]. intros L. exfalso. specialize (H (S N) ltac:(lia)).
    unfold delaunay_from_points, build_delaunay_triangulation in H. cbn [m_endpoints mesh_from_points] in H.
    apply Nat.ltb_lt in L. rewrite L in H. discriminate.
Qed.
Lemma sorted_one (ps : list point) p q : In p ps -> In q ps -> p <> q -> 2 <= length ps.
Proof. destruct ps as [|x [|y ps]]; cbn; intros I J N; [destruct I| |lia]. destruct I as [<-|[]], J as [<-|[]]. congruence. Qed.
Lemma boundary_well_formed (points : list point) p q : In p points -> In q points -> p <> q ->
  exists N m l r boundary edges,
  (forall fuel, N <= fuel -> delaunay_from_points fuel points = Ok (m, Some (l, r)) /\
     to_boundary_points fuel m (Some (l, r)) = Ok boundary) /\
  boundary <> [] /\ incl boundary points /\
  NoDup edges /\ hd_error edges = Some l /\ (forall e, In e edges -> edge m e) /\
  (forall i, i < length edges -> to_right_from_end m (nth i edges 0) = Ok (nth (S i) edges l)) /\
  (forall i, i < length edges -> end_of m (nth i edges 0) = start m (nth (S i) edges l)) /\
  boundary = map (fun e => nth (start m e) (m_endpoints m) (Pt 0 0)) edges.
Proof.
  intros Ip Iq Ne. destruct (delaunay_settles points) as ((m, sides) & B & N & H).
  destruct B as ((Q & Pe & Sm) & Sd). destruct sides as [(l, r)|].
  - destruct Sd as (El & Er). destruct (boundary_settles m l r Q El) as (bs & (edges & (A & B & C & D & E) & ->) & N2 & H2).
    exists (N + N2), m, l, r. eexists. exists edges. split.
    + intros fuel L. split; [apply H; lia|apply H2; lia].
    + split; [destruct edges; [discriminate|cbn; discriminate]|]. split; [|repeat (split; auto)].
      intros x I. apply in_map_iff in I. destruct I as (e & <- & I).
      rewrite <- (sort_in points), <- deduplicate_in, <- Pe. apply nth_In. apply start_point; auto.
  - exfalso. destruct Sd as (L & _).
    assert (2 <= length (deduplicate (sort_points points))); [|lia].
    apply (sorted_one _ p q); auto; rewrite deduplicate_in, sort_in; auto.
Qed.
Lemma few_points_fail (points : list point) :
  (forall p q, In p points -> In q points -> p = q) ->
  forall fuel, exists m, delaunay_from_points fuel points = Ok (m, None) /\ to_boundary_points fuel m None = Fails.
Proof.
  intros Same fuel. exists (mesh_from_points (deduplicate (sort_points points))). split; [|reflexivity].
  unfold delaunay_from_points, build_delaunay_triangulation. cbn [m_endpoints mesh_from_points].
  assert (L : length (deduplicate (sort_points points)) < 2).
  { pose proof (deduplicate_sorted _ (sort_sorted points)) as S.
    assert (I : forall x, In x (deduplicate (sort_points points)) -> In x points) by (intros x; rewrite deduplicate_in, sort_in; auto).
    destruct (deduplicate (sort_points points)) as [|x [|y l]]; cbn; try lia. exfalso.
    inversion S as [|? ? _ F]; subst. inversion F as [|? ? Lt _]; subst.
    rewrite (Same x y) in Lt; [apply (lex_irrefl _ Lt)|apply I; left; auto|apply I; right; left; auto]. }
  apply Nat.ltb_lt in L. rewrite L. reflexivity.
Qed.
