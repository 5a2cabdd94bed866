(** The constrained triangulation, part 5: the statements used by [Prop_Constrained]. *)
From Coq Require Import QArith Qcanon Bool List Arith Lia Sorted.
From Verif Require Import QcTac Model_Base Model_Utils Model_Geometry Model_Contour Model_Mesh Model_Constrained Spec_Base Spec_Mesh Proof_Base Proof_Utils Proof_Collect
  Proof_Mesh Proof_Mesh2 Proof_Mesh3 Proof_Delaunay Proof_Delaunay2 Proof_Delaunay3 Proof_Delaunay4 Proof_Delaunay5 Proof_Delaunay6
  Proof_Delaunay7 Proof_Constrained1 Proof_Constrained2 Proof_Constrained3 Proof_Constrained4.
Import ListNotations.
Local Open Scope nat_scope.

(** ** More iterations do not change a result *)
Lemma turn_left_more m p : forall n n' e r, n <= n' -> turn_left_to n m e p = Ok r -> turn_left_to n' m e p = Ok r.
Proof.
  induction n as [|n IH]; intros n' e r L H; cbn in H; [discriminate|]. destruct n' as [|n']; [lia|]. cbn.
  unbind H. rewrite E. cbn [bind]. unbind H. rewrite E0. cbn [bind].
  destruct (orientation_is v0 CLOCKWISE); auto. apply IH; auto; lia.
Qed.
Lemma turn_right_more m p : forall n n' e r, n <= n' -> turn_right_to n m e p = Ok r -> turn_right_to n' m e p = Ok r.
Proof.
  induction n as [|n IH]; intros n' e r L H; cbn in H; [discriminate|]. destruct n' as [|n']; [lia|]. cbn.
  unbind H. rewrite E. cbn [bind]. unbind H. rewrite E0. cbn [bind].
  destruct (negb (orientation_is v0 CLOCKWISE)); auto. apply IH; auto; lia.
Qed.
Lemma angle_more m n n' e p r : n <= n' -> to_angle_containing_constraint_base n m e p = Ok r ->
  to_angle_containing_constraint_base n' m e p = Ok r.
Proof.
  intros L H. unfold to_angle_containing_constraint_base in *. unbind H. rewrite E. cbn [bind].
  destruct (point_eq v p); auto. unbind H. rewrite E0. cbn [bind].
  destruct (orientation_is v0 COUNTERCLOCKWISE); [eapply turn_left_more|eapply turn_right_more]; eauto.
Qed.
Lemma collect_more m a b : forall n n' e acc r, n <= n' -> collect_crossings n m e a b acc = Ok r ->
  collect_crossings n' m e a b acc = Ok r.
Proof.
  induction n as [|n IH]; intros n' e acc r L H; cbn [collect_crossings] in H; [discriminate|]. destruct n' as [|n']; [lia|].
  cbn [collect_crossings]. unbind H. rewrite E. cbn [bind]. destruct (point_eq v b); auto.
  unbind H. rewrite E0. cbn [bind]. unbind H. rewrite E1. cbn [bind]. unbind H. rewrite E2. cbn [bind].
  unbind H. rewrite E3. cbn [bind]. unbind H. rewrite E4. cbn [bind]. unbind H. rewrite E5. cbn [bind].
  apply IH; auto; lia.
Qed.
Lemma detect_more m a b n n' e r : n <= n' -> detect_crossings n m e a b = Ok r -> detect_crossings n' m e a b = Ok r.
Proof.
  intros L H. unfold detect_crossings in *. unbind H. rewrite E. cbn [bind]. unbind H.
  rewrite (collect_more _ _ _ _ _ _ _ _ L E0). cbn [bind]. exact H.
Qed.
Lemma resolve_more a b : forall n n' m queue result r, n <= n' -> resolve_crossings n m a b queue result = Ok r ->
  resolve_crossings n' m a b queue result = Ok r.
Proof.
  induction n as [|n IH]; intros n' m queue result r L H; destruct queue as [|e queue]; cbn [resolve_crossings] in H;
    try discriminate; destruct n' as [|n']; cbn [resolve_crossings]; try lia; auto.
  unbind H. rewrite E. cbn [bind]. destruct v; [|apply IH; auto; lia].
  unbind H. rewrite E0. cbn [bind]. unbind H. rewrite E1. cbn [bind].
  destruct (relation_is v0 CROSS); [apply IH; auto; lia|].
  destruct (negb (relation_is v0 EQUAL)); apply IH; auto; lia.
Qed.
Lemma restore_more : forall n n' m l r, n <= n' -> restore_delaunay_criterion n m l = Ok r -> restore_delaunay_criterion n' m l = Ok r.
Proof.
  induction n as [|n IH]; intros n' m l r L H; cbn [restore_delaunay_criterion] in H; [discriminate|]. destruct n' as [|n']; [lia|].
  cbn [restore_delaunay_criterion]. unbind H. rewrite E. cbn [bind]. unbind H. rewrite E0. cbn [bind].
  destruct v; auto. unbind H. rewrite E1. cbn [bind]. apply IH; auto; lia.
Qed.
Lemma set_more a b n n' m l r : n <= n' -> set_constraint n m a b l = Ok r -> set_constraint n' m a b l = Ok r.
Proof.
  intros L H. unfold set_constraint in *. apply bind_ok in H. destruct H as ([m1 l1] & E & H).
  rewrite (resolve_more _ _ _ _ _ _ _ _ L E). cbn [bind]. eapply restore_more; eauto.
Qed.
Lemma position_more n n' cs e p pos m flags r : n <= n' -> constrain_position n cs e p pos m flags = Ok r ->
  constrain_position n' cs e p pos m flags = Ok r.
Proof.
  intros L H. unfold constrain_position in *. unbind H. rewrite E. cbn [bind]. unbind H. rewrite E0. cbn [bind].
  unbind H. rewrite E1. cbn [bind]. destruct v1; auto. unbind H. rewrite E2. cbn [bind].
  unbind H. rewrite (angle_more _ _ _ _ _ _ L E3). cbn [bind]. unbind H. rewrite (detect_more _ _ _ _ _ _ _ L E4). cbn [bind].
  unbind H. destruct v3; [rewrite E5|rewrite (set_more _ _ _ _ _ _ _ L E5)]; cbn [bind]; exact H.
Qed.
Lemma positions_more n n' cs e p : n <= n' -> forall positions m flags r, constrain_positions n cs e p positions m flags = Ok r ->
  constrain_positions n' cs e p positions m flags = Ok r.
Proof.
  intros L. induction positions as [|pos positions IH]; cbn [constrain_positions]; intros m flags r H; auto.
  apply bind_ok in H. destruct H as ([m1 f1] & E & H). rewrite (position_more _ _ _ _ _ _ _ _ _ L E). cbn [bind]. auto.
Qed.
Lemma edges_more n n' cs positions : n <= n' -> forall edges m flags r, constrain_edges n cs positions edges m flags = Ok r ->
  constrain_edges n' cs positions edges m flags = Ok r.
Proof.
  intros L. induction edges as [|e edges IH]; cbn [constrain_edges]; intros m flags r H; auto.
  unbind H. rewrite E. cbn [bind]. unbind H. rewrite E0. cbn [bind]. unbind H. rewrite E1. cbn [bind].
  apply bind_ok in H. destruct H as ([m1 f1] & E' & H). rewrite (positions_more _ _ _ _ _ L _ _ _ _ E'). cbn [bind]. auto.
Qed.
Lemma constrain_more n n' cs t r : n <= n' -> constrain n cs t = Ok r -> constrain n' cs t = Ok r.
Proof.
  intros L H. unfold constrain in *. unbind H. rewrite E. cbn [bind]. unbind H. rewrite E0. cbn [bind].
  apply bind_ok in H. destruct H as ([m1 f1] & E' & H). rewrite (edges_more _ _ _ _ L _ _ _ _ E'). exact H.
Qed.
Lemma boundary_edges_more m first : forall n n' e r, n <= n' -> boundary_edges_from n m first e = Ok r ->
  boundary_edges_from n' m first e = Ok r.
Proof.
  induction n as [|n IH]; intros n' e r L H; cbn in H; [discriminate|]. destruct n' as [|n']; [lia|]. cbn.
  unbind H. rewrite E. cbn [bind]. destruct (v =? first); auto. unbind H. rewrite (IH n' v v0) by (auto; lia). exact H.
Qed.
Lemma unique_boundary_more n n' t r : n <= n' -> to_unique_boundary_edges n t = Ok r -> to_unique_boundary_edges n' t = Ok r.
Proof.
  intros L H. unfold to_unique_boundary_edges in *. destruct (m_left_from_start (ct_mesh t)); destruct (ct_sides t) as [[]|]; auto.
  eapply boundary_edges_more; eauto.
Qed.
Lemma mouths_more sizes : forall n n' t mouths r, n <= n' -> delete_mouths n sizes t mouths = Ok r -> delete_mouths n' sizes t mouths = Ok r.
Proof.
  induction n as [|n IH]; intros n' t mouths r L H; destruct mouths as [|e mouths]; cbn [delete_mouths] in H;
    try discriminate; destruct n' as [|n']; cbn [delete_mouths]; try lia; auto.
  apply bind_ok in H. destruct H as ([a b] & E & H). rewrite E. cbn [bind]. unbind H. rewrite E0. cbn [bind].
  unbind H. rewrite E1. cbn [bind]. unbind H. rewrite E2. cbn [bind]. apply IH; auto; lia.
Qed.
Lemma bound_more n n' sizes t r : n <= n' -> bound n sizes t = Ok r -> bound n' sizes t = Ok r.
Proof.
  intros L H. unfold bound in *. unbind H. rewrite (unique_boundary_more _ _ _ _ L E). cbn [bind]. unbind H. rewrite E0. cbn [bind].
  eapply mouths_more; eauto.
Qed.
Lemma constrained_more n n' p r : n <= n' -> constrained_from_polygon n p = Ok r -> constrained_from_polygon n' p = Ok r.
Proof.
  intros L H. unfold constrained_from_polygon in *. unbind H. rewrite E. cbn [bind].
  apply bind_ok in H. destruct H as ([m1 sides] & E' & H). rewrite (build_more _ _ _ _ L E'). cbn [bind].
  unbind H. rewrite (constrain_more _ _ _ _ _ L E0). cbn [bind]. unbind H. rewrite (bound_more _ _ _ _ _ L E1). exact H.
Qed.
Lemma constrained_same n n' p t t' : constrained_from_polygon n p = Ok t -> constrained_from_polygon n' p = Ok t' -> t = t'.
Proof.
  intros H H'. apply (constrained_more n (Nat.max n n')) in H; [|lia]. apply (constrained_more n' (Nat.max n n')) in H'; [|lia].
  congruence.
Qed.

(** ** The result *)
Section Result.
Variable p : polygon.
Notation contours := (border p :: holes p).
Variable lasts : list contour_vertex.
Hypothesis Lasts : last_vertices 0 contours = Ok lasts.
Notation vertices := (first_vertices 0 contours ++ lasts).
Notation groups := (group_vertices (sort_vertices vertices)).
Notation ps := (map fst groups).

Lemma ps_sorted : forall i j, i < j -> j < length ps -> lex_lt (at_ ps i) (at_ ps j).
Proof.
  intros i j. rewrite group_keys, sort_vertices_points. intros L B. apply sorted_at; auto.
  apply deduplicate_sorted, sort_sorted.
Qed.
Lemma ps_distinct : forall i j, i < length ps -> j < length ps -> at_ ps i = at_ ps j -> i = j.
Proof. intros i j Bi Bj E. apply (at_inj ps); auto. apply ps_sorted. Qed.
Lemma ps_points v : In v ps <-> In v (concat contours).
Proof.
  rewrite group_keys, sort_vertices_points, deduplicate_in, sort_in. split; intros I.
  - apply in_map_iff in I. destruct I as (w & <- & I). apply in_app_or in I.
    assert (X : exists c, In c contours /\ In (cv_point w) c).
    { destruct I as [I|I]; [eapply first_in|eapply last_in]; eauto. }
    apply in_concat. exact X.
  - apply in_concat in I. destruct I as (c & Ic & I). apply In_nth_error in Ic. destruct Ic as (k & K).
    destruct (vertices_all _ _ _ _ _ _ Lasts K I) as (j & J). apply in_map_iff. exists (ContourVertex (At (0 + k) j) v). auto.
Qed.
(** Every contour a point belongs to is among its positions. *)
Lemma positions_of i k c : i < length ps -> nth_error contours k = Some c -> In (at_ ps i) c ->
  In k (map at_contour (nth i (map snd groups) [])).
Proof.
  intros B K I. destruct (vertices_all _ _ _ _ _ _ Lasts K I) as (j & J).
  apply sort_vertices_in in J.
  assert (Sr : StronglySorted lex_le (map cv_point (sort_vertices vertices))) by (rewrite sort_vertices_points; apply sort_sorted).
  rewrite map_length in B.
  assert (G : nth i groups (Pt 0 0, []) = (at_ ps i, nth i (map snd groups) [])).
  { unfold at_. change (Pt 0 0) with (fst (Pt 0 0, @nil vertex_position)) at 2. rewrite map_nth.
    change (@nil vertex_position) with (snd (Pt 0 0, @nil vertex_position)) at 3. rewrite map_nth.
    destruct (nth i groups (Pt 0 0, [])); reflexivity. }
  assert (In (nth i groups (Pt 0 0, [])) groups) as Ig by (apply nth_In; auto). rewrite G in Ig.
  apply in_map_iff. exists (At (0 + k) j). split; auto.
  apply (group_positions _ _ _ _ Sr Ig). exact J.
Qed.

Section Mesh.
Variable n : nat.
Variable t : constrained.
Hypothesis W : well ps n (map snd groups) (triangular_indices 1 (map (@length point) (holes p))) t.
Notation m := (ct_mesh t).
Lemma Q : quad_structure m. Proof. apply W. Qed.
Lemma P : m_endpoints m = ps. Proof. apply W. Qed.
Hint Resolve Q : core.
Lemma get_positions i : i < length ps -> get (ct_positions t) i = Ok (nth i (map snd groups) []).
Proof.
  intros B. destruct W as (_ & Ps & _). rewrite Ps. apply get_nth. rewrite map_length in *. exact B.
Qed.
Lemma start_below e : edge m e -> start m e < length ps.
Proof. intros E. rewrite <- P. apply start_point; auto. Qed.
Lemma end_below e : edge m e -> end_of m e < length ps.
Proof. intros E. apply start_below. apply edge_sym; auto. Qed.
Lemma hole_triangle a : In a (holes p) -> length a = 3 -> forall i j k, i < length ps -> j < length ps -> k < length ps ->
  In (at_ ps i) a -> In (at_ ps j) a -> In (at_ ps k) a ->
  are_triangular_hole_vertices (nth i (map snd groups) []) (nth j (map snd groups) []) (nth k (map snd groups) [])
    (ct_triangular_holes t) = true.
Proof.
  intros Ia L i j k Bi Bj Bk Ii Ij Ik. apply In_nth_error in Ia. destruct Ia as (h & Hh).
  assert (Hh' : nth_error contours (S h) = Some a) by exact Hh.
  pose proof (positions_of i (S h) a Bi Hh' Ii) as Pi. pose proof (positions_of j (S h) a Bj Hh' Ij) as Pj.
  pose proof (positions_of k (S h) a Bk Hh' Ik) as Pk.
  unfold are_triangular_hole_vertices. apply existsb_exists. exists (S h). split; auto.
  assert (M : forall l, In (S h) l -> mem (S h) l = true).
  { intros l I. unfold mem. apply existsb_exists. exists (S h). split; auto. apply Nat.eqb_refl. }
  rewrite !M; auto. destruct W as (_ & _ & T & _). rewrite T.
  apply (triangular_in (map (@length point) (holes p)) 1 h). rewrite nth_error_map, Hh. cbn. congruence.
Qed.
Lemma edge_triangle_result e : edge m e -> exists r, constrained_edge_triangle t e = Ok r /\
  forall a b c, r = Some (a, b, c) -> tri m e = Some (a, b, c) /\
    (forall h, In h (holes p) -> length h = 3 -> ~ (In a h /\ In b h /\ In c h)).
Proof.
  intros E. unfold constrained_edge_triangle. rewrite (edge_triangle_ok m Q e E). cbn [bind].
  destruct (tri m e) as [[[a b] c]|] eqn:T.
  2: { exists None. split; [reflexivity|]. intros; discriminate. }
  destruct (tri_some m Q e a b c E T) as (Ha & Hb & Hc & _). rewrite P in Ha, Hb, Hc.
  pose proof (edge_onext m Q e E) as En.
  pose proof (start_below e E) as B1. pose proof (end_below e E) as B2. pose proof (end_below _ En) as B3.
  destruct (ct_triangular_holes t) as [|th ths] eqn:TH.
  - exists (Some (a, b, c)). split; [reflexivity|]. intros a' b' c' X. injection X as <- <- <-. split; auto.
    intros h Ih L (Ia & Ib & Ic).
    pose proof (hole_triangle h Ih L (start m e) (end_of m e) (end_of m (onext m e)) B1 B2 B3) as X.
    rewrite <- Ha, <- Hb, <- Hc, TH in X. specialize (X Ia Ib Ic).
    unfold are_triangular_hole_vertices in X. apply existsb_exists in X. destruct X as (x & _ & X).
    cbn [mem existsb] in X. rewrite andb_false_r in X. discriminate.
  - rewrite <- TH.
    rewrite (get_start_index m Q e E). cbn [bind]. rewrite get_positions by auto. cbn [bind].
    rewrite (get_end_index m Q e E). cbn [bind]. rewrite get_positions by auto. cbn [bind].
    rewrite (get_left m e (proj2 E)). cbn [bind].
    rewrite (get_end_index m Q _ En). cbn [bind]. rewrite get_positions by auto. cbn [bind].
    eexists. split; [reflexivity|]. intros a' b' c' X.
    match type of X with (if ?z then _ else _) = _ => destruct z eqn:Z; [discriminate|] end.
    injection X as <- <- <-. split; auto. intros h Ih L (Ia & Ib & Ic).
    pose proof (hole_triangle h Ih L (start m e) (end_of m e) (end_of m (onext m e)) B1 B2 B3) as X.
    rewrite <- Ha, <- Hb, <- Hc in X. rewrite (X Ia Ib Ic) in Z. discriminate.
Qed.
Lemma edges_triangles_result l : (forall e, In e l -> edge m e) -> exists ts, constrained_edges_triangles t l = Ok ts /\
  forall a b c, In (a, b, c) ts -> In a ps /\ In b ps /\ In c ps /\ lex_lt a b /\ lex_lt a c /\ (0 < area2 a b c)%Qc /\
    (forall h, In h (holes p) -> length h = 3 -> ~ (In a h /\ In b h /\ In c h)).
Proof.
  induction l as [|e l IH]; intros H; cbn [constrained_edges_triangles].
  - exists []. split; [reflexivity|]. intros a b c [].
  - destruct (edge_triangle_result e (H e (or_introl eq_refl))) as (r & R & Rp). rewrite R. cbn [bind].
    destruct IH as (ts & T & Tp); [intros x I; apply H; right; auto|]. rewrite T. cbn [bind].
    eexists. split; [reflexivity|]. intros a b c I. destruct r as [t0|]; [|auto]. destruct I as [->|I]; [|auto].
    destruct (Rp a b c eq_refl) as (X & Y).
    destruct (tri_some m Q e a b c (H e (or_introl eq_refl)) X) as (_ & _ & _ & Z). rewrite P in Z.
    destruct Z as (Z1 & Z2 & Z3 & Z4 & Z5 & Z6). repeat (split; [assumption|]). exact Y.
Qed.
Lemma triangles_result : exists ts, constrained_triangles_vertices t = Ok ts /\
  forall a b c, In (a, b, c) ts -> In a ps /\ In b ps /\ In c ps /\ lex_lt a b /\ lex_lt a c /\ (0 < area2 a b c)%Qc /\
    (forall h, In h (holes p) -> length h = 3 -> ~ (In a h /\ In b h /\ In c h)).
Proof.
  unfold constrained_triangles_vertices. rewrite (to_edges_ok m Q). cbn [bind]. apply edges_triangles_result.
  intros e I. apply filter_In in I. apply (even_edges_edge m Q). tauto.
Qed.
(** The boundary. *)
Lemma boundary_points first : edge m first -> forall fuel e, edge m e ->
  boundary_from fuel m first e = (let* l := boundary_edges_from fuel m first e in starts_of m l).
Proof.
  intros Ef. induction fuel as [|fuel IH]; intros e E; cbn [boundary_from boundary_edges_from bind]; [reflexivity|].
  rewrite (get_start m Q e E). cbn [bind]. rewrite (get_right_end m Q e (proj2 E)). cbn [bind].
  pose proof (along_edge m Q e E) as En.
  destruct (onext m (sym e) =? first).
  - cbn [bind starts_of]. rewrite (get_start m Q e E). reflexivity.
  - rewrite IH by auto. destruct (boundary_edges_from fuel m first (onext m (sym e))); cbn [bind starts_of]; auto.
    rewrite (get_start m Q e E). reflexivity.
Qed.
Lemma boundary_result : (exists u v, In u (concat contours) /\ In v (concat contours) /\ u <> v) -> n <> 0 ->
  exists N boundary edges first, (forall fuel, N <= fuel -> constrained_boundary_points fuel t = Ok boundary) /\
    cycle_of m edges first /\ boundary = map (fun e => at_ ps (start m e)) edges.
Proof.
  intros _ Nz. destruct W as (Sd & _ & _ & S). destruct (ct_sides t) as [[l r]|] eqn:Sides; [|congruence].
  destruct S as (Sl & _). apply (sound_edge _ _ _ _ Sd) in Sl.
  destruct (boundary_settles m l r Q Sl) as (boundary & (edges & C & B) & N & F).
  exists N, boundary, edges, l. split; [|rewrite <- P; auto].
  intros fuel L. rewrite <- (F fuel L). unfold constrained_boundary_points, to_unique_boundary_edges. rewrite Sides.
  destruct (m_left_from_start m) eqn:Lf.
  - exfalso. apply Nz. destruct Sd as (_ & _ & Sz). rewrite <- Sz. unfold size. rewrite Lf. reflexivity.
  - cbn [to_boundary_points]. symmetry. apply boundary_points; auto.
Qed.
End Mesh.
End Result.

Lemma from_polygon_well fuel p t : constrained_from_polygon fuel p = Ok t ->
  exists lasts n, last_vertices 0 (border p :: holes p) = Ok lasts /\
    let groups := group_vertices (sort_vertices (first_vertices 0 (border p :: holes p) ++ lasts)) in
    well (map fst groups) n (map snd groups) (triangular_indices 1 (map (@length point) (holes p))) t /\
    (n = 0 -> length (map fst groups) < 2).
Proof.
  intros H. unfold constrained_from_polygon in H. apply bind_ok in H. destruct H as (lasts & El & H).
  apply bind_ok in H. destruct H as ([m0 sides] & E & H). unbind H. unbind H.
  set (groups := group_vertices (sort_vertices (first_vertices 0 (border p :: holes p) ++ lasts))) in *.
  pose proof (ps_sorted p lasts) as Sr. fold groups in Sr.
  pose proof (ps_distinct p lasts) as Di. fold groups in Di.
  destruct (build_settles (map fst groups) Sr) as ([m1 s1] & B & N & F).
  assert (X : Ok (m0, sides) = Ok (m1, s1)).
  { rewrite <- (F (Nat.max fuel N)) by lia. symmetry. apply (build_more fuel); [lia|exact E]. }
  injection X as -> ->. destruct B as ((Q & P & _) & S).
  exists lasts, (size m1). split; [exact El|]. cbn zeta. fold groups.
  assert (W0 : well (map fst groups) (size m1) (map snd groups) (triangular_indices 1 (map (@length point) (holes p)))
    (Constrained s1 m1 (map snd groups) (triangular_indices 1 (tl (map (@length point) (border p :: holes p)))))).
  { split; [split; [exact Q|split; [exact P|reflexivity]]|]. split; [reflexivity|]. split; [reflexivity|]. cbn.
    destruct s1 as [[l r]|]; [exact S|apply S]. }
  split.
  - destruct (constrain_well _ Di _ _ _ _ _ _ _ W0 E0) as (W1 & _).
    eapply cut_well; [|exact H]. eapply bound_well; [exact W1|exact E1].
  - intros Z. destruct s1 as [[l r]|]; [|apply S]. destruct S as ((_ & L) & _). lia.
Qed.

Lemma triangulation_well_formed fuel p t : constrained_from_polygon fuel p = Ok t ->
  quad_structure (ct_mesh t) /\
  (forall v, In v (m_endpoints (ct_mesh t)) <-> In v (concat (border p :: holes p))) /\
  (forall i j, i < j -> j < length (m_endpoints (ct_mesh t)) ->
     lex_lt (nth i (m_endpoints (ct_mesh t)) (Pt 0 0)) (nth j (m_endpoints (ct_mesh t)) (Pt 0 0))).
Proof.
  intros H. destruct (from_polygon_well fuel p t H) as (lasts & n & El & W & _). cbn zeta in W.
  destruct W as ((Q & P & _) & _). split; [exact Q|]. rewrite P. split.
  - intros v. apply (ps_points p lasts El).
  - apply (ps_sorted p lasts).
Qed.
Lemma constrained_triangles_well_formed fuel p t : constrained_from_polygon fuel p = Ok t ->
  exists ts, (forall fuel', fuel <= fuel' -> constrained_triangles fuel' p = Ok ts) /\
  forall a b c, In (a, b, c) ts ->
    In a (concat (border p :: holes p)) /\ In b (concat (border p :: holes p)) /\ In c (concat (border p :: holes p)) /\
    lex_lt a b /\ lex_lt a c /\ (0 < area2 a b c)%Qc /\
    (forall h, In h (holes p) -> length h = 3 -> ~ (In a h /\ In b h /\ In c h)).
Proof.
  intros H. destruct (from_polygon_well fuel p t H) as (lasts & n & El & W & _). cbn zeta in W.
  destruct (triangles_result p lasts El n t W) as (ts & T & Tp). exists ts. split.
  - intros fuel' L. unfold constrained_triangles. rewrite (constrained_more _ _ _ _ L H). exact T.
  - intros a b c I. destruct (Tp a b c I) as (A & B & C & R).
    apply (ps_points p lasts El) in A. apply (ps_points p lasts El) in B. apply (ps_points p lasts El) in C. auto.
Qed.
Lemma constrained_border_well_formed fuel p t u v : constrained_from_polygon fuel p = Ok t ->
  In u (concat (border p :: holes p)) -> In v (concat (border p :: holes p)) -> u <> v ->
  exists N boundary edges first, let m := ct_mesh t in
    (forall fuel', N <= fuel' -> constrained_boundary_points fuel' t = Ok boundary /\
       constrained_border fuel' p = Ok (if length boundary <? 3 then boundary else shrink_collinear_vertices boundary)) /\
    boundary <> [] /\ incl boundary (concat (border p :: holes p)) /\
    NoDup edges /\ hd_error edges = Some first /\ (forall e, In e edges -> edge m e) /\
    (forall i, i < length edges -> to_right_from_end m (nth i edges 0) = Ok (nth (S i) edges first)) /\
    (forall i, i < length edges -> end_of m (nth i edges 0) = start m (nth (S i) edges first)) /\
    boundary = map (fun e => nth (start m e) (m_endpoints m) (Pt 0 0)) edges.
Proof.
  intros H Iu Iv Nuv. destruct (from_polygon_well fuel p t H) as (lasts & n & El & W & Z). cbn zeta in W, Z.
  assert (Nz : n <> 0).
  { intros X. specialize (Z X). apply (ps_points p lasts El) in Iu. apply (ps_points p lasts El) in Iv.
    pose proof (sorted_one _ _ _ Iu Iv Nuv). lia. }
  destruct (boundary_result p lasts n t W) as (N & boundary & edges & first & F & (C1 & C2 & C3 & C4 & C5) & B); eauto.
  exists (Nat.max N fuel), boundary, edges, first. cbn zeta.
  assert (P : m_endpoints (ct_mesh t) = map fst (group_vertices (sort_vertices (first_vertices 0 (border p :: holes p) ++ lasts)))) by apply W.
  assert (Q : quad_structure (ct_mesh t)) by apply W.
  split; [|split; [|split; [|rewrite P; auto 10]]].
  - intros fuel' L. assert (F' := F fuel' ltac:(lia)). split; [exact F'|].
    unfold constrained_border. rewrite (constrained_more fuel fuel' p t ltac:(lia) H). cbn [bind]. rewrite F'. reflexivity.
  - subst boundary. destruct edges; [discriminate C2|discriminate].
  - subst boundary. intros x I. apply in_map_iff in I. destruct I as (e & <- & I). apply (ps_points p lasts El).
    rewrite <- P. unfold at_. apply nth_In. apply start_point; auto.
Qed.
