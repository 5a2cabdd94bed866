(** The constrained triangulation, part 4: the vertices and their positions. *)
From Coq Require Import QArith Qcanon Bool List Arith Lia Sorted.
From Verif Require Import QcTac Model_Base Model_Utils Model_Geometry Model_Mesh Model_Constrained Spec_Base Spec_Mesh Proof_Base Proof_Utils Proof_Collect
  Proof_Mesh Proof_Mesh2 Proof_Mesh3 Proof_Delaunay Proof_Delaunay2 Proof_Delaunay3 Proof_Delaunay4 Proof_Delaunay5
  Proof_Constrained1 Proof_Constrained2 Proof_Constrained3.
Import ListNotations.
Local Open Scope nat_scope.

Lemma insert_vertex_points v : forall l, map cv_point (insert_vertex v l) = insert_point (cv_point v) (map cv_point l).
Proof. induction l as [|w l IH]; cbn; auto. destruct (point_lt (cv_point w) (cv_point v)); cbn; [rewrite IH|]; reflexivity. Qed.
Lemma sort_vertices_points : forall l, map cv_point (sort_vertices l) = sort_points (map cv_point l).
Proof. induction l as [|w l IH]; cbn; auto. rewrite insert_vertex_points, IH. reflexivity. Qed.
Lemma insert_vertex_in v : forall l x, In x (insert_vertex v l) <-> v = x \/ In x l.
Proof.
  induction l as [|w l IH]; cbn; intros x; [tauto|]. destruct (point_lt (cv_point w) (cv_point v)); cbn; [rewrite IH|]; tauto.
Qed.
Lemma sort_vertices_in : forall l x, In x (sort_vertices l) <-> In x l.
Proof. induction l as [|w l IH]; cbn; intros x; [tauto|]. rewrite insert_vertex_in, IH. tauto. Qed.

Lemma group_keys : forall l, map fst (group_vertices l) = deduplicate (map cv_point l).
Proof.
  induction l as [|v l IH]; [reflexivity|]. change (map cv_point (v :: l)) with (cv_point v :: map cv_point l).
  rewrite deduplicate_eq, <- IH. cbn [group_vertices].
  destruct l as [|w l]; [reflexivity|]. cbn [map].
  destruct (group_vertices (w :: l)) as [|[p positions] groups] eqn:G.
  - exfalso. cbn [map] in IH. rewrite deduplicate_eq in IH. destruct (map cv_point l); [discriminate|].
    assert (X : In (cv_point w) (deduplicate (cv_point w :: p :: l0))) by (apply deduplicate_in; left; auto).
    rewrite deduplicate_eq, <- IH in X. destruct X.
  - assert (K : cv_point w = p).
    { cbn [map fst] in IH. revert IH. clear. revert w. induction l as [|x l IHl]; intros w IH.
      - cbn in IH. congruence.
      - cbn [map] in IH. rewrite deduplicate_eq in IH. destruct (point_eq (cv_point w) (cv_point x)) eqn:E.
        + apply point_eq_true in E. rewrite E. apply IHl. exact IH.
        + congruence. }
    subst p. destruct (point_eq (cv_point v) (cv_point w)) eqn:E; cbn [map fst]; [|reflexivity].
    apply point_eq_true in E. rewrite E. reflexivity.
Qed.
Lemma group_positions : forall l p positions q, StronglySorted lex_le (map cv_point l) ->
  In (p, positions) (group_vertices l) -> (In q positions <-> In (ContourVertex q p) l).
Proof.
  induction l as [|v l IH]; intros p positions q S I; [destruct I|]. cbn [map] in S. inversion S as [|? ? S1 F]; subst.
  pose proof (deduplicate_sorted _ S1) as D. rewrite <- group_keys in D.
  assert (Keys : forall p' positions', In (p', positions') (group_vertices l) -> lex_le (cv_point v) p').
  { intros p' positions' I'. apply (proj1 (Forall_forall _ _) F). apply deduplicate_in. rewrite <- group_keys.
    apply in_map_iff. exists (p', positions'). auto. }
  assert (Other : forall p', (exists positions', In (p', positions') (group_vertices l)) -> p' <> cv_point v ->
    (In (ContourVertex q p') (v :: l) <-> In (ContourVertex q p') l)).
  { intros p' _ N. split; [|right; auto]. intros [E|I']; auto. exfalso. apply N. rewrite E. reflexivity. }
  cbn [group_vertices] in I. destruct (group_vertices l) as [|[p0 positions0] groups] eqn:G.
  - destruct I as [I|[]]. injection I as <- <-.
    assert (L : l = []).
    { destruct l as [|w l']; auto. exfalso. assert (X : In (cv_point w) (map fst (group_vertices (w :: l')))).
      { rewrite group_keys. apply deduplicate_in. left. reflexivity. } rewrite G in X. destruct X. }
    subst l. cbn. split; intros [E|[]]; left; [subst q; destruct v; reflexivity|rewrite E; reflexivity].
  - inversion D as [|? ? D1 D2]; subst.
    destruct (point_eq (cv_point v) p0) eqn:E.
    + apply point_eq_true in E. destruct I as [I|I].
      * injection I as <- <-. specialize (IH p0 positions0 q S1 (or_introl eq_refl)). rewrite <- E in IH.
        cbn [In]. rewrite IH. split; (intros [X|X]; [left|right; auto]); [subst q; destruct v; reflexivity|rewrite X; reflexivity].
      * rewrite (Other p); [|exists positions; right; auto|].
        -- apply (IH p positions q S1). right; auto.
        -- rewrite Forall_forall in D2. specialize (D2 p (in_map fst _ _ I)). rewrite E. intros X. rewrite X in D2.
           apply (lex_irrefl _ D2).
    + destruct I as [I|I].
      * injection I as <- <-. split.
        -- intros [<-|[]]. left. destruct v; reflexivity.
        -- intros [X|X]; [left; rewrite X; reflexivity|]. exfalso.
           assert (Y : In (cv_point v) (map fst ((p0, positions0) :: groups))).
           { rewrite <- G, group_keys. apply deduplicate_in. apply in_map_iff. exists (ContourVertex q (cv_point v)). auto. }
           destruct Y as [Y|Y]; [cbn in Y; rewrite Y, point_eq_refl in E; discriminate|].
           rewrite Forall_forall in D2. specialize (D2 _ Y). cbn in D2.
           apply (lex_irrefl (cv_point v)). apply (lex_le_lt_trans _ p0); [|exact D2].
           apply (Keys p0 positions0). left; auto.
      * rewrite (Other p); [|exists positions; exact I|].
        -- apply (IH p positions q S1). exact I.
        -- intros X. destruct I as [I|I]; [injection I as <- <-; rewrite <- X, point_eq_refl in E; discriminate|].
           rewrite Forall_forall in D2. specialize (D2 p (in_map fst _ _ I)). cbn in D2.
           apply (lex_irrefl p). apply (lex_le_lt_trans _ p0); [|exact D2]. rewrite X. apply (Keys p0 positions0). left; auto.
Qed.

(** The vertices listed. *)
Lemma first_in : forall cs i v, In v (first_vertices i cs) -> exists c, In c cs /\ In (cv_point v) c.
Proof.
  induction cs as [|c cs IH]; cbn; intros i v I; [destruct I|]. apply in_app_or in I. destruct I as [I|I].
  - apply in_map_iff in I. destruct I as ([j p] & <- & I). exists c. split; auto. cbn.
    apply in_combine_r in I. rewrite <- (firstn_skipn (length c - 1) c). apply in_or_app. auto.
  - destruct (IH _ _ I) as (c' & I1 & I2). eauto.
Qed.
Lemma last_in : forall cs i l v, last_vertices i cs = Ok l -> In v l -> exists c, In c cs /\ In (cv_point v) c.
Proof.
  induction cs as [|c cs IH]; cbn; intros i l v H I; [injection H as <-; destruct I|]. unbind H. unbind H. injection H as <-.
  destruct I as [<-|I].
  - exists c. split; auto. cbn. unfold get in E. destruct (nth_error c (length c - 1)) eqn:X; [|discriminate].
    injection E as <-. eapply nth_error_In; eauto.
  - destruct (IH _ _ _ E0 I) as (c' & I1 & I2). eauto.
Qed.
Lemma vertices_all : forall cs i l k c p, last_vertices i cs = Ok l -> nth_error cs k = Some c -> In p c ->
  exists j, In (ContourVertex (At (i + k) j) p) (first_vertices i cs ++ l).
Proof.
  induction cs as [|c0 cs IH]; cbn; intros i l k c p H K I; [destruct k; discriminate|]. unbind H. unbind H. injection H as <-.
  destruct k as [|k].
  - injection K as ->. rewrite Nat.add_0_r. apply In_nth with (d := Pt 0 0) in I. destruct I as (j & J & <-).
    exists j. destruct (Nat.lt_ge_cases j (length c - 1)) as [L|L].
    + apply in_or_app. left. apply in_or_app. left. apply in_map_iff. exists (j, nth j c (Pt 0 0)). split; auto.
      assert (Len : length (seq 0 (length c - 1)) = length (firstn (length c - 1) c)) by (rewrite seq_length, firstn_length; lia).
      assert (X : nth j (combine (seq 0 (length c - 1)) (firstn (length c - 1) c)) (0, Pt 0 0) = (j, nth j c (Pt 0 0))).
      { rewrite combine_nth by exact Len. rewrite seq_nth by lia. f_equal.
        transitivity (nth j (firstn (length c - 1) c ++ skipn (length c - 1) c) (Pt 0 0)); [|rewrite firstn_skipn; reflexivity].
        rewrite app_nth1; [reflexivity|]. rewrite firstn_length. lia. }
      rewrite <- X. apply nth_In. rewrite combine_length, <- Len, seq_length. lia.
    + assert (j = length c - 1) by lia. subst j. apply in_or_app. right. left.
      rewrite (get_nth _ _ (Pt 0 0)) in E by lia. injection E as <-. reflexivity.
  - destruct (IH (S i) v0 k c p E0 K I) as (j & J). exists j. replace (i + S k) with (S i + k) by lia.
    apply in_app_or in J. apply in_or_app. destruct J as [J|J]; [left|right; right; auto].
    apply in_or_app. right. exact J.
Qed.
Lemma triangular_in : forall sizes i k, nth_error sizes k = Some 3 -> In (i + k) (triangular_indices i sizes).
Proof.
  induction sizes as [|s sizes IH]; intros i k H; [destruct k; discriminate|]. cbn [triangular_indices]. destruct k as [|k].
  - injection H as ->. rewrite Nat.eqb_refl, Nat.add_0_r. left. reflexivity.
  - specialize (IH (S i) k H). replace (i + S k) with (S i + k) by lia. destruct (s =? 3); [right|]; exact IH.
Qed.
