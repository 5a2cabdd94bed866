(** The divide-and-conquer triangulation, part 2: looking for candidates. *)
From Coq Require Import QArith Qcanon Bool List Arith Lia.
From Verif Require Import QcTac Model_Base Model_Utils Model_Mesh Spec_Base Spec_Mesh Proof_Base Proof_Mesh Proof_Mesh2 Proof_Mesh3 Proof_Delaunay.
Import ListNotations.
Local Open Scope nat_scope.

(** The point with a given index. *)
Definition at_ (ps : list point) (i : nat) : point := nth i ps (Pt 0 0).
Lemma orient_at m (Q : quad_structure m) e p : edge m e ->
  orient_point_to_edge m e p = Ok (orient (at_ (m_endpoints m) (start m e)) (at_ (m_endpoints m) (end_of m e)) p).
Proof. intros E. unfold orient_point_to_edge. rewrite get_start, get_end by auto. reflexivity. Qed.
Lemma circle_third p a b : locate_point_in_point_point_point_circle p a b p = BOUNDARY.
Proof.
  unfold locate_point_in_point_point_point_circle. cbv zeta.
  match goal with |- context [to_sign ?x] => assert (E : x = 0%Qc) by ring; rewrite E end. reflexivity.
Qed.

(** Two meshes with the same edges, between the same points. *)
Definition same_edges (m m' : mesh) : Prop :=
  size m' = size m /\ m_starts_indices m' = m_starts_indices m /\ m_endpoints m' = m_endpoints m.
Lemma same_edges_refl m : same_edges m m.
Proof. repeat split. Qed.
Lemma same_edges_trans m m' m'' : same_edges m m' -> same_edges m' m'' -> same_edges m m''.
Proof. intros (A & B & C) (D & E & F). repeat split; congruence. Qed.
Lemma same_edge m m' e : same_edges m m' -> (edge m' e <-> edge m e).
Proof. intros (A & _). unfold edge. rewrite A. reflexivity. Qed.
Lemma same_start m m' e : same_edges m m' -> start m' e = start m e.
Proof. intros (_ & B & _). unfold start. rewrite B. reflexivity. Qed.
Lemma same_end m m' e : same_edges m m' -> end_of m' e = end_of m e.
Proof. apply same_start. Qed.
Lemma deleted_same m a : same_edges m (deleted m a).
Proof. repeat split. apply deleted_size. Qed.

(** Deleting an edge that has neighbours makes fewer edges with neighbours. *)
Definition ringed (m : mesh) : nat :=
  length (filter (fun e => Nat.even e && negb (onext m e =? e)) (seq 0 (size m))).
Lemma deleted_ringed m (Q : quad_structure m) a : edge m a -> onext m a <> a -> ringed (deleted m a) < ringed m.
Proof.
  intros Ea N. unfold ringed. rewrite deleted_size. destruct (deleted_self m Q a Ea) as (S1 & S2).
  apply (filter_lt _ _ _ a).
  - apply in_seq. destruct Ea. lia.
  - rewrite S1, Nat.eqb_refl. apply andb_false_r.
  - rewrite (proj1 Ea), neq_eqb by auto. reflexivity.
  - intros x I H. apply in_seq in I. apply andb_prop in H. destruct H as (Hx & H). rewrite Hx. cbn [andb].
    destruct (Nat.eqb_spec (onext m x) x) as [E|]; auto. exfalso.
    assert (Ex : edge m x) by (split; auto; lia).
    destruct (Nat.eqb_spec (onext (deleted m a) x) x) as [|D]; [discriminate|]. apply D.
    destruct (Nat.eq_dec x a) as [->|Na]; auto. destruct (Nat.eq_dec x (sym a)) as [->|Ns]; auto.
    destruct (deleted_onext m Q a Ea x Ex Na Ns) as (_ & _ & [X|[X|X]]); rewrite X, ?E; auto.
Qed.

(** The two directions in which candidates are searched. *)
Record direction (step : mesh -> quad_edge -> res quad_edge) (nx : mesh -> nat -> nat) : Prop := {
  dir_ok : forall m e, quad_structure m -> edge m e -> step m e = Ok (nx m e);
  dir_edge : forall m e, quad_structure m -> edge m e -> edge m (nx m e);
  dir_start : forall m e, quad_structure m -> edge m e -> start m (nx m e) = start m e;
  dir_loop : forall m e, quad_structure m -> edge m e -> onext m e = e -> nx m e = e }.
Lemma left_direction : direction to_left_from_start onext.
Proof.
  constructor; intros m e Q E.
  - apply get_left. apply E.
  - apply edge_onext; auto.
  - apply (qs_start m Q); auto.
  - auto.
Qed.
Lemma right_direction : direction to_right_from_start oprev.
Proof.
  constructor; intros m e Q E.
  - apply get_right; auto. apply E.
  - apply edge_oprev; auto.
  - apply start_oprev; auto.
  - intros H. rewrite <- H at 1. apply oprev_onext; auto. apply E.
Qed.

Section Candidates.
Variables (step : mesh -> quad_edge -> res quad_edge) (nx : mesh -> nat -> nat).
Hypothesis D : direction step nx.
(** The edge from the common end to a point above the base. *)
Definition above (m : mesh) (base e : nat) : Prop :=
  (area2 (at_ (m_endpoints m) (start m base)) (at_ (m_endpoints m) (end_of m base)) (at_ (m_endpoints m) (end_of m e)) < 0)%Qc.
Lemma above_same m m' base e : same_edges m m' -> above m' base e <-> above m base e.
Proof.
  intros S. unfold above. rewrite !(same_start m m'), !(same_end m m') by auto. destruct S as (_ & _ & ->). reflexivity.
Qed.
Lemma drop_settles m base e : quad_structure m -> edge m base -> edge m e -> above m base e ->
  settles (fun n => drop_candidates step n m base e) (fun '(m', e') =>
    quad_structure m' /\ same_edges m m' /\ edge m' e' /\ start m' e' = start m e /\ above m' base e').
Proof.
  remember (ringed m) as k eqn:K. revert m e K. induction k as [k IH] using (well_founded_induction lt_wf).
  intros m e -> Q Eb Ee Ab.
  set (next := nx m e). pose proof (dir_edge _ _ D m e Q Ee) as En. pose proof (dir_start _ _ D m e Q Ee) as Sn.
  fold next in En, Sn. set (ps := m_endpoints m).
  eapply settles_step.
  { intros n. cbn [drop_candidates]. rewrite (dir_ok _ _ D m e Q Ee). cbn [bind]. fold next.
    rewrite (get_end m Q next En). cbn [bind]. rewrite (orient_at m Q base _ Eb). cbn [bind].
    rewrite (get_end m Q base Eb). cbn [bind]. rewrite (get_start m Q base Eb). cbn [bind].
    rewrite (get_end m Q e Ee). cbn [bind]. rewrite (delete_ok m Q e Ee). cbn [bind].
    change (nth ?i (m_endpoints m) (Pt 0 0)) with (at_ ps i). fold ps. reflexivity. }
  destruct (orientation_is_spec (orient (at_ ps (start m base)) (at_ ps (end_of m base)) (at_ ps (end_of m next))) CLOCKWISE) as [O|O].
  - destruct (location_is_spec (locate_point_in_point_point_point_circle (at_ ps (end_of m next))
      (at_ ps (end_of m base)) (at_ ps (start m base)) (at_ ps (end_of m e))) INTERIOR) as [C|C].
    + assert (N : onext m e <> e).
      { intros X. apply (dir_loop _ _ D m e Q Ee) in X. fold next in X. rewrite X, circle_third in C. discriminate. }
      pose proof (deleted_ringed m Q e Ee N) as Lt. pose proof (deleted_same m e) as Sm.
      eapply settles_weaken.
      * apply (IH _ Lt (deleted m e) next eq_refl).
        -- apply deleted_structure; auto.
        -- apply (same_edge m); auto.
        -- apply (same_edge m); auto.
        -- apply (above_same m); auto. apply orient_cw in O. exact O.
      * intros (m', e') (A & B & C' & S' & F). split; auto. split; [apply (same_edges_trans m (deleted m e)); auto|].
        split; auto. split; auto. rewrite S', (same_start m) by auto. exact Sn.
    + apply settles_ok. repeat (split; auto).
  - apply settles_ok. repeat (split; auto).
Qed.
Lemma find_settles m base e : quad_structure m -> edge m base -> edge m e ->
  settles (fun n => find_candidate step n m base e) (fun '(m', found) =>
    quad_structure m' /\ same_edges m m' /\
    match found with
    | Some e' => edge m' e' /\ start m' e' = start m e /\ above m' base e'
    | None => True
    end).
Proof.
  intros Q Eb Ee. set (ps := m_endpoints m). eapply settles_ext.
  { intros n. unfold find_candidate. rewrite (get_end m Q e Ee). cbn [bind]. rewrite (orient_at m Q base _ Eb). cbn [bind].
    change (nth ?i (m_endpoints m) (Pt 0 0)) with (at_ ps i). fold ps. reflexivity. }
  destruct (orientation_is_spec (orient (at_ ps (start m base)) (at_ ps (end_of m base)) (at_ ps (end_of m e))) CLOCKWISE) as [O|O];
  cbn [negb].
  - eapply settles_bind; [apply (drop_settles m base e); auto; apply orient_cw in O; exact O|].
    intros (m', e') (A & B & C & F & G). apply settles_ok. auto.
  - apply settles_ok. split; auto. split; auto. apply same_edges_refl.
Qed.
End Candidates.
Lemma left_settles m base : quad_structure m -> edge m base ->
  settles (fun n => find_left_candidate n m base) (fun '(m', found) =>
    quad_structure m' /\ same_edges m m' /\
    match found with
    | Some e' => edge m' e' /\ start m' e' = end_of m base /\ above m' base e'
    | None => True
    end).
Proof.
  intros Q Eb. pose proof (edge_sym m Q base Eb) as Es. pose proof (edge_onext m Q _ Es) as En.
  eapply settles_ext.
  { intros n. unfold find_left_candidate. rewrite opposite_sym, get_left by apply Es. cbn [bind]. reflexivity. }
  eapply settles_weaken; [apply (find_settles _ _ left_direction m base (onext m (sym base))); auto|].
  intros (m', [e'|]) (A & B & C); split; auto; split; auto. destruct C as (C1 & C2 & C3). split; auto. split; auto.
  rewrite C2. apply (qs_start m Q); auto.
Qed.
Lemma right_settles m base : quad_structure m -> edge m base ->
  settles (fun n => find_right_candidate n m base) (fun '(m', found) =>
    quad_structure m' /\ same_edges m m' /\
    match found with
    | Some e' => edge m' e' /\ start m' e' = start m base /\ above m' base e'
    | None => True
    end).
Proof.
  intros Q Eb. pose proof (edge_oprev m Q _ Eb) as En.
  eapply settles_ext.
  { intros n. unfold find_right_candidate. rewrite get_right by (auto; apply Eb). cbn [bind]. reflexivity. }
  eapply settles_weaken; [apply (find_settles _ _ right_direction m base (oprev m base)); auto|].
  intros (m', [e'|]) (A & B & C); split; auto; split; auto. destruct C as (C1 & C2 & C3). split; auto. split; auto.
  rewrite C2. apply start_oprev; auto.
Qed.
