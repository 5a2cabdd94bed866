(** The constrained triangulation, part 3: constraints, bounding, cutting. *)
From Coq Require Import QArith Qcanon Bool List Arith Lia.
From Verif Require Import QcTac Model_Base Model_Utils Model_Geometry Model_Mesh Model_Constrained Spec_Base Spec_Mesh Proof_Base Proof_Mesh Proof_Mesh2
  Proof_Mesh3 Proof_Delaunay Proof_Delaunay2 Proof_Constrained1 Proof_Constrained2.
Import ListNotations.
Local Open Scope nat_scope.

Lemma not_deleted_incl m : forall l r, not_deleted m l = Ok r -> incl r l.
Proof.
  induction l as [|e l IH]; cbn; intros r H; [injection H as <-; apply incl_refl|].
  unbind H. unbind H. apply IH in E0. destruct v; injection H as <-; intros x I.
  - right. auto.
  - destruct I as [->|I]; [left; auto|right; auto].
Qed.

Section Keeping.
Variable ps : list point.
Hypothesis Distinct : forall i j, i < length ps -> j < length ps -> at_ ps i = at_ ps j -> i = j.
Variable n : nat.
Notation sound := (sound ps n).
Notation edge_index := (edge_index n).

Lemma to_edges_index m l e : sound m -> to_edges m = Ok l -> In e l -> edge_index e.
Proof.
  intros (Q & _ & Sz) H I. unfold to_edges in H. apply not_deleted_incl in H. apply H in I.
  apply in_map_iff in I. destruct I as (i & <- & I). apply in_seq in I.
  destruct (qs_groups m Q) as (k & S1 & _). assert (N4 : n = 4 * k) by congruence. unfold size in S1. rewrite S1 in I. unfold Proof_Constrained2.edge_index. rewrite N4.
  split; [rewrite Nat.even_mul; reflexivity|].
  assert ((4 * k + 1) / 2 = 2 * k) by (replace (4 * k + 1) with (1 + (2 * k) * 2) by lia; rewrite Nat.div_add by lia; reflexivity).
  lia.
Qed.
Lemma to_unique_edges_index m l e : sound m -> to_unique_edges m = Ok l -> In e l -> edge_index e.
Proof.
  intros (Q & _ & Sz) H I. unfold to_unique_edges in H. apply not_deleted_incl in H. apply H in I.
  apply in_map_iff in I. destruct I as (i & <- & I). apply in_seq in I.
  destruct (qs_groups m Q) as (k & S1 & _). assert (N4 : n = 4 * k) by congruence. unfold size in S1. rewrite S1 in I. unfold Proof_Constrained2.edge_index. rewrite N4.
  split; [rewrite Nat.even_mul; reflexivity|].
  assert ((4 * k + 3) / 4 = k) by (replace (4 * k + 3) with (3 + k * 4) by lia; rewrite Nat.div_add by lia; reflexivity).
  lia.
Qed.

Section Steps.
Variable m : mesh.
Hypothesis Sd : sound m.
Lemma left_index e r : edge_index e -> to_left_from_start m e = Ok r -> edge_index r.
Proof.
  intros E H. apply (sound_edge ps n m e Sd) in E. pose proof Sd as (Q & _).
  rewrite get_left in H by (auto; apply E). injection H as <-. apply (sound_edge ps n m _ Sd). apply edge_onext; auto.
Qed.
Lemma right_index e r : edge_index e -> to_right_from_start m e = Ok r -> edge_index r.
Proof.
  intros E H. apply (sound_edge ps n m e Sd) in E. pose proof Sd as (Q & _).
  rewrite get_right in H by (auto; apply E). injection H as <-. apply (sound_edge ps n m _ Sd). apply edge_oprev; auto.
Qed.
Lemma opposite_index e : edge_index e -> edge_index (to_opposite_edge e).
Proof.
  intros E. apply (sound_edge ps n m e Sd) in E. pose proof Sd as (Q & _).
  rewrite opposite_sym. apply (sound_edge ps n m _ Sd). apply edge_sym; auto.
Qed.
Lemma right_end_index e r : edge_index e -> to_right_from_end m e = Ok r -> edge_index r.
Proof. intros E H. unfold to_right_from_end in H. eapply left_index; [|exact H]. apply opposite_index; auto. Qed.
Lemma turn_left_index p : forall fuel e r, edge_index e -> turn_left_to fuel m e p = Ok r -> edge_index r.
Proof.
  induction fuel as [|fuel IH]; cbn; intros e r E H; [discriminate|]. unbind H. unbind H.
  destruct (orientation_is v0 CLOCKWISE); [congruence|]. apply (IH v r); auto. eapply left_index; eauto.
Qed.
Lemma turn_right_index p : forall fuel e r, edge_index e -> turn_right_to fuel m e p = Ok r -> edge_index r.
Proof.
  induction fuel as [|fuel IH]; cbn; intros e r E H; [discriminate|]. unbind H. unbind H.
  assert (edge_index v) by (eapply right_index; eauto).
  destruct (negb (orientation_is v0 CLOCKWISE)); [congruence|]. apply (IH v r); auto.
Qed.
Lemma base_index fuel e p r : edge_index e -> to_angle_containing_constraint_base fuel m e p = Ok r -> edge_index r.
Proof.
  intros E H. unfold to_angle_containing_constraint_base in H. unbind H. destruct (point_eq v p); [congruence|].
  unbind H. destruct (orientation_is v0 COUNTERCLOCKWISE); [eapply turn_left_index|eapply turn_right_index]; eauto.
Qed.
End Steps.

Lemma set_constraint_sound fuel m a b crossings m' : sound m -> separate n crossings ->
  set_constraint fuel m a b crossings = Ok m' -> sound m'.
Proof.
  intros Sd Sp H. unfold set_constraint in H. apply bind_ok in H. destruct H as ([m1 new_edges] & E & H).
  destruct (resolve_sound ps Distinct n fuel m a b crossings [] m1 new_edges) as (S1 & Sp1); auto.
  { rewrite app_nil_r. auto. }
  eapply restore_sound; eauto.
Qed.
Lemma constrain_position_sound fuel cs e p pos m flags m' flags' : sound m -> edge_index e ->
  constrain_position fuel cs e p pos m flags = Ok (m', flags') -> sound m'.
Proof.
  intros Sd Ei H. unfold constrain_position in H. unbind H. unbind H. unbind H.
  destruct v1; [congruence|]. unbind H. unbind H. unbind H. unbind H. unbind H. injection H as <- _.
  assert (Eb : edge_index v2) by (eapply base_index; eauto).
  destruct v3 as [|x l] eqn:V; [injection E5 as <-; auto|]. rewrite <- V in *.
  eapply set_constraint_sound; [exact Sd| |exact E5]. eapply crossings_separate; [exact Sd|exact Eb|exact E4].
Qed.
Lemma constrain_positions_sound fuel cs e p : forall positions m flags m' flags', sound m -> edge_index e ->
  constrain_positions fuel cs e p positions m flags = Ok (m', flags') -> sound m'.
Proof.
  induction positions as [|pos positions IH]; cbn [constrain_positions]; intros m flags m' flags' Sd Ei H; [congruence|].
  apply bind_ok in H. destruct H as ([m1 flags1] & E & H). apply (IH m1 flags1 m' flags'); auto.
  eapply constrain_position_sound; eauto.
Qed.
Lemma constrain_edges_sound fuel cs positions : forall edges m flags m' flags', sound m -> Forall edge_index edges ->
  constrain_edges fuel cs positions edges m flags = Ok (m', flags') -> sound m'.
Proof.
  induction edges as [|e edges IH]; cbn [constrain_edges]; intros m flags m' flags' Sd F H; [congruence|].
  inversion F; subst. unbind H. unbind H. unbind H.
  apply bind_ok in H. destruct H as ([m1 flags1] & E' & H). apply (IH m1 flags1 m' flags'); auto.
  eapply constrain_positions_sound; eauto.
Qed.

(** What the triangulation keeps. *)
Variable positions : list (list vertex_position).
Variable triangular : list nat.
Definition well (t : constrained) : Prop :=
  sound (ct_mesh t) /\ ct_positions t = positions /\ ct_triangular_holes t = triangular /\
  match ct_sides t with Some (l, r) => edge_index l /\ edge_index r | None => n = 0 end.
Lemma constrain_well fuel cs t t' : well t -> constrain fuel cs t = Ok t' -> well t' /\ ct_sides t' = ct_sides t.
Proof.
  intros (Sd & P & T & S) H. unfold constrain in H. unbind H. unbind H.
  apply bind_ok in H. destruct H as ([m1 flags1] & E' & H). injection H as <-. cbn.
  split; [|reflexivity]. split; [|split; [exact P|split; [exact T|exact S]]].
  eapply constrain_edges_sound; [exact Sd| |exact E'].
  apply Forall_forall. intros e I. eapply to_edges_index; eauto.
Qed.
Lemma delete_sound m a m' : sound m -> edge_index a -> delete_edge m a = Ok m' -> sound m'.
Proof.
  intros Sd Ei H. apply (sound_edge ps n m a Sd) in Ei. destruct Sd as (Q & P & Sz).
  rewrite (delete_ok m Q a Ei) in H. injection H as <-. split; [apply deleted_structure; auto|].
  split; [exact P|]. rewrite deleted_size. exact Sz.
Qed.
Lemma ct_delete_well t a t' : well t -> edge_index a -> ct_delete_edge t a = Ok t' -> well t'.
Proof.
  intros (Sd & P & T & S) Ei H. unfold ct_delete_edge in H. destruct (ct_sides t) as [[l r]|]; [|discriminate].
  destruct S as (Sl & Sr). unbind H. unbind H. unbind H. injection H as <-.
  split; [exact (delete_sound _ _ _ Sd Ei E1)|]. split; [exact P|]. split; [exact T|]. cbn. split.
  - destruct ((a =? l) || (to_opposite_edge a =? l)); [exact (left_index _ Sd _ _ Sl E0)|injection E0 as <-; exact Sl].
  - destruct ((a =? r) || (to_opposite_edge a =? r)); [|injection E as <-; exact Sr]. unbind E. injection E as <-.
    apply (opposite_index _ Sd). exact (right_end_index _ Sd _ _ Sr E2).
Qed.
Lemma boundary_index m first : sound m -> forall fuel e l, edge_index e -> boundary_edges_from fuel m first e = Ok l ->
  Forall edge_index l.
Proof.
  intros Sd. induction fuel as [|fuel IH]; cbn; intros e l Ei H; [discriminate|]. unbind H.
  destruct (v =? first); [injection H as <-; repeat constructor; apply Ei|]. unbind H. injection H as <-.
  constructor; auto. apply (IH v); auto. exact (right_end_index _ Sd _ _ Ei E).
Qed.
Lemma boundary_edges_index fuel t l : well t -> to_unique_boundary_edges fuel t = Ok l -> Forall edge_index l.
Proof.
  intros (Sd & P & T & S) H. unfold to_unique_boundary_edges in H.
  destruct (m_left_from_start (ct_mesh t)) eqn:L; destruct (ct_sides t) as [[ls rs]|]; try discriminate.
  - apply Forall_forall. intros e I. eapply to_unique_edges_index; eauto.
  - eapply boundary_index; [exact Sd| |exact H]. tauto.
Qed.
Lemma incidents_index m e a b : sound m -> edge_index e -> mouth_edge_to_incidents m e = Ok (a, b) -> edge_index a /\ edge_index b.
Proof.
  intros Sd Ei H. unfold mouth_edge_to_incidents in H. unbind H. unbind H. unbind H. unbind H. unbind H. injection H as <- <-.
  assert (Ev : edge_index v) by (exact (left_index _ Sd _ _ Ei E)). split; auto. exact (right_end_index _ Sd _ _ Ev E3).
Qed.
Lemma mouths_well sizes : forall fuel t mouths t', well t -> Forall edge_index mouths ->
  delete_mouths fuel sizes t mouths = Ok t' -> well t'.
Proof.
  induction fuel as [|fuel IH]; intros t mouths t' W F H; destruct mouths as [|e mouths]; cbn [delete_mouths] in H;
    try discriminate; try congruence.
  inversion F; subst. apply bind_ok in H. destruct H as ([a b] & E & H). unbind H. unbind H. unbind H.
  assert (Sd : sound (ct_mesh t)) by apply W.
  destruct (incidents_index _ _ _ _ Sd H2 E) as (Ea & Eb).
  assert (W1 : well v) by (exact (ct_delete_well _ _ _ W H2 E0)).
  refine (IH _ _ _ W1 _ H). destruct v1, v0; auto.
Qed.
Lemma bound_well fuel sizes t t' : well t -> bound fuel sizes t = Ok t' -> well t'.
Proof.
  intros W H. unfold bound in H. unbind H. unbind H. eapply mouths_well; [exact W| |exact H].
  apply Forall_forall. intros e I. apply in_rev in I. destruct (keep_in _ _ _ _ E0 I) as (I' & _).
  apply (proj1 (Forall_forall _ _) (boundary_edges_index _ _ _ W E)); auto.
Qed.
Lemma cut_edges_well cs : forall edges t t', well t -> Forall edge_index edges -> cut_edges cs edges t = Ok t' -> well t'.
Proof.
  induction edges as [|e edges IH]; cbn [cut_edges]; intros t t' W F H; [congruence|]. inversion F; subst.
  unbind H. unbind H. refine (IH _ _ _ H3 H). destruct v; [exact (ct_delete_well _ _ _ W H2 E0)|injection E0 as <-; exact W].
Qed.
Lemma cut_well cs t t' : well t -> Model_Constrained.cut cs t = Ok t' -> well t'.
Proof.
  intros W H. unfold Model_Constrained.cut in H. unbind H. eapply cut_edges_well; [exact W| |exact H].
  apply Forall_forall. intros e I. eapply to_unique_edges_index; [apply W|exact E|exact I].
Qed.
End Keeping.
