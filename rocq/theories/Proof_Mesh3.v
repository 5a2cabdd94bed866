(** The quad-edge structure, part 3: the statements used by [Prop_Mesh]. *)
From Coq Require Import QArith Qcanon Bool List Arith Lia.
From Verif Require Import QcTac Model_Base Model_Utils Model_Mesh Spec_Base Spec_Mesh Proof_Base Proof_Mesh Proof_Mesh2.
Import ListNotations.
Local Open Scope nat_scope.

Lemma history_from_points ps m : mesh_history (mesh_from_points ps) m -> quad_structure m.
Proof. apply history_structure, no_edges_structure. Qed.

Lemma neighbours m e : quad_structure m -> edge m e ->
  exists l r l' r', to_left_from_start m e = Ok l /\ to_right_from_start m e = Ok r /\
    to_left_from_end m e = Ok l' /\ to_right_from_end m e = Ok r' /\
    edge m l /\ edge m r /\ edge m l' /\ edge m r' /\
    to_right_from_start m l = Ok e /\ to_left_from_start m r = Ok e /\
    to_right_from_end m (to_opposite_edge l') = Ok (to_opposite_edge e) /\
    to_left_from_end m (to_opposite_edge r') = Ok (to_opposite_edge e) /\
    (exists i p, to_start_index m e = Ok i /\ to_start m e = Ok p /\ to_start m l = Ok p /\ to_start m r = Ok p /\
      to_start_index m l = Ok i /\ to_start_index m r = Ok i) /\
    (exists i p, to_end_index m e = Ok i /\ to_end m e = Ok p /\ to_start m l' = Ok p /\ to_start m r' = Ok p /\
      to_start_index m l' = Ok i /\ to_start_index m r' = Ok i).
Proof.
  intros Q E. pose proof (edge_sym m Q e E) as E'.
  exists (onext m e), (oprev m e), (oprev m (sym e)), (onext m (sym e)).
  pose proof (edge_onext m Q e E) as E1. pose proof (edge_oprev m Q e E) as E2.
  pose proof (edge_onext m Q _ E') as E3. pose proof (edge_oprev m Q _ E') as E4.
  rewrite !opposite_sym.
  rewrite get_left, get_right, get_left_end, get_right_end by (auto; apply E).
  rewrite (get_right m Q (onext m e)), (get_left m (oprev m e)) by (auto; apply E1 || apply E2).
  rewrite (get_right_end m Q) by (apply (edge_sym m Q); auto). rewrite (get_left_end m Q) by (apply (edge_sym m Q); auto).
  rewrite !sym_sym.
  rewrite !oprev_onext, !onext_oprev by (auto; apply E || apply E').
  do 4 (split; [reflexivity|]). do 4 (split; [assumption|]). do 4 (split; [reflexivity|]). split.
  - exists (start m e). eexists. rewrite !get_start by auto. rewrite !get_start_index by auto.
    rewrite (qs_start m Q) by auto. rewrite start_oprev by auto. repeat split; reflexivity.
  - exists (end_of m e). eexists. rewrite get_end by auto. rewrite !get_start by auto.
    rewrite get_end_index, !get_start_index by auto.
    rewrite (qs_start m Q) by auto. rewrite start_oprev by auto. repeat split; reflexivity.
Qed.

Lemma created m i j : quad_structure m -> i < length (m_endpoints m) -> j < length (m_endpoints m) ->
  exists m' e, create_edge m i j = (m', e) /\ quad_structure m' /\ ~ edge m e /\ edge m' e /\
    start m' e = i /\ end_of m' e = j /\ onext m' e = e /\ onext m' (sym e) = sym e /\
    m_endpoints m' = m_endpoints m /\
    (forall f, edge m' f <-> edge m f \/ f = e \/ f = sym e) /\
    (forall f, edge m f -> start m' f = start m f /\ onext m' f = onext m f).
Proof.
  intros Q Hi Hj. exists (fst (create_edge m i j)), (size m). split; [reflexivity|].
  destruct (create_new_edge m Q i j) as (E1 & E2 & S). destruct (create_start_new m Q i j) as (S1 & S2).
  split; [apply create_structure; auto|]. split; [intros (_ & L); lia|]. split; [exact E1|].
  split; [exact S1|]. split; [exact S2|].
  pose proof (create_size m i j) as Sz.
  destruct E1 as (V1 & L1), E2 as (V2 & L2).
  split; [apply create_new_loop; auto; lia|]. split; [apply create_new_loop; auto; lia|]. split; [reflexivity|]. split.
  - intros f. split.
    + intros (Hf & L). destruct (Nat.lt_ge_cases f (size m)); [left; split; auto|right].
      apply (create_new_even m Q i j); auto. lia.
    + intros [(Hf & L)|[->| ->]]; split; auto. lia.
  - intros f (Hf & L). split; [apply create_start_old; auto|apply create_onext_old; auto].
Qed.

Lemma splicing m a b : quad_structure m -> edge m a -> edge m b -> start m a = start m b ->
  exists m', splice_edges m a b = Ok m' /\ quad_structure m' /\
    m_endpoints m' = m_endpoints m /\ m_starts_indices m' = m_starts_indices m /\
    (forall f, edge m' f <-> edge m f) /\
    onext m' a = onext m b /\ onext m' b = onext m a /\
    (forall f, edge m f -> f <> a -> f <> b -> onext m' f = onext m f).
Proof.
  intros Q Ea Eb S. exists (spliced m a b). split; [apply splice_ok; auto|]. split; [apply spliced_structure; auto|].
  split; [reflexivity|]. split; [reflexivity|]. split; [intros f; unfold edge; rewrite spliced_size; reflexivity|].
  split; [|split].
  - rewrite spliced_edges, Nat.eqb_refl by auto. reflexivity.
  - rewrite spliced_edges, Nat.eqb_refl by auto. destruct (Nat.eqb_spec b a) as [->|]; reflexivity.
  - intros f Ef Na Nb. rewrite spliced_edges by auto. rewrite !neq_eqb by auto. reflexivity.
Qed.

Lemma connecting m a b : quad_structure m -> edge m a -> edge m b ->
  exists m' e, connect_edges m a b = Ok (m', e) /\ quad_structure m' /\ ~ edge m e /\ edge m' e /\
    start m' e = end_of m a /\ end_of m' e = start m b /\
    onext m' e = sym a /\ onext m' b = sym e /\
    m_endpoints m' = m_endpoints m /\
    (forall f, edge m' f <-> edge m f \/ f = e \/ f = sym e) /\
    (forall f, edge m f -> start m' f = start m f) /\
    (forall f, edge m f -> f <> b -> onext m' f = if f =? oprev m (sym a) then e else onext m f) /\
    onext m' (sym e) = if b =? oprev m (sym a) then e else onext m b.
Proof.
  intros Q Ea Eb. exists (connected m a b), (size m). split; [apply connect_ok; auto|].
  split; [apply connected_structure; auto|]. split; [intros (_ & L); lia|].
  assert (E : edge (connected m a b) (size m)) by (apply connected_edge; auto).
  assert (E' : edge (connected m a b) (sym (size m))) by (apply connected_edge; auto).
  assert (W : forall f, edge m f -> edge (connected m a b) f) by (intros f Ef; apply connected_edge; auto).
  split; [exact E|].
  destruct (connected_start_new m Q a b) as (S1 & S2). split; [exact S1|]. split; [exact S2|].
  pose proof (old_new m Q a b Ea Eb) as ON.
  destruct (ON b Eb) as (B1 & B2).
  split; [|split].
  - rewrite connected_onext by auto. rewrite (neq_eqb (size m) (sym (size m))) by (apply not_eq_sym, sym_neq).
    rewrite neq_eqb by auto. rewrite Nat.eqb_refl. reflexivity.
  - rewrite connected_onext by auto. rewrite neq_eqb by auto. rewrite Nat.eqb_refl. reflexivity.
  - split; [reflexivity|]. split; [apply connected_edge; auto|]. split; [intros; apply connected_start_old; auto|]. split.
    + intros f Ef N. destruct (ON f Ef). rewrite connected_onext by auto. rewrite !(neq_eqb f) by auto.
      destruct (Nat.eqb_spec f (oprev m (sym a))); reflexivity.
    + rewrite connected_onext by auto. rewrite Nat.eqb_refl. reflexivity.
Qed.

Lemma deleting m a : quad_structure m -> edge m a ->
  exists m', delete_edge m a = Ok m' /\ quad_structure m' /\
    is_deleted_edge m' a = Ok true /\ is_deleted_edge m' (sym a) = Ok true /\
    m_endpoints m' = m_endpoints m /\ m_starts_indices m' = m_starts_indices m /\
    (forall f, edge m' f <-> edge m f) /\
    (forall f, edge m f -> f <> a -> f <> sym a ->
      onext m' f <> a /\ onext m' f <> sym a /\
      (onext m' f = onext m f \/ onext m' f = onext m (onext m f) \/ onext m' f = onext m (onext m (onext m f)))).
Proof.
  intros Q Ea. exists (deleted m a). pose proof (deleted_structure m Q a Ea) as Qd.
  split; [apply delete_ok; auto|]. split; auto.
  destruct (deleted_self m Q a Ea) as (S1 & S2).
  assert (D : forall x, edge m x -> onext (deleted m a) x = x -> is_deleted_edge (deleted m a) x = Ok true).
  { intros x Ex Sx. apply (deleted_edge m a) in Ex. unfold is_deleted_edge. rewrite get_left by apply Ex.
    rewrite get_right by (auto; apply Ex). cbn [bind].
    assert (P : oprev (deleted m a) x = x) by (rewrite <- Sx at 1; apply oprev_onext; auto; apply Ex).
    rewrite Sx, P, Nat.eqb_refl. reflexivity. }
  split; [apply D; auto|]. split; [apply D; auto; apply edge_sym; auto|].
  split; [reflexivity|]. split; [reflexivity|]. split; [apply deleted_edge|]. apply deleted_onext; auto.
Qed.

Lemma swapping m a : quad_structure m -> edge m a -> oprev m a / 4 <> a / 4 -> oprev m (sym a) / 4 <> a / 4 ->
  exists m', swap_diagonal m a = Ok m' /\ quad_structure m' /\
    m_endpoints m' = m_endpoints m /\ (forall f, edge m' f <-> edge m f) /\
    start m' a = end_of m (oprev m a) /\ end_of m' a = end_of m (oprev m (sym a)) /\
    (forall f, edge m f -> f <> a -> f <> sym a -> start m' f = start m f) /\
    (oprev m a <> oprev m (sym a) -> onext m' a = sym (oprev m a) /\ onext m' (sym a) = sym (oprev m (sym a))).
Proof.
  intros Q Ea Ds Dt. exists (swapped m a).
  destruct (half_swapped_ok m Q a Ea Ds Dt) as (H1 & Qh). destruct (swapped_ok' m Q a Ea Ds Dt) as (H2 & Qs).
  pose proof (edge_sym m Q a Ea) as Ea'.
  assert (W : forall f, edge (swapped m a) f <-> edge m f).
  { intros f. unfold edge, swapped. rewrite spliced_size. apply half_swapped_edge. }
  split; [apply swap_ok; auto|]. split; [exact Qs|]. split; [reflexivity|]. split; [exact W|].
  split; [rewrite swapped_start, Nat.eqb_refl by auto; reflexivity|].
  split; [unfold end_of at 1; rewrite swapped_start, (neq_eqb (sym a) a), Nat.eqb_refl by (auto; apply sym_neq); reflexivity|].
  split; [intros f Ef N1 N2; rewrite swapped_start, !neq_eqb by auto; reflexivity|].
  intros N.
  set (s := oprev m a) in *. set (t := oprev m (sym a)) in *.
  assert (Es : edge m s) by (apply edge_oprev; auto). assert (Et : edge m t) by (apply edge_oprev; auto).
  pose proof (deleted_structure m Q a Ea) as Qd.
  pose proof (edge_sym m Q _ Es) as Es'. pose proof (edge_sym m Q _ Et) as Et'.
  set (x := oprev (deleted m a) (sym s)) in *. set (h := half_swapped m a) in *. set (y := oprev h (sym t)) in *.
  pose proof (restarted_ok m Q a Ea) as Qr.
  assert (Ex : edge m x).
  { apply (deleted_edge m a). apply edge_oprev; auto. apply deleted_edge; auto. }
  assert (Eh : forall e, edge h e <-> edge m e) by (apply half_swapped_edge).
  assert (Ey : edge m y). { apply Eh. apply edge_oprev; auto. apply Eh; auto. }
  assert (Re : forall e, edge (restarted m a) e <-> edge m e) by (apply restarted_edge).
  assert (Ox : onext (restarted m a) x = sym s).
  { change (onext (deleted m a) x = sym s). apply onext_oprev; auto. apply (deleted_edge m a) in Es'. apply Es'. }
  assert (Oy : onext h y = sym t).
  { apply onext_oprev; auto. apply Eh in Et'. apply Et'. }
  assert (Ha : onext h a = sym s).
  { unfold h, half_swapped. fold s. fold x. rewrite spliced_edges by (auto; apply Re; auto).
    rewrite Nat.eqb_refl. exact Ox. }
  assert (Nay : a <> y) by (intros X; apply N; apply sym_inj; congruence).
  assert (Sw : forall e, edge m e -> onext (swapped m a) e = if e =? sym a then onext h y else if e =? y then onext h (sym a) else onext h e).
  { intros e Ee. unfold swapped. fold h. fold t. fold y. apply spliced_edges; auto; apply Eh; auto. }
  split.
  - rewrite Sw by auto. rewrite (neq_eqb a (sym a)), (neq_eqb a y) by (auto; apply not_eq_sym, sym_neq). exact Ha.
  - rewrite Sw, Nat.eqb_refl by auto. exact Oy.
Qed.
