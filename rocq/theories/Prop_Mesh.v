(** C45: the quad-edge structure is kept by every operation, in every history. *)
From Coq Require Import QArith Qcanon Bool List Arith Lia.
From Verif Require Import Model_Base Model_Utils Model_Mesh Spec_Base Spec_Literals Spec_Mesh
  Proof_Mesh Proof_Mesh2 Proof_Mesh3.
Import ListNotations.
Local Open Scope nat_scope.

(** After any history of operations on a new mesh its lists form a quad-edge
    structure: see [quad_structure] in [Spec_Mesh]. *)
Theorem c45_histories (points : list point) (m : mesh) :
  mesh_history (mesh_from_points points) m -> quad_structure m.
Proof. exact (history_from_points points m). Qed.
Print Assumptions c45_histories.

(** In a quad-edge structure the four neighbour maps never fail; turning left and
    right are mutually inverse, around the start and around the end; neighbours of an
    edge share the endpoint they are taken around. *)
Theorem c45_neighbours (m : mesh) (e : quad_edge) : quad_structure m -> edge m e ->
  exists l r l' r', to_left_from_start m e = Ok l /\ to_right_from_start m e = Ok r /\
    to_left_from_end m e = Ok l' /\ to_right_from_end m e = Ok r' /\
    edge m l /\ edge m r /\ edge m l' /\ edge m r' /\
    to_right_from_start m l = Ok e /\ to_left_from_start m r = Ok e /\
    to_right_from_end m (to_opposite_edge l') = Ok (to_opposite_edge e) /\
    to_left_from_end m (to_opposite_edge r') = Ok (to_opposite_edge e) /\
    (exists i p, to_start_index m e = Ok i /\ to_start m e = Ok p /\ to_start m l = Ok p /\ to_start m r = Ok p /\
      to_start_index m l = Ok i /\ to_start_index m r = Ok i) /\
    (exists i p, to_end_index m e = Ok i /\ to_end m e = Ok p /\ to_start m l' = Ok p /\ to_start m r' = Ok p /\
      to_start_index m l' = Ok i /\ to_start_index m r' = Ok i).
Proof. exact (neighbours m e). Qed.
Print Assumptions c45_neighbours.

(** Each operation never fails on edges of the mesh, keeps the structure, and
    changes exactly what it is for. *)
Theorem c45_create (m : mesh) (i j : nat) :
  quad_structure m -> i < length (m_endpoints m) -> j < length (m_endpoints m) ->
  exists m' e, create_edge m i j = (m', e) /\ quad_structure m' /\ ~ edge m e /\ edge m' e /\
    start m' e = i /\ end_of m' e = j /\ onext m' e = e /\ onext m' (sym e) = sym e /\
    m_endpoints m' = m_endpoints m /\
    (forall f, edge m' f <-> edge m f \/ f = e \/ f = sym e) /\
    (forall f, edge m f -> start m' f = start m f /\ onext m' f = onext m f).
Proof. exact (created m i j). Qed.
Print Assumptions c45_create.
Theorem c45_splice (m : mesh) (a b : quad_edge) :
  quad_structure m -> edge m a -> edge m b -> start m a = start m b ->
  exists m', splice_edges m a b = Ok m' /\ quad_structure m' /\
    m_endpoints m' = m_endpoints m /\ m_starts_indices m' = m_starts_indices m /\
    (forall f, edge m' f <-> edge m f) /\
    onext m' a = onext m b /\ onext m' b = onext m a /\
    (forall f, edge m f -> f <> a -> f <> b -> onext m' f = onext m f).
Proof. exact (splicing m a b). Qed.
Print Assumptions c45_splice.
(** The new edge leads from the end of [a] to the start of [b]: around its start it
    comes just before the reverse of [a], around its end its reverse comes just after
    [b]. *)
Theorem c45_connect (m : mesh) (a b : quad_edge) : quad_structure m -> edge m a -> edge m b ->
  exists m' e, connect_edges m a b = Ok (m', e) /\ quad_structure m' /\ ~ edge m e /\ edge m' e /\
    start m' e = end_of m a /\ end_of m' e = start m b /\
    onext m' e = sym a /\ onext m' b = sym e /\
    m_endpoints m' = m_endpoints m /\
    (forall f, edge m' f <-> edge m f \/ f = e \/ f = sym e) /\
    (forall f, edge m f -> start m' f = start m f) /\
    (forall f, edge m f -> f <> b -> onext m' f = if f =? oprev m (sym a) then e else onext m f) /\
    onext m' (sym e) = if b =? oprev m (sym a) then e else onext m b.
Proof. exact (connecting m a b). Qed.
Print Assumptions c45_connect.
(** A deleted edge is reported as deleted, and every other edge's neighbour is the
    next one that is left. *)
Theorem c45_delete (m : mesh) (a : quad_edge) : quad_structure m -> edge m a ->
  exists m', delete_edge m a = Ok m' /\ quad_structure m' /\
    is_deleted_edge m' a = Ok true /\ is_deleted_edge m' (sym a) = Ok true /\
    m_endpoints m' = m_endpoints m /\ m_starts_indices m' = m_starts_indices m /\
    (forall f, edge m' f <-> edge m f) /\
    (forall f, edge m f -> f <> a -> f <> sym a ->
      onext m' f <> a /\ onext m' f <> sym a /\
      (onext m' f = onext m f \/ onext m' f = onext m (onext m f) \/ onext m' f = onext m (onext m (onext m f)))).
Proof. exact (deleting m a). Qed.
Print Assumptions c45_delete.
(** Swapping the diagonal of two triangles (whose other sides are therefore not the
    diagonal itself) moves its ends to the opposite vertices; no other edge moves. *)
Theorem c45_swap (m : mesh) (a : quad_edge) :
  quad_structure m -> edge m a -> oprev m a / 4 <> a / 4 -> oprev m (sym a) / 4 <> a / 4 ->
  exists m', swap_diagonal m a = Ok m' /\ quad_structure m' /\
    m_endpoints m' = m_endpoints m /\ (forall f, edge m' f <-> edge m f) /\
    start m' a = end_of m (oprev m a) /\ end_of m' a = end_of m (oprev m (sym a)) /\
    (forall f, edge m f -> f <> a -> f <> sym a -> start m' f = start m f) /\
    (oprev m a <> oprev m (sym a) -> onext m' a = sym (oprev m a) /\ onext m' (sym a) = sym (oprev m (sym a))).
Proof. exact (swapping m a). Qed.
Print Assumptions c45_swap.

(** A history: the two triangles of a square, the swap of their common side, its
    deletion. *)
Definition square_points : list point := [pt 0 0; pt 0 2; pt 2 0; pt 2 2].
Ltac one_step := vm_compute; repeat split; auto; lia.
Example c45_example_history : exists m1 m2 m3,
  mesh_history (mesh_from_points square_points) m1 /\
  (start m1 4 = 2 /\ end_of m1 4 = 1) /\
  mesh_step m1 m2 /\ (start m2 4 = 3 /\ end_of m2 4 = 0) /\
  mesh_step m2 m3 /\ is_deleted_edge m3 4 = Ok true /\ to_edges m3 = Ok [0; 2; 8; 10; 12; 14; 16; 18].
Proof.
  eexists _, _, _. split; [|split; [|split; [|split; [|split; [|split]]]]].
  - eapply history_step.
    { eapply history_step.
      { eapply history_step.
        { eapply history_step.
          { eapply history_step.
            { eapply history_step.
              { eapply history_step.
                { apply history_nil. }
                eapply (step_create _ 0 2); [vm_compute; lia|vm_compute; lia|vm_compute; reflexivity]. }
              eapply (step_create _ 2 1); [vm_compute; lia|vm_compute; lia|vm_compute; reflexivity]. }
            eapply (step_splice _ 2 4); [one_step|one_step|vm_compute; reflexivity|vm_compute; reflexivity]. }
          eapply (step_connect _ 4 0); [one_step|one_step|vm_compute; reflexivity]. }
        eapply (step_create _ 2 3); [vm_compute; lia|vm_compute; lia|vm_compute; reflexivity]. }
      eapply (step_splice _ 12 2); [one_step|one_step|vm_compute; reflexivity|vm_compute; reflexivity]. }
    eapply (step_connect _ 12 6); [one_step|one_step|vm_compute; reflexivity].
  - vm_compute. auto.
  - eapply (step_swap _ 4); [one_step|vm_compute; lia|vm_compute; lia|vm_compute; reflexivity].
  - vm_compute. auto.
  - eapply (step_delete _ 4); [one_step|vm_compute; reflexivity].
  - vm_compute. auto.
  - vm_compute. auto.
Qed.
