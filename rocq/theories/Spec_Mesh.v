(** What a quad-edge structure is, in terms of the three lists of a mesh only. *)
From Coq Require Import QArith Qcanon List Arith.
From Verif Require Import Model_Base Model_Mesh Spec_Base.
Import ListNotations.
Local Open Scope nat_scope.

(** The quad-edge functions: an edge with a given index belongs to a group of four
    (the edge, its dual, its reverse, its reversed dual). *)
Definition rot (e : nat) : nat := 4 * (e / 4) + match e mod 4 with 0 => 1 | 1 => 2 | 2 => 3 | _ => 0 end.
Definition sym (e : nat) : nat := rot (rot e).
Definition size (m : mesh) : nat := length (m_left_from_start m).
Definition onext (m : mesh) (e : nat) : nat := nth e (m_left_from_start m) 0.
Definition oprev (m : mesh) (e : nat) : nat := rot (onext m (rot e)).
Definition start (m : mesh) (e : nat) : nat := nth (e / 2) (m_starts_indices m) 0.
Definition end_of (m : mesh) (e : nat) : nat := start m (sym e).
(** Indices of edges proper, as opposed to dual ones. *)
Definition edge (m : mesh) (e : nat) : Prop := Nat.even e = true /\ e < size m.

Record quad_structure (m : mesh) : Prop := {
  qs_groups : exists k, size m = 4 * k /\ length (m_starts_indices m) = 2 * k;
  (** the neighbour map keeps edges edges and dual edges dual edges; *)
  qs_range : forall e, e < size m -> onext m e < size m /\ Nat.even (onext m e) = Nat.even e;
  (** turning, going to the neighbour, twice, is going nowhere; *)
  qs_turn : forall e, e < size m -> onext m (rot (onext m (rot e))) = e;
  (** neighbours start at the same point. *)
  qs_start : forall e, edge m e -> start m (onext m e) = start m e;
  qs_points : forall i, In i (m_starts_indices m) -> i < length (m_endpoints m) }.

(** The ways the library changes a mesh: new edges between given points; splicing
    two edges with a common start; connecting two edges; deleting an edge; swapping
    the diagonal of two triangles. *)
Inductive mesh_step : mesh -> mesh -> Prop :=
| step_create m i j m' e : i < length (m_endpoints m) -> j < length (m_endpoints m) ->
    create_edge m i j = (m', e) -> mesh_step m m'
| step_splice m a b m' : edge m a -> edge m b -> start m a = start m b ->
    splice_edges m a b = Ok m' -> mesh_step m m'
| step_connect m a b m' e : edge m a -> edge m b ->
    connect_edges m a b = Ok (m', e) -> mesh_step m m'
| step_delete m a m' : edge m a -> delete_edge m a = Ok m' -> mesh_step m m'
| step_swap m a m' : edge m a -> oprev m a / 4 <> a / 4 -> oprev m (sym a) / 4 <> a / 4 ->
    swap_diagonal m a = Ok m' -> mesh_step m m'.
Inductive mesh_history : mesh -> mesh -> Prop :=
| history_nil m : mesh_history m m
| history_step m m' m'' : mesh_history m m' -> mesh_step m' m'' -> mesh_history m m''.
