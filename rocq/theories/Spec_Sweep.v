(** Vocabulary for the plane sweep: its pieces and its possible histories. *)
From Coq Require Import QArith Qcanon Bool List Arith.
From Verif Require Import QcTac Model_Base Model_Linear Spec_Base.
Import ListNotations.

(** The left events of an operation; each stands for the piece between its start
    and its end. *)
Definition left_event (o : operation) (l : event) : Prop :=
  is_event_left l = true /\ (l < length (op_endpoints o))%nat.
Definition piece (o : operation) (l : event) : segment :=
  Seg (to_event_start o l) (to_event_end o l).

(** What a step of a sweep may do to the data, leaving open which events leave the
    queue, how the sweep line is kept, and which two pieces are examined. *)
Inductive some_step : operation -> operation -> Prop :=
| step_queue o q : incl q (op_queue o) -> some_step o (set_queue o q)
| step_line o l : Forall (left_event o) l -> some_step o (set_line o l)
| step_tick o : some_step o (tick o)
| step_detect o Y Z o' : left_event o Y -> left_event o Z ->
    detect_intersection o Y Z = Some o' -> some_step o o'.
Inductive some_steps : operation -> operation -> Prop :=
| steps_refl o : some_steps o o
| steps_step o o1 o2 : some_step o o1 -> some_steps o1 o2 -> some_steps o o2.

(** The pieces are parts of the input segments they are attributed to, together
    they make up the whole of every input segment, and pieces of one input segment
    do not overlap. *)
Record operands_preserved (inputs : list segment) (o : operation) : Prop := {
  op_parts : forall l, left_event o l ->
    exists s, nth_error inputs (left_event_to_segment_id o l) = Some s
      /\ proper_seg (piece o l) /\ seg_subset (piece o l) s;
  op_whole : forall i s p, nth_error inputs i = Some s -> on_seg s p ->
    exists l, left_event o l /\ left_event_to_segment_id o l = i /\ on_seg (piece o l) p;
  op_separate : forall l m, left_event o l -> left_event o m -> l <> m ->
    left_event_to_segment_id o l = left_event_to_segment_id o m ->
    ~ share_continuum (piece o l) (piece o m) }.

(** A number of iterations that is enough for a sweep over [n] segments. *)
Definition enough (n : nat) : nat := (3 * (n * (2 * n + n * n)) + 2 * n + 1)%nat.
