(** Model of rene's integer and sequence helpers: seeds, permutations, the
    bookkeeping of the divide-and-conquer triangulation, immutable sequences. *)
From Coq Require Import NArith ZArith List Bool Arith.
Import ListNotations.

(** ** Seeds *)

(** The Python value handed to [validate_seed]: an [int] (or [bool]) with its
    value, or anything else. *)
Inductive py_value := PyInt (z : Z) | PyOther.
Inductive seed_outcome := SeedOk | RaisesTypeError | RaisesValueError | RaisesOverflowError.

(** rene/_utils.py:481-496 [validate_seed]; [max_usize] is its second
    parameter [(sys.maxsize << 1) + 1]. *)
Definition validate_seed (max_usize : Z) (seed : py_value) : seed_outcome :=
  match seed with
  | PyOther => RaisesTypeError
  | PyInt z =>
      if (z <? 0)%Z then RaisesValueError
      else if (z >? max_usize)%Z then RaisesOverflowError
      else SeedOk
  end.

(** [values[i] = v]; out of range assignments (IndexError) do not occur in
    [permute], they leave the list unchanged here. *)
Fixpoint set_nth {A : Type} (l : list A) (i : nat) (v : A) : list A :=
  match l, i with
  | [], _ => []
  | _ :: r, O => v :: r
  | x :: r, S i => x :: set_nth r i v
  end.
(** [values[i], values[j] = values[j], values[i]]: the right-hand side is
    evaluated first, then the two assignments are done left to right. *)
Definition swap_items {A : Type} (l : list A) (i j : nat) : list A :=
  match nth_error l i, nth_error l j with
  | Some vi, Some vj => set_nth (set_nth l i vj) j vi
  | _, _ => l
  end.

(** rene/_utils.py:288-303 [permute]: the loop over
    [range(len(values), 0, -1)]; seeds are natural numbers here because
    [validate_seed] has rejected all others. *)
Fixpoint permute_loop {A : Type} (step : nat) (values : list A) (seed : N) : list A :=
  match step with
  | O => values
  | S previous =>
      permute_loop previous
        (swap_items values (N.to_nat (seed mod N.of_nat step)) previous)
        (seed / N.of_nat step)%N
  end.
Definition permute {A : Type} (values : list A) (seed : N) : list A :=
  permute_loop (length values) values seed.

(** ** Divide and conquer *)

(** rene/_utils.py:93-94 [ceil_log2] at positive numbers:
    [number.bit_length() - (not (number & (number - 1)))]. *)
Definition ceil_log2 (number : N) : N :=
  (N.size number - (if N.land number (number - 1) =? 0 then 1 else 0))%N.

(** rene/_triangulation/mesh.py:440-452 [to_base_cases]; [None] is the failed
    assert. *)
Definition to_base_cases (points_count : nat) : option (nat * nat) :=
  if (points_count <? 2)%nat then None
  else
  let triangles_count := (points_count / 3)%nat in
  let rest_points := (points_count mod 3)%nat in
  if (rest_points =? 0)%nat then Some (0%nat, triangles_count)
  else if (rest_points =? 1)%nat then Some (2%nat, (triangles_count - 1)%nat)
  else Some (1%nat, triangles_count).

(** rene/_triangulation/mesh.py:232-246: the indices of the points used by the
    base cases, in the order in which they are used. *)
Definition base_cases_points (segments_count triangles_count : nat) : list (list nat) :=
  map (fun index => [2 * index; 2 * index + 1]%nat) (seq 0 segments_count)
  ++ map (fun index => [2 * segments_count + 3 * index;
                        2 * segments_count + 3 * index + 1;
                        2 * segments_count + 3 * index + 2]%nat)
         (seq 0 triangles_count).

(** rene/_triangulation/mesh.py:247-261: one round merges the pairs at
    positions [2k], [2k + 1] and keeps an odd last element. *)
Fixpoint merge_round {A : Type} (merge : A -> A -> A) (sides : list A) : list A :=
  match sides with
  | first :: second :: rest => merge first second :: merge_round merge rest
  | other => other
  end.
Fixpoint merge_rounds {A : Type} (merge : A -> A -> A) (rounds : nat) (sides : list A)
  : list A :=
  match rounds with
  | O => sides
  | S rounds => merge_rounds merge rounds (merge_round merge sides)
  end.
(** rene/_triangulation/mesh.py:247-263: [None] is the failed assert. *)
Definition merge_all {A : Type} (merge : A -> A -> A) (sides : list A) : option A :=
  match merge_rounds merge (N.to_nat (ceil_log2 (N.of_nat (length sides)))) sides with
  | [result] => Some result
  | _ => None
  end.

(** ** Immutable sequences *)

(** Indexing a tuple with an integer, as done by [__getitem__] of
    [_ContourVertices] (rene/_exact/contour.py:183-188), [_ContourSegments]
    (112-117), [_MultisegmentSegments] (rene/_exact/multisegment.py:108-113),
    [_MultipolygonPolygons], [_PolygonHoles]; [None] is IndexError. *)
Definition sequence_getitem {A : Type} (items : list A) (index : Z) : option A :=
  let size := Z.of_nat (length items) in
  let index := if (index <? 0)%Z then (index + size)%Z else index in
  if (index <? 0)%Z || (size <=? index)%Z then None
  else nth_error items (Z.to_nat index).
(** [__len__]. *)
Definition sequence_len {A : Type} (items : list A) : Z := Z.of_nat (length items).
(** [collections.abc.Sequence.__iter__], inherited by these classes: yields
    [self[0]], [self[1]], ... until IndexError; [fuel] bounds the loop. *)
Fixpoint sequence_iter_from {A : Type} (items : list A) (index : Z) (fuel : nat)
  : option (list A) :=
  match fuel with
  | O => None
  | S fuel =>
      match sequence_getitem items index with
      | None => Some []
      | Some v =>
          match sequence_iter_from items (index + 1) fuel with
          | Some rest => Some (v :: rest)
          | None => None
          end
      end
  end.
(** [collections.abc.Sequence.__contains__]: any yielded element that is or
    equals the value. *)
Definition sequence_contains {A : Type} (eq : A -> A -> bool) (items : list A) (value : A)
  : bool :=
  existsb (fun item => eq item value) items.
(** [collections.abc.Sequence.__reversed__]:
    [for i in reversed(range(len(self))): yield self[i]]. *)
Definition sequence_reversed {A : Type} (items : list A) : list (option A) :=
  map (fun index => sequence_getitem items (Z.of_nat index))
      (rev (seq 0 (length items))).
(** [count]: the number of equal elements; [index]: the position of the first
    equal element, [None] is ValueError (with the default bounds). *)
Definition sequence_count {A : Type} (eq : A -> A -> bool) (items : list A) (value : A)
  : nat := length (filter (fun item => eq item value) items).
Fixpoint sequence_index {A : Type} (eq : A -> A -> bool) (items : list A) (value : A)
  : option nat :=
  match items with
  | [] => None
  | item :: rest =>
      if eq item value then Some O
      else option_map S (sequence_index eq rest value)
  end.
(** Slices [items[start:stop]] with non-negative bounds and step 1, the form
    the library itself uses. *)
Definition sequence_slice {A : Type} (items : list A) (start stop : nat) : list A :=
  firstn (stop - start) (skipn start items).
