(** C42, C43, C46, C48, C51: seeds, circles, bookkeeping, collection, sequences. *)
From Coq Require Import QArith Qcanon Bool List NArith ZArith Lia Permutation.
From Verif Require Import QcTac Model_Base Model_Box Model_Geometry Model_Utils
  Spec_Base Spec_Circle Spec_Utils Spec_Literals Proof_Utils Proof_Circle Proof_Collect.
Import ListNotations.

(** ** C42 *)
Theorem c42_validation : forall m v,
  (validate_seed m v = SeedOk <-> exists z, v = PyInt z /\ (0 <= z <= m)%Z)
  /\ (validate_seed m v = RaisesTypeError <-> v = PyOther)
  /\ (validate_seed m v = RaisesValueError <-> exists z, v = PyInt z /\ (z < 0)%Z)
  /\ (validate_seed m v = RaisesOverflowError <->
      exists z, v = PyInt z /\ (0 <= z)%Z /\ (m < z)%Z).
Proof. exact validate_seed_spec. Qed.
Print Assumptions c42_validation.

Theorem c42_permutation : forall A (l : list A) seed, Permutation l (permute l seed).
Proof. exact @permute_permutation. Qed.
Print Assumptions c42_permutation.

Theorem c42_every_permutation : forall A n (l l' : list A), length l = n -> Permutation l l' ->
  exists seed, (seed < factorial n)%N /\ permute l seed = l'.
Proof. exact @permute_onto. Qed.
Print Assumptions c42_every_permutation.

Theorem c42_exactly_one_seed : forall A n (l : list A) s s', length l = n -> NoDup l ->
  (s < factorial n)%N -> (s' < factorial n)%N -> permute l s = permute l s' -> s = s'.
Proof. exact @permute_inj. Qed.
Print Assumptions c42_exactly_one_seed.

Theorem c42_modulo_factorial : forall A (l : list A) s s',
  (s mod factorial (length l) = s' mod factorial (length l))%N -> permute l s = permute l s'.
Proof. exact @permute_period. Qed.
Print Assumptions c42_modulo_factorial.

Example c42_example :
  permute [10; 20; 30]%nat 0 = permute [10; 20; 30]%nat 6
  /\ map (permute [1; 2; 3]%nat) [0; 1; 2; 3; 4; 5]%N
     = [[2; 3; 1]; [3; 1; 2]; [2; 1; 3]; [3; 2; 1]; [1; 3; 2]; [1; 2; 3]]%nat.
Proof. vm_compute; auto. Qed.

(** ** C43 *)
Local Open Scope Qc_scope.
Theorem c43_circle_location : forall o p a b c, 0 < area2 a b c -> circumcentre o a b c ->
  (locate_point_in_point_point_point_circle p a b c = INTERIOR <-> dist2 o p < dist2 o a)
  /\ (locate_point_in_point_point_point_circle p a b c = BOUNDARY <-> dist2 o p = dist2 o a)
  /\ (locate_point_in_point_point_point_circle p a b c = EXTERIOR <-> dist2 o a < dist2 o p).
Proof. exact circle_location. Qed.
Print Assumptions c43_circle_location.

(** Every triangle with an area has a circumcentre, so the above is not vacuous. *)
Theorem c43_circle_exists : forall a b c, area2 a b c <> 0 -> exists o, circumcentre o a b c.
Proof. exact circumcentre_exists. Qed.
Print Assumptions c43_circle_exists.

Example c43_example :
  locate_point_in_point_point_point_circle (pt 1 1) (pt 0 0) (pt 4 0) (pt 0 4) = INTERIOR
  /\ locate_point_in_point_point_point_circle (pt 4 4) (pt 0 0) (pt 4 0) (pt 0 4) = BOUNDARY
  /\ locate_point_in_point_point_point_circle (pt 5 4) (pt 0 0) (pt 4 0) (pt 0 4) = EXTERIOR.
Proof. vm_compute; auto. Qed.
Local Close Scope Qc_scope.

(** ** C46 *)
Theorem c46_base_cases : forall n, (2 <= n)%nat -> exists s t,
  to_base_cases n = Some (s, t) /\ (2 * s + 3 * t = n)%nat
  /\ concat (base_cases_points s t) = seq 0 n.
Proof. exact base_cases_total. Qed.
Print Assumptions c46_base_cases.

Theorem c46_ceil_log2 : forall n, (0 < n)%N ->
  (n <= 2 ^ ceil_log2 n)%N /\ forall c, (n <= 2 ^ c)%N -> (ceil_log2 n <= c)%N.
Proof. exact ceil_log2_spec. Qed.
Print Assumptions c46_ceil_log2.

(** The rounds leave exactly one triangulation, and whatever the parts are made
    of, it is made of all of them, each once, in order. *)
Theorem c46_rounds : forall A B (merge : A -> A -> A) (points : A -> list B),
  (forall x y, points (merge x y) = points x ++ points y) ->
  forall l, l <> [] -> exists r, merge_all merge l = Some r /\ points r = flat_map points l.
Proof. exact merge_all_points. Qed.
Print Assumptions c46_rounds.

Example c46_example : to_base_cases 10 = Some (2, 2)%nat
  /\ base_cases_points 2 2 = [[0; 1]; [2; 3]; [4; 5; 6]; [7; 8; 9]]%nat
  /\ merge_all (@app nat) [[0; 1]; [2]; [3; 4]; [5]; [6]]%nat = Some [0; 1; 2; 3; 4; 5; 6]%nat.
Proof. vm_compute; auto. Qed.

(** ** C48 *)
Theorem c48_constructors :
  (forall vs, new_contour vs = Some (GContour vs) <-> (3 <= length vs)%nat)
  /\ (forall vs, new_contour vs = None <-> (length vs < 3)%nat)
  /\ (forall l, new_multisegment l = Some (GMultisegment l) <-> (2 <= length l)%nat)
  /\ (forall l, new_multisegment l = None <-> (length l < 2)%nat)
  /\ (forall l, new_multipolygon l = Some (GMultipolygon l) <-> (2 <= length l)%nat)
  /\ (forall l, new_multipolygon l = None <-> (length l < 2)%nat).
Proof. exact constructors_spec. Qed.
Print Assumptions c48_constructors.

Theorem c48_collect_segments : forall l,
  (l = [] -> collect_maybe_empty_segments l = Some GEmpty)
  /\ (forall s, l = [s] -> collect_maybe_empty_segments l = Some (GSegment s)
                           /\ collect_non_empty_segments l = Some (GSegment s))
  /\ ((2 <= length l)%nat -> collect_maybe_empty_segments l = Some (GMultisegment l)
                             /\ collect_non_empty_segments l = Some (GMultisegment l)).
Proof. exact collect_segments_spec. Qed.
Print Assumptions c48_collect_segments.

Theorem c48_collect_polygons : forall l,
  (l = [] -> collect_maybe_empty_polygons l = Some GEmpty)
  /\ (forall p, l = [p] -> collect_maybe_empty_polygons l = Some (GPolygon p)
                           /\ collect_non_empty_polygons l = Some (GPolygon p))
  /\ ((2 <= length l)%nat -> collect_maybe_empty_polygons l = Some (GMultipolygon l)
                             /\ collect_non_empty_polygons l = Some (GMultipolygon l)).
Proof. exact collect_polygons_spec. Qed.
Print Assumptions c48_collect_polygons.

(** ** C51 *)
Theorem c51_getitem : forall A (l : list A) i v,
  (sequence_getitem l i = Some v <->
   exists k, nth_error l k = Some v /\ (i = Z.of_nat k \/ i = Z.of_nat k - sequence_len l)%Z)
  /\ (sequence_getitem l i = None <-> (i < - sequence_len l \/ sequence_len l <= i)%Z).
Proof. exact getitem_total. Qed.
Print Assumptions c51_getitem.

Theorem c51_iteration : forall A (l : list A) fuel, (length l < fuel)%nat ->
  sequence_iter_from l 0 fuel = Some l /\ sequence_reversed l = map Some (rev l).
Proof. exact iteration_spec. Qed.
Print Assumptions c51_iteration.

Theorem c51_search : forall A (eq : A -> A -> bool) (l : list A) v,
  (sequence_contains eq l v = true <-> exists x, In x l /\ eq x v = true)
  /\ (forall k, sequence_index eq l v = Some k <->
      (exists x, nth_error l k = Some x /\ eq x v = true)
      /\ forall j y, (j < k)%nat -> nth_error l j = Some y -> eq y v = false)
  /\ (sequence_index eq l v = None <-> sequence_count eq l v = 0%nat)
  /\ (sequence_count eq l v = 0%nat <-> sequence_contains eq l v = false).
Proof. exact search_spec. Qed.
Print Assumptions c51_search.

Theorem c51_slice : forall A (l : list A) a b k,
  nth_error (sequence_slice l a b) k = if (a + k <? b)%nat then nth_error l (a + k) else None.
Proof. exact @slice_spec. Qed.
Print Assumptions c51_slice.

Example c51_example : sequence_getitem [1; 2; 3]%nat (-1) = Some 3%nat
  /\ sequence_getitem [1; 2; 3]%nat (-4) = None /\ sequence_getitem [1; 2; 3]%nat 3 = None.
Proof. vm_compute; auto. Qed.
