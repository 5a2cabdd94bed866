(** Collecting results, constructors. *)
From Coq Require Import QArith Qcanon Bool List ZArith Lia Permutation.
From Verif Require Import QcTac Model_Base Model_Box Model_Geometry Model_Utils.
Import ListNotations.

Lemma constructors_spec :
  (forall vs, new_contour vs = Some (GContour vs) <-> (3 <= length vs)%nat)
  /\ (forall vs, new_contour vs = None <-> (length vs < 3)%nat)
  /\ (forall l, new_multisegment l = Some (GMultisegment l) <-> (2 <= length l)%nat)
  /\ (forall l, new_multisegment l = None <-> (length l < 2)%nat)
  /\ (forall l, new_multipolygon l = Some (GMultipolygon l) <-> (2 <= length l)%nat)
  /\ (forall l, new_multipolygon l = None <-> (length l < 2)%nat).
Proof.
  unfold new_contour, new_multisegment, new_multipolygon.
  repeat split; intros; try (destruct (Nat.ltb_spec (length vs) 3)); try (destruct (Nat.ltb_spec (length l) 2));
    try congruence; try lia; auto.
Qed.
Lemma collect_segments_spec l :
  (l = [] -> collect_maybe_empty_segments l = Some GEmpty)
  /\ (forall s, l = [s] -> collect_maybe_empty_segments l = Some (GSegment s)
                           /\ collect_non_empty_segments l = Some (GSegment s))
  /\ ((2 <= length l)%nat -> collect_maybe_empty_segments l = Some (GMultisegment l)
                             /\ collect_non_empty_segments l = Some (GMultisegment l)).
Proof.
  split; [intros ->; reflexivity|]. split; [intros s ->; split; reflexivity|].
  intros L. destruct l as [|s [|t l]]; cbn in L; try lia. split; reflexivity.
Qed.
Lemma collect_polygons_spec l :
  (l = [] -> collect_maybe_empty_polygons l = Some GEmpty)
  /\ (forall p, l = [p] -> collect_maybe_empty_polygons l = Some (GPolygon p)
                           /\ collect_non_empty_polygons l = Some (GPolygon p))
  /\ ((2 <= length l)%nat -> collect_maybe_empty_polygons l = Some (GMultipolygon l)
                             /\ collect_non_empty_polygons l = Some (GMultipolygon l)).
Proof.
  split; [intros ->; reflexivity|]. split; [intros s ->; split; reflexivity|].
  intros L. destruct l as [|s [|t l]]; cbn in L; try lia. split; reflexivity.
Qed.
Lemma slice_spec {A} (l : list A) a b k :
  nth_error (sequence_slice l a b) k = if (a + k <? b)%nat then nth_error l (a + k) else None.
Proof.
  unfold sequence_slice. assert (E : forall n (r : list A) j, nth_error (firstn n r) j =
    if (j <? n)%nat then nth_error r j else None).
  { induction n as [|n IH]; intros r j; [destruct j; reflexivity|].
    destruct r as [|x r], j as [|j]; try reflexivity; [destruct (S j <? S n)%nat; reflexivity|exact (IH r j)]. }
  rewrite E. assert (S : forall n (r : list A) j, nth_error (skipn n r) j = nth_error r (n + j)).
  { induction n as [|n IH]; intros r j; auto. destruct r; cbn; auto. destruct j; auto. }
  rewrite S. destruct (Nat.ltb_spec k (b - a)), (Nat.ltb_spec (a + k) b); auto; lia.
Qed.
Lemma count_spec {A} (eq : A -> A -> bool) l v : sequence_count eq l v = length (filter (fun x => eq x v) l).
Proof. reflexivity. Qed.
From Verif Require Import Spec_Utils Proof_Utils.
Lemma base_cases_total n : (2 <= n)%nat -> exists s t,
  to_base_cases n = Some (s, t) /\ (2 * s + 3 * t = n)%nat
  /\ concat (base_cases_points s t) = seq 0 n.
Proof.
  intros H. destruct (to_base_cases_spec n H) as (s & t & E & L). exists s, t.
  split; auto. split; auto. rewrite base_cases_points_spec, L. auto.
Qed.
Lemma merge_all_points A B (merge : A -> A -> A) (points : A -> list B) :
  (forall x y, points (merge x y) = points x ++ points y) ->
  forall l, l <> [] -> exists r, merge_all merge l = Some r /\ points r = flat_map points l.
Proof.
  intros H l N. destruct (merge_all_total merge l N) as (r & E). exists r. split; auto.
  apply (merge_all_flatten merge points H l r E).
Qed.
Lemma getitem_total A (l : list A) i v :
  (sequence_getitem l i = Some v <->
   exists k, nth_error l k = Some v /\ (i = Z.of_nat k \/ i = Z.of_nat k - sequence_len l)%Z)
  /\ (sequence_getitem l i = None <-> (i < - sequence_len l \/ sequence_len l <= i)%Z).
Proof.
  split; [apply getitem_spec|]. unfold sequence_len.
  destruct (sequence_getitem l i) as [w|] eqn:E.
  - apply getitem_spec in E. destruct E as (k & E & C).
    assert (k < length l)%nat by (apply nth_error_Some; congruence).
    split; [discriminate|]. lia.
  - split; auto. intros _.
    destruct (Z.ltb_spec i (- Z.of_nat (length l))); [lia|].
    destruct (Z.leb_spec (Z.of_nat (length l)) i); [lia|]. exfalso.
    destruct (Z.ltb_spec i 0).
    + destruct (nth_error l (Z.to_nat (i + Z.of_nat (length l)))) as [w|] eqn:N.
      * assert (K : sequence_getitem l i = Some w).
        { apply getitem_spec. eexists. split; eauto. right. lia. }
        congruence.
      * apply nth_error_None in N. lia.
    + destruct (nth_error l (Z.to_nat i)) as [w|] eqn:N.
      * assert (K : sequence_getitem l i = Some w).
        { apply getitem_spec. eexists. split; eauto. left. lia. }
        congruence.
      * apply nth_error_None in N. lia.
Qed.
Lemma iteration_spec A (l : list A) fuel : (length l < fuel)%nat ->
  sequence_iter_from l 0 fuel = Some l /\ sequence_reversed l = map Some (rev l).
Proof. intros; split; [apply iter_spec; auto|apply reversed_spec]. Qed.
Lemma search_spec A (eq : A -> A -> bool) (l : list A) v :
  (sequence_contains eq l v = true <-> exists x, In x l /\ eq x v = true)
  /\ (forall k, sequence_index eq l v = Some k <->
      (exists x, nth_error l k = Some x /\ eq x v = true)
      /\ forall j y, (j < k)%nat -> nth_error l j = Some y -> eq y v = false)
  /\ (sequence_index eq l v = None <-> sequence_count eq l v = 0%nat)
  /\ (sequence_count eq l v = 0%nat <-> sequence_contains eq l v = false).
Proof.
  split; [apply contains_spec|]. split; [intros; apply index_spec|].
  unfold sequence_count, sequence_contains. split; induction l as [|x l IH]; cbn; try tauto.
  - destruct (eq x v); cbn; [split; discriminate|]. rewrite <- IH.
    destruct (sequence_index eq l v); cbn; split; congruence.
  - destruct (eq x v); cbn; [split; discriminate|auto].
Qed.
