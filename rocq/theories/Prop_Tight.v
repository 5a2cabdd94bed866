(** C83-C86: the outlines of what the set operations on polygons and multipolygons return, the
    laws of the operations and their agreement with [relate_to]. *)
From Coq Require Import QArith Qcanon Bool List ZArith Lia.
From Verif Require Import QcTac Model_Base Model_Geometry Model_Contour Model_Linear Model_Mixed Model_Shaped Model_Multipolygon Model_Relate Model_RelateLinear Model_RelateShaped Model_RelateMultipolygon
  Spec_Base Spec_Segment Spec_Clip Spec_Contour Spec_Relate Spec_Bounds Spec_Literals Spec_Sweep Spec_Shaped Spec_Multipolygon Spec_RelateShaped Spec_Tight
  Proof_Locate4 Proof_RelateP Proof_Sweep20 Proof_Tight9 Proof_Tight10.
From Verif Require Prop_RelateMultipolygon.
Import ListNotations.
Local Open Scope Qc_scope.

(** C83: a point is on an outline of [a & b] exactly if there are, however near to it, points in
    the interiors of both of the operands and points that are not, among those on no outline of
    the operands. *)
Theorem c83_intersection : forall g g' shape fuel,
  valid_shaped g -> valid_shaped g' -> (enough (shaped_size g + shaped_size g') <= fuel)%nat ->
  exists h, shaped_and fuel shape g g' = Some (Clips h)
  /\ forall x, outlined h x <-> between_sides (clear_of g g') (fun z => inside g z /\ inside g' z) x.
Proof. intros g g' shape fuel V V'. exact (and_outline g g' V V' fuel shape). Qed.
Print Assumptions c83_intersection.
Theorem c83_union : forall g g' shape fuel,
  valid_shaped g -> valid_shaped g' -> (enough (shaped_size g + shaped_size g') <= fuel)%nat ->
  exists h, shaped_or fuel shape g g' = Some (Clips h)
  /\ forall x, outlined h x <-> between_sides (clear_of g g') (fun z => inside g z \/ inside g' z) x.
Proof. intros g g' shape fuel V V'. exact (or_outline g g' V V' fuel shape). Qed.
Print Assumptions c83_union.
Theorem c83_difference : forall g g' shape fuel,
  valid_shaped g -> valid_shaped g' -> (enough (shaped_size g + shaped_size g') <= fuel)%nat ->
  exists h, shaped_sub fuel shape g g' = Some (Clips h)
  /\ forall x, outlined h x <-> between_sides (clear_of g g') (fun z => inside g z /\ ~ inside g' z) x.
Proof. intros g g' shape fuel V V'. exact (sub_outline g g' V V' fuel shape). Qed.
Print Assumptions c83_difference.
Theorem c83_symmetric_difference : forall g g' shape fuel,
  valid_shaped g -> valid_shaped g' -> (enough (shaped_size g + shaped_size g') <= fuel)%nat ->
  exists h, shaped_xor fuel shape g g' = Some (Clips h)
  /\ forall x, outlined h x <-> between_sides (clear_of g g') (fun z => (inside g z /\ ~ inside g' z) \/ (inside g' z /\ ~ inside g z)) x.
Proof. intros g g' shape fuel V V'. exact (xor_outline g g' V V' fuel shape). Qed.
Print Assumptions c83_symmetric_difference.
(** The same of an operand: its outlines are where its interior begins. *)
Theorem c83_operand : forall g x, valid_shaped g -> (outlined g x <-> between_sides (clear_of g g) (inside g) x).
Proof. intros g x V. exact (region_sides g g g (inside g) (operand_region g g V V) x). Qed.
Print Assumptions c83_operand.

(** C84: when the result is [EMPTY]. *)
Theorem c84_intersection : forall g g' shape fuel,
  valid_shaped g -> valid_shaped g' -> (enough (shaped_size g + shaped_size g') <= fuel)%nat ->
  (shaped_and fuel shape g g' = Some (Clips GEmpty) <-> ~ interiors_meet g g').
Proof. intros g g' shape fuel V V'. exact (and_empty g g' V V' fuel shape). Qed.
Print Assumptions c84_intersection.
Theorem c84_union : forall g g' shape fuel,
  valid_shaped g -> valid_shaped g' -> (enough (shaped_size g + shaped_size g') <= fuel)%nat ->
  shaped_or fuel shape g g' <> Some (Clips GEmpty).
Proof. intros g g' shape fuel V V'. exact (or_not_empty g g' V V' fuel shape). Qed.
Print Assumptions c84_union.
Theorem c84_difference : forall g g' shape fuel,
  valid_shaped g -> valid_shaped g' -> (enough (shaped_size g + shaped_size g') <= fuel)%nat ->
  (shaped_sub fuel shape g g' = Some (Clips GEmpty) <-> part g g').
Proof. intros g g' shape fuel V V'. exact (sub_empty g g' V V' fuel shape). Qed.
Print Assumptions c84_difference.
Theorem c84_symmetric_difference : forall g g' shape fuel,
  valid_shaped g -> valid_shaped g' -> (enough (shaped_size g + shaped_size g') <= fuel)%nat ->
  (shaped_xor fuel shape g g' = Some (Clips GEmpty) <-> part g g' /\ part g' g).
Proof. intros g g' shape fuel V V'. exact (xor_empty g g' V V' fuel shape). Qed.
Print Assumptions c84_symmetric_difference.

(** C85: [&], [|] and [^] of exchanged operands are the same region. *)
Theorem c85_exchange_intersection : forall g g' shape shape' fuel fuel',
  valid_shaped g -> valid_shaped g' ->
  (enough (shaped_size g + shaped_size g') <= fuel)%nat -> (enough (shaped_size g + shaped_size g') <= fuel')%nat ->
  exists h h', shaped_and fuel shape g g' = Some (Clips h) /\ shaped_and fuel' shape' g' g = Some (Clips h') /\ same_region h h'.
Proof. intros g g' shape shape' fuel fuel' V V'. exact (and_exchange g g' V V' fuel shape fuel' shape'). Qed.
Print Assumptions c85_exchange_intersection.
Theorem c85_exchange_union : forall g g' shape shape' fuel fuel',
  valid_shaped g -> valid_shaped g' ->
  (enough (shaped_size g + shaped_size g') <= fuel)%nat -> (enough (shaped_size g + shaped_size g') <= fuel')%nat ->
  exists h h', shaped_or fuel shape g g' = Some (Clips h) /\ shaped_or fuel' shape' g' g = Some (Clips h') /\ same_region h h'.
Proof. intros g g' shape shape' fuel fuel' V V'. exact (or_exchange g g' V V' fuel shape fuel' shape'). Qed.
Print Assumptions c85_exchange_union.
Theorem c85_exchange_symmetric_difference : forall g g' shape shape' fuel fuel',
  valid_shaped g -> valid_shaped g' ->
  (enough (shaped_size g + shaped_size g') <= fuel)%nat -> (enough (shaped_size g + shaped_size g') <= fuel')%nat ->
  exists h h', shaped_xor fuel shape g g' = Some (Clips h) /\ shaped_xor fuel' shape' g' g = Some (Clips h') /\ same_region h h'.
Proof. intros g g' shape shape' fuel fuel' V V'. exact (xor_exchange g g' V V' fuel shape fuel' shape'). Qed.
Print Assumptions c85_exchange_symmetric_difference.
(** The shape of the tree that holds the sweep line does not matter. *)
Theorem c85_any_tree : forall g g' shape shape' fuel fuel',
  valid_shaped g -> valid_shaped g' ->
  (enough (shaped_size g + shaped_size g') <= fuel)%nat -> (enough (shaped_size g + shaped_size g') <= fuel')%nat ->
  Forall (fun oo : option clip_outcome * option clip_outcome => exists h h', fst oo = Some (Clips h) /\ snd oo = Some (Clips h') /\ same_region h h')
    [(shaped_and fuel shape g g', shaped_and fuel' shape' g g'); (shaped_or fuel shape g g', shaped_or fuel' shape' g g');
     (shaped_sub fuel shape g g', shaped_sub fuel' shape' g g'); (shaped_xor fuel shape g g', shaped_xor fuel' shape' g g')].
Proof. intros g g' shape shape' fuel fuel' V V'. exact (any_tree g g' V V' fuel shape fuel' shape'). Qed.
Print Assumptions c85_any_tree.
(** If the first operand is a part of the second: [a & b] is [a], [a | b] is [b], [a - b] is
    [EMPTY] and [a ^ b] is [b - a]. *)
Theorem c85_part : forall g g' shape fuel,
  valid_shaped g -> valid_shaped g' -> (enough (shaped_size g + shaped_size g') <= fuel)%nat -> part g g' ->
  (exists h, shaped_and fuel shape g g' = Some (Clips h) /\ same_region h g)
  /\ (exists h, shaped_or fuel shape g g' = Some (Clips h) /\ same_region h g')
  /\ shaped_sub fuel shape g g' = Some (Clips GEmpty)
  /\ exists h h', shaped_xor fuel shape g g' = Some (Clips h) /\ shaped_sub fuel shape g' g = Some (Clips h') /\ same_region h h'.
Proof. intros g g' shape fuel V V'. exact (part_laws g g' V V' fuel shape). Qed.
Print Assumptions c85_part.
(** Of a geometry with itself. *)
Theorem c85_self : forall g shape fuel, valid_shaped g -> (enough (shaped_size g + shaped_size g) <= fuel)%nat ->
  (exists h, shaped_and fuel shape g g = Some (Clips h) /\ same_region h g)
  /\ (exists h, shaped_or fuel shape g g = Some (Clips h) /\ same_region h g)
  /\ shaped_sub fuel shape g g = Some (Clips GEmpty) /\ shaped_xor fuel shape g g = Some (Clips GEmpty).
Proof.
  intros g shape fuel V F. assert (P : part g g) by (intros x; auto). destruct (part_laws g g V V fuel shape F P) as (A & B & C & _).
  split; [exact A|]. split; [exact B|]. split; [exact C|]. apply (xor_empty g g V V fuel shape F). split; exact P.
Qed.
Print Assumptions c85_self.
(** If no point is inside both: [a & b] is [EMPTY], [a - b] is [a] and [a | b] is [a ^ b]. *)
Theorem c85_apart : forall g g' shape fuel,
  valid_shaped g -> valid_shaped g' -> (enough (shaped_size g + shaped_size g') <= fuel)%nat -> ~ interiors_meet g g' ->
  shaped_and fuel shape g g' = Some (Clips GEmpty)
  /\ (exists h, shaped_sub fuel shape g g' = Some (Clips h) /\ same_region h g)
  /\ exists h h', shaped_or fuel shape g g' = Some (Clips h) /\ shaped_xor fuel shape g g' = Some (Clips h') /\ same_region h h'.
Proof. intros g g' shape fuel V V'. exact (apart_laws g g' V V' fuel shape). Qed.
Print Assumptions c85_apart.

(** C86: [relate_to] and the operators agree: the operators return [EMPTY] exactly when the
    relation says so. *)
Theorem c86_relation_operators : forall g g' shape fuel,
  valid_shaped g -> valid_shaped g' ->
  Forall oriented (polygons_of g) -> Forall oriented (polygons_of g') ->
  settled (polygons_of g) -> settled (polygons_of g') ->
  (enough (shaped_size g + shaped_size g') <= fuel)%nat ->
  exists r, shaped_relate_to fuel shape g g' = Some (Relates r)
    /\ (shaped_and fuel shape g g' = Some (Clips GEmpty) <-> r = DISJOINT \/ r = TOUCH)
    /\ (shaped_sub fuel shape g g' = Some (Clips GEmpty) <-> r = EQUAL \/ r = WITHIN \/ r = ENCLOSED \/ r = COMPONENT)
    /\ (shaped_sub fuel shape g' g = Some (Clips GEmpty) <-> r = EQUAL \/ r = COVER \/ r = ENCLOSES \/ r = COMPOSITE)
    /\ (shaped_xor fuel shape g g' = Some (Clips GEmpty) <-> r = EQUAL).
Proof. intros g g' shape fuel V V'. exact (relate_operators g g' V V' fuel shape). Qed.
Print Assumptions c86_relation_operators.

(** The hypotheses hold of a multipolygon made of a triangle with a hole and a triangle in the
    hole, and of that second triangle, which is a part of it; the first triangle is apart from the
    second. *)
Notation both := Prop_RelateMultipolygon.both.
Notation island := Prop_RelateMultipolygon.island.
Example tight_hypotheses : valid_shaped both /\ valid_shaped (GPolygon island) /\ part (GPolygon island) both /\ interiors_meet (GPolygon island) both /\ ~ part both (GPolygon island).
Proof.
  destruct Prop_RelateMultipolygon.multipolygons_hypotheses as (A & B & _). split; [exact A|]. split; [exact B|].
  assert (P : part (GPolygon island) both).
  { apply (clear_part (GPolygon island) both B A). intros z [_ C] I. apply (inside_some_iff both z A). exists island. split; [right; left; reflexivity|exact I]. }
  split; [exact P|]. split; [apply part_meet; auto|].
  intros Q. assert (E := proj2 (c84_difference both (GPolygon island) (fun _ _ l => (length l / 2)%nat) _ A B (Nat.le_refl _)) Q).
  vm_compute in E. discriminate.
Qed.
(** Two squares side by side: the outline of the union has no point of the common edge between
    its ends. *)
Example tight_answers :
  let half := (fun (_ _ : nat) (l : list event) => (length l / 2)%nat) in
  let square a b c d := GPolygon (Poly [pt a b; pt c b; pt c d; pt a d] []) in
  let a := (square 0 0 2 2)%Z in let b := (square 2 0 4 2)%Z in
  shaped_or 2000 half a b = Some (Clips (square 0 0 4 2)%Z) /\ shaped_and 2000 half a b = Some (Clips GEmpty)
  /\ shaped_xor 2000 half a b = Some (Clips (square 0 0 4 2)%Z) /\ shaped_sub 2000 half a b = Some (Clips a).
Proof. vm_compute. auto. Qed.
