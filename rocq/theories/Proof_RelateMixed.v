(** The sequences that [max] is taken of are not empty for one segment. *)
From Coq Require Import QArith Qcanon Bool List Lia.
From Verif Require Import QcTac Model_Base Model_Box Model_Geometry Model_Contour Model_Linear Model_Relate Model_RelateLinear Model_Mixed Model_Multipolygon
  Model_RelateMultipolygon Model_RelateMixed Proof_RelateMulti3.
Import ListNotations.
Local Open Scope Qc_scope.

Lemma segment_settles (first : bool) fuel shape l s : segment_with_multipolygon first fuel shape l s <> RelateRaises.
Proof.
  unfold segment_with_multipolygon. set (b := segment_bounding_box s). destruct (intersecting b l) as [|a c] eqn:E; [discriminate|]. rewrite <- E.
  assert (N : reached (q_min (max_x b) (greatest_x (intersecting b l))) (intersecting b l) <> []).
  { rewrite taken_filter. apply some_taken; auto; [intros p I; apply greatest_in; auto|rewrite E; discriminate]. }
  destruct (reached _ _) as [|u us]; [congruence|]. unfold outcome_of_mixed. destruct (mixed_to_relation _ _ _ _ _ _); discriminate.
Qed.
