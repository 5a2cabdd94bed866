(** C10, C11: [Segment.relate_to(Segment)]. *)
From Coq Require Import QArith Qcanon Bool List ZArith.
From Verif Require Import QcTac Model_Base Model_Box Model_Geometry
  Model_Segment Spec_Base Spec_Segment Proof_Base Proof_Line Proof_SegRel.
Import ListNotations.
Local Open Scope Qc_scope.

(** ** C10 *)
Theorem c10_relate_iff_meaning : forall s t r, proper_seg s -> proper_seg t ->
  (segment_relate_to_segment s t = Some r <-> seg_relation_spec r s t).
Proof. exact segment_relate_spec. Qed.
Print Assumptions c10_relate_iff_meaning.

(** No assert fails, and only one relation is meant by the specification. *)
Theorem c10_relate_total : forall s t, proper_seg s -> proper_seg t ->
  (exists r, segment_relate_to_segment s t = Some r)
  /\ (forall r r', seg_relation_spec r s t -> seg_relation_spec r' s t -> r = r').
Proof.
  intros s t Hs Ht. exact (conj (segment_relate_total s t Hs Ht)
    (fun r r' => seg_relation_exclusive s t r r' Hs Ht)).
Qed.
Print Assumptions c10_relate_total.

(** ** C11 *)
Theorem c11_relate_complement : forall s t r, proper_seg s -> proper_seg t ->
  segment_relate_to_segment s t = Some r ->
  segment_relate_to_segment t s = Some (complement r).
Proof. exact segment_relate_complement. Qed.
Print Assumptions c11_relate_complement.

Theorem c11_relate_direction : forall s t, proper_seg s -> proper_seg t ->
  segment_relate_to_segment (reverse_seg s) t = segment_relate_to_segment s t
  /\ segment_relate_to_segment s (reverse_seg t) = segment_relate_to_segment s t.
Proof. exact segment_relate_direction. Qed.
Print Assumptions c11_relate_direction.

Example c10_example :
  let s := Seg (Pt 0 0) (Pt (1 + 1) (1 + 1)) in
  segment_relate_to_segment s (Seg (Pt 0 (1 + 1)) (Pt (1 + 1) 0)) = Some CROSS
  /\ segment_relate_to_segment s (Seg (Pt 1 1) (Pt 0 0)) = Some COMPOSITE
  /\ segment_relate_to_segment s (Seg (Pt 1 1) (Pt (1 + 1 + 1) (1 + 1 + 1))) = Some OVERLAP
  /\ segment_relate_to_segment s (Seg (Pt 1 1) (Pt 1 0)) = Some TOUCH.
Proof. vm_compute; auto. Qed.
Example c10_proper : proper_seg (Seg (Pt 0 0) (Pt (1 + 1) (1 + 1))).
Proof. intro H. apply (f_equal px) in H. revert H. vm_compute. discriminate. Qed.
