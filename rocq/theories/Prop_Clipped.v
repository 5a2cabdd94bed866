(** C89, C90, C91: what is inside and what is outside a polygon or a multipolygon; the points of
    results of set operations; clipping with such results. *)
From Coq Require Import QArith Qcanon Bool List Arith ZArith Lia.
From Verif Require Import QcTac Model_Base Model_Geometry Model_Contour Model_Segment Model_Linear Model_Shaped Model_Multipolygon Model_MixedClip Model_MixedDiff Model_LinearOperators
  Spec_Base Spec_Segment Spec_Clip Spec_Contour Spec_Bounds Spec_Sweep Spec_Shaped Spec_Multipolygon Spec_RelateShaped Spec_MixedClip Spec_MixedDiff Spec_Literals Spec_LinearLaws Spec_ClippedLaws
  Spec_Relate Proof_Locate4 Proof_RelateP Proof_Sweep20 Proof_LinearLaws3 Proof_LinearLaws4 Proof_Clipped1 Proof_Clipped2 Prop_Multipolygon Prop_RelateMixed.
Import ListNotations.

(** ** C89: [a & b] and [a - b] for a multisegment or a contour [a] and a polygon or a
    multipolygon [b]. *)
(** Together they cover [a]; where both are is the border of [b], and these are finitely many points. *)
Theorem c89_parts : forall fuel fuel' shape shape' a b, several_input a -> valid_shaped b ->
  (enough (length (parts a) + shaped_size b) <= fuel)%nat -> (enough (length (parts a) + shaped_size b) <= fuel')%nat ->
  exists g h, mixed_and fuel shape a b = Some (Clips g) /\ mixed_sub fuel' shape' a b = Some (Clips h)
  /\ (forall q, on_geometry a q <-> on_geometry g q \/ on_geometry h q)
  /\ (forall q, on_geometry g q -> on_geometry h q -> geometry_locate b q = BOUNDARY)
  /\ (boxes_meet a b -> exists few : list point, forall q, on_geometry g q -> on_geometry h q -> In q few).
Proof.
  intros fuel fuel' shape shape' a b Va Vb F F'.
  destruct (Proof_Located.mixed_and_contained fuel shape a b (input_linear a Va) Vb F) as [(g & Eg & _) _].
  destruct (sub_runs fuel' shape' a b Va Vb F') as (h & Eh & _). exists g, h. split; [exact Eg|]. split; [exact Eh|].
  split; [exact (parts_cover fuel fuel' shape shape' a b g h Va Vb F F' Eg Eh)|].
  split; [exact (parts_border fuel fuel' shape shape' a b g h Va Vb F F' Eg Eh)|].
  exact (parts_few fuel fuel' shape shape' a b g h Va Vb F F' Eg Eh).
Qed.
Print Assumptions c89_parts.
(** When one of them is Empty. *)
Theorem c89_nothing_inside : forall fuel shape a b, linear_input a -> valid_shaped b ->
  (enough (length (parts a) + shaped_size b) <= fuel)%nat ->
  (mixed_and fuel shape a b = Some (Clips GEmpty)
   <-> ~ exists s t, In s (parts a) /\ seg_subset t s /\ proper_seg t /\ forall x, on_seg t x -> geometry_contains b x = true).
Proof. exact inside_empty. Qed.
Print Assumptions c89_nothing_inside.
Theorem c89_nothing_outside : forall fuel shape a b, several_input a -> valid_shaped b ->
  (enough (length (parts a) + shaped_size b) <= fuel)%nat -> boxes_meet a b ->
  (mixed_sub fuel shape a b = Some (Clips GEmpty) <-> forall q, on_geometry a q -> geometry_contains b q = true).
Proof. exact outside_empty. Qed.
Print Assumptions c89_nothing_outside.
Theorem c89_all_inside : forall fuel shape a b g, several_input a -> valid_shaped b ->
  (enough (length (parts a) + shaped_size b) <= fuel)%nat -> mixed_and fuel shape a b = Some (Clips g) ->
  (same_points_as g a <-> forall q, on_geometry a q -> geometry_contains b q = true).
Proof. exact all_inside. Qed.
Print Assumptions c89_all_inside.
(** The difference of an expression and [b]: no exception, the points that the expression denotes
    outside [b], but for finitely many; expressions that denote the same there leave the same. *)
Theorem c89_outside : forall e b shape, lvalid e -> valid_shaped b ->
  (forall h, comes_to e h -> several_input h -> boxes_meet h b -> exists g, leaves shape e b g)
  /\ forall g, leaves shape e b g -> almost_same (on_geometry g) (denotes_outside e b).
Proof.
  intros e b shape Ve Vb. split; [intros h; exact (leaves_something e b Vb shape h)|].
  intros g L. exact (proj2 (leaves_points e b Ve Vb shape g L)).
Qed.
Print Assumptions c89_outside.
Theorem c89_same_outside : forall e e' b b' s s' g g', lvalid e -> lvalid e' -> valid_shaped b -> valid_shaped b' ->
  almost_same (denotes_outside e b) (denotes_outside e' b') -> leaves s e b g -> leaves s' e' b' g' -> same_points_as g g'.
Proof. exact leaves_same. Qed.
Print Assumptions c89_same_outside.
(** [e - b] has the points of [e - (e & b)]; [(e | f) - b] those of [e - b] and [f - b]; and with
    [&], [-] and [^] instead of [|], but for finitely many points. *)
Theorem c89_rest : forall e b s t u g h, lvalid e -> valid_shaped b ->
  leaves s e b g -> comes_to (LSub t e (LInside u e b)) h -> same_points_as g h.
Proof. exact leaves_rest. Qed.
Print Assumptions c89_rest.
Theorem c89_distribution : forall e f b s t u v g1 g2, lvalid e -> lvalid f -> valid_shaped b ->
  leaves u e b g1 -> leaves v f b g2 -> forall g,
  (leaves s (LOr t e f) b g -> forall p, on_geometry g p <-> on_geometry g1 p \/ on_geometry g2 p)
  /\ (leaves s (LAnd t e f) b g -> almost_same (on_geometry g) (fun p => on_geometry g1 p /\ on_geometry g2 p))
  /\ (leaves s (LSub t e f) b g -> almost_same (on_geometry g) (fun p => on_geometry g1 p /\ ~ on_geometry g2 p))
  /\ (leaves s (LXor t e f) b g -> almost_same (on_geometry g)
        (fun p => (on_geometry g1 p /\ ~ on_geometry g2 p) \/ (on_geometry g2 p /\ ~ on_geometry g1 p))).
Proof.
  intros e f b s t u v g1 g2 Ve Vf Vb L1 L2 g.
  split; [intros L; exact (leaves_union e f b s t u v g g1 g2 Ve Vf Vb L L1 L2)|exact (leaves_operators e f b g1 g2 u v Ve Vf Vb L1 L2 s t g)].
Qed.
Print Assumptions c89_distribution.

Definition clip_tree : tree_shape := fun _ _ l => (length l / 2)%nat.
Definition rails : geometry := GMultisegment [sg (-5) 1 5 1; sg 5 1 15 1; sg 0 2 0 20].
Definition ties : geometry := GMultisegment [sg 2 (-1) 2 5; sg 0 3 0 7; sg 50 0 60 0].
Example c89_hypotheses : several_input rails /\ several_input ties /\ valid_shaped (GMultipolygon [lower; upper])
  /\ boxes_meet rails (GMultipolygon [lower; upper])
  /\ exists g h k, leaves clip_tree (LOr clip_tree (Lin rails) (Lin ties)) (GMultipolygon [lower; upper]) g
     /\ leaves clip_tree (Lin rails) (GMultipolygon [lower; upper]) h /\ leaves clip_tree (Lin ties) (GMultipolygon [lower; upper]) k.
Proof.
  assert (R : several_input rails) by (split; [cbn; lia|apply non_crossing_literal; vm_compute; reflexivity]).
  assert (T : several_input ties) by (split; [cbn; lia|apply non_crossing_literal; vm_compute; reflexivity]).
  assert (B : forall g, g = rails \/ g = ties -> boxes_meet g (GMultipolygon [lower; upper])).
  { intros g [->| ->]; exists (pt 2 2); vm_compute; repeat split; discriminate. }
  split; [exact R|]. split; [exact T|]. split; [apply triangles_valid|]. split; [apply B; auto|].
  assert (C : exists w, linear_or 3000 clip_tree rails ties = Some (Clips w) /\ several_input w /\ boxes_meet w (GMultipolygon [lower; upper])).
  { exists (match linear_or 3000 clip_tree rails ties with Some (Clips w) => w | _ => GEmpty end).
    split; [vm_compute; reflexivity|]. split; [split; [vm_compute; lia|apply non_crossing_literal; vm_compute; reflexivity]|].
    exists (pt 2 2). vm_compute. repeat split; discriminate. }
  destruct C as (w & E & V & M).
  destruct (leaves_something (LOr clip_tree (Lin rails) (Lin ties)) _ (proj1 triangles_valid) clip_tree w) as (g & L); [|exact V|exact M|].
  { exists rails, ties, 3000%nat. split; [reflexivity|]. split; [reflexivity|]. split; [vm_compute; lia|exact E]. }
  destruct (leaves_something (Lin rails) _ (proj1 triangles_valid) clip_tree rails eq_refl R (B _ (or_introl eq_refl))) as (h & L').
  destruct (leaves_something (Lin ties) _ (proj1 triangles_valid) clip_tree ties eq_refl T (B _ (or_intror eq_refl))) as (k & L'').
  exists g, h, k. auto.
Qed.
Example c89_answers :
  mixed_and 3000 clip_tree rails (GMultipolygon [lower; upper]) = Some (Clips (GMultisegment [sg 0 1 5 1; sg 0 2 0 10; sg 5 1 9 1]))
  /\ mixed_sub 3000 clip_tree rails (GPolygon lower)
     = Some (Clips (GMultisegment [sg (-5) 1 0 1; sg 0 1 (-5) 1; sg 0 10 0 20; sg 0 20 0 10; sg 9 1 15 1; sg 15 1 9 1])).
Proof. split; vm_compute; reflexivity. Qed.

(** ** C90: which points belong to the results of set operations of polygons and multipolygons,
    when the results are valid. *)
Theorem c90_union : forall g g', valid_shaped g -> valid_shaped g' -> forall fuel shape h,
  (enough (shaped_size g + shaped_size g') <= fuel)%nat -> valid_shaped h -> shaped_or fuel shape g g' = Some (Clips h) ->
  forall x, geometry_contains h x = geometry_contains g x || geometry_contains g' x.
Proof. exact union_contains. Qed.
Print Assumptions c90_union.
Theorem c90_intersection : forall g g', valid_shaped g -> valid_shaped g' -> forall fuel shape h,
  (enough (shaped_size g + shaped_size g') <= fuel)%nat -> valid_shaped h -> shaped_and fuel shape g g' = Some (Clips h) ->
  forall x, (geometry_contains h x = true -> geometry_contains g x = true /\ geometry_contains g' x = true)
  /\ (geometry_locate g x = INTERIOR -> geometry_contains g' x = true -> geometry_contains h x = true)
  /\ (geometry_contains g x = true -> geometry_locate g' x = INTERIOR -> geometry_contains h x = true).
Proof. exact common_contains. Qed.
Print Assumptions c90_intersection.
Theorem c90_difference : forall g g', valid_shaped g -> valid_shaped g' -> forall fuel shape h,
  (enough (shaped_size g + shaped_size g') <= fuel)%nat -> valid_shaped h -> shaped_sub fuel shape g g' = Some (Clips h) ->
  forall x, (geometry_contains h x = true -> geometry_contains g x = true /\ geometry_locate g' x <> INTERIOR)
  /\ (geometry_contains g x = true -> geometry_contains g' x = false -> geometry_contains h x = true).
Proof. exact difference_contains. Qed.
Print Assumptions c90_difference.
Theorem c90_symmetric_difference : forall g g', valid_shaped g -> valid_shaped g' -> forall fuel shape h,
  (enough (shaped_size g + shaped_size g') <= fuel)%nat -> valid_shaped h -> shaped_xor fuel shape g g' = Some (Clips h) ->
  forall x, (geometry_contains h x = true ->
      (geometry_contains g x = true \/ geometry_contains g' x = true) /\ ~ (geometry_locate g x = INTERIOR /\ geometry_locate g' x = INTERIOR))
  /\ (xorb (geometry_contains g x) (geometry_contains g' x) = true -> geometry_contains h x = true).
Proof.
  intros g g' V V' fuel shape h F Vh E x. destruct (symmetric_contains g g' V V' fuel shape h F Vh E x) as [A B]. rewrite orb_true_iff in A. exact (conj A B).
Qed.
Print Assumptions c90_symmetric_difference.

(** Overlapping rectangles; triangles apart. *)
Definition board (a b c d : Z) : polygon := Poly [pt a b; pt c b; pt c d; pt a d] [].
Lemma board_valid a b c d : simple_contour [pt a b; pt c b; pt c d; pt a d] -> non_crossing (outlines [[pt a b; pt c b; pt c d; pt a d]]) -> valid_polygon (board a b c d).
Proof.
  intros S N. constructor; [apply Forall_cons; [exact S|constructor]|exact N|intros ? ? _ []|intros ? _; repeat constructor].
Qed.
Example c90_hypotheses :
  let a := board 0 0 4 2 in let b := board 2 0 6 2 in
  (valid_polygon a /\ valid_polygon b)
  /\ (valid_polygon (board 0 0 6 2) /\ shaped_or 3000 clip_tree (GPolygon a) (GPolygon b) = Some (Clips (GPolygon (board 0 0 6 2))))
  /\ (valid_polygon (board 2 0 4 2) /\ shaped_and 3000 clip_tree (GPolygon a) (GPolygon b) = Some (Clips (GPolygon (board 2 0 4 2))))
  /\ (valid_polygon (board 0 0 2 2) /\ shaped_sub 3000 clip_tree (GPolygon a) (GPolygon b) = Some (Clips (GPolygon (board 0 0 2 2))))
  /\ (valid_shaped (GMultipolygon [lower; upper]) /\ shaped_xor 3000 clip_tree (GPolygon lower) (GPolygon upper) = Some (Clips (GMultipolygon [lower; upper]))).
Proof.
  cbv zeta. assert (B : valid_polygon (board 0 0 4 2) /\ valid_polygon (board 2 0 6 2) /\ valid_polygon (board 0 0 6 2) /\ valid_polygon (board 2 0 4 2) /\ valid_polygon (board 0 0 2 2)).
  { repeat apply conj; apply board_valid; first [apply simple_literal|apply non_crossing_literal]; vm_compute; reflexivity. }
  destruct B as (B1 & B2 & B3 & B4 & B5).
  refine (conj (conj B1 B2) (conj (conj B3 _) (conj (conj B4 _) (conj (conj B5 _) (conj (proj1 triangles_valid) _))))); vm_compute; reflexivity.
Qed.

(** ** C91: clipping a linear geometry with results of set operations and with multipolygons. *)
(** With a multipolygon: the union of what is inside each of its polygons. *)
Theorem c91_multipolygon : forall s shapes e l, lvalid e -> valid_shaped (GMultipolygon l) ->
  law (LInside s e (GMultipolygon l)) (inside_each shapes e l).
Proof. exact clip_multipolygon. Qed.
Print Assumptions c91_multipolygon.
Theorem c91_union : forall g g', valid_shaped g -> valid_shaped g' -> forall fuel shape h,
  (enough (shaped_size g + shaped_size g') <= fuel)%nat -> valid_shaped h -> forall s t u v e, lvalid e ->
  shaped_or fuel shape g g' = Some (Clips h) -> law (LInside s e h) (LOr t (LInside u e g) (LInside v e g')).
Proof. exact clip_union. Qed.
Print Assumptions c91_union.
(** What is inside [g - g'] and inside both are what is inside [g]; what is inside [g ^ g'] and
    inside both are what is inside either; what is inside [g & g'] is inside both. *)
Theorem c91_difference : forall g g', valid_shaped g -> valid_shaped g' -> forall fuel shape h,
  (enough (shaped_size g + shaped_size g') <= fuel)%nat -> valid_shaped h -> forall s t u v w e, lvalid e ->
  shaped_sub fuel shape g g' = Some (Clips h) ->
  law (LOr s (LInside t e h) (LInside u (LInside v e g) g')) (LInside w e g).
Proof. exact clip_difference. Qed.
Print Assumptions c91_difference.
Theorem c91_symmetric_difference : forall g g', valid_shaped g -> valid_shaped g' -> forall fuel shape h,
  (enough (shaped_size g + shaped_size g') <= fuel)%nat -> valid_shaped h -> forall s t u v w w' w'' e, lvalid e ->
  shaped_xor fuel shape g g' = Some (Clips h) ->
  law (LOr s (LInside t e h) (LInside u (LInside v e g) g')) (LOr w (LInside w' e g) (LInside w'' e g')).
Proof. exact clip_symmetric. Qed.
Print Assumptions c91_symmetric_difference.
Theorem c91_intersection : forall g g', valid_shaped g -> valid_shaped g' -> forall fuel shape h,
  (enough (shaped_size g + shaped_size g') <= fuel)%nat -> valid_shaped h -> forall s t u e k l, lvalid e ->
  shaped_and fuel shape g g' = Some (Clips h) ->
  comes_to (LInside s e h) k -> comes_to (LInside t (LInside u e g) g') l -> forall p, on_geometry k p -> on_geometry l p.
Proof. exact clip_common. Qed.
Print Assumptions c91_intersection.
(** Subtracting [g | g'] is subtracting what is inside [g] and what is inside [g']. *)
Theorem c91_outside_union : forall g g', valid_shaped g -> valid_shaped g' -> forall fuel shape h,
  (enough (shaped_size g + shaped_size g') <= fuel)%nat -> valid_shaped h -> forall s t u v w e k l, lvalid e ->
  shaped_or fuel shape g g' = Some (Clips h) -> leaves s e h k ->
  comes_to (LSub t (LSub u e (LInside v e g)) (LInside w e g')) l -> same_points_as k l.
Proof. exact leave_union. Qed.
Print Assumptions c91_outside_union.

Example c91_answers :
  let run o := match o with Some (Clips g) => g | _ => GEmpty end in
  let line := GMultisegment [sg (-1) 1 7 1; sg 3 2 9 2] in
  let a := GPolygon (board 0 0 4 2) in let b := GPolygon (board 2 0 6 2) in let u := GPolygon (board 0 0 6 2) in
  lvalid (Lin line)
  /\ mixed_and 3000 clip_tree line u = Some (Clips (GMultisegment [sg 0 1 6 1; sg 3 2 6 2]))
  /\ linear_or 3000 clip_tree (run (mixed_and 3000 clip_tree line a)) (run (mixed_and 3000 clip_tree line b))
     = Some (Clips (GMultisegment [sg 0 1 2 1; sg 2 1 4 1; sg 3 2 4 2; sg 4 1 6 1; sg 4 2 6 2])).
Proof.
  cbv zeta. split; [split; [cbn; lia|apply non_crossing_literal; vm_compute; reflexivity]|]. split; vm_compute; reflexivity.
Qed.
