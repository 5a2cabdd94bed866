(** The laws of the operators, and their agreement with [relate_to]. *)
From Coq Require Import QArith Qcanon Bool List Arith Lia Permutation.
From Verif Require Import QcTac Model_Base Model_Utils Model_Box Model_Geometry Model_Contour Model_Linear Model_Mixed Model_Shaped Model_Multipolygon Model_Relate Model_RelateLinear Model_RelateShaped Model_RelateMultipolygon Spec_Base Spec_Segment Spec_Clip Spec_Contour
  Spec_Relate Spec_Bounds Spec_Sweep Spec_Shaped Spec_Multipolygon Spec_RelateShaped Spec_Tight
  Proof_Base Proof_Line Proof_SegRel Proof_SegOps Proof_Relate6 Proof_SegLoops Proof_Contour Proof_Contour2 Proof_Edges Proof_Bounds Proof_Shrink Proof_Locate Proof_Locate3 Proof_Locate4 Proof_Sweep4 Proof_Sweep6 Proof_Sweep18 Proof_Parity
  Proof_Corner Proof_Region Proof_Ray Proof_Orient Proof_Nested Proof_Nested2 Proof_Bridge Proof_Odd Proof_Clip Proof_Ready Proof_RelShaped6 Proof_Polygons Proof_Multi Proof_Multi2 Proof_Multi3 Proof_Multi4
  Proof_RelateMulti2 Proof_RelateMulti3 Proof_Tight1 Proof_Tight3 Proof_Tight4 Proof_Tight5 Proof_Tight6 Proof_Located Proof_Tight7 Proof_Tight8 Proof_Tight9.
Import ListNotations.
Local Open Scope Qc_scope.

Section Laws.
Variables g g' : geometry.
Hypothesis V : valid_shaped g.
Hypothesis V' : valid_shaped g'.
Definition made_of (outcome : option clip_outcome) (holds : point -> Prop) : Prop :=
  exists h, outcome = Some (Clips h) /\ shaped h /\ Forall nondegenerate (geometry_rings h) /\ region_of g g' h holds.
Lemma drawn_region holds outcome : drawn g g' holds outcome -> made_of outcome holds.
Proof.
  intros (h & E & Sh & Si & T & S & O). exists h. split; auto. split; auto. split; [|constructor; auto]. eapply Forall_impl; [|exact Si]. intros vs Q. apply Q.
Qed.
Lemma made_empty holds outcome : made_of outcome holds -> (outcome = Some (Clips GEmpty) <-> forall q, clear_of g g' q -> ~ holds q).
Proof.
  intros (h & -> & Sh & Nd & [T S O]). rewrite <- (nothing_drawn g g' h holds) by auto. split; [intros E; injection E as ->; reflexivity|intros ->; reflexivity].
Qed.
Lemma inside_dec k x : {inside k x} + {~ inside k x}.
Proof. unfold inside. destruct (geometry_locate k x); first [left; reflexivity|right; discriminate]. Qed.
Section Made.
Variables oa oo os ox : option clip_outcome.
Hypothesis Ma : made_of oa (fun z => inside g z /\ inside g' z).
Hypothesis Mo : made_of oo (fun z => inside g z \/ inside g' z).
Hypothesis Ms : made_of os (fun z => inside g z /\ ~ inside g' z).
Hypothesis Mx : made_of ox (fun z => (inside g z /\ ~ inside g' z) \/ (inside g' z /\ ~ inside g z)).
Theorem and_nothing : oa = Some (Clips GEmpty) <-> ~ interiors_meet g g'.
Proof.
  rewrite (made_empty _ _ Ma). rewrite (clear_meet g g' V V'). split; [intros N (z & C & A & B); exact (N z C (conj A B))|intros N q C [A B]; apply N; exists q; auto].
Qed.
Theorem sub_nothing : os = Some (Clips GEmpty) <-> part g g'.
Proof.
  rewrite (made_empty _ _ Ms). rewrite (clear_part g g' V V'). split.
  - intros N z C A. destruct (inside_dec g' z) as [B|B]; auto. exfalso. exact (N z C (conj A B)).
  - intros N z C [A B]. apply B, N; auto.
Qed.
Theorem xor_nothing : ox = Some (Clips GEmpty) <-> part g g' /\ part g' g.
Proof.
  rewrite (made_empty _ _ Mx). rewrite (clear_part g g' V V'), (clear_part g' g V' V). split.
  - intros N. split; intros z C A.
    + destruct (inside_dec g' z) as [B|B]; auto. exfalso. apply (N z C). auto.
    + destruct (inside_dec g z) as [B|B]; auto. exfalso. apply (N z); [destruct C; split; auto|auto].
  - intros [N N'] z C [[A B]|[A B]]; apply B; [apply N|apply N']; auto. destruct C; split; auto.
Qed.
Theorem or_something : oo <> Some (Clips GEmpty).
Proof. intros E. rewrite (made_empty _ _ Mo) in E. destruct (some_interior g g' V V') as (z & C & I). exact (E z C (or_introl I)). Qed.
End Made.
Lemma made_same o1 o2 P1 P2 h1 h2 : made_of o1 P1 -> made_of o2 P2 -> o1 = Some (Clips h1) -> o2 = Some (Clips h2) -> (forall z, clear_of g g' z -> (P1 z <-> P2 z)) -> same_region h1 h2.
Proof.
  intros (h & E & _ & _ & R) (h' & E' & _ & _ & R') Q Q' X. assert (h = h1) by congruence. assert (h' = h2) by congruence. subst. exact (region_same g g' V V' h1 h2 P1 P2 R R' X).
Qed.
Lemma made_same_as o P h k Q : made_of o P -> region_of g g' k Q -> o = Some (Clips h) -> (forall z, clear_of g g' z -> (P z <-> Q z)) -> same_region h k.
Proof. intros (h1 & E & _ & _ & R) R' E' X. assert (h1 = h) by congruence. subst. exact (region_same g g' V V' h k P Q R R' X). Qed.
End Laws.
Lemma made_swap g g' o P : made_of g' g o P -> made_of g g' o P.
Proof. intros (h & E & A & B & R). exists h. split; auto. split; auto. split; auto. apply region_swap; auto. Qed.
Lemma made_ext g g' o (P Q : point -> Prop) : (forall z, P z <-> Q z) -> made_of g g' o P -> made_of g g' o Q.
Proof.
  intros X (h & E & A & B & [T S O]). exists h. split; auto. split; auto. split; auto. constructor; auto. intros q C. rewrite O by auto. apply X.
Qed.

Section Operators.
Variables (g g' : geometry).
Hypothesis V : valid_shaped g.
Hypothesis V' : valid_shaped g'.
Notation fits fuel := (enough (shaped_size g + shaped_size g') <= fuel)%nat.
Lemma fits_swap fuel : fits fuel -> (enough (shaped_size g' + shaped_size g) <= fuel)%nat.
Proof. clear. rewrite (Nat.add_comm (shaped_size g')). auto. Qed.
Let And fuel shape (F : fits fuel) := drawn_region _ _ _ _ (drawn_and g g' shape fuel V V' F).
Let Or fuel shape (F : fits fuel) := drawn_region _ _ _ _ (drawn_or g g' shape fuel V V' F).
Let Sub fuel shape (F : fits fuel) := drawn_region _ _ _ _ (drawn_sub g g' shape fuel V V' F).
Let Xor fuel shape (F : fits fuel) := drawn_region _ _ _ _ (drawn_xor g g' shape fuel V V' F).
Let And' fuel shape (F : fits fuel) := made_swap g g' _ _ (drawn_region _ _ _ _ (drawn_and g' g shape fuel V' V (fits_swap fuel F))).
Let Or' fuel shape (F : fits fuel) := made_swap g g' _ _ (drawn_region _ _ _ _ (drawn_or g' g shape fuel V' V (fits_swap fuel F))).
Let Xor' fuel shape (F : fits fuel) := made_swap g g' _ _ (drawn_region _ _ _ _ (drawn_xor g' g shape fuel V' V (fits_swap fuel F))).

(** Where the outlines of the results are. *)
Definition outline_at (outcome : option clip_outcome) (holds : point -> Prop) : Prop :=
  exists h, outcome = Some (Clips h) /\ forall x, outlined h x <-> between_sides (clear_of g g') holds x.
Lemma made_outline o P : made_of g g' o P -> outline_at o P.
Proof. intros (h & E & _ & _ & R). exists h. split; auto. apply region_sides; auto. Qed.
Theorem and_outline fuel shape : fits fuel -> outline_at (shaped_and fuel shape g g') (fun z => inside g z /\ inside g' z).
Proof. intros F. apply made_outline, And, F. Qed.
Theorem or_outline fuel shape : fits fuel -> outline_at (shaped_or fuel shape g g') (fun z => inside g z \/ inside g' z).
Proof. intros F. apply made_outline, Or, F. Qed.
Theorem sub_outline fuel shape : fits fuel -> outline_at (shaped_sub fuel shape g g') (fun z => inside g z /\ ~ inside g' z).
Proof. intros F. apply made_outline, Sub, F. Qed.
Theorem xor_outline fuel shape : fits fuel -> outline_at (shaped_xor fuel shape g g') (fun z => (inside g z /\ ~ inside g' z) \/ (inside g' z /\ ~ inside g z)).
Proof. intros F. apply made_outline, Xor, F. Qed.

Theorem and_empty fuel shape : fits fuel -> (shaped_and fuel shape g g' = Some (Clips GEmpty) <-> ~ interiors_meet g g').
Proof. intros F. apply (and_nothing g g' V V' _ (And fuel shape F)). Qed.
Theorem sub_empty fuel shape : fits fuel -> (shaped_sub fuel shape g g' = Some (Clips GEmpty) <-> part g g').
Proof. intros F. apply (sub_nothing g g' V V' _ (Sub fuel shape F)). Qed.
Theorem xor_empty fuel shape : fits fuel -> (shaped_xor fuel shape g g' = Some (Clips GEmpty) <-> part g g' /\ part g' g).
Proof. intros F. apply (xor_nothing g g' V V' _ (Xor fuel shape F)). Qed.
Theorem or_not_empty fuel shape : fits fuel -> shaped_or fuel shape g g' <> Some (Clips GEmpty).
Proof. intros F. apply (or_something g g' V V' _ (Or fuel shape F)). Qed.

Lemma agree (o1 o2 : option clip_outcome) (P1 P2 : point -> Prop) : made_of g g' o1 P1 -> made_of g g' o2 P2 -> (forall z, clear_of g g' z -> (P1 z <-> P2 z)) ->
  exists h1 h2, o1 = Some (Clips h1) /\ o2 = Some (Clips h2) /\ same_region h1 h2.
Proof.
  intros M1 M2 X. pose proof M1 as (h1 & E1 & _). pose proof M2 as (h2 & E2 & _). exists h1, h2. split; auto. split; auto. exact (made_same g g' V V' o1 o2 P1 P2 h1 h2 M1 M2 E1 E2 X).
Qed.
Lemma agree_with (o : option clip_outcome) (P Q : point -> Prop) k : made_of g g' o P -> region_of g g' k Q -> (forall z, clear_of g g' z -> (P z <-> Q z)) ->
  exists h, o = Some (Clips h) /\ same_region h k.
Proof. intros M R X. pose proof M as (h & E & _). exists h. split; auto. exact (made_same_as g g' V V' o P h k Q M R E X). Qed.
Theorem and_exchange fuel shape fuel' shape' : fits fuel -> fits fuel' ->
  exists h h', shaped_and fuel shape g g' = Some (Clips h) /\ shaped_and fuel' shape' g' g = Some (Clips h') /\ same_region h h'.
Proof. intros F F'. apply (agree _ _ _ _ (And fuel shape F) (And' fuel' shape' F')). intros z _. tauto. Qed.
Theorem or_exchange fuel shape fuel' shape' : fits fuel -> fits fuel' ->
  exists h h', shaped_or fuel shape g g' = Some (Clips h) /\ shaped_or fuel' shape' g' g = Some (Clips h') /\ same_region h h'.
Proof. intros F F'. apply (agree _ _ _ _ (Or fuel shape F) (Or' fuel' shape' F')). intros z _. tauto. Qed.
Theorem xor_exchange fuel shape fuel' shape' : fits fuel -> fits fuel' ->
  exists h h', shaped_xor fuel shape g g' = Some (Clips h) /\ shaped_xor fuel' shape' g' g = Some (Clips h') /\ same_region h h'.
Proof. intros F F'. apply (agree _ _ _ _ (Xor fuel shape F) (Xor' fuel' shape' F')). intros z _. tauto. Qed.
Theorem any_tree fuel shape fuel' shape' : fits fuel -> fits fuel' ->
  Forall (fun oo : option clip_outcome * option clip_outcome => exists h h', fst oo = Some (Clips h) /\ snd oo = Some (Clips h') /\ same_region h h')
    [(shaped_and fuel shape g g', shaped_and fuel' shape' g g'); (shaped_or fuel shape g g', shaped_or fuel' shape' g g');
     (shaped_sub fuel shape g g', shaped_sub fuel' shape' g g'); (shaped_xor fuel shape g g', shaped_xor fuel' shape' g g')].
Proof.
  intros F F'. apply Forall_cons; [|apply Forall_cons; [|apply Forall_cons; [|apply Forall_cons; [|constructor]]]]; cbn [fst snd].
  - apply (agree _ _ _ _ (And fuel shape F) (And fuel' shape' F')). intros z _. tauto.
  - apply (agree _ _ _ _ (Or fuel shape F) (Or fuel' shape' F')). intros z _. tauto.
  - apply (agree _ _ _ _ (Sub fuel shape F) (Sub fuel' shape' F')). intros z _. tauto.
  - apply (agree _ _ _ _ (Xor fuel shape F) (Xor fuel' shape' F')). intros z _. tauto.
Qed.
(** A part of the other. *)
Theorem part_laws fuel shape : fits fuel -> part g g' ->
  (exists h, shaped_and fuel shape g g' = Some (Clips h) /\ same_region h g)
  /\ (exists h, shaped_or fuel shape g g' = Some (Clips h) /\ same_region h g')
  /\ shaped_sub fuel shape g g' = Some (Clips GEmpty)
  /\ exists h h', shaped_xor fuel shape g g' = Some (Clips h) /\ shaped_sub fuel shape g' g = Some (Clips h') /\ same_region h h'.
Proof.
  intros F P. assert (C := proj1 (clear_part g g' V V') P). split; [|split; [|split]].
  - apply (agree_with _ _ _ _ (And fuel shape F) (operand_region g g' V V')). intros z Z. specialize (C z Z). tauto.
  - apply (agree_with _ _ _ _ (Or fuel shape F) (region_swap g g' g' _ (operand_region g' g V' V))). intros z Z. specialize (C z Z). tauto.
  - apply sub_empty; auto.
  - apply (agree _ _ _ _ (Xor fuel shape F) (made_swap g g' _ _ (drawn_region _ _ _ _ (drawn_sub g' g shape fuel V' V (fits_swap fuel F))))). intros z Z. specialize (C z Z). tauto.
Qed.
(** No common interior. *)
Theorem apart_laws fuel shape : fits fuel -> ~ interiors_meet g g' ->
  shaped_and fuel shape g g' = Some (Clips GEmpty)
  /\ (exists h, shaped_sub fuel shape g g' = Some (Clips h) /\ same_region h g)
  /\ exists h h', shaped_or fuel shape g g' = Some (Clips h) /\ shaped_xor fuel shape g g' = Some (Clips h') /\ same_region h h'.
Proof.
  intros F N. assert (C : forall z, clear_of g g' z -> ~ (inside g z /\ inside g' z)) by (intros z _ Q; apply N; exists z; auto). split; [|split].
  - apply and_empty; auto.
  - apply (agree_with _ _ _ _ (Sub fuel shape F) (operand_region g g' V V')). intros z Z. specialize (C z Z). tauto.
  - apply (agree _ _ _ _ (Or fuel shape F) (Xor fuel shape F)). intros z Z. specialize (C z Z). tauto.
Qed.

(** The answers of [relate_to]. *)
Lemma inside_some_iff k x : valid_shaped k -> (inside_some (polygons_of k) x <-> inside k x).
Proof. clear. intros V. symmetry. apply (proj1 (located k x V)). Qed.
Lemma boundary_some_iff k x : valid_shaped k -> (boundary_some (polygons_of k) x <-> outlined k x).
Proof. clear. intros V. rewrite (outlined_located k x V). symmetry. apply (proj2 (located k x V)). Qed.
Lemma part_meet a b : valid_shaped a -> valid_shaped b -> part a b -> interiors_meet a b.
Proof.
  clear. intros Va Vb P. destruct (some_interior a b Va Vb) as (z & C & I). exists z. split; auto. exact (proj1 (clear_part a b Va Vb) P z C I).
Qed.
Lemma meet_sym a b : interiors_meet a b -> interiors_meet b a.
Proof. clear. intros (x & A & B). exists x. auto. Qed.
Definition inner r := r = EQUAL \/ r = WITHIN \/ r = ENCLOSED \/ r = COMPONENT.
Definition outer r := r = EQUAL \/ r = COVER \/ r = ENCLOSES \/ r = COMPOSITE.
Theorem relation_laws r : lists_relation (polygons_of g) (polygons_of g') r ->
  (~ interiors_meet g g' <-> r = DISJOINT \/ r = TOUCH) /\ (part g g' <-> inner r) /\ (part g' g <-> outer r).
Proof.
  intros L. assert (Pm := part_meet g g' V V'). assert (Pm' : part g' g -> interiors_meet g g') by (intros P; apply meet_sym, part_meet; auto).
  assert (Q : (~ interiors_meet g g' <-> ~ exists x, inside_some (polygons_of g) x /\ inside_some (polygons_of g') x)
    /\ (interiors_meet g g' <-> exists x, inside_some (polygons_of g) x /\ inside_some (polygons_of g') x)).
  { assert (E : interiors_meet g g' <-> exists x, inside_some (polygons_of g) x /\ inside_some (polygons_of g') x); [|tauto].
    split; intros (x & A & B); exists x; (split; [apply (inside_some_iff g x V)|apply (inside_some_iff g' x V')]); auto. }
  assert (P : part g g' <-> forall x, inside_some (polygons_of g) x \/ boundary_some (polygons_of g) x -> inside_some (polygons_of g') x \/ boundary_some (polygons_of g') x).
  { split; intros H x; specialize (H x); rewrite ?inside_some_iff, ?boundary_some_iff in *; auto. }
  assert (P' : part g' g <-> forall x, inside_some (polygons_of g') x \/ boundary_some (polygons_of g') x -> inside_some (polygons_of g) x \/ boundary_some (polygons_of g) x).
  { split; intros H x; specialize (H x); rewrite ?inside_some_iff, ?boundary_some_iff in *; auto. }
  unfold lists_relation, sets_relation in L. unfold inner, outer. destruct Q as [_ Q]. rewrite Q in *.
  set (ip := forall x, _ -> inside_some (polygons_of g') x \/ _) in *. set (ip' := forall x, _ -> inside_some (polygons_of g) x \/ _) in *.
  assert (Dm : (~ exists x, (inside_some (polygons_of g) x \/ boundary_some (polygons_of g) x) /\ (inside_some (polygons_of g') x \/ boundary_some (polygons_of g') x)) ->
    ~ exists x, inside_some (polygons_of g) x /\ inside_some (polygons_of g') x) by (intros N (x & A & B); apply N; exists x; auto).
  set (mt := exists x, inside_some (polygons_of g) x /\ inside_some (polygons_of g') x) in *.
  set (rm := exists x, (_ \/ _) /\ _) in *.
  clearbody ip ip' mt rm. clear - L P P' Pm Pm' Q Dm.
  destruct r; rewrite ?P, ?P'; repeat split; intros; intuition (try discriminate).
Qed.
Theorem relate_operators fuel shape : Forall oriented (polygons_of g) -> Forall oriented (polygons_of g') -> settled (polygons_of g) -> settled (polygons_of g') -> fits fuel ->
  exists r, shaped_relate_to fuel shape g g' = Some (Relates r)
    /\ (shaped_and fuel shape g g' = Some (Clips GEmpty) <-> r = DISJOINT \/ r = TOUCH)
    /\ (shaped_sub fuel shape g g' = Some (Clips GEmpty) <-> inner r)
    /\ (shaped_sub fuel shape g' g = Some (Clips GEmpty) <-> outer r)
    /\ (shaped_xor fuel shape g g' = Some (Clips GEmpty) <-> r = EQUAL).
Proof.
  intros Or1 Or2 S1 S2 F. destruct (shaped_related g g' shape fuel V V' Or1 Or2 S1 S2 F) as (r & E & L). exists r. split; auto.
  destruct (relation_laws r L) as (A & B & C). rewrite (and_empty fuel shape F), (sub_empty fuel shape F), (xor_empty fuel shape F).
  split; [exact A|]. split; [exact B|]. split.
  - rewrite <- C. apply (sub_nothing g' g V' V). apply drawn_region, drawn_sub; auto. apply fits_swap; auto.
  - rewrite B, C. unfold inner, outer. split; [intros [H H']|intros ->; auto]. destruct H as [->|[->|[->| ->]]]; auto; destruct H' as [H'|[H'|[H'|H']]]; discriminate.
Qed.
End Operators.
