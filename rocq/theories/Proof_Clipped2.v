(** The points of the results of set operations of polygons and multipolygons, and clipping with
    such results and with multipolygons. *)
From Coq Require Import QArith Qcanon Bool List Arith Lia Permutation.
From Verif Require Import QcTac Model_Base Model_Utils Model_Box Model_Geometry Model_Contour Model_Segment Model_Linear Model_Mixed Model_Shaped Model_Multipolygon Model_MixedClip Model_MixedDiff Model_LinearOperators
  Spec_Base Spec_Segment Spec_Clip Spec_Contour Spec_Bounds Spec_Sweep Spec_Shaped Spec_Multipolygon Spec_RelateShaped Spec_Tight Spec_MixedClip Spec_MixedDiff Spec_LinearLaws Spec_ClippedLaws
  Proof_Base Proof_Line Proof_SegRel Proof_SegOps Proof_SegLoops Proof_Locate Proof_Sweep17 Proof_Sweep19 Proof_Sweep20
  Proof_Multi2 Proof_Multi3 Proof_Multi4 Proof_RelateMulti2 Proof_RelateMulti3 Proof_Tight1 Proof_Tight3 Proof_Tight4 Proof_Tight5 Proof_Tight6 Proof_Tight7 Proof_Tight8 Proof_Tight9 Proof_Tight10 Proof_Located Proof_Mix10 Proof_LinearLaws1 Proof_LinearLaws2 Proof_LinearLaws3 Proof_LinearLaws4 Proof_Clipped1.
Import ListNotations.
Local Open Scope Qc_scope.

Lemma contains_cases b p : valid_shaped b -> (geometry_contains b p = true <-> inside b p \/ outlined b p).
Proof.
  intros V. rewrite contains_located, (outlined_located b p V). unfold inside. destruct (geometry_locate b p); split; intros H; auto; try discriminate;
    [exfalso; apply H; reflexivity|destruct H; discriminate].
Qed.
Lemma not_contains_round b p : valid_shaped b -> geometry_contains b p = false -> exists d, 0 < d /\ forall y, close_to d p y -> ~ outlined b y /\ ~ inside b y.
Proof.
  intros V C. assert (N : ~ (inside b p \/ outlined b p)) by (rewrite <- (contains_cases b p V), C; discriminate).
  destruct (inside_round b p V) as (d & P & H); [tauto|]. exists d. split; [exact P|]. intros y Cy. destruct (H y Cy) as [A B]. tauto.
Qed.
Lemma inside_ball b p : valid_shaped b -> inside b p -> exists d, 0 < d /\ forall y, close_to d p y -> inside b y.
Proof.
  intros V I. destruct (inside_round b p V (inside_clear b p V I)) as (d & P & H). exists d. split; [exact P|]. intros y Cy. apply H; assumption.
Qed.
Lemma closer d d' p q : d <= d' -> close_to d p q -> close_to d' p q.
Proof. unfold close_to. intros L (A & B & C & D). repeat split; qlra. Qed.
Lemma smaller d1 d2 : 0 < d1 -> 0 < d2 -> exists d, 0 < d /\ d <= d1 /\ d <= d2.
Proof. intros A B. destruct (Qclt_le_dec d1 d2); [exists d1|exists d2]; repeat split; qlra. Qed.

Section Pair.
Variables g g' : geometry.
Hypothesis V : valid_shaped g.
Hypothesis V' : valid_shaped g'.
(** Points off the outlines with the property, however near. *)
Definition reached (P : point -> Prop) (x : point) : Prop := forall d, 0 < d -> exists z, close_to d x z /\ clear_of g g' z /\ P z.
Lemma region_contains h P : valid_shaped h -> region_of g g' h P -> forall x, geometry_contains h x = true <-> reached P x.
Proof.
  intros Vh R x. split.
  - intros C d Pd. apply (contains_cases h x Vh) in C. destruct C as [I|O].
    + destruct (inside_ball h x Vh I) as (d1 & P1 & B). destruct (smaller d d1 Pd P1) as (e & Pe & L1 & L2).
      destruct (near_clear g g' V V' x e Pe) as (z & Cz & Cl). exists z. split; [exact (closer _ _ _ _ L1 Cz)|]. split; [exact Cl|].
      apply (ro_odd _ _ _ _ R z Cl). assert (Iz : inside h z) by (apply B, (closer _ _ _ _ L2 Cz)).
      apply inside_odd_clear; [exact Vh|apply inside_clear; assumption|exact Iz].
    + apply (Proof_Tight9.region_sides g g' h P R) in O. destruct (O d Pd) as [(q & Cq & Cl & Pq) _]. exists q. auto.
  - intros H. destruct (geometry_contains h x) eqn:C; [reflexivity|]. exfalso.
    destruct (not_contains_round h x Vh C) as (d & Pd & N). destruct (H d Pd) as (z & Cz & Cl & Pz).
    destruct (N z Cz) as [N1 N2]. apply N2. apply inside_odd_clear; [exact Vh|exact N1|]. apply (ro_odd _ _ _ _ R z Cl), Pz.
Qed.
Lemma first_contains x : geometry_contains g x = true <-> reached (inside g) x.
Proof. apply (region_contains g (inside g) V), operand_region; assumption. Qed.
Lemma second_contains x : geometry_contains g' x = true <-> reached (inside g') x.
Proof.
  assert (R : region_of g g' g' (inside g')) by (apply region_swap, operand_region; assumption).
  apply (region_contains g' (inside g') V' R).
Qed.
Section Result.
Variable h : geometry.
Hypothesis Vh : valid_shaped h.
Lemma or_contains o : made_of g g' o (fun z => inside g z \/ inside g' z) -> o = Some (Clips h) ->
  forall x, geometry_contains h x = geometry_contains g x || geometry_contains g' x.
Proof.
  intros (h' & E & _ & _ & R) E' x. assert (h' = h) by (rewrite E in E'; injection E'; auto). subst h'.
  apply eq_true_iff_eq. rewrite orb_true_iff, (region_contains h _ Vh R), first_contains, second_contains. split.
  - intros H. destruct (geometry_contains g x) eqn:C; [left; apply first_contains, C|].
    destruct (geometry_contains g' x) eqn:C'; [right; apply second_contains, C'|]. exfalso.
    destruct (not_contains_round g x V C) as (d1 & P1 & N1). destruct (not_contains_round g' x V' C') as (d2 & P2 & N2).
    destruct (smaller d1 d2 P1 P2) as (d & Pd & L1 & L2). destruct (H d Pd) as (z & Cz & _ & [I|I]).
    + apply (N1 z (closer _ _ _ _ L1 Cz)), I.
    + apply (N2 z (closer _ _ _ _ L2 Cz)), I.
  - intros [H|H] d Pd; destruct (H d Pd) as (z & Cz & Cl & I); exists z; auto.
Qed.
Lemma and_contains o : made_of g g' o (fun z => inside g z /\ inside g' z) -> o = Some (Clips h) ->
  forall x, (geometry_contains h x = true -> geometry_contains g x = true /\ geometry_contains g' x = true)
  /\ (inside g x -> geometry_contains g' x = true -> geometry_contains h x = true)
  /\ (geometry_contains g x = true -> inside g' x -> geometry_contains h x = true).
Proof.
  intros (h' & E & _ & _ & R) E' x. assert (h' = h) by (rewrite E in E'; injection E'; auto). subst h'.
  rewrite (region_contains h _ Vh R), first_contains, second_contains. split; [|split].
  - intros H. split; intros d Pd; destruct (H d Pd) as (z & Cz & Cl & I & I'); exists z; auto.
  - intros I H d Pd. destruct (inside_ball g x V I) as (d1 & P1 & B). destruct (smaller d d1 Pd P1) as (e & Pe & L1 & L2).
    destruct (H e Pe) as (z & Cz & Cl & I'). exists z. split; [exact (closer _ _ _ _ L1 Cz)|]. split; [exact Cl|]. split; [apply B, (closer _ _ _ _ L2 Cz)|exact I'].
  - intros H I d Pd. destruct (inside_ball g' x V' I) as (d1 & P1 & B). destruct (smaller d d1 Pd P1) as (e & Pe & L1 & L2).
    destruct (H e Pe) as (z & Cz & Cl & I'). exists z. split; [exact (closer _ _ _ _ L1 Cz)|]. split; [exact Cl|]. split; [exact I'|apply B, (closer _ _ _ _ L2 Cz)].
Qed.
Lemma sub_contains o : made_of g g' o (fun z => inside g z /\ ~ inside g' z) -> o = Some (Clips h) ->
  forall x, (geometry_contains h x = true -> geometry_contains g x = true /\ ~ inside g' x)
  /\ (geometry_contains g x = true -> geometry_contains g' x = false -> geometry_contains h x = true).
Proof.
  intros (h' & E & _ & _ & R) E' x. assert (h' = h) by (rewrite E in E'; injection E'; auto). subst h'.
  rewrite (region_contains h _ Vh R), first_contains. split.
  - intros H. split; [intros d Pd; destruct (H d Pd) as (z & Cz & Cl & I & I'); exists z; auto|].
    intros I. destruct (inside_ball g' x V' I) as (d & Pd & B). destruct (H d Pd) as (z & Cz & _ & _ & N). apply N, B, Cz.
  - intros H C d Pd. destruct (not_contains_round g' x V' C) as (d1 & P1 & N). destruct (smaller d d1 Pd P1) as (e & Pe & L1 & L2).
    destruct (H e Pe) as (z & Cz & Cl & I). exists z. split; [exact (closer _ _ _ _ L1 Cz)|]. split; [exact Cl|]. split; [exact I|apply (N z (closer _ _ _ _ L2 Cz))].
Qed.
Lemma xor_contains o : made_of g g' o (fun z => (inside g z /\ ~ inside g' z) \/ (inside g' z /\ ~ inside g z)) -> o = Some (Clips h) ->
  forall x, (geometry_contains h x = true -> geometry_contains g x || geometry_contains g' x = true /\ ~ (inside g x /\ inside g' x))
  /\ (xorb (geometry_contains g x) (geometry_contains g' x) = true -> geometry_contains h x = true).
Proof.
  intros (h' & E & _ & _ & R) E' x. assert (h' = h) by (rewrite E in E'; injection E'; auto). subst h'.
  rewrite (region_contains h _ Vh R). split.
  - intros H. split.
    + destruct (geometry_contains g x) eqn:C; [reflexivity|]. destruct (geometry_contains g' x) eqn:C'; [reflexivity|]. exfalso.
      destruct (not_contains_round g x V C) as (d1 & P1 & N1). destruct (not_contains_round g' x V' C') as (d2 & P2 & N2).
      destruct (smaller d1 d2 P1 P2) as (d & Pd & L1 & L2). destruct (H d Pd) as (z & Cz & _ & [[I _]|[I _]]).
      * apply (N1 z (closer _ _ _ _ L1 Cz)), I.
      * apply (N2 z (closer _ _ _ _ L2 Cz)), I.
    + intros [I I']. destruct (inside_ball g x V I) as (d1 & P1 & B1). destruct (inside_ball g' x V' I') as (d2 & P2 & B2).
      destruct (smaller d1 d2 P1 P2) as (d & Pd & L1 & L2). destruct (H d Pd) as (z & Cz & _ & [[_ N]|[_ N]]); apply N.
      * apply B2, (closer _ _ _ _ L2 Cz).
      * apply B1, (closer _ _ _ _ L1 Cz).
  - destruct (geometry_contains g x) eqn:C, (geometry_contains g' x) eqn:C'; try discriminate; intros _ d Pd.
    + apply first_contains in C. destruct (not_contains_round g' x V' C') as (d1 & P1 & N). destruct (smaller d d1 Pd P1) as (e & Pe & L1 & L2).
      destruct (C e Pe) as (z & Cz & Cl & I). exists z. split; [exact (closer _ _ _ _ L1 Cz)|]. split; [exact Cl|]. left. split; [exact I|apply (N z (closer _ _ _ _ L2 Cz))].
    + apply second_contains in C'. destruct (not_contains_round g x V C) as (d1 & P1 & N). destruct (smaller d d1 Pd P1) as (e & Pe & L1 & L2).
      destruct (C' e Pe) as (z & Cz & Cl & I). exists z. split; [exact (closer _ _ _ _ L1 Cz)|]. split; [exact Cl|]. right. split; [exact I|apply (N z (closer _ _ _ _ L2 Cz))].
Qed.
End Result.

(** The operators. *)
Section Operators.
Variables (fuel : nat) (shape : tree_shape) (h : geometry).
Hypothesis Fits : (enough (shaped_size g + shaped_size g') <= fuel)%nat.
Hypothesis Vh : valid_shaped h.
Theorem union_contains : shaped_or fuel shape g g' = Some (Clips h) ->
  forall x, geometry_contains h x = geometry_contains g x || geometry_contains g' x.
Proof. apply (or_contains h Vh), drawn_region, drawn_or; assumption. Qed.
Theorem common_contains : shaped_and fuel shape g g' = Some (Clips h) ->
  forall x, (geometry_contains h x = true -> geometry_contains g x = true /\ geometry_contains g' x = true)
  /\ (inside g x -> geometry_contains g' x = true -> geometry_contains h x = true)
  /\ (geometry_contains g x = true -> inside g' x -> geometry_contains h x = true).
Proof. apply (and_contains h Vh), drawn_region, drawn_and; assumption. Qed.
Theorem difference_contains : shaped_sub fuel shape g g' = Some (Clips h) ->
  forall x, (geometry_contains h x = true -> geometry_contains g x = true /\ ~ inside g' x)
  /\ (geometry_contains g x = true -> geometry_contains g' x = false -> geometry_contains h x = true).
Proof. apply (sub_contains h Vh), drawn_region, drawn_sub; assumption. Qed.
Theorem symmetric_contains : shaped_xor fuel shape g g' = Some (Clips h) ->
  forall x, (geometry_contains h x = true -> geometry_contains g x || geometry_contains g' x = true /\ ~ (inside g x /\ inside g' x))
  /\ (xorb (geometry_contains g x) (geometry_contains g' x) = true -> geometry_contains h x = true).
Proof. apply (xor_contains h Vh), drawn_region, drawn_xor; assumption. Qed.

(** Clipping with a union. *)
Theorem clip_union s t u v e : lvalid e -> shaped_or fuel shape g g' = Some (Clips h) ->
  law (LInside s e h) (LOr t (LInside u e g) (LInside v e g')).
Proof.
  intros Ve E. pose proof (union_contains E) as C. apply pointwise; cbn [lvalid denotes]; [tauto|tauto|]. intros p. rewrite C, orb_true_iff. tauto.
Qed.
(** A union less one of the operands, and the rest; the same with the symmetric difference. *)
Theorem clip_difference s t u v w e : lvalid e -> shaped_sub fuel shape g g' = Some (Clips h) ->
  law (LOr s (LInside t e h) (LInside u (LInside v e g) g')) (LInside w e g).
Proof.
  intros Ve E. pose proof (difference_contains E) as C. apply pointwise; cbn [lvalid denotes]; [tauto|tauto|]. intros p. destruct (C p) as [C1 C2].
  destruct (geometry_contains g' p); [|intuition congruence]. split; [tauto|]. intros [D H]. right. auto.
Qed.
Theorem clip_symmetric s t u v w w' w'' e : lvalid e -> shaped_xor fuel shape g g' = Some (Clips h) ->
  law (LOr s (LInside t e h) (LInside u (LInside v e g) g')) (LOr w (LInside w' e g) (LInside w'' e g')).
Proof.
  intros Ve E. pose proof (symmetric_contains E) as C. apply pointwise; cbn [lvalid denotes]; [tauto|tauto|]. intros p. destruct (C p) as [C1 C2].
  destruct (geometry_contains g p), (geometry_contains g' p); cbn in C1, C2; intuition congruence.
Qed.
(** The intersection, next to that with the symmetric difference. *)
Theorem clip_common s t u e k l : lvalid e -> shaped_and fuel shape g g' = Some (Clips h) ->
  comes_to (LInside s e h) k -> comes_to (LInside t (LInside u e g) g') l -> forall p, on_geometry k p -> on_geometry l p.
Proof.
  intros Ve E K L. pose proof (common_contains E) as C.
  assert (V1 : lvalid (LInside s e h)) by (split; assumption). assert (V2 : lvalid (LInside t (LInside u e g) g')) by (split; [split|]; assumption).
  destruct (expressions _ V1) as [_ X1]. destruct (X1 k K) as [Vk (F & A)]. destruct (expressions _ V2) as [_ X2]. destruct (X2 l L) as [Vl (G & B)].
  apply (almost_within (parts k) (parts l) (F ++ G)); [apply linear_proper, Vk|apply linear_proper, Vl|].
  intros p N O. rewrite in_app_iff in N. apply (B p); [tauto|]. apply (A p) in O; [|tauto]. cbn [denotes] in *. destruct O as [D H].
  destruct (C p) as [C1 _]. destruct (C1 H). tauto.
Qed.
(** What is left of a linear geometry without a union. *)
Theorem leave_union s t u v w e k l : lvalid e -> shaped_or fuel shape g g' = Some (Clips h) ->
  leaves s e h k -> comes_to (LSub t (LSub u e (LInside v e g)) (LInside w e g')) l -> same_points_as k l.
Proof.
  intros Ve E L K. pose proof (union_contains E) as C.
  apply (leaves_expression e (LSub t (LSub u e (LInside v e g)) (LInside w e g')) h s); [exact Ve|cbn [lvalid]; tauto|exact Vh| |exact L|exact K].
  apply almost_of. intros p. unfold denotes_outside. cbn [denotes]. rewrite C.
  destruct (geometry_contains g p), (geometry_contains g' p); cbn; intuition congruence.
Qed.
End Operators.
End Pair.

(** A multipolygon is the union of its polygons. *)
Lemma many_contains l x : valid_shaped (GMultipolygon l) -> (geometry_contains (GMultipolygon l) x = true <-> exists p, In p l /\ geometry_contains (GPolygon p) x = true).
Proof.
  intros V. rewrite (shaped_contains _ x V). assert (W : forall p, In p l -> valid_shaped (GPolygon p)).
  { intros p I. pose proof (vm_each _ (proj2 V)) as E. rewrite Forall_forall in E. apply E, I. }
  split.
  - intros (p & I & R). exists p. split; [exact I|]. apply (shaped_contains _ x (W p I)). exists p. split; [left; reflexivity|exact R].
  - intros (p & I & C). apply (shaped_contains _ x (W p I)) in C. destruct C as (q & [<-|[]] & R). exists p. split; [exact I|exact R].
Qed.
Lemma inside_each_valid shapes e l : lvalid e -> Forall valid_polygon l -> lvalid (inside_each shapes e l).
Proof. intros V W. induction W; cbn [inside_each lvalid]; [exact Logic.I|]. split; [split; assumption|assumption]. Qed.
Lemma inside_each_denotes shapes e l p : denotes (inside_each shapes e l) p <-> denotes e p /\ exists q, In q l /\ geometry_contains (GPolygon q) p = true.
Proof.
  induction l as [|a l IH]; cbn [inside_each denotes].
  - split; [intros (s & [] & _)|intros (_ & q & [] & _)].
  - rewrite IH. split.
    + intros [[D C]|(D & q & I & C)]; (split; [exact D|]); [exists a|exists q]; (split; [|exact C]); [left; reflexivity|right; exact I].
    + intros (D & q & [<-|I] & C); [left|right]; (split; [exact D|]); [exact C|exists q; split; assumption].
Qed.
Theorem clip_multipolygon s shapes e l : lvalid e -> valid_shaped (GMultipolygon l) ->
  law (LInside s e (GMultipolygon l)) (inside_each shapes e l).
Proof.
  intros Ve V. apply pointwise; [split; assumption|apply inside_each_valid; [exact Ve|apply (vm_each _ (proj2 V))]|].
  intros p. rewrite inside_each_denotes. cbn [denotes]. rewrite (many_contains l p V). reflexivity.
Qed.

(** When there is nothing outside. *)
Lemma sub_collected fuel shape a b g : several_input a -> valid_shaped b -> (enough (length (parts a) + shaped_size b) <= fuel)%nat ->
  mixed_sub fuel shape a b = Some (Clips g) -> parts g = [] -> g = GEmpty.
Proof.
  intros Va Vb Fu E N.
  assert (A : g <> a). { intros ->. pose proof (multisegmental_two _ (proj1 Va)) as T. rewrite N in T. cbn in T. lia. }
  assert (Cl : forall l, clip_of (collect_maybe_empty_segments l) = Clips g -> g = GEmpty).
  { intros [|s [|t l]] X; cbn in X; injection X as X; subst g; [reflexivity|discriminate|discriminate]. }
  destruct a as [|s|l|vs|p|ps]; try (destruct Va as [[] _]); destruct b as [|s'|l'|vs'|p'|ps']; try contradiction Vb; cbn [mixed_sub] in E; injection E as E.
  all: unfold subtract_polygon_from_multisegmental, subtract_multipolygon_from_multisegmental in E.
  all: match type of E with (if ?c then _ else _) = _ => destruct c end; [injection E as E; congruence|].
  all: match type of E with context [with_common_continuum ?x ?y] => destruct (with_common_continuum x y) as [|s1 k1] end; [injection E as E; congruence|].
  all: try (match type of E with context [sharing_continuum ?x ?y] => destruct (sharing_continuum x y) as [|s2 k2] end; [injection E as E; congruence|]).
  all: match type of E with context [sweep_mixed ?a ?b ?c ?d ?e ?f ?g ?h] => destruct (sweep_mixed a b c d e f g h) end; [apply (Cl _ E)|discriminate|discriminate].
Qed.
Theorem outside_empty fuel shape a b : several_input a -> valid_shaped b -> (enough (length (parts a) + shaped_size b) <= fuel)%nat ->
  boxes_meet a b -> (mixed_sub fuel shape a b = Some (Clips GEmpty) <-> forall q, on_geometry a q -> geometry_contains b q = true).
Proof.
  intros Va Vb Fu M. destruct (sub_runs fuel shape a b Va Vb Fu) as (h & E & _).
  destruct (mixed_and_contained fuel shape a b (input_linear a Va) Vb Fu) as [(g & Eg & _) _].
  rewrite <- (none_outside fuel shape a b h Va Vb Fu E M). split.
  - intros X. assert (h = GEmpty) by (rewrite E in X; injection X; auto). subst h. reflexivity.
  - intros N. rewrite E. do 2 f_equal. exact (sub_collected fuel shape a b h Va Vb Fu E N).
Qed.
Theorem inside_empty fuel shape a b : linear_input a -> valid_shaped b -> (enough (length (parts a) + shaped_size b) <= fuel)%nat ->
  (mixed_and fuel shape a b = Some (Clips GEmpty) <-> ~ exists s t, In s (parts a) /\ seg_subset t s /\ proper_seg t /\ forall x, on_seg t x -> geometry_contains b x = true).
Proof.
  intros Va Vb Fu. destruct (mixed_and_contained fuel shape a b Va Vb Fu) as [(g & E & G & C) _].
  rewrite (gives_empty _ _ (gives_good _ _ g E G C)). split.
  - intros N (s & t & Is & Sb & Pr & K). apply (N (seg_start t)). exists s, t. repeat (split; [assumption || apply between_start|]). exact K.
  - intros N q (s & t & Is & Sb & Pr & _ & K). apply N. exists s, t. auto.
Qed.
