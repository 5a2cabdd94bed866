(** Consequences: the laws of the operators, and their agreement with [relate_to]. *)
From Coq Require Import QArith Qcanon Bool List Arith Lia Permutation.
From Verif Require Import QcTac Model_Base Model_Utils Model_Box Model_Geometry Model_Contour Model_Linear Model_Mixed Model_Shaped Model_Multipolygon Spec_Base Spec_Segment Spec_Clip Spec_Contour
  Spec_Relate Spec_Bounds Spec_Sweep Spec_Shaped Spec_Multipolygon Spec_RelateShaped Spec_Tight
  Proof_Base Proof_Line Proof_SegRel Proof_SegOps Proof_Relate6 Proof_SegLoops Proof_Contour Proof_Contour2 Proof_Edges Proof_Bounds Proof_Shrink Proof_Locate Proof_Locate3 Proof_Locate4 Proof_Sweep4 Proof_Sweep6 Proof_Sweep18 Proof_Parity
  Proof_Corner Proof_Region Proof_Ray Proof_Orient Proof_Nested Proof_Nested2 Proof_Bridge Proof_Odd Proof_Clip Proof_Ready Proof_RelShaped6 Proof_Polygons Proof_Multi Proof_Multi2 Proof_Multi3 Proof_Multi4
  Proof_RelateMulti2 Proof_RelateMulti3 Proof_Tight1 Proof_Tight3 Proof_Tight4 Proof_Tight5 Proof_Tight6 Proof_Located Proof_Tight7 Proof_Tight8.
Import ListNotations.
Local Open Scope Qc_scope.

Record region_of (g g' h : geometry) (holds : point -> Prop) : Prop := {
  ro_two : two_sided (outlines (geometry_rings g) ++ outlines (geometry_rings g')) (geometry_rings h);
  ro_sub : forall x, outlined h x -> outlined g x \/ outlined g' x;
  ro_odd : forall q, clear_of g g' q -> (inside_odd (geometry_rings h) q <-> holds q) }.

Lemma outlined_located g x : valid_shaped g -> (outlined g x <-> geometry_locate g x = BOUNDARY).
Proof. intros V. rewrite (proj2 (located g x V)). unfold outlined. rewrite rings_parts. apply boundary_list. Qed.
Lemma inside_clear g x : valid_shaped g -> inside g x -> ~ outlined g x.
Proof. intros V I O. apply outlined_located in O; auto. unfold inside in I. congruence. Qed.
Lemma inside_odd_clear g q : valid_shaped g -> ~ outlined g q -> (inside_odd (geometry_rings g) q <-> inside g q).
Proof.
  intros V Off. rewrite (inside_parts g q V Off). rewrite rings_parts. unfold outlined in Off. rewrite rings_parts in Off. pose proof (list_odd (parts_of g) q (valid_parts g V) Off) as E. rewrite odd_xsum. symmetry. exact E.
Qed.
Lemma sides_ext (off P Q : point -> Prop) (x : point) : (forall z, off z -> (P z <-> Q z)) -> between_sides off P x -> between_sides off Q x.
Proof.
  intros E B d Pd. destruct (B d Pd) as [(q1 & C1 & O1 & H1) (q2 & C2 & O2 & H2)]. split; [exists q1|exists q2]; (split; [|split]); auto; [apply E; auto|].
  intros H. apply H2. apply E; auto.
Qed.
Lemma inside_parity g q : valid_shaped g -> ~ outlined g q -> (inside g q <-> parity (outlines (geometry_rings g)) q = true).
Proof. intros V Off. rewrite <- (inside_odd_clear g q V Off). apply odd_parity. exact Off. Qed.
(** A point inside stays inside for some way, and so does one outside. *)
Lemma inside_round g x : valid_shaped g -> ~ outlined g x -> exists d, 0 < d /\ forall y, close_to d x y -> ~ outlined g y /\ (inside g y <-> inside g x).
Proof.
  intros V Off. destruct (parity_round _ x Off) as (d & P & G). exists d. split; auto. intros y C. destruct (G y C) as [O E]. split; auto.
  rewrite (inside_parity g y V O), (inside_parity g x V Off), E. tauto.
Qed.

Section Pair.
Variables g g' : geometry.
Hypothesis V : valid_shaped g.
Hypothesis V' : valid_shaped g'.
Notation S0 := (outlines (geometry_rings g) ++ outlines (geometry_rings g')).
Lemma proper_both : Forall proper_seg S0.
Proof. apply Forall_app. split; apply proper_parts; auto. Qed.
Lemma operand_region : region_of g g' g (inside g).
Proof. constructor; [apply drawn_operand; auto|auto|]. intros q [A _]. apply inside_odd_clear; auto. Qed.
Lemma two_swap rs : two_sided (outlines (geometry_rings g') ++ outlines (geometry_rings g)) rs -> two_sided S0 rs.
Proof.
  intros T x d v O P. destruct (T x d v O P) as (z & C & N & E). exists z. split; auto. split; auto. apply off_segs_app. apply off_segs_app in N. tauto.
Qed.
Lemma region_swap h holds : region_of g' g h holds -> region_of g g' h holds.
Proof.
  intros [T S O]. constructor; [apply two_swap; auto|intros x H; specialize (S x H); tauto|]. intros q [A B]. apply O. split; auto.
Qed.
Lemma near_clear x d : 0 < d -> exists z, close_to d x z /\ clear_of g g' z.
Proof. intros P. destruct (off_near S0 x d proper_both P) as (z & C & O). exists z. split; auto. apply clear_split; auto. Qed.

Theorem region_sides h holds : region_of g g' h holds -> forall x, outlined h x <-> between_sides (clear_of g g') holds x.
Proof. intros [T S O] x. apply outline_sides; auto. Qed.
Theorem region_same h1 h2 P1 P2 : region_of g g' h1 P1 -> region_of g g' h2 P2 -> (forall z, clear_of g g' z -> (P1 z <-> P2 z)) -> same_region h1 h2.
Proof.
  intros R1 R2 E. assert (Q : forall x, outlined h1 x <-> outlined h2 x).
  { intros x. rewrite (region_sides h1 P1 R1), (region_sides h2 P2 R2). split; apply sides_ext; intros z C; [|symmetry]; auto. }
  split; auto. intros q N1. assert (N2 : ~ outlined h2 q) by (rewrite <- Q; auto).
  destruct (parity_round _ q N1) as (d1 & D1 & G1), (parity_round _ q N2) as (d2 & D2 & G2).
  assert (Mm : exists d, 0 < d /\ d <= d1 /\ d <= d2) by (clear - D1 D2; destruct (Qclt_le_dec d1 d2); [exists d1|exists d2]; repeat split; qlra).
  destruct Mm as (d & D & L1 & L2). destruct (near_clear q d D) as (z & C & Cl).
  destruct (G1 z (close_less _ _ _ _ L1 C)) as [O1 E1], (G2 z (close_less _ _ _ _ L2 C)) as [O2 E2].
  rewrite (odd_parity _ q N1), (odd_parity _ q N2), <- E1, <- E2, <- (odd_parity _ z O1), <- (odd_parity _ z O2), (ro_odd _ _ _ _ R1 z Cl), (ro_odd _ _ _ _ R2 z Cl). auto.
Qed.
(** The set operations, with sets given by their interiors. *)
Lemma some_interior : exists z, clear_of g g' z /\ inside g z.
Proof.
  assert (Nd : exists x, outlined g x).
  { clear V'. assert (Q : exists p, In p (parts_of g)) by (destruct g as [| | | |p|[|p l]]; try contradiction; [exists p; left; auto|destruct V as [L _]; cbn [length] in L; lia|exists p; left; auto]).
    destruct Q as (p & I). destruct (boundary_point p) as (x & B); [apply (each_valid (parts_of g)); auto; apply valid_parts; auto|].
    exists x. unfold outlined. rewrite rings_parts. apply boundary_list. exists p. auto. }
  destruct Nd as (x & O). apply (region_sides g (inside g) operand_region) in O. destruct (O 1) as [(z & _ & C & H) _]; [vm_compute; reflexivity|]. exists z. auto.
Qed.
Lemma clear_meet : interiors_meet g g' <-> exists z, clear_of g g' z /\ inside g z /\ inside g' z.
Proof. split; [intros (x & A & B); exists x; split; [split; apply inside_clear; auto|auto]|intros (z & _ & A & B); exists z; auto]. Qed.
Lemma clear_part : part g g' <-> forall z, clear_of g g' z -> inside g z -> inside g' z.
Proof.
  split.
  - intros P z [_ C] I. destruct (P z (or_introl I)); auto; contradiction.
  - intros Q x X. destruct (on_segs_dec (outlines (geometry_rings g')) x) as [O|O]; [right; exact O|left].
    destruct (inside_round g' x V' O) as (d & D & G). destruct X as [I|B].
    + destruct (inside_round g x V (inside_clear g x V I)) as (d1 & D1 & G1).
      assert (Mm : exists m, 0 < m /\ m <= d1 /\ m <= d) by (clear - D1 D; destruct (Qclt_le_dec d1 d); [exists d1|exists d]; repeat split; qlra).
      destruct Mm as (m & M & L1 & L2). destruct (near_clear x m M) as (z & C & Cl).
      apply (G z (close_less _ _ _ _ L2 C)), Q; auto. apply (G1 z (close_less _ _ _ _ L1 C)); auto.
    + apply (region_sides g (inside g) operand_region) in B. destruct (B d D) as [(z & C & Cl & H) _]. apply (G z C). apply Q; auto.
Qed.
End Pair.
