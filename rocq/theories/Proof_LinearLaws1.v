(** The operators between linear geometries of all kinds. *)
From Coq Require Import QArith Qcanon Bool List Arith Lia.
From Verif Require Import QcTac Model_Base Model_Box Model_Geometry Model_Segment Model_Linear Model_MixedClip Model_LinearOperators
  Spec_Base Spec_Segment Spec_Clip Spec_Bounds Spec_Sweep Spec_Multipolygon Spec_MixedClip Spec_LinearLaws
  Proof_Base Proof_Line Proof_SegRel Proof_SegOps Proof_SegOps2 Proof_SegOps3 Proof_SegLoops Proof_SegUnion Proof_Sweep17 Proof_Sweep19 Proof_Sweep20.
Import ListNotations.
Local Open Scope Qc_scope.

Lemma linear_parts g : linear_valid g -> non_crossing (parts g).
Proof.
  destruct g as [|s|l|vs|p|ps]; cbn; try tauto.
  - split; constructor.
  - intros H. split; repeat constructor. exact H.
Qed.
Lemma linear_proper g : linear_valid g -> Forall proper_seg (parts g).
Proof. intros V. apply (linear_parts g V). Qed.
Lemma good_linear g : good_result g -> linear_valid g.
Proof.
  intros [N G]. destruct g as [|s|l|vs|p|ps]; cbn in *; auto.
  destruct N as [P _]. inversion P; auto.
Qed.
Lemma on_single s p : on_segs [s] p <-> on_seg s p.
Proof. split; [intros (t & [<-|[]] & O); exact O|intros O; exists s; split; [left; reflexivity|exact O]]. Qed.
Lemma in_difference_single s t p : in_difference_list s [t] p <-> in_difference s t p.
Proof.
  unfold in_difference_list, in_difference. split; intros (O & q & N & Q & F); (split; [exact O|]); exists q; (split; [exact N|]); (split; [exact Q|]);
    intros r R; specialize (F r R); intros K; apply F; apply on_single; exact K.
Qed.
Lemma difference_lists_single s l p : in_difference_lists [s] l p <-> in_difference_list s l p.
Proof. split; [intros (t & [<-|[]] & O); exact O|intros O; exists s; split; [left; reflexivity|exact O]]. Qed.
Lemma difference_nothing k p : Forall proper_seg k -> (in_difference_lists k [] p <-> on_segs k p).
Proof.
  intros F. split; [apply difference_inside|]. intros O. apply outside_difference; auto. intros (s & [] & _).
Qed.
Lemma nothing_difference l p : ~ in_difference_lists [] l p.
Proof. intros (s & [] & _). Qed.
Lemma common_sym s t p : on_common_continuum s t p <-> on_common_continuum t s p.
Proof.
  unfold on_common_continuum, share_continuum. split; intros ((u & v & N & A & B & C & D) & E & F);
    (split; [exists u, v; auto|auto]).
Qed.

(** What an operator gives. *)
Definition gives (o : option clip_outcome) (P : point -> Prop) : Prop :=
  exists g, o = Some (Clips g) /\ linear_valid g /\ forall p, on_geometry g p <-> P p.
Lemma gives_good o P g : o = Some (Clips g) -> good_result g -> (forall p, on_geometry g p <-> P p) -> gives o P.
Proof. intros E G C. exists g. split; [exact E|]. split; [apply good_linear, G|exact C]. Qed.
Lemma gives_same o P Q : gives o P -> (forall p, P p <-> Q p) -> gives o Q.
Proof. intros (g & E & V & C) H. exists g. split; [exact E|]. split; [exact V|]. intros p. rewrite C. apply H. Qed.
Lemma gives_itself g : linear_valid g -> gives (Some (Clips g)) (on_segs (parts g)).
Proof. intros V. exists g. split; [reflexivity|]. split; [exact V|]. intros p; reflexivity. Qed.
Notation two := (fun g => multisegmental g /\ non_crossing (parts g)).
Lemma two_valid g : two g -> linear_valid g.
Proof. intros [M N]. destruct g; cbn in *; tauto. Qed.
Definition C_and (a b : geometry) := on_common_continuum_lists (parts a) (parts b).
Definition C_or (a b : geometry) (p : point) := on_segs (parts a) p \/ on_segs (parts b) p.
Definition C_sub (a b : geometry) := in_difference_lists (parts a) (parts b).
Definition C_xor (a b : geometry) (p : point) := in_difference_lists (parts a) (parts b) p \/ in_difference_lists (parts b) (parts a) p.

Section Pairs.
Variables (fuel : nat) (shape : tree_shape).
Lemma and_two a b : two a -> two b -> (enough (length (parts a) + length (parts b)) <= fuel)%nat ->
  gives (Some (intersect_multisegmental_with_multisegmental fuel shape a b)) (C_and a b).
Proof.
  intros [M1 N1] [M2 N2] F. destruct (intersect_both_points fuel shape a b M1 M2 N1 N2 F) as (g & E & G & C & _).
  exact (gives_good _ _ g (f_equal Some E) G C).
Qed.
Lemma and_left s b : proper_seg s -> two b ->
  gives (Some (clip_of (intersect_segment_with_multisegmental s b))) (C_and (GSegment s) b).
Proof.
  intros Ps [M N]. destruct (intersect_segment_multisegmental s b (proj1 N) Ps) as (r & E & C & G). rewrite E.
  apply (gives_good _ _ r); [reflexivity|exact (G N)|]. intros p. rewrite C. split.
  - intros (t & I & O). exists s, t. split; [left; reflexivity|]. split; [exact I|exact O].
  - intros (s' & t & [<-|[]] & I & O). exists t. split; [exact I|exact O].
Qed.
Lemma and_right a t : proper_seg t -> two a ->
  gives (Some (clip_of (intersect_multisegmental_with_segment a t))) (C_and a (GSegment t)).
Proof.
  intros Pt [M N]. destruct (intersect_multisegmental_segment a t (proj1 N) Pt) as (r & E & C & G). rewrite E.
  apply (gives_good _ _ r); [reflexivity|exact (G N)|]. intros p. rewrite C. split.
  - intros (s & I & O). exists s, t. split; [exact I|]. split; [left; reflexivity|exact O].
  - intros (s & t' & I & [<-|[]] & O). exists s. split; [exact I|exact O].
Qed.
Lemma and_one s t : proper_seg s -> proper_seg t ->
  gives (Some (Clips (intersect_segment_with_segment s t))) (C_and (GSegment s) (GSegment t)).
Proof.
  intros Ps Pt. destruct (intersect_segments s t Ps Pt) as [(Sh & r & E & Pr & C)|(Sh & E)]; rewrite E.
  - exists (GSegment r). split; [reflexivity|]. split; [exact Pr|]. intros p. unfold on_geometry. cbn [parts]. rewrite on_single, C. split.
    + intros [O1 O2]. exists s, t. split; [left; reflexivity|]. split; [left; reflexivity|]. split; [exact Sh|]. split; assumption.
    + intros (s' & t' & [<-|[]] & [<-|[]] & _ & O1 & O2). split; assumption.
  - exists GEmpty. split; [reflexivity|]. split; [exact Logic.I|]. intros p. split.
    + intros (x & [] & _).
    + intros (s' & t' & [<-|[]] & [<-|[]] & K & _). contradiction.
Qed.
Lemma or_two a b : two a -> two b -> (enough (length (parts a) + length (parts b)) <= fuel)%nat ->
  gives (Some (unite_multisegmental_with_multisegmental fuel shape a b)) (C_or a b).
Proof.
  intros [M1 N1] [M2 N2] F. destruct (unite_both fuel shape a b M1 M2 N1 N2 F) as (g & E & G & C).
  exact (gives_good _ _ g (f_equal Some E) G C).
Qed.
Lemma or_left s b : proper_seg s -> two b ->
  gives (Some (clip_of (unite_segment_with_multisegmental s b))) (C_or (GSegment s) b).
Proof.
  intros Ps [M N]. destruct (unite_multisegmental b s M Ps (proj1 N)) as [_ (r & E & C & G)]. rewrite E.
  apply (gives_good _ _ r); [reflexivity|exact (G N)|]. intros p. rewrite C. unfold C_or. cbn [parts]. rewrite on_single. unfold on_geometry. tauto.
Qed.
Lemma or_right a t : proper_seg t -> two a ->
  gives (Some (clip_of (unite_multisegmental_with_segment a t))) (C_or a (GSegment t)).
Proof.
  intros Ps [M N]. destruct (unite_multisegmental a t M Ps (proj1 N)) as [(r & E & C & G) _]. rewrite E.
  apply (gives_good _ _ r); [reflexivity|exact (G N)|]. intros p. rewrite C. unfold C_or. cbn [parts]. rewrite on_single. unfold on_geometry. tauto.
Qed.
Lemma or_one s t : proper_seg s -> proper_seg t ->
  gives (Some (clip_of (unite_segment_with_segment s t))) (C_or (GSegment s) (GSegment t)).
Proof.
  intros Ps Pt. destruct (unite_segments s t Ps Pt) as (r & E & G & C). rewrite E.
  apply (gives_good _ _ r); [reflexivity|exact G|]. intros p. rewrite C. unfold C_or. cbn [parts]. rewrite !on_single. tauto.
Qed.
Lemma sub_two a b : two a -> two b -> (enough (length (parts a) + length (parts b)) <= fuel)%nat ->
  gives (Some (subtract_multisegmental_from_multisegmental fuel shape a b)) (C_sub a b).
Proof.
  intros [M1 N1] [M2 N2] F. destruct (subtract_both_points fuel shape a b M1 M2 N1 N2 F) as (g & E & G & C & _).
  exact (gives_good _ _ g (f_equal Some E) G C).
Qed.
Lemma sub_left s b : proper_seg s -> two b -> (enough (S (length (parts b))) <= fuel)%nat ->
  gives (Some (subtract_multisegmental_from_segment fuel shape s b)) (C_sub (GSegment s) b).
Proof.
  intros Ps [M N] F. destruct (subtract_one_points fuel shape b s M N Ps F) as (g & E & G & C & _).
  exact (gives_good _ _ g (f_equal Some E) G C).
Qed.
Lemma sub_right a t : proper_seg t -> two a ->
  gives (Some (clip_of (subtract_segment_from_multisegmental a t))) (C_sub a (GSegment t)).
Proof.
  intros Pt [M N]. destruct (subtract_multisegmental a t M Pt (proj1 N)) as (r & E & C & G). rewrite E.
  apply (gives_good _ _ r); [reflexivity|exact (G N)|]. intros p. rewrite (C (non_crossing_no_overlaps _ N)). split.
  - intros (m & I & D). exists m. split; [exact I|]. apply in_difference_single, D.
  - intros (m & I & D). exists m. split; [exact I|]. apply in_difference_single, D.
Qed.
Lemma sub_one s t : proper_seg s -> proper_seg t ->
  gives (Some (clip_of (subtract_segment_from_segment s t))) (C_sub (GSegment s) (GSegment t)).
Proof.
  intros Ps Pt. destruct (subtract_segments s t Ps Pt) as (g & E & (G & C)). rewrite E.
  apply (gives_good _ _ g); [reflexivity|exact G|]. intros p. rewrite C. unfold C_sub. cbn [parts]. rewrite difference_lists_single, in_difference_single. reflexivity.
Qed.
Lemma xor_two a b : two a -> two b -> (enough (length (parts a) + length (parts b)) <= fuel)%nat ->
  gives (Some (symmetric_subtract_multisegmental_from_multisegmental fuel shape a b)) (C_xor a b).
Proof.
  intros [M1 N1] [M2 N2] F. destruct (symmetric_subtract_both_points fuel shape a b M1 M2 N1 N2 F) as (g & E & G & C & _).
  exact (gives_good _ _ g (f_equal Some E) G C).
Qed.
Lemma xor_left s b : proper_seg s -> two b -> (enough (S (length (parts b))) <= fuel)%nat ->
  gives (Some (symmetric_subtract_multisegmental_from_segment fuel shape s b)) (C_xor (GSegment s) b).
Proof.
  intros Ps [M N] F. destruct (symmetric_subtract_one fuel shape b s M N Ps F) as (g & E & G & C).
  exact (gives_good _ _ g (f_equal Some E) G C).
Qed.
Lemma xor_right a t : proper_seg t -> two a -> (enough (S (length (parts a))) <= fuel)%nat ->
  gives (Some (symmetric_subtract_segment_from_multisegmental fuel shape a t)) (C_xor a (GSegment t)).
Proof.
  intros Ps [M N] F. destruct (symmetric_subtract_one' fuel shape a t M N Ps F) as (g & E & G & C).
  exact (gives_good _ _ g (f_equal Some E) G C).
Qed.
Lemma xor_one s t : proper_seg s -> proper_seg t ->
  gives (Some (clip_of (symmetric_subtract_segment_from_segment s t))) (C_xor (GSegment s) (GSegment t)).
Proof.
  intros Ps Pt. destruct (symmetric_subtract_segments s t Ps Pt) as (g & E & (G & C)). rewrite E.
  apply (gives_good _ _ g); [reflexivity|exact G|]. intros p. rewrite C. unfold C_xor. cbn [parts]. rewrite !difference_lists_single, !in_difference_single. reflexivity.
Qed.
End Pairs.

Section Op.
Variables (fuel : nat) (shape : tree_shape) (a b : geometry).
Hypothesis Va : linear_valid a.
Hypothesis Vb : linear_valid b.
Hypothesis Fuel : (enough (length (parts a) + length (parts b)) <= fuel)%nat.
Lemma empty_and g : forall p, on_segs (parts GEmpty) p <-> C_and GEmpty g p.
Proof. intros p. split; [intros (s & [] & _)|intros (s & t & [] & _)]. Qed.
Lemma and_empty g : forall p, on_segs (parts GEmpty) p <-> C_and g GEmpty p.
Proof. intros p. split; [intros (s & [] & _)|intros (s & t & _ & [] & _)]. Qed.
Lemma empty_or g : forall p, on_segs (parts g) p <-> C_or GEmpty g p.
Proof. intros p. split; [intros O; right; exact O|intros [(s & [] & _)|O]; exact O]. Qed.
Lemma or_empty g : forall p, on_segs (parts g) p <-> C_or g GEmpty p.
Proof. intros p. split; [intros O; left; exact O|intros [O|(s & [] & _)]; exact O]. Qed.
Lemma empty_sub g : forall p, on_segs (parts GEmpty) p <-> C_sub GEmpty g p.
Proof. intros p. split; [intros (s & [] & _)|intros (s & [] & _)]. Qed.
Lemma sub_empty g : linear_valid g -> forall p, on_segs (parts g) p <-> C_sub g GEmpty p.
Proof. intros V p. unfold C_sub. cbn [parts]. symmetry. apply difference_nothing, linear_proper, V. Qed.
Lemma empty_xor g : linear_valid g -> forall p, on_segs (parts g) p <-> C_xor GEmpty g p.
Proof.
  intros V p. unfold C_xor. cbn [parts]. rewrite (difference_nothing _ p (linear_proper g V)).
  split; [intros O; right; exact O|intros [K|O]; [destruct (nothing_difference _ _ K)|exact O]].
Qed.
Lemma xor_empty g : linear_valid g -> forall p, on_segs (parts g) p <-> C_xor g GEmpty p.
Proof.
  intros V p. unfold C_xor. cbn [parts]. rewrite (difference_nothing _ p (linear_proper g V)).
  split; [intros O; left; exact O|intros [O|K]; [exact O|destruct (nothing_difference _ _ K)]].
Qed.
Lemma fuel_swap n : (enough (n + 1) <= fuel)%nat -> (enough (S n) <= fuel)%nat.
Proof. rewrite Nat.add_1_r. exact (fun H => H). Qed.

Theorem and_linear : gives (linear_and fuel shape a b) (C_and a b).
Proof.
  destruct a as [|s|l|vs|p|ps]; try contradiction; destruct b as [|t|k|ws|q|qs]; try contradiction; cbn [linear_and];
    first [exact (gives_same _ _ _ (gives_itself GEmpty Logic.I) (empty_and _))
          |exact (gives_same _ _ _ (gives_itself GEmpty Logic.I) (and_empty _))
          |exact (and_one s t Va Vb)|exact (and_left s _ Va Vb)|exact (and_right _ t Vb Va)|exact (and_two fuel shape _ _ Va Vb Fuel)].
Qed.
Theorem or_linear : gives (linear_or fuel shape a b) (C_or a b).
Proof.
  destruct a as [|s|l|vs|p|ps]; try contradiction; destruct b as [|t|k|ws|q|qs]; try contradiction; cbn [linear_or];
    first [exact (gives_same _ _ _ (gives_itself _ Vb) (empty_or _))
          |exact (gives_same _ _ _ (gives_itself _ Va) (or_empty _))
          |exact (or_one s t Va Vb)|exact (or_left s _ Va Vb)|exact (or_right _ t Vb Va)|exact (or_two fuel shape _ _ Va Vb Fuel)].
Qed.
Theorem sub_linear : gives (linear_sub fuel shape a b) (C_sub a b).
Proof.
  destruct a as [|s|l|vs|p|ps]; try contradiction; destruct b as [|t|k|ws|q|qs]; try contradiction; cbn [linear_sub];
    first [exact (gives_same _ _ _ (gives_itself GEmpty Logic.I) (empty_sub _))
          |exact (gives_same _ _ _ (gives_itself _ Va) (sub_empty _ Va))
          |exact (sub_one s t Va Vb)|exact (sub_left fuel shape s _ Va Vb Fuel)|exact (sub_right _ t Vb Va)|exact (sub_two fuel shape _ _ Va Vb Fuel)].
Qed.
Theorem xor_linear : gives (linear_xor fuel shape a b) (C_xor a b).
Proof.
  destruct a as [|s|l|vs|p|ps]; try contradiction; destruct b as [|t|k|ws|q|qs]; try contradiction; cbn [linear_xor];
    first [exact (gives_same _ _ _ (gives_itself _ Vb) (empty_xor _ Vb))
          |exact (gives_same _ _ _ (gives_itself _ Va) (xor_empty _ Va))
          |exact (xor_one s t Va Vb)|exact (xor_left fuel shape s _ Va Vb Fuel)|exact (xor_right fuel shape _ t Vb Va (fuel_swap _ Fuel))|exact (xor_two fuel shape _ _ Va Vb Fuel)].
Qed.
End Op.
