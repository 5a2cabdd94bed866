(** The divide-and-conquer triangulation, part 5: the base cases, the result, its
    triangles. *)
From Coq Require Import QArith Qcanon Bool List Arith Lia NArith Sorted FinFun.
From Verif Require Import QcTac Model_Base Model_Utils Model_Mesh Spec_Base Spec_Mesh Proof_Base Proof_Utils Proof_Collect
  Proof_Mesh Proof_Mesh2 Proof_Mesh3 Proof_Delaunay Proof_Delaunay2 Proof_Delaunay3 Proof_Delaunay4.
Import ListNotations.
Local Open Scope nat_scope.

Lemma create_simple m i j : quad_structure m -> simple m -> i < length (m_endpoints m) -> j < length (m_endpoints m) ->
  i <> j -> (forall f, edge m f -> start m f = i -> end_of m f = j -> False) ->
  exists m' e, create_edge m i j = (m', e) /\ quad_structure m' /\ simple m' /\
    m_endpoints m' = m_endpoints m /\ edge m' e /\ start m' e = i /\ end_of m' e = j /\
    (forall f, edge m' f <-> edge m f \/ f = e \/ f = sym e) /\
    (forall f, edge m f -> start m' f = start m f /\ end_of m' f = end_of m f).
Proof.
  intros Q Sm Hi Hj Ne New.
  destruct (created m i j Q Hi Hj) as (m' & e & Ok_ & Q' & Fr & Ee & Se & De & _ & _ & Pe & Ed & St).
  exists m', e. split; auto. split; auto.
  assert (St' : forall f, edge m f -> start m' f = start m f /\ end_of m' f = end_of m f).
  { intros f Ef. split; [apply St; auto|]. apply (St (sym f)). apply edge_sym; auto. }
  assert (Sse : start m' (sym e) = j) by (rewrite <- De; reflexivity).
  assert (Dse : end_of m' (sym e) = i) by (unfold end_of at 1; rewrite sym_sym; auto).
  assert (New2 : forall f, edge m f -> start m f = j -> end_of m f = i -> False).
  { intros f Ef A B. apply (New (sym f)); [apply edge_sym; auto|exact B|unfold end_of; rewrite sym_sym; auto]. }
  split; [|repeat (split; auto)].
  - intros f g Ef Eg A B. apply Ed in Ef. apply Ed in Eg.
    destruct Ef as [Ef|[->| ->]], Eg as [Eg|[->| ->]]; auto.
    + destruct (St' f Ef) as (X1 & X2), (St' g Eg) as (X3 & X4). apply Sm; auto; congruence.
    + exfalso. destruct (St' f Ef) as (X1 & X2). apply (New f Ef); congruence.
    + exfalso. destruct (St' f Ef) as (X1 & X2). apply (New2 f Ef); congruence.
    + exfalso. destruct (St' g Eg) as (X1 & X2). apply (New g Eg); congruence.
    + exfalso. congruence.
    + exfalso. destruct (St' g Eg) as (X1 & X2). apply (New2 g Eg); congruence.
    + exfalso. congruence.
Qed.
Lemma splice_same m x y : quad_structure m -> edge m x -> edge m y -> start m x = start m y ->
  exists m', splice_edges m x y = Ok m' /\ quad_structure m' /\ same_edges m m'.
Proof.
  intros Q Ex Ey S. exists (spliced m x y). split; [apply splice_ok; auto|]. split; [apply spliced_structure; auto|].
  repeat split. apply spliced_size.
Qed.

Section Base.
Variable ps : list point.
Hypothesis Sorted : forall i j, i < j -> j < length ps -> lex_lt (at_ ps i) (at_ ps j).
Notation good := (good ps).
(** Only points below [lo] are in use. *)
Definition upto (m : mesh) (lo : nat) : Prop := forall e, edge m e -> start m e < lo /\ end_of m e < lo.

Lemma segments_built count : forall m index, good m -> upto m (2 * index) -> 2 * (index + count) <= length ps ->
  exists m' sides, create_segments m count index = (m', sides) /\ good m' /\ upto m' (2 * (index + count)) /\
    extends (2 * index) (2 * (index + count)) m m' /\ parts m' (2 * index) sides (2 * (index + count)) /\ length sides = count.
Proof.
  induction count as [|count IH]; intros m index (Q & Pe & Sm) U L.
  - exists m, []. cbn [create_segments]. split; auto. split; [repeat (split; auto)|]. rewrite Nat.add_0_r. split; auto.
    split; [apply extends_refl|]. split; reflexivity.
  - cbn [create_segments].
    destruct (create_simple m (2 * index) (2 * index + 1)) as (m1 & e & Ok_ & Q1 & Sm1 & Pe1 & Ee & Se & De & Ed & St);
      auto; try (rewrite Pe; lia); [lia| |].
    { intros f Ef A. destruct (U f Ef). lia. }
    rewrite Ok_. assert (Sse : start m1 (sym e) = 2 * index + 1) by (rewrite <- De; reflexivity).
    assert (Dse : end_of m1 (sym e) = 2 * index) by (unfold end_of at 1; rewrite sym_sym; auto).
    assert (G1 : good m1) by (split; auto; split; auto; congruence).
    assert (U1 : upto m1 (2 * S index)).
    { intros f Ef. apply Ed in Ef. destruct Ef as [Ef|[->| ->]].
      - destruct (St f Ef) as (-> & ->). destruct (U f Ef). lia.
      - rewrite Se, De. lia.
      - rewrite Sse, Dse. lia. }
    destruct (IH m1 (S index) G1 U1 ltac:(lia)) as (m2 & sides & Ok2 & G2 & U2 & Ext & P & Len).
    replace (S index + count) with (index + S count) in * by lia.
    rewrite Ok2. exists m2. eexists. split; [reflexivity|]. split; auto. split; auto. split; [|split].
    + apply (extends_trans _ _ m m1).
      * split.
        -- intros f Ef. destruct (St f Ef). split; auto. apply Ed; auto.
        -- intros f Ef. apply Ed in Ef. destruct Ef as [Ef|[->| ->]]; auto; right.
           ++ rewrite Se, De. lia.
           ++ rewrite Sse, Dse. lia.
      * apply (extends_wider (2 * S index) (2 * (index + S count))); auto; lia.
    + cbn [parts]. exists (2 * S index). rewrite opposite_sym. pose proof (edge_sym m1 Q1 e Ee) as Ee'.
      destruct (proj1 Ext e Ee) as (Ee2 & Se2 & _). destruct (proj1 Ext _ Ee') as (Ee2' & Se2' & _).
      rewrite Se2, Se2', Se, Sse. split; [lia|]. split; auto. split; auto. split; [lia|]. split; [lia|]. split; auto.
      intros f Ef I. destruct (proj2 Ext f Ef) as [E|(I1 & I2)]; [|lia].
      destruct (proj1 Ext f E) as (_ & S1 & S2). rewrite S1 in I. rewrite S2.
      apply Ed in E. destruct E as [E|[->| ->]].
      * destruct (St f E) as (A & B). destruct (U f E). lia.
      * rewrite De. lia.
      * rewrite Dse. lia.
    + cbn [length]. auto.
Qed.

Lemma triangle_built m i : good m -> upto m i -> i + 3 <= length ps ->
  exists m' l r, create_triangle m i (i + 1) (i + 2) = Ok (m', (l, r)) /\ good m' /\ upto m' (i + 3) /\
    extends i (i + 3) m m' /\ edge m' l /\ edge m' r /\ (i <= start m' l /\ start m' l < i + 3) /\ (i <= start m' r /\ start m' r < i + 3).
Proof.
  intros (Q & Pe & Sm) U L.
  destruct (create_simple m i (i + 1)) as (m1 & e & Ok1 & Q1 & Sm1 & Pe1 & Ee & Se & De & Ed & St);
    auto; try (rewrite Pe; lia); [lia| |].
  { intros f Ef A. destruct (U f Ef). lia. }
  assert (Sse : start m1 (sym e) = i + 1) by (rewrite <- De; reflexivity).
  assert (Dse : end_of m1 (sym e) = i) by (unfold end_of at 1; rewrite sym_sym; auto).
  destruct (create_simple m1 (i + 1) (i + 2)) as (m2 & g & Ok2 & Q2 & Sm2 & Pe2 & Eg & Sg & Dg & Ed2 & St2);
    auto; try (rewrite Pe1, Pe; lia); [lia| |].
  { intros f Ef A B. apply Ed in Ef. destruct Ef as [Ef|[->| ->]].
    - destruct (St f Ef) as (X & _). destruct (U f Ef). lia.
    - lia.
    - lia. }
  assert (Ssg : start m2 (sym g) = i + 2) by (rewrite <- Dg; reflexivity).
  assert (Dsg : end_of m2 (sym g) = i + 1) by (unfold end_of at 1; rewrite sym_sym; auto).
  pose proof (edge_sym m1 Q1 e Ee) as Ee'.
  destruct (St2 e Ee) as (Se2 & De2). destruct (St2 _ Ee') as (Sse2 & Dse2).
  assert (Ee2 : edge m2 e) by (apply Ed2; auto). assert (Ee2' : edge m2 (sym e)) by (apply Ed2; auto).
  destruct (splice_same m2 (sym e) g) as (m3 & Ok3 & Q3 & S3); auto; [congruence|].
  pose proof (same_edge m2 m3) as Edg3. pose proof (same_start m2 m3) as St3. pose proof (same_end m2 m3) as En3.
  assert (Sm3 : simple m3) by (apply (same_simple m2); auto).
  assert (Pe3 : m_endpoints m3 = ps) by (destruct S3 as (_ & _ & ->); congruence).
  assert (All3 : forall f, edge m3 f -> edge m f /\ start m3 f = start m f /\ end_of m3 f = end_of m f \/ f = e \/ f = sym e \/ f = g \/ f = sym g).
  { intros f Ef. apply Edg3 in Ef; auto. rewrite St3, En3 by auto. apply Ed2 in Ef. destruct Ef as [Ef|[->| ->]]; auto.
    destruct (St2 f Ef) as (-> & ->). apply Ed in Ef. destruct Ef as [Ef|[->| ->]]; auto. }
  assert (Old3 : forall f, edge m f -> edge m3 f /\ start m3 f = start m f /\ end_of m3 f = end_of m f).
  { intros f Ef. rewrite St3, En3 by auto. assert (Ef1 : edge m1 f) by (apply Ed; auto).
    destruct (St2 f Ef1) as (-> & ->). split; [|apply St; auto]. apply Edg3; auto. apply Ed2. auto. }
  assert (Ee3 : edge m3 e) by (apply Edg3; auto). assert (Eg3 : edge m3 g) by (apply Edg3; auto).
  pose proof (edge_sym m3 Q3 e Ee3) as Ee3'. pose proof (edge_sym m3 Q3 g Eg3) as Eg3'.
  assert (V : start m3 e = i /\ end_of m3 e = i + 1 /\ start m3 (sym e) = i + 1 /\ end_of m3 (sym e) = i /\
    start m3 g = i + 1 /\ end_of m3 g = i + 2 /\ start m3 (sym g) = i + 2 /\ end_of m3 (sym g) = i + 1).
  { rewrite !St3, !En3 by auto. repeat split; congruence. }
  destruct V as (V1 & V2 & V3 & V4 & V5 & V6 & V7 & V8).
  assert (U3 : upto m3 (i + 3)).
  { intros f Ef. apply All3 in Ef. destruct Ef as [(Ef & -> & ->)|[->|[->|[->| ->]]]]; [destruct (U f Ef); lia|lia|lia|lia|lia]. }
  assert (Ext3 : extends i (i + 3) m m3).
  { split; auto. intros f Ef. apply All3 in Ef. destruct Ef as [(Ef & _)|[->|[->|[->| ->]]]]; auto; right; lia. }
  unfold create_triangle. rewrite Ok1, Ok2, opposite_sym, Ok3. cbn [bind].
  rewrite (get_end m3 Q3 g Eg3). cbn [bind]. rewrite (orient_at m3 Q3 e _ Ee3). cbn [bind].
  destruct (connect_simple m3 g e) as (m4 & t & Ok4 & Q4 & Sm4 & Pe4 & Et & Stt & Dt & Ed4 & St4); auto; [lia| |].
  { intros f Ef A B. apply All3 in Ef. destruct Ef as [(Ef & X & Y)|[->|[->|[->| ->]]]]; [destruct (U f Ef); lia|lia|lia|lia|lia]. }
  rewrite V6 in Stt. rewrite V1 in Dt.
  assert (Sst : start m4 (sym t) = i) by (rewrite <- Dt; reflexivity).
  assert (Dst : end_of m4 (sym t) = i + 2) by (unfold end_of at 1; rewrite sym_sym; auto).
  assert (U4 : upto m4 (i + 3)).
  { intros f Ef. apply Ed4 in Ef. destruct Ef as [Ef|[->| ->]]; [|lia|lia]. destruct (St4 f Ef) as (-> & ->). apply U3; auto. }
  assert (Ext4 : extends i (i + 3) m m4).
  { apply (extends_trans _ _ m m3); auto. split.
    - intros f Ef. split; [apply Ed4; auto|apply St4; auto].
    - intros f Ef. apply Ed4 in Ef. destruct Ef as [Ef|[->| ->]]; auto; right; lia. }
  assert (G4 : good m4) by (split; auto; split; auto; congruence).
  destruct (St4 e Ee3) as (W1 & _). destruct (St4 _ Eg3') as (W2 & _).
  assert (Ee4 : edge m4 e) by (apply Ed4; auto). assert (Eg4 : edge m4 (sym g)) by (apply Ed4; auto).
  pose proof (edge_sym m4 Q4 t Et) as Et'.
  rewrite !Ok4. cbn [bind]. rewrite !opposite_sym.
  destruct (orientation_is _ CLOCKWISE); [|destruct (orientation_is _ COLLINEAR)].
  - exists m4, (sym t), t. split; [reflexivity|]. split; [exact G4|]. split; auto. split; auto. split; auto. split; auto. lia.
  - exists m3, e, (sym g). split; [reflexivity|]. split; [split; auto|]. split; auto. split; auto. split; auto. split; auto. lia.
  - exists m4, e, (sym g). split; [reflexivity|]. split; [exact G4|]. split; auto. split; auto. split; auto. split; auto. lia.
Qed.

Lemma triangles_built offset count : forall m index, good m -> upto m (offset + 3 * index) -> offset + 3 * (index + count) <= length ps ->
  exists m' sides, create_triangles m offset count index = Ok (m', sides) /\ good m' /\ upto m' (offset + 3 * (index + count)) /\
    extends (offset + 3 * index) (offset + 3 * (index + count)) m m' /\
    parts m' (offset + 3 * index) sides (offset + 3 * (index + count)) /\ length sides = count.
Proof.
  induction count as [|count IH]; intros m index G U L.
  - exists m, []. cbn [create_triangles]. split; auto. split; auto. rewrite Nat.add_0_r. split; auto.
    split; [apply extends_refl|]. split; reflexivity.
  - cbn [create_triangles].
    destruct (triangle_built m (offset + 3 * index) G U ltac:(lia)) as (m1 & l & r & Ok1 & G1 & U1 & Ext1 & El & Er & Il & Ir).
    rewrite Ok1. cbn [bind]. replace (offset + 3 * index + 3) with (offset + 3 * S index) in * by lia.
    destruct (IH m1 (S index) G1 U1 ltac:(lia)) as (m2 & sides & Ok2 & G2 & U2 & Ext & P & Len).
    replace (S index + count) with (index + S count) in * by lia.
    rewrite Ok2. cbn [bind]. exists m2. eexists. split; [reflexivity|]. split; auto. split; auto. split; [|split].
    + apply (extends_trans _ _ m m1).
      * apply (extends_wider (offset + 3 * index) (offset + 3 * S index)); auto; lia.
      * apply (extends_wider (offset + 3 * S index) (offset + 3 * (index + S count))); auto; lia.
    + cbn [parts]. exists (offset + 3 * S index).
      destruct (proj1 Ext l El) as (El2 & Sl2 & _). destruct (proj1 Ext r Er) as (Er2 & Sr2 & _).
      rewrite Sl2, Sr2. split; [lia|]. split; auto. split; auto. split; auto. split; auto. split; auto.
      intros f Ef I. destruct (proj2 Ext f Ef) as [E|(I1 & I2)]; [|lia].
      destruct (proj1 Ext f E) as (_ & S1 & S2). rewrite S1 in I. rewrite S2.
      destruct (proj2 Ext1 f E) as [E0|(I1 & I2)]; [|lia].
      destruct (proj1 Ext1 f E0) as (_ & S3 & S4). destruct (U f E0). lia.
    + cbn [length]. auto.
Qed.
Lemma parts_app m lo l1 mid l2 hi : parts m lo l1 mid -> parts m mid l2 hi -> parts m lo (l1 ++ l2) hi.
Proof.
  revert lo. induction l1 as [|(l, r) l1 IH]; intros lo; cbn [parts app]; [intros ->; auto|].
  intros (k & A1 & A2 & A3 & A4 & A5 & A6 & A7) P. exists k. repeat (split; [auto; fail|]). auto.
Qed.

Definition built (m : mesh) (sides : option (quad_edge * quad_edge)) : Prop :=
  good m /\ match sides with Some (l, r) => edge m l /\ edge m r | None => length ps < 2 /\ size m = 0 end.
Lemma build_settles : settles (fun n => build_delaunay_triangulation n (mesh_from_points ps)) (fun '(m, sides) => built m sides).
Proof.
  assert (G0 : good (mesh_from_points ps)).
  { split; [apply no_edges_structure|]. split; [reflexivity|]. intros e f (_ & L). unfold size in L. cbn in L. lia. }
  unfold build_delaunay_triangulation. cbn [m_endpoints mesh_from_points].
  destruct (Nat.ltb_spec (length ps) 2) as [L|L].
  - apply settles_ok. split; auto.
  - destruct (base_cases_total (length ps) L) as (s & t & -> & Sum & _).
    destruct (segments_built s (mesh_from_points ps) 0 G0) as (m1 & sides1 & Ok1 & G1 & U1 & _ & P1 & L1).
    { intros e (_ & X). unfold size in X. cbn in X. lia. }
    { lia. }
    change (0 + s) with s in *. change (2 * 0) with 0 in *.
    fold (mesh_from_points ps). rewrite Ok1.
    destruct (triangles_built (2 * s) t m1 0 G1) as (m2 & sides2 & Ok2 & G2 & U2 & Ext2 & P2 & L2).
    { rewrite Nat.add_0_r. exact U1. }
    { lia. }
    change (0 + t) with t in *. change (3 * 0) with 0 in *. rewrite Nat.add_0_r in *.
    rewrite Ok2. cbn [bind]. rewrite Sum in *.
    assert (P1' : parts m2 0 sides1 (2 * s)) by (apply (parts_extends _ _ m1 m2 (proj1 G1) Ext2); auto).
    pose proof (parts_app m2 0 sides1 (2 * s) sides2 (length ps) P1' P2) as P.
    assert (Ln : length (sides1 ++ sides2) = s + t) by (rewrite app_length; lia).
    set (k := N.to_nat (ceil_log2 (N.of_nat (length (sides1 ++ sides2))))).
    destruct (ceil_log2_spec (N.of_nat (s + t))) as (Hk & _); [lia|].
    eapply settles_bind.
    { apply (rounds_settle ps Sorted k m2 0 (sides1 ++ sides2) (length ps)); auto.
      - lia.
      - unfold k. rewrite Ln. clear - Hk.
        assert (X : (N.to_nat (N.of_nat (s + t)) <= N.to_nat (2 ^ ceil_log2 (N.of_nat (s + t))))%nat) by lia.
        rewrite Nat2N.id, N2Nat.inj_pow in X. exact X. }
    intros (m3, sides3) (G3 & P3 & L3). destruct sides3 as [|(l, r) [|? ?]]; try discriminate.
    apply settles_ok. split; auto. destruct P3 as (mid & _ & A & B & _). auto.
Qed.
End Base.

(** ** Triangles *)
Section Triangles.
Variable m : mesh.
Hypothesis Q : quad_structure m.
Notation pos i := (at_ (m_endpoints m) i).
Lemma is_deleted_ok e : edge m e -> is_deleted_edge m e = Ok (onext m e =? e).
Proof.
  intros E. unfold is_deleted_edge. rewrite get_left by apply E. rewrite get_right by (auto; apply E). cbn [bind].
  assert (X : (oprev m e =? e) = (onext m e =? e)).
  { destruct (Nat.eqb_spec (onext m e) e) as [H|H].
    - apply Nat.eqb_eq. rewrite <- H at 1. apply oprev_onext; auto. apply E.
    - apply Nat.eqb_neq. intros Y. apply H. rewrite <- Y at 1. apply onext_oprev; auto. apply E. }
  rewrite X, eqb_reflx. reflexivity.
Qed.
Lemma not_deleted_ok l : (forall e, In e l -> edge m e) ->
  not_deleted m l = Ok (filter (fun e => negb (onext m e =? e)) l).
Proof.
  induction l as [|e l IH]; intros H; cbn [not_deleted filter]; auto.
  rewrite is_deleted_ok by (apply H; left; auto). cbn [bind]. rewrite IH by (intros; apply H; right; auto). cbn [bind].
  destruct (onext m e =? e); reflexivity.
Qed.
Definition even_edges : list nat := map (fun i => 2 * i) (seq 0 ((size m + 1) / 2)).
Lemma even_edges_edge e : In e even_edges -> edge m e.
Proof.
  intros I. apply in_map_iff in I. destruct I as (i & <- & I). apply in_seq in I.
  destruct (qs_groups m Q) as (k & S & _). split; [rewrite Nat.even_mul; reflexivity|].
  rewrite S in *. assert ((4 * k + 1) / 2 = 2 * k).
  { replace (4 * k + 1) with (1 + (2 * k) * 2) by lia. rewrite Nat.div_add by lia. reflexivity. }
  lia.
Qed.
Lemma even_edges_all e : edge m e -> In e even_edges.
Proof.
  intros (He & L). apply Nat.even_spec in He. destruct He as (i & ->). apply in_map_iff. exists i. split; auto.
  apply in_seq. split; [lia|]. cbn. apply Nat.div_le_lower_bound; lia.
Qed.
Lemma even_edges_nodup : NoDup even_edges.
Proof. apply Injective_map_NoDup; [intros x y H; lia|apply seq_NoDup]. Qed.
Lemma to_edges_ok : to_edges m = Ok (filter (fun e => negb (onext m e =? e)) even_edges).
Proof. apply not_deleted_ok. apply even_edges_edge. Qed.

Definition tri (e : nat) : option (point * point * point) :=
  let a := pos (start m e) in let b := pos (end_of m e) in let c := pos (end_of m (onext m e)) in
  if point_lt a b && point_lt a c && point_eq c (pos (end_of m (oprev m (sym e)))) && orientation_is (orient a b c) COUNTERCLOCKWISE
  then Some (a, b, c) else None.
Lemma edge_triangle_ok e : edge m e -> edge_triangle m e = Ok (tri e).
Proof.
  intros E. unfold edge_triangle, tri. pose proof (edge_onext m Q e E) as E1. pose proof (edge_sym m Q e E) as E2.
  pose proof (edge_oprev m Q _ E2) as E3.
  rewrite (get_start m Q e E), (get_end m Q e E). cbn [bind]. rewrite get_left by apply E. cbn [bind].
  rewrite (get_end m Q _ E1). cbn [bind]. rewrite opposite_sym, get_right by (auto; apply E2). cbn [bind].
  rewrite (get_end m Q _ E3). cbn [bind]. rewrite (orient_at m Q e _ E). cbn [bind]. fold (pos (start m e)).
  change (nth ?i (m_endpoints m) (Pt 0 0)) with (pos i). cbv zeta.
  destruct (point_lt _ _); cbn [andb]; auto. destruct (point_lt _ _); cbn [andb]; auto.
  destruct (point_eq _ _); cbn [andb]; auto.
Qed.
Definition tris (l : list nat) : list (point * point * point) :=
  flat_map (fun e => match tri e with Some t => [t] | None => [] end) l.
Lemma edges_triangles_ok l : (forall e, In e l -> edge m e) -> edges_triangles m l = Ok (tris l).
Proof.
  induction l as [|e l IH]; intros H; cbn [edges_triangles tris flat_map]; auto.
  rewrite edge_triangle_ok by (apply H; left; auto). cbn [bind]. rewrite IH by (intros; apply H; right; auto). cbn [bind].
  destruct (tri e); reflexivity.
Qed.
Lemma tri_some e a b c : edge m e -> tri e = Some (a, b, c) ->
  a = pos (start m e) /\ b = pos (end_of m e) /\ c = pos (end_of m (onext m e)) /\
  In a (m_endpoints m) /\ In b (m_endpoints m) /\ In c (m_endpoints m) /\
  lex_lt a b /\ lex_lt a c /\ (0 < area2 a b c)%Qc.
Proof.
  intros E. unfold tri. cbv zeta. pose proof (edge_onext m Q e E) as E1.
  destruct (point_lt_spec (pos (start m e)) (pos (end_of m e))) as [L1|]; [|discriminate].
  destruct (point_lt_spec (pos (start m e)) (pos (end_of m (onext m e)))) as [L2|]; [|discriminate]. cbn [andb].
  destruct (point_eq _ _); [|discriminate]. cbn [andb].
  destruct (orientation_is_spec (orient (pos (start m e)) (pos (end_of m e)) (pos (end_of m (onext m e)))) COUNTERCLOCKWISE) as [O|]; [|discriminate].
  intros H. assert (X : (pos (start m e), pos (end_of m e), pos (end_of m (onext m e))) = (a, b, c)) by congruence.
  apply pair_equal_spec in X. destruct X as (X & <-). apply pair_equal_spec in X. destruct X as (<- & <-).
  apply orient_ccw in O. pose proof (fun e E => nth_In (m_endpoints m) (Pt 0 0) (start_point m Q e E)) as I.
  repeat (split; [reflexivity|]).
  split; [apply (I e E)|]. split; [apply (I _ (edge_sym m Q e E))|]. split; [apply (I _ (edge_sym m Q _ E1))|]. auto.
Qed.
End Triangles.

(** Distinct points at distinct indices. *)
Lemma at_inj ps i j : (forall i j, i < j -> j < length ps -> lex_lt (at_ ps i) (at_ ps j)) ->
  i < length ps -> j < length ps -> at_ ps i = at_ ps j -> i = j.
Proof.
  intros S Li Lj H. destruct (lt_eq_lt_dec i j) as [[L|]|L]; auto.
  - pose proof (S i j L Lj) as X. rewrite H in X. destruct (lex_irrefl _ X).
  - pose proof (S j i L Li) as X. rewrite H in X. destruct (lex_irrefl _ X).
Qed.
Lemma tris_nodup m l : quad_structure m -> simple m ->
  (forall i j, i < j -> j < length (m_endpoints m) -> lex_lt (at_ (m_endpoints m) i) (at_ (m_endpoints m) j)) ->
  (forall e, In e l -> edge m e) -> NoDup l -> NoDup (tris m l).
Proof.
  intros Q Sm So. induction l as [|e l IH]; intros H N; [constructor|].
  inversion N as [|? ? Ni Nl]; subst. cbn [tris flat_map].
  assert (IH' : NoDup (tris m l)) by (apply IH; auto; intros; apply H; right; auto).
  assert (Ee : edge m e) by (apply H; left; auto).
  destruct (tri m e) as [((a, b), c)|] eqn:T; [|exact IH']. cbn [app]. constructor; [|exact IH'].
  intros I. apply in_flat_map in I. destruct I as (f & If & I). assert (Ef : edge m f) by (apply H; right; auto).
  destruct (tri m f) as [t|] eqn:Tf; [|destruct I]. destruct I as [->|[]].
  destruct (tri_some m Q e a b c Ee T) as (A1 & A2 & _). destruct (tri_some m Q f a b c Ef Tf) as (B1 & B2 & _).
  apply Ni. replace e with f; auto. apply Sm; auto; apply (at_inj (m_endpoints m)); auto; try congruence;
  first [apply (start_point m Q); assumption | apply (start_point m Q); apply (edge_sym m Q); assumption].
Qed.

Definition triangle_ok (points : list point) (t : point * point * point) : Prop :=
  let '(a, b, c) := t in In a points /\ In b points /\ In c points /\
  lex_lt a b /\ lex_lt a c /\ (0 < area2 a b c)%Qc.
Lemma delaunay_settles points : settles (fun n => delaunay_from_points n points) (fun '(m, sides) =>
  built (deduplicate (sort_points points)) m sides).
Proof.
  unfold delaunay_from_points. apply build_settles.
  intros i j. apply sorted_at. apply deduplicate_sorted, sort_sorted.
Qed.
Lemma built_triangles points m sides : built (deduplicate (sort_points points)) m sides ->
  exists ts, triangles_vertices m = Ok ts /\ (forall t, In t ts -> triangle_ok points t) /\ NoDup ts.
Proof.
  intros ((Q & Pe & Sm) & _).
  exists (tris m (filter (fun e => negb (onext m e =? e)) (even_edges m))).
  assert (Ed : forall e, In e (filter (fun e => negb (onext m e =? e)) (even_edges m)) -> edge m e).
  { intros e I. apply filter_In in I. apply even_edges_edge; auto. apply I. }
  split; [unfold triangles_vertices; rewrite to_edges_ok by auto; cbn [bind]; apply edges_triangles_ok; auto|].
  split.
  - intros ((a, b), c) I. apply in_flat_map in I. destruct I as (f & If & I). apply Ed in If.
    destruct (tri m f) as [t|] eqn:Tf; [|destruct I]. destruct I as [->|[]].
    destruct (tri_some m Q f a b c If Tf) as (_ & _ & _ & A & B & C & D & E & F).
    rewrite Pe in A, B, C. rewrite deduplicate_in, sort_in in A, B, C. exact (conj A (conj B (conj C (conj D (conj E F))))).
  - apply tris_nodup; auto.
    + rewrite Pe. intros i j. apply sorted_at. apply deduplicate_sorted, sort_sorted.
    + apply NoDup_filter. apply even_edges_nodup.
Qed.
