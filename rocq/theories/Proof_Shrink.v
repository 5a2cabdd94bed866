(** Removing collinear vertices; oriented edges. *)
From Coq Require Import QArith Qcanon List Bool Lia Permutation.
From Verif Require Import QcTac Model_Base Model_Box Model_Geometry Model_Segment Model_Utils Model_Contour
  Spec_Base Spec_Segment Spec_Contour Spec_Literals Proof_Base Proof_Line Proof_Bounds Proof_Contour Proof_Contour2 Proof_Edges.
Import ListNotations.
Local Open Scope Qc_scope.

Lemma not_collinear_spec a b c :
  reflect (area2 a b c <> 0) (negb (orientation_is (orient a b c) COLLINEAR)).
Proof.
  destruct (orientation_is_spec (orient a b c) COLLINEAR) as [E|E]; cbn; constructor.
  - apply orient_col in E. auto.
  - intros H. apply E, orient_col, H.
Qed.
Lemma collinear_trans r v w x : r <> w -> area2 r v w = 0 -> area2 r w x = 0 -> area2 r v x = 0.
Proof.
  intros N A B. rewrite area2_swap23 in A.
  assert (A' : area2 r w v = 0) by qlra.
  destruct (collinear_lerp r w v N A') as (t & ->).
  replace (area2 r (lerp r w t) x) with (t * area2 r w x) by (unfold area2, lerp; cbn [px py]; ring).
  rewrite B. ring.
Qed.

Lemma shrink_from_subsequence f l vs : subsequence (shrink_from f l vs) vs.
Proof.
  revert l. induction vs as [|v [|w vs] IH]; intros l; cbn [shrink_from]; [constructor| |].
  - destruct (negb _); repeat constructor.
  - destruct (negb _); constructor; apply IH.
Qed.
Lemma subsequence_in {A} (l r : list A) x : subsequence l r -> In x l -> In x r.
Proof. induction 1; cbn; intuition. Qed.
Lemma subsequence_nodup {A} (l r : list A) : subsequence l r -> NoDup r -> NoDup l.
Proof.
  induction 1; intros N; auto; inversion N; subst; auto.
  constructor; auto. intros I. apply H2. eapply subsequence_in; eauto.
Qed.
Lemma shrink_subsequence v vs : exists t, shrink_collinear_vertices (v :: vs) = v :: t /\ subsequence t vs.
Proof. eexists. split; [reflexivity|apply shrink_from_subsequence]. Qed.

(** The next kept vertex is in the direction of the next vertex. *)
Lemma shrink_from_head f l v vs : ~ In l (v :: vs) ->
  area2 l v (hd f (shrink_from f l (v :: vs))) = 0.
Proof.
  revert v. induction vs as [|w vs IH]; intros v N; cbn [shrink_from].
  - destruct (not_collinear_spec l v f) as [H|H]; cbn [hd]; [apply area2_abb|].
    destruct (Qc_eq_dec (area2 l v f) 0); [auto|contradiction].
  - destruct (not_collinear_spec l v w) as [H|H]; cbn [hd]; [apply area2_abb|].
    assert (Z : area2 l v w = 0) by (destruct (Qc_eq_dec (area2 l v w) 0); [auto|contradiction]).
    apply (collinear_trans l v w); auto; [intros ->; apply N; cbn; auto|].
    apply IH. intros I; apply N; cbn; auto.
Qed.
Lemma shrink_from_nil f l v vs : ~ In l (v :: vs) -> shrink_from f l (v :: vs) = [] ->
  area2 l v (last vs v) = 0 /\ area2 l (last vs v) f = 0.
Proof.
  revert v. induction vs as [|w vs IH]; intros v N; cbn [shrink_from].
  - destruct (not_collinear_spec l v f) as [H|H]; [discriminate|]. intros _. cbn. split; [apply area2_abb|].
    destruct (Qc_eq_dec (area2 l v f) 0); [auto|contradiction].
  - destruct (not_collinear_spec l v w) as [H|H]; [discriminate|]. intros E.
    assert (Z : area2 l v w = 0) by (destruct (Qc_eq_dec (area2 l v w) 0); [auto|contradiction]).
    assert (N' : ~ In l (w :: vs)) by (intros I; apply N; cbn; auto).
    destruct (IH w N' E) as [A B]. rewrite last_cons. split; auto.
    apply (collinear_trans l v w); auto. intros ->; apply N; cbn; auto.
Qed.
Lemma triple_cons x l a b c : triple_in (x :: l) a b c ->
  (exists r, x = a /\ l = b :: c :: r) \/ triple_in l a b c.
Proof.
  intros (l1 & l2 & E). destruct l1 as [|y l1]; cbn in E; inversion E; subst.
  - left. exists l2. auto.
  - right. exists l1, l2. auto.
Qed.
Lemma triple_short (l : list point) a b c : (length l <= 2)%nat -> ~ triple_in l a b c.
Proof. intros L (l1 & l2 & ->). rewrite app_length in L. cbn in L. lia. Qed.
Lemma collinear_direction l v w x : v <> x -> area2 l v w <> 0 -> area2 v w x = 0 -> area2 l v x <> 0.
Proof.
  intros N A B E. apply A.
  assert (E' : area2 v x l = 0) by (rewrite area2_rot; auto).
  assert (K := collinear_trans v w x l N B E').
  rewrite area2_rot in K. auto.
Qed.
Lemma hd_app_last {A} (x : A) (l : list A) : hd x (l ++ [x]) = hd x l.
Proof. destruct l; auto. Qed.
Lemma shrink_from_triples f vs : forall l, ~ In l vs -> ~ In f vs -> NoDup vs ->
  forall a b c, triple_in (l :: shrink_from f l vs ++ [f]) a b c -> area2 a b c <> 0.
Proof.
  induction vs as [|v vs IH]; intros l Nl Nf ND a b c T.
  - exfalso. revert T. apply triple_short. cbn; lia.
  - assert (Nl' : ~ In l vs) by (intros I; apply Nl; cbn; auto).
    assert (Nf' : ~ In f vs) by (intros I; apply Nf; cbn; auto).
    inversion ND as [|? ? NDv ND']; subst.
    destruct vs as [|w vs].
    + cbn [shrink_from] in T. destruct (not_collinear_spec l v f) as [H|H].
      * apply triple_cons in T. destruct T as [(r & -> & E)|T].
        -- cbn in E. inversion E; subst. auto.
        -- exfalso. revert T. apply triple_short. cbn; lia.
      * exfalso. revert T. apply triple_short. cbn; lia.
    + change (shrink_from f l (v :: w :: vs)) with
        (if negb (orientation_is (orient l v w) COLLINEAR)
         then v :: shrink_from f v (w :: vs) else shrink_from f l (w :: vs)) in T.
      destruct (not_collinear_spec l v w) as [H|H].
      * apply triple_cons in T. destruct T as [(r & -> & E)|T]; [|apply (IH v); auto].
        remember (shrink_from f v (w :: vs)) as R eqn:ER. cbn [app] in E.
        assert (Eb : v = b) by (inversion E; auto).
        assert (Ec : R ++ [f] = c :: r) by (inversion E; auto). subst b.
        assert (Hc : c = hd f R) by (rewrite <- hd_app_last, Ec; auto).
        assert (Dv : v <> c).
        { intros ->. assert (I : In c (R ++ [f])) by (rewrite Ec; cbn; auto).
          apply in_app_or in I. destruct I as [I|[I|[]]].
          - apply NDv. apply (subsequence_in R); auto. subst R. apply shrink_from_subsequence.
          - subst. apply Nf; cbn; auto. }
        apply (collinear_direction a v w); auto.
        rewrite Hc, ER. apply shrink_from_head; auto.
      * apply (IH l); auto.
Qed.
Lemma shrink_triples v vs : NoDup (v :: vs) -> forall a b c,
  triple_in (shrink_collinear_vertices (v :: vs) ++ [v]) a b c -> area2 a b c <> 0.
Proof. intros N. inversion N; subst. cbn [shrink_collinear_vertices app]. apply shrink_from_triples; auto. Qed.

(** The last kept vertex is in the direction of the last vertex. *)
Lemma shrink_from_last f vs : forall l v, ~ In l (v :: vs) -> NoDup (v :: vs) ->
  area2 f (last vs v) (last (shrink_from f l (v :: vs)) l) = 0.
Proof.
  induction vs as [|w vs IH]; intros l v N ND; cbn [shrink_from].
  - destruct (not_collinear_spec l v f) as [H|H]; cbn [last]; [apply area2_abb|].
    assert (Z : area2 l v f = 0) by (destruct (Qc_eq_dec (area2 l v f) 0); [auto|contradiction]).
    rewrite area2_swap13. rewrite Z. ring.
  - rewrite last_cons. inversion ND as [|? ? NDv ND']; subst.
    assert (N' : ~ In l (w :: vs)) by (intros I; apply N; cbn; auto).
    destruct (not_collinear_spec l v w) as [H|H]; [rewrite last_cons|]; apply IH; auto.
Qed.
Lemma shrink_nondegenerate v w vs : NoDup (v :: w :: vs) -> area2 (last vs w) v w <> 0 ->
  nondegenerate (shrink_collinear_vertices (v :: w :: vs)).
Proof.
  intros ND C. assert (T := shrink_triples v (w :: vs) ND).
  cbn [shrink_collinear_vertices] in *. inversion ND as [|? ? Nv ND']; subst.
  remember (shrink_from v v (w :: vs)) as R eqn:ER.
  assert (Sub : subsequence R (w :: vs)) by (subst R; apply shrink_from_subsequence).
  assert (NR : R <> []).
  { intros E. rewrite ER in E. apply shrink_from_nil in E; auto. destruct E as [E _].
    apply C. rewrite <- area2_rot. auto. }
  assert (Hx := shrink_from_head v v w vs Nv). rewrite <- ER in Hx.
  assert (Hy := shrink_from_last v vs v w Nv ND'). rewrite <- ER in Hy.
  destruct R as [|x R]; [contradiction|]. cbn [hd] in Hx. clear NR.
  assert (Dx : x <> v) by (intros ->; apply Nv, (subsequence_in _ _ v Sub); cbn; auto).
  assert (R2 : R <> []).
  { intros ->. apply (T v x v); [exists [], []; auto|]. apply area2_aba. }
  assert (NDR : NoDup (v :: x :: R)).
  { constructor; [|apply (subsequence_nodup _ _ Sub); auto].
    intros I. apply Nv, (subsequence_in _ _ v Sub I). }
  rewrite last_cons in Hy. set (y := last R x) in *.
  assert (Iy : In y R).
  { unfold y. destruct (exists_last R2) as (l & z & ->). rewrite last_last. apply in_or_app; cbn; auto. }
  assert (Dy : y <> v) by (intros E; rewrite E in Iy; apply Nv, (subsequence_in _ _ v Sub); cbn; auto).
  assert (Seam : area2 y v x <> 0).
  { assert (K1 : area2 (last vs w) v x <> 0) by (apply (collinear_direction _ v w x); auto).
    intros Z. apply (collinear_direction (last vs w) v x y) in K1; auto.
    - apply K1. rewrite area2_swap12, Hy. ring.
    - rewrite area2_rot. auto. }
  split; [cbn; destruct R; [contradiction|cbn; lia]|]. split; auto.
  intros a b c (r & (l1 & l2 & E & E') & La).
  destruct l2 as [|b' l2]; cbn [app] in E'.
  - rewrite app_nil_r in E. rewrite <- E in E'. injection E' as -> -> ->.
    rewrite <- La, last_cons. exact Seam.
  - assert (b' = b) by congruence. subst b'.
    assert (E2 : l2 ++ l1 = c :: r) by congruence. clear E'.
    destruct l2 as [|c' l2]; cbn [app] in E2.
    + subst l1. apply T. change ((v :: x :: R) ++ [v]) with (v :: (x :: R) ++ [v]).
      assert (c = v) by (cbn in E; congruence). subst c.
      change (triple_in ((v :: x :: R) ++ [v]) a b v). rewrite E.
      destruct (@exists_last _ (v :: r) ltac:(discriminate)) as (l & z & El).
      rewrite El in *. rewrite last_last in La. subst z.
      exists l, []. rewrite <- !app_assoc. reflexivity.
    + assert (c' = c) by congruence. subst c'. assert (r = l2 ++ l1) by congruence. subst r.
      destruct l1 as [|u l1].
      * cbn [app] in E. rewrite app_nil_r in La. injection E as -> -> ->.
        rewrite <- La, last_cons. exact Seam.
      * apply T. change (triple_in ((v :: x :: R) ++ [v]) a b c). rewrite E.
        change (last (c :: l2 ++ u :: l1) c = a) with (last ((c :: l2) ++ u :: l1) c = a) in La.
        rewrite last_app_cons in La.
        destruct (@exists_last _ (u :: l1) ltac:(discriminate)) as (l & z & El).
        rewrite El in *. rewrite last_last in La. subst z.
        exists l, (l2 ++ [v]). rewrite <- !app_assoc. reflexivity.
Qed.

(** ** The outline *)
Fixpoint walk (a : point) (l : list point) (z : point) : list segment :=
  match l with [] => [Seg a z] | b :: r => Seg a b :: walk b r z end.
Lemma edges_walk v l : edges (v :: l) = walk v l v.
Proof.
  unfold edges. assert (H : forall l f a, edges_from f (a :: l) = walk a l f).
  { clear. induction l as [|b l IH]; intros f a; [reflexivity|].
    cbn [walk]. rewrite <- IH. reflexivity. }
  apply H.
Qed.
Lemma on_segs_cons s l p : on_segs (s :: l) p <-> on_seg s p \/ on_segs l p.
Proof.
  split.
  - intros (t & [<-|I] & O); auto. right. exists t; auto.
  - intros [O|(t & I & O)]; [exists s|exists t]; cbn; auto.
Qed.
Lemma strictly_between_join a b c : strictly_between a c b -> forall p,
  on_seg (Seg a c) p <-> on_seg (Seg a b) p \/ on_seg (Seg b c) p.
Proof.
  intros (t & T0 & T1 & ->) p. unfold on_seg; cbn [seg_start seg_end].
  destruct (point_dec a c) as [->|D].
  - replace (lerp c c t) with c by (apply point_ext; unfold lerp; cbn; ring). tauto.
  - assert (B1 : forall u, between a (lerp a c t) (lerp a c u) <-> 0 <= u /\ u <= t).
    { intros u. assert (K := between_lerp' a c 0 t u D). rewrite lerp_0 in K.
      rewrite K. split; [intros [[? ?]|[? ?]]|]; try tauto. split; qlra. }
    assert (B2 : forall u, between (lerp a c t) c (lerp a c u) <-> t <= u /\ u <= 1).
    { intros u. assert (K := between_lerp' a c t 1 u D). rewrite lerp_1 in K.
      rewrite K. split; [intros [[? ?]|[? ?]]|]; try tauto. split; qlra. }
    split.
    + intros (u & U0 & U1 & ->). destruct (Qclt_le_dec u t); [left; apply B1|right; apply B2]; split; auto; qlra.
    + intros [B|B].
      * assert (X : exists u, p = lerp a c u).
        { rewrite <- (lerp_0 a c) in B at 1. exact (between_lerp_ex _ _ _ _ _ B). }
        destruct X as (u & ->). apply B1 in B. exists u. repeat split; try tauto; qlra.
      * assert (X : exists u, p = lerp a c u).
        { rewrite <- (lerp_1 a c) in B at 2. exact (between_lerp_ex _ _ _ _ _ B). }
        destruct X as (u & ->). apply B2 in B. exists u. repeat split; try tauto; qlra.
Qed.
Lemma strictly_between_extend r a v w : a <> v -> strictly_between r v a -> strictly_between a w v ->
  strictly_between r w v.
Proof.
  intros D (t & T0 & T1 & ->) (u & U0 & U1 & E).
  (* a = lerp r v t, v = lerp a w u: v = r + k (w - r) *)
  exists (u / (1 - (1 - u) * t)).
  assert (P : 0 < 1 - (1 - u) * t) by qnra.
  assert (N : 1 - (1 - u) * t <> 0) by qlra.
  set (d := 1 - (1 - u) * t) in *.
  assert (K : d * (u / d) = u) by (field; auto). set (k := u / d) in *.
  assert (Ud : u < d) by (unfold d; qnra).
  assert (I : forall x y, d * x = d * y -> x = y).
  { intros x y H. assert (Z : d * (x - y) = 0) by qlra. apply Qcmult_integral in Z. destruct Z; [contradiction|qlra]. }
  clearbody k. split; [|split].
  - clearbody d. apply Qcnot_le_lt. intros L. qnra.
  - clearbody d. apply Qcnot_le_lt. intros L. qnra.
  - apply (f_equal px) in E as Ex. apply (f_equal py) in E as Ey. unfold lerp in Ex, Ey. cbn [px py] in Ex, Ey.
    apply point_ext; unfold lerp; cbn [px py]; apply I.
    + replace (d * (px r + k * (px w - px r))) with (d * px r + d * k * (px w - px r)) by ring.
      rewrite K. unfold d. qnra.
    + replace (d * (py r + k * (py w - py r))) with (d * py r + d * k * (py w - py r)) by ring.
      rewrite K. unfold d. qnra.
Qed.
Lemma never_turns_back_cons a l : never_turns_back (a :: l) -> never_turns_back l.
Proof. intros H x y z (l1 & l2 & ->). apply H. exists (a :: l1), l2. auto. Qed.
Lemma shrink_from_outline f vs : forall l prev,
  (prev = l \/ strictly_between l (hd f vs) prev) -> never_turns_back (prev :: vs ++ [f]) ->
  forall p, on_segs (walk l vs f) p <-> on_segs (walk l (shrink_from f l vs) f) p.
Proof.
  induction vs as [|v vs IH]; intros l prev P H p; [tauto|].
  assert (Hvs := never_turns_back_cons _ _ H).
  set (w := hd f vs).
  assert (Tr : prev <> v /\ v <> w /\ (area2 prev v w = 0 -> strictly_between prev w v)).
  { apply H. exists []. destruct vs as [|w' vs]; [exists []; reflexivity|exists (vs ++ [f]); reflexivity]. }
  destruct Tr as (D1 & D2 & B). cbn [hd] in P.
  assert (Step : (area2 l v w <> 0 /\ shrink_from f l (v :: vs) = v :: shrink_from f v vs)
                 \/ (area2 l v w = 0 /\ shrink_from f l (v :: vs) = shrink_from f l vs)).
  { destruct vs as [|w' vs]; unfold w; cbn [hd].
    - cbn [shrink_from]. destruct (not_collinear_spec l v f) as [K|K]; [left|right]; split; auto.
      destruct (Qc_eq_dec (area2 l v f) 0); [auto|contradiction].
    - change (shrink_from f l (v :: w' :: vs)) with
        (if negb (orientation_is (orient l v w') COLLINEAR)
         then v :: shrink_from f v (w' :: vs) else shrink_from f l (w' :: vs)).
      destruct (not_collinear_spec l v w') as [K|K]; [left|right]; split; auto.
      destruct (Qc_eq_dec (area2 l v w') 0); [auto|contradiction]. }
  destruct Step as [[K ->]|[K ->]].
  - cbn [walk]. rewrite !on_segs_cons. rewrite (IH v v (or_introl eq_refl) Hvs p). tauto.
  - assert (SB : strictly_between l w v).
    { destruct P as [->|P]; [auto|].
      apply (strictly_between_extend l prev); auto. apply B.
      (* prev is on the line through l and v *)
      destruct P as (t & T0 & T1 & ->).
      replace (area2 (lerp l v t) v w) with ((1 - t) * area2 l v w)
        by (unfold area2, lerp; cbn [px py]; ring).
      rewrite K. ring. }
    assert (W : on_segs (walk l (v :: vs) f) p <-> on_segs (walk l vs f) p).
    { cbn [walk]. rewrite on_segs_cons. unfold w in SB. destruct vs as [|w' vs]; cbn [walk hd] in *;
      rewrite !on_segs_cons, (strictly_between_join l v _ SB); tauto. }
    rewrite W. apply (IH l v); auto.
Qed.
Lemma shrink_outline v vs p : never_turns_back (v :: vs ++ [v]) ->
  (on_contour (shrink_collinear_vertices (v :: vs)) p <-> on_contour (v :: vs) p).
Proof.
  intros H. unfold on_contour. cbn [shrink_collinear_vertices]. rewrite !edges_walk.
  symmetry. apply (shrink_from_outline v vs v v); auto.
Qed.

(** ** Oriented edges *)
Lemma rotate_sequence_rotation vs : rotation_of (rev vs) (rotate_sequence vs).
Proof. destruct vs as [|v vs]; [exists [], []; auto|]. exists (rev vs), [v]. auto. Qed.
Lemma oriented_segments vs o : exists ws, same_cycle vs ws /\ to_oriented_segments vs o = edges ws
  /\ ((2 <= length vs)%nat -> NoDup vs -> contour_orientation vs <> COLLINEAR -> o <> COLLINEAR ->
      contour_orientation ws = o).
Proof.
  unfold to_oriented_segments.
  change (to_contour_orientation vs (to_arg_min vs)) with (contour_orientation vs).
  destruct (orientation_is_spec (contour_orientation vs) o) as [E|E].
  - exists vs. split; [apply same_cycle_refl|]. split; [reflexivity|]. auto.
  - exists (rotate_sequence vs). split; [right; apply rotate_sequence_rotation|]. split; [reflexivity|].
    intros L N C O. rewrite (orientation_reversal vs _ L N (rotate_sequence_rotation vs)).
    destruct (contour_orientation vs), o; cbn; congruence.
Qed.
Lemma same_multiset_app {A} (R : A -> A -> Prop) l l' r r' :
  same_multiset R l r -> same_multiset R l' r' -> same_multiset R (l ++ l') (r ++ r').
Proof.
  intros (m & P & F) (m' & P' & F'). exists (m ++ m'). split; [apply Permutation_app; auto|apply Forall2_app; auto].
Qed.
Lemma same_cycle_edges vs ws : same_cycle vs ws -> same_multiset same_segment (edges vs) (edges ws).
Proof.
  intros S. destruct (edges_same_cycle vs ws S) as [P|P].
  - exists (edges vs). split; auto. clear. induction (edges vs); constructor; auto. apply same_segment_refl.
  - exists (map reverse_seg (edges vs)). split; auto. clear. induction (edges vs); constructor; auto.
    right. auto.
Qed.
Lemma polygon_segments b hs : exists b' hs',
  polygon_to_correctly_oriented_segments (Poly b hs) = edges b' ++ flat_map edges hs'
  /\ same_cycle b b' /\ Forall2 same_cycle hs hs'
  /\ (nondegenerate b -> contour_orientation b' = COUNTERCLOCKWISE)
  /\ Forall2 (fun h h' => nondegenerate h -> contour_orientation h' = CLOCKWISE) hs hs'.
Proof.
  assert (S : forall vs o, o <> COLLINEAR -> exists ws, same_cycle vs ws /\ to_oriented_segments vs o = edges ws
     /\ (nondegenerate vs -> contour_orientation ws = o)).
  { intros vs o O. destruct (oriented_segments vs o) as (ws & C & E & H). exists ws. split; auto. split; auto.
    intros N. assert (K := nondegenerate_ori vs N). destruct N as (L & N & _). apply H; auto. lia. }
  destruct (S b COUNTERCLOCKWISE) as (b' & C & E & O); [discriminate|].
  unfold polygon_to_correctly_oriented_segments. cbn [border holes]. rewrite E. exists b'.
  assert (H : exists hs', flat_map (fun hole => to_oriented_segments hole CLOCKWISE) hs = flat_map edges hs'
     /\ Forall2 same_cycle hs hs' /\ Forall2 (fun h h' => nondegenerate h -> contour_orientation h' = CLOCKWISE) hs hs').
  { clear - S. induction hs as [|h hs (hs' & E & F & G)]; [exists []; repeat split; constructor|].
    destruct (S h CLOCKWISE) as (h' & C & E' & O); [discriminate|]. exists (h' :: hs').
    cbn [flat_map]. rewrite E, E'. repeat split; auto. }
  destruct H as (hs' & E' & F & G). exists hs'. rewrite E'. auto.
Qed.
Lemma polygon_segments_multiset b hs :
  same_multiset same_segment (edges b ++ flat_map edges hs) (polygon_to_correctly_oriented_segments (Poly b hs))
  /\ length (polygon_to_correctly_oriented_segments (Poly b hs)) = polygon_to_segments_count (Poly b hs).
Proof.
  destruct (polygon_segments b hs) as (b' & hs' & E & C & F & _). rewrite E. split.
  - apply same_multiset_app; [apply same_cycle_edges; auto|].
    clear E C. induction F as [|h h' hs hs' C F IH]; cbn [flat_map]; [exists []; auto|].
    apply same_multiset_app; auto. apply same_cycle_edges; auto.
  - unfold polygon_to_segments_count. cbn [border holes]. rewrite app_length.
    change (to_contour_segments b) with (edges b). rewrite !edges_length.
    rewrite (same_cycle_length _ _ C). f_equal.
    clear E C. induction F as [|h h' hs hs' C F IH]; cbn [flat_map map fold_right]; auto.
    rewrite app_length, IH. change (to_contour_segments h) with (edges h).
    rewrite !edges_length, (same_cycle_length _ _ C). auto.
Qed.
(** Deciding the hypothesis on literals. *)
Fixpoint triples (l : list point) : list (point * point * point) :=
  match l with a :: ((b :: c :: _) as r) => (a, b, c) :: triples r | _ => [] end.
Lemma triples_in l a b c : triple_in l a b c -> In (a, b, c) (triples l).
Proof.
  intros (l1 & l2 & ->). induction l1 as [|x l1 IH]; [cbn; auto|].
  destruct l1 as [|y [|z l1]]; cbn in *; auto.
Qed.
Definition straight_on (t : point * point * point) : bool :=
  let '(a, b, c) := t in
  negb (point_eq a b) && negb (point_eq b c)
  && (negb (orientation_is (orient a b c) COLLINEAR) || location_is (locate_point_in_segment a c b) BOUNDARY).
Lemma never_turns_back_literal l : forallb straight_on (triples l) = true -> never_turns_back l.
Proof.
  intros F a b c T. apply triples_in in T. rewrite forallb_forall in F. apply F in T.
  unfold straight_on in T. apply andb_true_iff in T. destruct T as [T1 T2].
  apply andb_true_iff in T1. destruct T1 as [A B].
  destruct (point_eq_spec a b) as [|D1]; [discriminate|]. destruct (point_eq_spec b c) as [|D2]; [discriminate|].
  repeat split; auto. intros Z. apply orb_true_iff in T2. destruct T2 as [T2|T2].
  - destruct (not_collinear_spec a b c); [contradiction|discriminate].
  - destruct (location_is_spec (locate_point_in_segment a c b) BOUNDARY) as [K|K]; [|discriminate].
    apply locate_spec in K. apply strictly_between_iff; auto.
    intros ->. apply between_same in K. congruence.
Qed.
