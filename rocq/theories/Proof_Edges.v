(** Edges of closed sequences of vertices under rotation and reversal. *)
From Coq Require Import QArith Qcanon Bool List ZArith Lia Permutation.
From Verif Require Import QcTac Model_Base Model_Box Model_Geometry Model_Utils Model_Contour
  Spec_Base Spec_Segment Spec_Contour Proof_Base Proof_Line Proof_Bounds Proof_Utils Proof_Contour Proof_Contour2.
Import ListNotations.
Local Open Scope Qc_scope.

Fixpoint chain (l : list point) : list segment :=
  match l with
  | a :: ((b :: _) as r) => Seg a b :: chain r
  | _ => []
  end.
Lemma chain_cons2 a b l : chain (a :: b :: l) = Seg a b :: chain (b :: l).
Proof. reflexivity. Qed.
Lemma edges_from_chain f l : l <> [] -> edges_from f l = chain (l ++ [f]).
Proof.
  induction l as [|a l IH]; [congruence|]. intros _. destruct l as [|b l]; auto.
  change (edges_from f (a :: b :: l)) with (Seg a b :: edges_from f (b :: l)).
  rewrite IH by discriminate. reflexivity.
Qed.
Lemma edges_chain v l : edges (v :: l) = chain (v :: l ++ [v]).
Proof. unfold edges. rewrite edges_from_chain by discriminate. reflexivity. Qed.
Lemma chain_app a x b : chain (a ++ x :: b) = chain (a ++ [x]) ++ chain (x :: b).
Proof.
  induction a as [|y a IH]; auto. destruct a as [|z a]; auto.
  cbn [app] in *. rewrite !chain_cons2, IH. reflexivity.
Qed.
Lemma chain_snoc2 l a b : chain (l ++ [a; b]) = chain (l ++ [a]) ++ [Seg a b].
Proof. apply (chain_app l a [b]). Qed.
Lemma chain_rev l : chain (rev l) = rev (map reverse_seg (chain l)).
Proof.
  induction l as [|a l IH]; auto. destruct l as [|b l]; auto.
  cbn [rev] in *. rewrite <- app_assoc. cbn [app]. rewrite chain_snoc2, IH. reflexivity.
Qed.
Lemma edges_rotation vs vs' : rotation_of vs vs' -> rotation_of (edges vs) (edges vs').
Proof.
  intros (a & b & -> & ->). destruct a as [|x a]; [rewrite app_nil_r; apply rotation_refl|].
  destruct b as [|y b]; [rewrite app_nil_r; apply rotation_refl|].
  cbn [app]. rewrite !edges_chain. rewrite <- !app_assoc. cbn [app].
  exists (chain (x :: a ++ [y])), (chain (y :: b ++ [x])).
  split; [exact (chain_app (x :: a) y (b ++ [x]))|exact (chain_app (y :: b) x (a ++ [y]))].
Qed.
Lemma edges_rev vs : rotation_of (rev (map reverse_seg (edges vs))) (edges (rev vs)).
Proof.
  destruct vs as [|v l]; [exists [], []; auto|].
  rewrite edges_chain, <- chain_rev. cbn [rev]. rewrite rev_app_distr. cbn [rev app].
  destruct (rev l) as [|w r].
  - cbn. apply rotation_refl.
  - cbn [app]. rewrite edges_chain. rewrite <- app_assoc. cbn [app].
    exists [Seg v w], (chain (w :: r ++ [v])). split; [reflexivity|exact (chain_snoc2 (w :: r) v w)].
Qed.
Lemma edges_same_cycle vs vs' : same_cycle vs vs' ->
  Permutation (edges vs) (edges vs') \/ Permutation (map reverse_seg (edges vs)) (edges vs').
Proof.
  intros [R|R].
  - left. apply rotation_permutation, edges_rotation; auto.
  - right. transitivity (rev (map reverse_seg (edges vs))); [apply Permutation_rev|].
    apply rotation_permutation. apply (rotation_trans _ (edges (rev vs))); [apply edges_rev|].
    apply edges_rotation; auto.
Qed.
Lemma reverse_seg_invol s : reverse_seg (reverse_seg s) = s.
Proof. destruct s; reflexivity. Qed.
Lemma chain_endpoints l s : In s (chain l) -> In (seg_start s) l /\ In (seg_end s) l.
Proof.
  induction l as [|a l IH]; [intros []|]. destruct l as [|b l]; [intros []|].
  rewrite chain_cons2. intros [<-|I]; [cbn; auto|]. destruct (IH I). split; right; auto.
Qed.
Lemma edges_endpoints vs s : In s (edges vs) -> In (seg_start s) vs /\ In (seg_end s) vs.
Proof.
  destruct vs as [|v l]; [intros []|]. rewrite edges_chain. intros I.
  apply chain_endpoints in I. cbn in *. rewrite !in_app_iff in I. cbn in I. tauto.
Qed.
Lemma edges_length vs : length (edges vs) = length vs.
Proof.
  destruct vs as [|v l]; auto. unfold edges. generalize v at 1. intros f. revert v.
  induction l as [|w l IH]; intros v; auto.
  change (edges_from f (v :: w :: l)) with (Seg v w :: edges_from f (w :: l)).
  cbn [length]. rewrite IH; auto.
Qed.
Lemma chain_starts l x : map seg_start (chain (l ++ [x])) = l.
Proof.
  induction l as [|a l IH]; auto. destruct l as [|b l]; auto.
  cbn [app] in *. rewrite chain_cons2. cbn [map seg_start]. f_equal. auto.
Qed.
Lemma edges_starts vs : map seg_start (edges vs) = vs.
Proof. destruct vs as [|v l]; auto. rewrite edges_chain, app_comm_cons. apply chain_starts. Qed.

(** ** Convex contours *)
Lemma closing_edge v l : l <> [] -> In (Seg (last l v) v) (edges (v :: l)).
Proof.
  intros N. destruct (exists_last N) as (l' & w & ->). rewrite last_last, edges_chain, <- app_assoc.
  cbn [app]. rewrite app_comm_cons, chain_snoc2. apply in_or_app; right; cbn; auto.
Qed.
Lemma convex_orientation vs : (3 <= length vs)%nat -> strictly_convex_ccw vs ->
  contour_orientation vs = COUNTERCLOCKWISE.
Proof.
  intros L [D C]. destruct (at_least_ex vs) as (x & t & A); [intros ->; cbn in L; lia|].
  assert (Rt := at_least_rotation _ _ _ A). assert (Lt := rotation_length _ _ Rt). cbn in Lt.
  assert (Dt : NoDup (x :: t)) by (apply (Permutation_NoDup (rotation_permutation _ _ Rt)); auto).
  assert (Nt : t <> []) by (intros ->; cbn in Lt; lia).
  rewrite (contour_orientation_at _ _ _ A) by auto. apply orient_ccw.
  assert (I : In (Seg (last t x) x) (edges vs)).
  { apply (Permutation_in _ (Permutation_sym (rotation_permutation _ _ (edges_rotation _ _ Rt)))).
    apply closing_edge; auto. }
  apply (C _ (hd x t) I).
  - apply (Permutation_in _ (Permutation_sym (rotation_permutation _ _ Rt))).
    destruct t; [congruence|cbn; auto].
  - cbn [seg_start]. destruct t as [|y [|z t]]; cbn in Lt; try lia. cbn [hd].
    rewrite last_cons, last_cons. inversion Dt as [|? ? _ D']; subst.
    inversion D' as [|? ? N _]; subst. intros E. apply N. rewrite E.
    destruct (exists_last (l := z :: t)) as (l' & w & El); [discriminate|].
    change (last t z) with (last (z :: t) z) || rewrite <- (last_cons z t z).
    rewrite El, last_last. apply in_or_app; cbn; auto.
  - cbn [seg_end]. inversion Dt as [|? ? N _]; subst. intros E. apply N.
    destruct t; [congruence|]. cbn in E. subst. cbn; auto.
Qed.
Lemma fan_nonneg o l : (forall s, In s l -> 0 <= area2 o (seg_start s) (seg_end s)) -> 0 <= fan o l.
Proof.
  induction l as [|s l IH]; intros H; [apply Qcle_refl|].
  cbn [fan fold_right]. fold (fan o l). assert (K := H s (or_introl eq_refl)).
  assert (0 <= fan o l) by (apply IH; intros; apply H; cbn; auto). qlra.
Qed.
Lemma area2_rot' a b c : area2 b c a = area2 a b c.
Proof. unfold area2; ring. Qed.
Lemma area2_same o b : area2 o o b = 0 /\ area2 o b o = 0.
Proof. unfold area2; split; ring. Qed.
Lemma convex_area vs : (3 <= length vs)%nat -> strictly_convex_ccw vs -> 0 < signed_area2 vs.
Proof.
  intros L [D C]. destruct vs as [|a [|b [|c l]]]; cbn in L; try lia.
  rewrite (signed_area2_fan a).
  change (edges (a :: b :: c :: l)) with (Seg a b :: Seg b c :: edges_from a (c :: l)).
  cbn [fan fold_right]. fold (fan a (edges_from a (c :: l))).
  cbn [seg_start seg_end]. destruct (area2_same a b) as [E _]. rewrite E.
  assert (K : forall s, In s (edges (a :: b :: c :: l)) -> 0 <= area2 a (seg_start s) (seg_end s)).
  { intros s I. destruct (point_eq_spec a (seg_start s)) as [Z|N].
    - rewrite <- Z. rewrite (proj1 (area2_same a _)). apply Qcle_refl.
    - destruct (point_eq_spec a (seg_end s)) as [Z|N'].
      + rewrite <- Z. rewrite (proj2 (area2_same a _)). apply Qcle_refl.
      + rewrite <- area2_rot'. apply Qclt_le_weak, C; cbn; auto. }
  assert (0 < area2 a b c).
  { rewrite <- area2_rot'. inversion D as [|? ? Na _]; subst. cbn in Na.
    apply (C (Seg b c)); cbn; auto. }
  assert (0 <= fan a (edges_from a (c :: l))) by (apply fan_nonneg; intros; apply K; cbn; auto).
  qlra.
Qed.
Lemma shoelace_app l r : shoelace_sum (l ++ r) = shoelace_sum l + shoelace_sum r.
Proof. induction l as [|s l IH]; cbn [app shoelace_sum]; [ring|]. rewrite IH. ring. Qed.
Lemma shoelace_rev l : shoelace_sum (rev (map reverse_seg l)) = - shoelace_sum l.
Proof.
  induction l as [|s l IH]; [reflexivity|]. cbn [map rev]. rewrite shoelace_app, IH.
  destruct s; cbn. ring.
Qed.
Lemma shoelace_rotation l r : rotation_of l r -> shoelace_sum l = shoelace_sum r.
Proof. intros (a & b & -> & ->). rewrite !shoelace_app. ring. Qed.
Lemma signed_area_rotation vs vs' : rotation_of vs vs' -> signed_area2 vs' = signed_area2 vs.
Proof. intros R. symmetry. apply shoelace_rotation, edges_rotation; auto. Qed.
Lemma signed_area_rev vs : signed_area2 (rev vs) = - signed_area2 vs.
Proof.
  unfold signed_area2. rewrite <- shoelace_rev. symmetry. apply shoelace_rotation, edges_rev.
Qed.
Lemma triangle_orientation a b c : a <> b -> b <> c -> a <> c ->
  contour_orientation [a; b; c] = orient a b c /\ signed_area2 [a; b; c] = area2 a b c.
Proof.
  intros N1 N2 N3. split.
  - destruct (at_least_ex [a; b; c]) as (x & t & A); [discriminate|].
    assert (Rt := at_least_rotation _ _ _ A).
    assert (Lt := rotation_length _ _ Rt). cbn in Lt.
    rewrite (contour_orientation_at _ _ _ A) by (intros ->; discriminate).
    destruct Rt as (p & q & E1 & E2).
    destruct p as [|? [|? [|? [|]]]]; cbn in E1; inversion E1; subst; cbn in E2; inversion E2; subst; cbn;
      solve [reflexivity|apply orient_rot|symmetry; apply orient_rot].
  - unfold signed_area2, area2; cbn; ring.
Qed.
