(** The trapezoidation, part 13: the edges of a polygon. *)
From Coq Require Import QArith Qcanon Bool List Arith Lia NArith Permutation.
From Verif Require Import QcTac Model_Base Model_Utils Model_Box Model_Geometry Model_Contour Model_Linear Model_Mixed Model_Seidel Spec_Base Spec_Bounds Spec_Segment Spec_Contour
  Spec_Shaped Spec_Relate Spec_RelateShaped Spec_Validity Spec_Seidel Proof_Base Proof_Utils Proof_Bounds Proof_Contour Proof_Edges Proof_Shrink Proof_Ready.
Import ListNotations.
Local Open Scope Qc_scope.

Notation edges := Spec_Segment.edges.

Lemma forall2_weaken {T U} (P Q : T -> U -> Prop) l r : (forall x y, P x y -> Q x y) -> Forall2 P l r -> Forall2 Q l r.
Proof. intros I F. induction F; constructor; auto. Qed.

Fixpoint open_marks (v : point) (l : list point) : list (segment * bool) :=
  match l with [] => [] | w :: r => (Seg v w, false) :: open_marks w r end.
Definition ring_marks (vs : list point) : list (segment * bool) :=
  match vs with [] => [] | v :: l => open_marks v l ++ [(Seg (last l v) v, true)] end.
Definition marks (p : polygon) : list (segment * bool) := flat_map ring_marks (rings p).

Lemma last_cons_default {A} (l : list A) v w : last (w :: l) v = last l w.
Proof. revert v w. induction l as [|x l IH]; intros v w; auto. change (last (x :: l) v = last (x :: l) w). rewrite !IH. auto. Qed.
Lemma open_marks_edges first : forall l v, edges_from first (v :: l) = map fst (open_marks v l) ++ [Seg (last l v) first].
Proof.
  induction l as [|w l IH]; intros v; auto. change (edges_from first (v :: w :: l)) with (Seg v w :: edges_from first (w :: l)).
  rewrite IH. cbn [open_marks map fst app]. rewrite last_cons_default. auto.
Qed.
Lemma ring_marks_edges vs : map fst (ring_marks vs) = edges vs.
Proof. destruct vs as [|v l]; auto. cbn [ring_marks]. rewrite map_app. symmetry. apply open_marks_edges. Qed.
Lemma marks_outlines p : map fst (marks p) = outlines (rings p).
Proof.
  unfold marks, outlines. induction (rings p) as [|vs l IH]; auto. cbn [flat_map]. rewrite map_app, ring_marks_edges, IH. auto.
Qed.
Lemma open_marks_false : forall l v s b, In (s, b) (open_marks v l) -> b = false.
Proof. induction l as [|w l IH]; intros v s b I; [destruct I|]. destruct I as [Q|I]; [injection Q; auto|]. eapply IH; eauto. Qed.
Lemma marks_true p s : In (s, true) (marks p) <-> closing p s.
Proof.
  unfold marks, closing. rewrite in_flat_map. split.
  - intros (vs & I & J). destruct vs as [|v l]; [destruct J|]. exists v, l. split; auto. cbn [ring_marks] in J. apply in_app_or in J as [J|[J|[]]].
    + apply open_marks_false in J. discriminate.
    + injection J; auto.
  - intros (v & l & I & ->). exists (v :: l). split; auto. cbn [ring_marks]. apply in_or_app. right. left. auto.
Qed.

(** An edge of the trapezoidation and the side that it stands for. *)
Section Rel.
Variable eps : list point.
Definition stands (correct : bool) (e : edge) (sm : segment * bool) : Prop :=
  exists k l, (k < length eps)%nat /\ (l < length eps)%nat /\ endpoint_at eps k = seg_start (fst sm) /\ endpoint_at eps l = seg_end (fst sm) /\
  e = if snd sm then contour_edge correct (seg_end (fst sm)) l (seg_start (fst sm)) k else contour_edge correct (seg_start (fst sm)) k (seg_end (fst sm)) l.
Lemma at_app pre v post : eps = pre ++ v :: post -> endpoint_at eps (length pre) = v /\ (length pre < length eps)%nat.
Proof. intros ->. unfold endpoint_at. rewrite app_nth2, Nat.sub_diag, app_length by lia. cbn. split; [auto|lia]. Qed.
Lemma open_stands correct : forall l v pre post, eps = pre ++ (v :: l) ++ post ->
  Forall2 (stands correct) (contour_edges_from correct v (length pre) l) (open_marks v l).
Proof.
  induction l as [|w l IH]; intros v pre post E; [constructor|]. cbn [contour_edges_from open_marks].
  destruct (at_app pre v ((w :: l) ++ post) E) as [A1 A2].
  assert (E' : eps = (pre ++ [v]) ++ (w :: l) ++ post) by (rewrite <- app_assoc; exact E).
  destruct (at_app (pre ++ [v]) w (l ++ post) E') as [B1 B2]. assert (L : length (pre ++ [v]) = (length pre + 1)%nat) by (rewrite app_length; auto).
  rewrite L in *. constructor.
  - exists (length pre), (length pre + 1)%nat. cbn [fst snd seg_start seg_end]. auto.
  - pose proof (IH w (pre ++ [v]) post E') as F. rewrite L in F. exact F.
Qed.
Lemma last_at : forall l v pre post, eps = pre ++ (v :: l) ++ post -> endpoint_at eps (length pre + length l) = last l v /\ (length pre + length l < length eps)%nat.
Proof.
  induction l as [|w l IH]; intros v pre post E.
  - cbn [length last]. rewrite Nat.add_0_r. apply (at_app pre v post E).
  - rewrite last_cons_default. assert (E' : eps = (pre ++ [v]) ++ (w :: l) ++ post) by (rewrite <- app_assoc; exact E).
    specialize (IH w _ _ E'). rewrite app_length in IH. cbn [length] in *. replace (length pre + S (length l))%nat with (length pre + 1 + length l)%nat by lia. exact IH.
Qed.
Lemma ring_stands vs o pre post : eps = pre ++ vs ++ post ->
  Forall2 (stands (orientation_is (contour_orientation vs) o)) (populate_from_contour vs o (length pre)) (ring_marks vs).
Proof.
  intros E. destruct vs as [|v l]; [constructor|]. unfold populate_from_contour. cbn [ring_marks]. apply Forall2_app; [eapply open_stands; eauto|].
  constructor; [|constructor]. destruct (last_at l v pre post E) as [A1 A2]. destruct (at_app pre v (l ++ post) E) as [B1 B2].
  exists (length pre + length l)%nat, (length pre). cbn [fst snd seg_start seg_end]. rewrite last_cons_default. auto.
Qed.
Lemma holes_stand : forall hs pre post, eps = pre ++ concat hs ++ post ->
  Forall2 (fun e sm => exists h, In h hs /\ In sm (ring_marks h) /\ stands (orientation_is (contour_orientation h) CLOCKWISE) e sm)
    (populate_from_holes hs (length pre)) (flat_map ring_marks hs).
Proof.
  induction hs as [|h hs IH]; intros pre post E; [constructor|]. cbn [populate_from_holes flat_map]. cbn [concat] in E. rewrite <- app_assoc in E. apply Forall2_app.
  - pose proof (ring_stands h CLOCKWISE pre _ E) as F. remember (ring_marks h) as L eqn:EL. assert (In_all : forall sm, In sm L -> In sm (ring_marks h)) by (subst; auto). clear EL.
    induction F as [|e sm l l' R F IHF]; constructor.
    + exists h. split; [left; auto|]. split; auto. apply In_all. left. auto.
    + apply IHF. intros sm' I. apply In_all. right. auto.
  - rewrite app_assoc in E. specialize (IH _ _ E). rewrite app_length in IH.
    eapply forall2_weaken; [|exact IH]. intros e sm (h' & I & J). exists h'. split; auto. right; auto.
Qed.
End Rel.

Definition belongs (p : polygon) (e : edge) (sm : segment * bool) : Prop :=
  exists vs o, ((vs = border p /\ o = COUNTERCLOCKWISE) \/ (In vs (holes p) /\ o = CLOCKWISE)) /\ In sm (ring_marks vs)
    /\ stands (border p ++ concat (holes p)) (orientation_is (contour_orientation vs) o) e sm.
Lemma polygon_belongs p : Forall2 (belongs p) (populate_from_contour (border p) COUNTERCLOCKWISE 0 ++ populate_from_holes (holes p) (length (border p))) (marks p).
Proof.
  unfold marks, rings. cbn [flat_map]. apply Forall2_app.
  - pose proof (ring_stands (border p ++ concat (holes p)) (border p) COUNTERCLOCKWISE [] (concat (holes p)) eq_refl) as F. cbn [length] in F.
    remember (ring_marks (border p)) as L eqn:EL. assert (In_all : forall sm, In sm L -> In sm (ring_marks (border p))) by (subst; auto). clear EL.
    induction F as [|e sm l l' R F IHF]; constructor.
    + exists (border p), COUNTERCLOCKWISE. split; auto. split; auto. apply In_all. left. auto.
    + apply IHF. intros sm' I. apply In_all. right. auto.
  - assert (F := holes_stand (border p ++ concat (holes p)) (holes p) (border p) [] ltac:(rewrite app_nil_r; auto)).
    eapply forall2_weaken; [|exact F]. intros e sm (h & I & J & K). exists h, CLOCKWISE. auto.
Qed.

(** The directed side on the outline that goes the right way round. *)
Lemma oriented_side vs o s : In s (edges vs) ->
  In (if orientation_is (contour_orientation vs) o then s else reverse_seg s) (to_oriented_segments vs o).
Proof.
  intros I. unfold to_oriented_segments. rewrite edges_to_contour. fold (contour_orientation vs). destruct (orientation_is _ _); auto.
  destruct vs as [|v l]; [destruct I|].
  pose proof (rotation_trans _ _ _ (edges_rev (v :: l)) (edges_rotation _ _ (rotate_sequence_rotation (v :: l)))) as R.
  apply (Permutation_in _ (rotation_permutation _ _ R)). apply -> in_rev. apply in_map. auto.
Qed.
