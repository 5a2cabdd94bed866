(** Corollaries and concrete cases for Prop_Contour. *)
From Coq Require Import QArith Qcanon Bool List ZArith Lia Permutation.
From Verif Require Import QcTac Model_Base Model_Box Model_Geometry Model_Utils Model_Contour
  Spec_Base Spec_Segment Spec_Contour Spec_Literals Proof_Base Proof_Contour Proof_Contour2 Proof_Edges.
Import ListNotations.
Local Open Scope Qc_scope.

Lemma contour_eq_equivalence c d e : c <> [] -> NoDup c ->
  contour_eq c c = true
  /\ (contour_eq c d = true -> contour_eq d c = true)
  /\ (contour_eq c d = true -> contour_eq d e = true -> contour_eq c e = true).
Proof.
  intros N D. split; [|split].
  - apply contour_eq_spec; auto. apply same_cycle_refl.
  - intros H. apply contour_eq_sound in H. apply contour_eq_complete.
    + intros ->. apply same_cycle_length in H. destruct c; cbn in H; congruence.
    + apply (same_cycle_nodup _ _ H D).
    + apply same_cycle_sym; auto.
  - intros H K. apply contour_eq_sound in H, K. apply contour_eq_complete; auto.
    apply (same_cycle_trans _ d); auto.
Qed.
Fixpoint nodupb (l : list point) : bool :=
  match l with [] => true | x :: r => negb (existsb (point_eq x) r) && nodupb r end.
Lemma nodupb_spec l : nodupb l = true -> NoDup l.
Proof.
  induction l as [|x l IH]; cbn; intros H; [constructor|]. apply andb_true_iff in H.
  destruct H as [H K]. constructor; auto. intros I. apply negb_true_iff in H.
  assert (E : existsb (point_eq x) l = true) by (apply existsb_exists; exists x; split; auto; apply point_eq_refl).
  congruence.
Qed.
Lemma nodup_triangle : NoDup [pt 0 0; pt 4 0; pt 0 4].
Proof. apply nodupb_spec. vm_compute. auto. Qed.
Lemma nondegenerate_hash c d : nondegenerate c -> contour_eq c d = true ->
  contour_hash_key c = contour_hash_key d.
Proof.
  intros N. apply hash_consistent; [destruct N; lia|apply N|apply nondegenerate_ori; auto].
Qed.
Lemma hash_inconsistent : exists c d,
  NoDup c /\ (3 <= length c)%nat /\ contour_eq c d = true
  /\ contour_hash_key c <> contour_hash_key d.
Proof.
  exists [pt 0 0; pt 0 1; pt 0 2], [pt 0 2; pt 0 1; pt 0 0].
  split; [apply nodupb_spec; vm_compute; auto|]. split; [cbn; lia|].
  split; [vm_compute; auto|].
  intros E. apply (proj2 (points_eq_true _ _)) in E. vm_compute in E. discriminate.
Qed.

(** A decision procedure for [nondegenerate] on literals. *)
Lemma consecutive_item vs a b c : consecutive vs a b c ->
  exists k, (k < length vs)%nat /\
    skipn k vs ++ firstn k vs = b :: c :: tl (tl (skipn k vs ++ firstn k vs))
    /\ last (tl (skipn k vs ++ firstn k vs)) c = a.
Proof.
  intros (r & (p & q' & -> & E) & L).
  destruct (Nat.eq_dec (length q') 0) as [Z|Z].
  - destruct q'; [|discriminate]. rewrite app_nil_r in *. cbn in E. exists O. cbn.
    rewrite app_nil_r. subst p. cbn. split; [lia|]. split; auto.
  - exists (length p). rewrite app_length. split; [lia|].
    rewrite skipn_len_app, firstn_len_app by auto. rewrite <- E. cbn [tl]. auto.
Qed.
Definition nondegenerateb (vs : list point) : bool :=
  (3 <=? length vs)%nat && nodupb vs &&
  forallb (fun k => match skipn k vs ++ firstn k vs with
     | b :: c :: r => negb (orientation_is (orient (last (c :: r) c) b c) COLLINEAR)
     | _ => true end) (seq 0 (length vs)).
Lemma nondegenerateb_spec vs : nondegenerateb vs = true -> nondegenerate vs.
Proof.
  unfold nondegenerateb. rewrite !andb_true_iff, forallb_forall, Nat.leb_le.
  intros [[L D] F]. split; [auto|]. split; [apply nodupb_spec; auto|].
  intros a b c C. apply consecutive_item in C. destruct C as (k & Lk & E & La).
  specialize (F k). rewrite E in F. rewrite E in La. cbn [tl] in La. rewrite La in F.
  assert (I : In k (seq 0 (length vs))) by (apply in_seq; lia).
  specialize (F I). intros Z. apply orient_col in Z. rewrite Z in F. discriminate.
Qed.
Lemma nondegenerate_square : nondegenerate [pt 0 0; pt 4 0; pt 4 4; pt 0 4].
Proof. apply nondegenerateb_spec. vm_compute. auto. Qed.
Lemma nondegenerate_holed :
  nondegenerate_polygon (Poly [pt 0 0; pt 9 0; pt 0 9] [[pt 1 1; pt 2 1; pt 1 2]]).
Proof.
  split; [|split]; cbn.
  - apply nondegenerateb_spec. vm_compute. auto.
  - apply Forall_cons; [|apply Forall_nil]. apply nondegenerateb_spec. vm_compute. auto.
  - apply FOP_cons; [apply Forall_nil|apply FOP_nil].
Qed.
Lemma compound_equivalences :
  (forall s t u : segment, same_segment s s /\ (same_segment s t -> same_segment t s)
     /\ (same_segment s t -> same_segment t u -> same_segment s u))
  /\ (forall s t u : polygon, same_polygon s s /\ (same_polygon s t -> same_polygon t s)
     /\ (same_polygon s t -> same_polygon t u -> same_polygon s u))
  /\ (forall l m r : list segment, multisegment_eq l l = true
     /\ (multisegment_eq l m = true -> multisegment_eq m l = true)
     /\ (multisegment_eq l m = true -> multisegment_eq m r = true -> multisegment_eq l r = true))
  /\ (forall l m r : list polygon, Forall nondegenerate_polygon l ->
     Forall nondegenerate_polygon m -> Forall nondegenerate_polygon r ->
     multipolygon_eq l l = true
     /\ (multipolygon_eq l m = true -> multipolygon_eq m l = true)
     /\ (multipolygon_eq l m = true -> multipolygon_eq m r = true -> multipolygon_eq l r = true)).
Proof.
  split; [|split; [|split]].
  - intros s t u. split; [apply same_segment_refl|]. split; [apply same_segment_sym|apply same_segment_trans].
  - intros s t u. split; [apply same_polygon_refl|]. split; [apply same_polygon_sym|apply same_polygon_trans].
  - intros l m r. rewrite !multisegment_eq_spec. split; [|split].
    + apply same_set_refl. exact same_segment_refl.
    + apply same_set_sym. exact same_segment_sym.
    + apply same_set_trans. exact same_segment_trans.
  - intros l m r Nl Nm Nr. rewrite !multipolygon_eq_spec by auto. split; [|split].
    + apply same_set_refl. exact same_polygon_refl.
    + apply same_set_sym. exact same_polygon_sym.
    + apply same_set_trans. exact same_polygon_trans.
Qed.
Lemma triangle_orientation_sign a b c : a <> b -> b <> c -> a <> c ->
  (contour_orientation [a; b; c] = COUNTERCLOCKWISE <-> 0 < signed_area2 [a; b; c])
  /\ (contour_orientation [a; b; c] = CLOCKWISE <-> signed_area2 [a; b; c] < 0)
  /\ (contour_orientation [a; b; c] = COLLINEAR <-> signed_area2 [a; b; c] = 0).
Proof.
  intros N1 N2 N3. destruct (triangle_orientation a b c N1 N2 N3) as [-> ->].
  split; [apply orient_ccw|split; [apply orient_cw|apply orient_col]].
Qed.
Lemma convex_orientation_sign c : (3 <= length c)%nat -> strictly_convex_ccw c ->
  contour_orientation c = COUNTERCLOCKWISE /\ 0 < signed_area2 c
  /\ contour_orientation (rev c) = CLOCKWISE /\ signed_area2 (rev c) < 0.
Proof.
  intros L C. assert (A := convex_area c L C). assert (O := convex_orientation c L C).
  split; [auto|]. split; [auto|]. split.
  - rewrite (orientation_reversal c (rev c)), O; auto; [lia|apply C|apply rotation_refl].
  - rewrite signed_area_rev. qlra.
Qed.
Lemma convex_square : strictly_convex_ccw [pt 0 0; pt 4 0; pt 4 4; pt 0 4].
Proof.
  split; [apply nodupb_spec; vm_compute; auto|].
  intros s v Is Iv N1 N2. apply orient_ccw.
  cbn in Is, Iv. destruct Is as [<-|[<-|[<-|[<-|[]]]]]; cbn [seg_start seg_end] in *;
    destruct Iv as [<-|[<-|[<-|[<-|[]]]]]; try congruence; vm_compute; auto.
Qed.
