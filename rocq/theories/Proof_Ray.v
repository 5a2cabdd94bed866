(** The edges to the right of a point and the edges below it, along a slightly inclined line, have
    the same parity whenever every vertex is the end of an even number of edges. *)
From Coq Require Import QArith Qcanon Bool List Arith Lia Permutation.
From Verif Require Import QcTac Model_Base Model_Utils Model_Geometry Model_Contour Spec_Base Spec_Segment
  Spec_Contour Proof_Base Proof_Line Proof_Locate Proof_Locate2 Proof_Parity Proof_Corner.
Import ListNotations.
Local Open Scope Qc_scope.

Section Ray.
Variable eps : Qc.
Definition Xs (p : point) : Qc := px p + eps * py p.
(** The edge from [a] to [b] goes by below [p]. *)
Definition under1 (a b p : point) : bool := qltb (Xs a) (Xs p) && qltb (Xs p) (Xs b) && qltb 0 (area2 a b p).
Definition below_pair (a b p : point) : bool := under1 a b p || under1 b a p.
Definition corner (p v : point) : bool := qltb (Xs p) (Xs v) && qleb (py v) (py p).

Lemma area2_sheared a b p : area2 a b p = (Xs a - Xs p) * (py b - py p) - (Xs b - Xs p) * (py a - py p).
Proof. unfold area2, Xs. ring. Qed.
Lemma area2_flip a b p : area2 b a p = - area2 a b p.
Proof. unfold area2. ring. Qed.
Lemma qleb_yes a b : a <= b -> qleb a b = true.
Proof. intros L. destruct (qleb_spec a b); auto; contradiction. Qed.
Lemma qleb_not a b : b < a -> qleb a b = false.
Proof. intros L. destruct (qleb_spec a b); auto. exfalso; qlra. Qed.

Lemma sheared_between a b p : area2 a b p = 0 -> Xs a < Xs p -> Xs p < Xs b -> between a b p.
Proof.
  intros Z L1 L2. exists ((Xs p - Xs a) / (Xs b - Xs a)).
  assert (D : Xs b - Xs a <> 0) by (intros Q; qlra).
  set (t := (Xs p - Xs a) / (Xs b - Xs a)).
  assert (Et : t * (Xs b - Xs a) = Xs p - Xs a) by (unfold t; field; auto).
  assert (Ey : py p - py a = t * (py b - py a)).
  { rewrite area2_sheared in Z.
    assert (Q : (py p - py a - t * (py b - py a)) * (Xs b - Xs a) = 0).
    { replace ((py p - py a - t * (py b - py a)) * (Xs b - Xs a)) with ((py p - py a) * (Xs b - Xs a) - (t * (Xs b - Xs a)) * (py b - py a)) by ring.
      rewrite Et. etransitivity; [|exact Z]. ring. }
    apply Qcmult_integral in Q. destruct Q as [Q|Q]; [qlra|contradiction]. }
  assert (Ex : px p - px a = t * (px b - px a)).
  { unfold Xs in Et. assert (Q : t * (px b + eps * py b - (px a + eps * py a)) = t * (px b - px a) + eps * (t * (py b - py a))) by ring.
    rewrite Q, <- Ey in Et. assert (eps * (py p - py a) = eps * py p - eps * py a) by ring. qlra. }
  clearbody t. split; [|split].
  - apply Qcnot_lt_le. intros Q. assert (t * (Xs b - Xs a) < 0) by qnra. qlra.
  - apply Qcnot_lt_le. intros Q. assert (0 < (t - 1) * (Xs b - Xs a)) by qnra.
    replace ((t - 1) * (Xs b - Xs a)) with (t * (Xs b - Xs a) - (Xs b - Xs a)) in H by ring. qlra.
  - apply point_ext; unfold lerp; cbn [px py]; qlra.
Qed.

Lemma ray a b p : ~ on_seg (Seg a b) p -> Xs a <> Xs p -> Xs b <> Xs p ->
  xorb (tog a b p) (below_pair a b p) = xorb (corner p a) (corner p b).
Proof.
  intros Off Na Nb. unfold tog, below_pair, up, under1, corner. rewrite (area2_flip a b p).
  assert (NoA : Xs a < Xs p -> Xs p < Xs b -> area2 a b p <> 0).
  { intros L1 L2 Z. apply Off. apply sheared_between; auto. }
  assert (NoB : Xs b < Xs p -> Xs p < Xs a -> area2 a b p <> 0).
  { intros L1 L2 Z. apply Off. unfold on_seg; cbn. apply between_sym, sheared_between; auto. rewrite area2_flip, Z. ring. }
  rewrite (area2_sheared a b p) in *.
  set (ua := Xs a - Xs p) in *. set (ub := Xs b - Xs p) in *. set (wa := py a - py p) in *. set (wb := py b - py p) in *.
  assert (Ua : ua < 0 \/ 0 < ua) by (unfold ua; destruct (Qc_dec (Xs a) (Xs p)) as [[Q|Q]|Q]; [left; qlra|right; qlra|contradiction]).
  assert (Ub : ub < 0 \/ 0 < ub) by (unfold ub; destruct (Qc_dec (Xs b) (Xs p)) as [[Q|Q]|Q]; [left; qlra|right; qlra|contradiction]).
  assert (Wa : wa <= 0 \/ 0 < wa) by (destruct (Qclt_le_dec 0 wa); auto).
  assert (Wb : wb <= 0 \/ 0 < wb) by (destruct (Qclt_le_dec 0 wb); auto).
  assert (E1 : Xs a < Xs p <-> ua < 0) by (unfold ua; split; intros; qlra).
  assert (E2 : Xs p < Xs a <-> 0 < ua) by (unfold ua; split; intros; qlra).
  assert (E3 : Xs b < Xs p <-> ub < 0) by (unfold ub; split; intros; qlra).
  assert (E4 : Xs p < Xs b <-> 0 < ub) by (unfold ub; split; intros; qlra).
  assert (E5 : py a <= py p <-> wa <= 0) by (unfold wa; split; intros; qlra).
  assert (E6 : py p < py a <-> 0 < wa) by (unfold wa; split; intros; qlra).
  assert (E7 : py b <= py p <-> wb <= 0) by (unfold wb; split; intros; qlra).
  assert (E8 : py p < py b <-> 0 < wb) by (unfold wb; split; intros; qlra).
  rewrite E1, E4 in NoA. rewrite E3, E2 in NoB.
  assert (Ba : forall x y (P : Prop), (x < y <-> P) -> P -> qltb x y = true) by (intros x y P [_ Q] R; apply qltb_yes; auto).
  assert (Bn : forall x y (P : Prop), (x < y <-> P) -> ~ P -> qltb x y = false) by (intros x y P [Q _] R; apply qltb_not, Qcnot_lt_le; tauto).
  assert (Ca : forall x y (P : Prop), (x <= y <-> P) -> P -> qleb x y = true) by (intros x y P [_ Q] R; apply qleb_yes; auto).
  assert (Cn : forall x y (P : Prop), (x <= y <-> P) -> ~ P -> qleb x y = false) by (intros x y P [Q _] R; apply qleb_not, Qcnot_le_lt; tauto).
  clearbody ua ub wa wb.
  set (z := ua * wb - ub * wa) in *.
  assert (Z : z < 0 \/ z = 0 \/ 0 < z) by (destruct (Qc_dec z 0) as [[Q|Q]|Q]; auto).
  assert (Sp : qltb 0 z = (if Qclt_le_dec 0 z then true else false)) by (destruct (Qclt_le_dec 0 z); [apply qltb_yes|apply qltb_not]; auto).
  assert (Sn : qltb 0 (- z) = (if Qclt_le_dec z 0 then true else false)) by (destruct (Qclt_le_dec z 0); [apply qltb_yes|apply qltb_not]; qlra).
  rewrite Sp, Sn. clear Sp Sn.
  destruct Ua as [Ua|Ua]; [rewrite (Ba _ _ _ E1 Ua), (Bn _ _ _ E2) by (intro; qlra)|rewrite (Ba _ _ _ E2 Ua), (Bn _ _ _ E1) by (intro; qlra)];
  (destruct Ub as [Ub|Ub]; [rewrite (Ba _ _ _ E3 Ub), (Bn _ _ _ E4) by (intro; qlra)|rewrite (Ba _ _ _ E4 Ub), (Bn _ _ _ E3) by (intro; qlra)]);
  (destruct Wa as [Wa|Wa]; [rewrite (Ca _ _ _ E5 Wa), (Bn _ _ _ E6) by (intro; qlra)|rewrite (Ba _ _ _ E6 Wa), (Cn _ _ _ E5) by (intro; qlra)]);
  (destruct Wb as [Wb|Wb]; [rewrite (Ca _ _ _ E7 Wb), (Bn _ _ _ E8) by (intro; qlra)|rewrite (Ba _ _ _ E8 Wb), (Cn _ _ _ E7) by (intro; qlra)]);
  cbn [andb orb];
  destruct (Qclt_le_dec 0 z) as [Z1|Z1], (Qclt_le_dec z 0) as [Z2|Z2]; try reflexivity; exfalso;
  try qlra; try (assert (Z0 : z = 0) by qlra; tauto); unfold z in *; clear - Ua Ub Wa Wb Z1 Z2; try qnra.
Qed.

(** A list of edges. *)
Definition below_seg (p : point) (e : segment) : bool := below_pair (seg_start e) (seg_end e) p.
Definition ends_of (l : list segment) : list point := flat_map (fun e => [seg_start e; seg_end e]) l.
Definition even_ends (l : list segment) : Prop := forall v, xsum (fun p => pointb p v) (ends_of l) = false.
Lemma parity_below l p : ~ on_segs l p -> (forall v, In v (ends_of l) -> Xs v <> Xs p) -> even_ends l ->
  parity l p = xsum (below_seg p) l.
Proof.
  intros Off Gn Ev.
  assert (Q : xorb (parity l p) (xsum (below_seg p) l) = xsum (corner p) (ends_of l)).
  { clear Ev. induction l as [|e l IH]; [reflexivity|]. change (ends_of (e :: l)) with (seg_start e :: seg_end e :: ends_of l) in *. cbn [xsum].
    rewrite <- IH; [|intros (f & I & F); apply Off; exists f; split; [right; auto|auto]|intros v I; apply Gn; cbn; auto].
    assert (Oe : ~ on_seg e p) by (intros F; apply Off; exists e; split; [left; auto|auto]).
    assert (R := ray (seg_start e) (seg_end e) p). destruct e as [a b]. cbn [seg_start seg_end] in *.
    specialize (R Oe (Gn a (or_introl eq_refl)) (Gn b (or_intror (or_introl eq_refl)))).
    unfold parity. cbn [fold_right]. fold (parity l p). unfold below_seg at 1. cbn [seg_start seg_end].
    rewrite (toggles_tog (Seg a b) p Oe). cbn [seg_start seg_end].
    match goal with |- _ = xorb ?x (xorb ?y ?z) => replace (xorb x (xorb y z)) with (xorb (xorb x y) z) by apply xorb_assoc end. rewrite <- R.
    destruct (tog a b p), (below_pair a b p), (parity l p), (xsum (below_seg p) l); reflexivity. }
  rewrite (xsum_even_ends (corner p) (ends_of l)) in Q by (intros v _; apply Ev).
  destruct (parity l p), (xsum (below_seg p) l); auto; discriminate.
Qed.
End Ray.

Section Lines.
Variable eps : Qc.
Notation X := (Xs eps).
Definition line_at (a b : point) (t : Qc) : Qc := (py b - py a) / (X b - X a) * (t - X a) + py a.
Lemma below_pair_sym a b p : below_pair eps a b p = below_pair eps b a p.
Proof. unfold below_pair. apply orb_comm. Qed.
Lemma below_line a b p : X a < X b ->
  below_pair eps a b p = qltb (X a) (X p) && qltb (X p) (X b) && qltb (line_at a b (X p)) (py p).
Proof.
  intros L. unfold below_pair, under1.
  assert (Z : qltb (X b) (X p) && qltb (X p) (X a) && qltb 0 (area2 b a p) = false).
  { destruct (qltb_spec (X b) (X p)), (qltb_spec (X p) (X a)); cbn [andb]; auto. exfalso. qlra. }
  rewrite Z, orb_false_r. f_equal. apply qltb_eq.
  assert (D : X b - X a <> 0) by (intros Q; qlra).
  assert (Ar : area2 a b p = (X b - X a) * (py p - line_at a b (X p))).
  { rewrite (area2_sheared eps). unfold line_at. field. auto. }
  rewrite Ar. set (d := X b - X a) in *. set (y := line_at a b (X p)). assert (Pd : 0 < d) by (unfold d; qlra). clearbody d y.
  split; intros Q; [|assert (0 < py p - y) by qlra; qnra].
  apply Qcnot_le_lt. intros R. assert (d * (py p - y) <= 0) by qnra. qlra.
Qed.
Lemma below_reverse p e : below_seg eps p (reverse_seg e) = below_seg eps p e.
Proof. destruct e. apply below_pair_sym. Qed.
Lemma on_line a b p : X a < X b -> between a b p -> py p = line_at a b (X p).
Proof.
  intros L (t & _ & _ & ->). assert (D : X b - X a <> 0) by (intros Q; qlra). unfold line_at, lerp in *. cbn [py].
  replace (X (Pt (px a + t * (px b - px a)) (py a + t * (py b - py a))) - X a) with (t * (X b - X a)) by (unfold Xs; cbn; ring).
  field. auto.
Qed.
End Lines.

(** Even numbers of ends. *)
Lemma ends_app l r : ends_of (l ++ r) = ends_of l ++ ends_of r.
Proof. apply flat_map_app. Qed.
Lemma even_app l r : even_ends l -> even_ends r -> even_ends (l ++ r).
Proof. intros A B v. rewrite ends_app, xsum_app, A, B. auto. Qed.
Lemma even_sides l : even_ends l <-> forall v, sides (fun p => pointb p v) l = false.
Proof.
  assert (Q : forall v, xsum (fun p => pointb p v) (ends_of l) = sides (fun p => pointb p v) l).
  { intros v. unfold sides. induction l as [|e l IH]; auto. change (ends_of (e :: l)) with (seg_start e :: seg_end e :: ends_of l).
    cbn [xsum fold_right]. rewrite IH. symmetry. apply xorb_assoc. }
  unfold even_ends. split; intros A v; [rewrite <- Q|rewrite Q]; auto.
Qed.
Lemma even_edges vs : even_ends (edges vs).
Proof. apply even_sides. intros v. apply sides_edges. Qed.
Lemma even_flat {A : Type} (f : A -> list segment) l : (forall x, In x l -> even_ends (f x)) -> even_ends (flat_map f l).
Proof.
  induction l as [|x l IH]; intros B; [intros v; reflexivity|]. cbn [flat_map]. apply even_app; [apply B; left; auto|apply IH; intros; apply B; right; auto].
Qed.
