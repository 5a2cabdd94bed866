(** Consequences of the exactness of the operations on two segments: what the
    closure of a difference contains, when results are empty, when they merge. *)
From Coq Require Import QArith Qcanon Bool List ZArith.
From Verif Require Import QcTac Model_Base Model_Box Model_Geometry
  Model_Segment Spec_Base Spec_Segment Spec_Clip Proof_Base Proof_Line Proof_SegRel
  Proof_Box Proof_SegOps Proof_SegOps2.
Import ListNotations.
Local Open Scope Qc_scope.

Lemma outside_in_difference s t p : proper_seg s -> proper_seg t ->
  on_seg s p -> ~ on_seg t p -> in_difference s t p.
Proof.
  intros Ns Nt O NO.
  destruct (to_sorted_pair_proper s Ns) as (a & b & Em & L & Hm).
  destruct (to_sorted_pair_proper t Nt) as (c & d & Es & M & Hs).
  assert (Xs := fun q => on_seg_sorted s a b q Hm).
  assert (Xt := fun q => on_seg_sorted t c d q Hs).
  enough (G : in_difference (Seg a b) (Seg c d) p).
  { refine (proj1 (in_difference_ext (Seg a b) s (Seg c d) t p _ _) G); intros q; symmetry; [apply Xs|apply Xt]. }
  apply Xs in O. rewrite Xt in NO. change (on_seg (Seg a b) p) in O. change (~ on_seg (Seg c d) p) in NO.
  assert (Nab : a <> b) by (apply lex_lt_neq; auto).
  assert (Ncd : c <> d) by (apply lex_lt_neq; auto).
  assert (Other : ~ share_continuum (Seg a b) (Seg c d) -> in_difference (Seg a b) (Seg c d) p).
  { intros N. apply in_difference_no_continuum; auto. }
  destruct (Qc_eq_dec (area2 c d a) 0) as [Za|Za].
  2:{ apply Other. intros S. apply share_continuum_sym, share_iff in S; auto. tauto. }
  destruct (Qc_eq_dec (area2 c d b) 0) as [Zb|Zb].
  2:{ apply Other. intros S. apply share_continuum_sym, share_iff in S; auto. tauto. }
  clear Other.
  destruct (collinear_coordinates c d a b M L Za Zb) as (v & u & -> & -> & H).
  destruct (col_ex c d v u p O) as (w & ->).
  apply (col_on c d v u M H) in O. rewrite (col_on1 c d v u M H) in NO.
  replace (Seg c d) with (iv c d (0, 1)) by (unfold iv; cbn; rewrite lerp_0, lerp_1; auto).
  change (Seg (lerp c d v) (lerp c d u)) with (iv c d (v, u)).
  apply (in_difference_iv c d v u 0 1 w); auto; [qlra|].
  split; auto. destruct (Qclt_le_dec w 0); [left; split; qlra|].
  destruct (Qclt_le_dec 1 w); [right; split; qlra|]. exfalso. apply NO; split; auto.
Qed.

Lemma strictly_between_lerp' a b s t u : s < u -> u < t ->
  strictly_between (lerp a b s) (lerp a b t) (lerp a b u).
Proof.
  intros H1 H2. exists ((u - s) / (t - s)).
  assert (D : 0 < t - s) by qlra. assert (D' : t - s <> 0) by (intro; qlra).
  set (z := (u - s) / (t - s)). assert (Z : z * (t - s) = u - s) by (unfold z; field; auto).
  clearbody z. split; [|split].
  - qnra.
  - qnra.
  - rewrite lerp_lerp. f_equal. qlra.
Qed.

Lemma in_difference_no_share s t x :
  proper_seg x -> (forall p, on_seg x p -> in_difference s t p) -> ~ share_continuum x t.
Proof.
  intros Nx I (p & q & N & Xp & Tp & Xq & Tq).
  set (h := 1 / (1 + 1)). assert (Hh : 0 < h /\ h < 1) by (split; reflexivity). clearbody h.

  assert (Sm : strictly_between p q (lerp p q h)) by (exists h; tauto).
  assert (Xm := on_seg_convex x p q _ Xp Xq Sm).
  assert (Sp := proj1 (I _ Xp)). assert (Sq := proj1 (I _ Xq)).
  destruct (I _ Xm) as (Om & r & Nr & Or & Miss).
  (* everything on the line p q *)
  assert (Er : exists w, r = lerp p q w).
  { apply collinear_lerp; auto.
    apply (same_line (seg_start s) (seg_end s) p q r); auto.
    - intros E. unfold on_seg in *. rewrite E in *. apply between_same in Sp, Sq. congruence.
    - apply between_collinear; auto.
    - apply between_collinear; auto.
    - apply between_collinear; auto. }
  destruct Er as (w & ->).
  assert (Nw : w <> h) by (intros ->; auto).
  destruct (Qc_neq _ _ Nw) as [W|W].
  - (* towards p *)
    destruct (lt_mid (if qltb w 0 then 0 else w) h) as (z & Z1 & Z2).
    { destruct (qltb_spec w 0); qlra. }
    apply (Miss (lerp p q z)).
    + destruct (qltb_spec w 0); apply strictly_between_sym, (strictly_between_lerp' p q w h z); qlra.
    + apply (on_seg_convex t p q); auto. exists z. destruct (qltb_spec w 0); repeat split; qlra.
  - destruct (lt_mid h (if qltb 1 w then 1 else w)) as (z & Z1 & Z2).
    { destruct (qltb_spec 1 w); qlra. }
    apply (Miss (lerp p q z)).
    + destruct (qltb_spec 1 w); apply (strictly_between_lerp' p q h w z); qlra.
    + apply (on_seg_convex t p q); auto. exists z. destruct (qltb_spec 1 w); repeat split; qlra.
Qed.

Lemma empty_parts g : good_result g -> (forall p, ~ on_geometry g p) -> g = GEmpty.
Proof.
  intros [N G] E. destruct g; cbn in *; auto; try contradiction; exfalso.
  - apply (E (seg_start s)). exists s. split; [left; auto|apply between_start].
  - destruct segments as [|x l]; cbn in G; [Lia.lia|].
    apply (E (seg_start x)). exists x. split; [left; auto|apply between_start].
  - destruct vertices as [|x [|y l]]; cbn in G; [Lia.lia..|].
    apply (E x). exists (Seg x y). split; [left; auto|apply between_start].
Qed.
Lemma empty_iff g (P : point -> Prop) : covers_exactly g P -> (g = GEmpty <-> forall p, ~ P p).
Proof.
  intros [G C]. split.
  - intros -> p K. apply C in K. destruct K as (x & [] & _).
  - intros K. apply empty_parts; auto. intros p O. apply C in O. apply (K p O).
Qed.

Lemma subset_no_difference s t : proper_seg s -> proper_seg t ->
  (seg_subset s t <-> forall p, ~ in_difference s t p).
Proof.
  intros Ns Nt. split.
  - intros S p (Op & q & N & Oq & K).
    apply (K (lerp p q (1 / (1 + 1)))).
    + exists (1 / (1 + 1)). repeat split; reflexivity.
    + apply S. apply (on_seg_convex s p q); auto.
      exists (1 / (1 + 1)). repeat split; reflexivity.
  - intros K p O. destruct (on_seg_dec t p) as [|N]; auto.
    exfalso. apply (K p). apply outside_in_difference; auto.
Qed.

Lemma difference_pieces_apart s t g x : proper_seg s -> proper_seg t ->
  covers_exactly g (in_difference s t) -> In x (parts g) -> ~ share_continuum x t.
Proof.
  intros Ns Nt [[[P _] _] C] I. apply (in_difference_no_share s t).
  - rewrite Forall_forall in P; auto.
  - intros p O. apply C. exists x; auto.
Qed.

Lemma union_merges s t : proper_seg s -> proper_seg t ->
  (exists a b, a <> b /\ (forall p, on_seg s p \/ on_seg t p -> area2 a b p = 0)) ->
  (exists p, on_seg s p /\ on_seg t p) ->
  exists r, unite_segment_with_segment s t = Some (GSegment r).
Proof.
  intros Ns Nt (e & f & Nef & K) (p & Os & Ot).
  destruct (to_sorted_pair_proper s Ns) as (a & b & Em & L & Hm).
  destruct (to_sorted_pair_proper t Nt) as (c & d & Es & M & Hs).
  apply (on_seg_sorted s a b p Hm) in Os.
  apply (on_seg_sorted t c d p Hs) in Ot.
  assert (Ka : area2 e f a = 0) by (apply K; left; apply (on_seg_sorted s a b a Hm), between_start).
  assert (Kb : area2 e f b = 0) by (apply K; left; apply (on_seg_sorted s a b b Hm), between_end).
  assert (Kc : area2 e f c = 0) by (apply K; right; apply (on_seg_sorted t c d c Hs), between_start).
  assert (Kd : area2 e f d = 0) by (apply K; right; apply (on_seg_sorted t c d d Hs), between_end).
  assert (Zc : area2 a b c = 0) by (apply (same_line e f a b c); auto using lex_lt_neq).
  assert (Zd : area2 a b d = 0) by (apply (same_line e f a b d); auto using lex_lt_neq).
  unfold unite_segment_with_segment. rewrite Em, Es.
  rewrite !(rev_opposite a b), !(is_collinear_rev a b).
  destruct (point_eq a c && point_eq b d); [eauto|].
  destruct (on_opposite_sides_spec' a b c d) as [O|_].
  { exfalso. destruct O; qlra. }
  destruct (is_collinear_spec' a b c); [|contradiction].
  destruct (is_collinear_spec' a b d); [|contradiction]. cbn [andb].
  apply between_lex in Os, Ot; auto.
  destruct (point_le_spec c b) as [|N1].
  2:{ exfalso. apply N1. apply (lex_le_trans c p b); tauto. }
  destruct (point_le_spec a d) as [|N2].
  2:{ exfalso. apply N2. apply (lex_le_trans a p d); tauto. }
  cbn. eauto.
Qed.

Lemma no_symmetric_difference s t : proper_seg s -> proper_seg t ->
  ((forall p, ~ (in_difference s t p \/ in_difference t s p)) <-> seg_same s t).
Proof.
  intros Ns Nt. split.
  - intros K p. split.
    + apply (proj2 (subset_no_difference s t Ns Nt)). intros q Q. apply (K q); auto.
    + apply (proj2 (subset_no_difference t s Nt Ns)). intros q Q. apply (K q); auto.
  - intros S p [D|D]; revert D.
    + apply (proj1 (subset_no_difference s t Ns Nt)). intros q; apply S.
    + apply (proj1 (subset_no_difference t s Nt Ns)). intros q; apply S.
Qed.
