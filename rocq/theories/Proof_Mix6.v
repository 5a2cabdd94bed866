(** The intersection of a linear and a shaped geometry: from the sweep to the drivers. *)
From Coq Require Import QArith Qcanon Bool List Arith Lia Permutation.
From Verif Require Import QcTac Model_Base Model_Utils Model_Box Model_Geometry Model_Contour Model_Linear Model_Mixed Model_Shaped Model_Multipolygon Model_MixedClip
  Spec_Base Spec_Segment Spec_Clip Spec_Contour Spec_Relate Spec_Bounds Spec_Sweep Spec_Shaped Spec_Multipolygon Spec_RelateShaped Spec_MixedClip
  Proof_Base Proof_Line Proof_SegOps Proof_Box2 Proof_Contour Proof_Edges Proof_Bounds Proof_Shrink Proof_Locate Proof_Locate3 Proof_Locate4 Proof_SegLoops Proof_Sweep4 Proof_Sweep6 Proof_Sweep17 Proof_Sweep18 Proof_Sweep19 Proof_Parity
  Proof_Corner Proof_Region Proof_Ray Proof_Orient Proof_Nested Proof_Nested2 Proof_Bridge Proof_Odd Proof_Clip Proof_Result2 Proof_Ready Proof_Polygons Proof_Multi Proof_Multi2 Proof_Multi3
  Proof_RelateShaped Proof_Mix1 Proof_Mix4 Proof_Mix5.
Import ListNotations.
Local Open Scope Qc_scope.

Lemma filter_filter {T} (f g : T -> bool) l : filter g (filter f l) = filter (fun x => f x && g x) l.
Proof. induction l as [|x l IH]; auto. cbn. destruct (f x) eqn:E; cbn; rewrite IH; auto. Qed.
Lemma corner b c : do_boxes_have_no_common_continuum b c = true -> exists z, forall x, in_box b x -> in_box c x -> x = z.
Proof.
  intros N. set (z := Pt (q_max (min_x b) (min_x c)) (q_max (min_y b) (min_y c))). exists z. intros x ((B1 & B2) & (B3 & B4)) ((C1 & C2) & (C3 & C4)).
  destruct (point_dec x z) as [E|E]; auto. exfalso. rewrite continuum_filters_complementary in N. rewrite continuum_filter_complete in N; [discriminate|].
  exists x, z. split; auto. split; [repeat split; auto|]. split; [repeat split; auto|].
  unfold z, in_box. cbn [px py]. destruct (q_max_spec (min_x b) (min_x c)) as [[-> ?]|[-> ?]]; destruct (q_max_spec (min_y b) (min_y c)) as [[-> ?]|[-> ?]]; repeat split; qlra.
Qed.
Lemma proper_points t : proper_seg t -> forall z, (forall x, on_seg t x -> x = z) -> False.
Proof. intros P z A. apply P. rewrite (A (seg_start t)), (A (seg_end t)); auto; [apply between_end|apply between_start]. Qed.
(** The same when a point is left out. *)
Lemma three_points t q : proper_seg t -> exists a b, a <> b /\ on_seg t a /\ on_seg t b /\ a <> q /\ b <> q.
Proof.
  intros P. set (m := lerp (seg_start t) (seg_end t) (/ (1 + 1))).
  assert (M : strictly_between (seg_start t) (seg_end t) m) by (exists (/ (1 + 1)); split; [reflexivity|split; [reflexivity|auto]]).
  assert (Om : on_seg t m) by (apply strictly_between_between; auto). destruct (strictly_between_neq _ _ _ P M) as [M1 M2].
  assert (O1 : on_seg t (seg_start t)) by apply between_start. assert (O2 : on_seg t (seg_end t)) by apply between_end.
  destruct (point_dec q (seg_start t)) as [->|E1]; [exists (seg_end t), m; repeat split; auto; intros E; apply P; auto|].
  destruct (point_dec q (seg_end t)) as [->|E2]; [exists (seg_start t), m; repeat split; auto|].
  exists (seg_start t), (seg_end t). repeat split; auto.
Qed.

Lemma in_some_iff l x : in_some l x <-> some_inside l x \/ on_segs (outlines (flat_map rings l)) x.
Proof.
  unfold in_some, region, some_inside, boundary. rewrite outlines_rings. split.
  - intros (p & I & [Q|(e & Ie & Oe)]); [left; exists p; auto|right; exists e; split; auto; apply in_flat_map; exists p; auto].
  - intros [(p & I & Q)|(e & Ie & Oe)]; [exists p; auto|apply in_flat_map in Ie; destruct Ie as (p & Ip & Ie); exists p; split; auto; right; exists e; auto].
Qed.
Lemma in_some_covered k r x : valid_polygons k -> prepared_list k r -> (covered r x <-> in_some k x).
Proof.
  intros V P. rewrite in_some_iff. unfold covered. rewrite (on_list k r x P).
  destruct (on_segs_dec (outlines (flat_map rings k)) x) as [O|O]; [tauto|]. rewrite (inside_list k r x V P O). tauto.
Qed.
Lemma in_some_filter f l x : in_some (filter f l) x -> in_some l x.
Proof. intros (p & I & R). apply filter_In in I. exists p. tauto. Qed.

Section Clip6.
Variables (sgs : list segment) (l : list polygon) (lb pb : box).
Hypothesis NS : non_crossing sgs.
Hypothesis V : valid_polygons l.
Hypothesis InL : forall s x, In s sgs -> on_seg s x -> in_box lb x.
Hypothesis InP : forall p x, In p l -> in_box (polygon_box p) x -> in_box pb x.
Notation target := (on_piece_within sgs l).

Lemma some_in_box x : in_some l x -> in_box pb x.
Proof. intros (p & I & R). apply (InP p); auto. apply region_box; auto. pose proof (vm_each _ V) as Vs. rewrite Forall_forall in Vs. auto. Qed.
Lemma no_boxes q : (forall x, in_box lb x -> in_box pb x -> x = q) -> forall x, ~ target x.
Proof.
  intros A x (s & t & Is & Sb & Pt & Ot & C). apply (proper_points t Pt q). intros y Oy. apply A; [apply (InL s); auto|apply some_in_box; auto].
Qed.

(** The polygons that are taken. *)
Variable fp : polygon -> bool.
Hypothesis Fp : forall p, In p l -> fp p = false -> do_boxes_have_no_common_continuum (polygon_box p) lb = true.
Notation kp := (filter fp l).
Lemma taken_points (k : list polygon) : (forall p, In p k -> do_boxes_have_no_common_continuum (polygon_box p) lb = true /\ valid_polygon p) ->
  exists D : list point, forall x, in_some k x -> in_box lb x -> In x D.
Proof.
  clear - k. induction k as [|p k IH]; intros A.
  - exists []. intros x (p & [] & _).
  - destruct IH as (D & Dx); [intros q I; apply A; right; auto|]. destruct (A p (or_introl eq_refl)) as [N Vp]. destruct (corner _ _ N) as (z & Z).
    exists (z :: D). intros x (q & [<-|I] & R) B; [left; symmetry; apply Z; auto; apply region_box; auto|right; apply Dx; auto]. exists q. auto.
Qed.
Lemma shrink q s t : In s sgs -> seg_subset t s -> proper_seg t -> on_seg t q -> (forall x, on_seg t x -> in_some l x) ->
  exists w, w <> q /\ on_seg t w /\ forall x, on_seg (Seg q w) x -> x <> q -> in_some kp x.
Proof.
  intros Is Sb Pt Ot C.
  destruct (taken_points (filter (fun p => negb (fp p)) l)) as (D & Dx).
  { intros p I. apply filter_In in I. destruct I as [I Q]. apply negb_true_iff in Q. split; auto. pose proof (vm_each _ V) as Vs. rewrite Forall_forall in Vs. auto. }
  destruct (three_points t q Pt) as (a & _ & _ & Oa & _ & Na & _).
  destruct (walk D q a) as (r & R1 & _ & R3); [auto|]. assert (Nr : q <> r) by (apply strictly_between_neq in R1; [|auto]; destruct R1; auto).
  assert (Or : on_seg t r) by (apply (between_trans _ _ q a r); auto; apply strictly_between_between; auto).
  set (w := lerp q r (/ (1 + 1))). assert (W : strictly_between q r w) by (exists (/ (1 + 1)); split; [reflexivity|split; [reflexivity|auto]]).
  assert (Nw : w <> q /\ w <> r) by (apply strictly_between_neq; auto).
  assert (Ow : on_seg t w) by (apply (between_trans _ _ q r w); auto; apply strictly_between_between; auto).
  exists w. split; [apply Nw|]. split; auto. intros x Ox Nx. assert (Otx : on_seg t x) by (apply (between_trans _ _ q w x); auto).
  assert (Sx : strictly_between q r x).
  { destruct (point_dec x w) as [->|Nw']; auto. assert (Q : strictly_between q w x) by (apply strictly_between_intro; auto).
    destruct Q as (u & U0 & U1 & ->), W as (v & V0 & V1 & ->). exists (v * u). split; [qnra|]. split; [qnra|]. unfold lerp; cbn; f_equal; ring. }
  destruct (C x Otx) as (p & Ip & Rp). destruct (fp p) eqn:E; [exists p; split; auto; apply filter_In; auto|].
  exfalso. apply (R3 x); auto. apply Dx; [exists p; split; auto; apply filter_In; rewrite E; auto|]. apply (InL s); auto.
Qed.
Lemma no_polygons : kp = [] -> forall x, ~ target x.
Proof.
  intros E x (s & t & Is & Sb & Pt & Ot & C). destruct (shrink x s t) as (w & Nw & Ow & A); auto. rewrite E in A.
  destruct (A w) as (p & [] & _); auto. apply between_end.
Qed.

(** The segments that are taken. *)
Variable fl : segment -> bool.
Hypothesis Fl : forall s t q, In s sgs -> seg_subset t s -> proper_seg t -> (forall x, on_seg t x -> x <> q -> in_some kp x) -> fl s = true.
Notation lin := (filter fl sgs).
Lemma no_segments : lin = [] -> forall x, ~ target x.
Proof.
  intros E x (s & t & Is & Sb & Pt & Ot & C). destruct (shrink x s t) as (w & Nw & Ow & A); auto.
  assert (Q : In s lin); [|rewrite E in Q; destruct Q]. apply filter_In. split; auto. apply (Fl s (Seg x w) x); auto.
  - intros y Oy. apply Sb. apply (between_trans _ _ x w y); auto.
  - intros Q. apply Nw. symmetry. exact Q.
Qed.

Variables low high low' high' : Qc.
Hypothesis Range : forall s x, In s lin -> on_seg s x -> low <= px x /\ px x <= high.
Hypothesis Spread : spread kp low' high'.
Notation least := (q_max low low'). Notation greatest := (q_min high high').
Variable f : bool.
Variable from_result : mixed_operation -> event -> bool.
Hypothesis FR : forall m e, from_result m e
  = Bool.eqb (is_left_event_from_first_operand (mo m) e) f && (m_other m e || m_over m e).
Variables (shape : tree_shape) (fuel : nat).
Hypothesis Fuel : (enough (length sgs + length (concat (flat_map rings l))) <= fuel)%nat.
Notation edges := (reaching least greatest (polygons_segments kp)).

Theorem clips_mixed : exists g,
  collect_mixed (sweep_mixed from_result true shape fuel false greatest
    (clip_mixed (if f then lin else edges) (if f then edges else lin)) []) = Clips g
  /\ good_result g /\ forall q, on_geometry g q <-> target q.
Proof.
  assert (Vk : valid_polygons kp) by (apply valid_filter; auto). destruct (prepare_list kp Vk) as (r & Pr).
  assert (NL : non_crossing lin) by (apply non_crossing_filter; auto).
  assert (RangeL : forall s, In s lin -> low <= px (lo s) /\ px (hi s) <= high).
  { intros s I. destruct (lo_hi s) as [[Q1 Q2]|[Q1 Q2]]; rewrite Q1, Q2; split; apply (Range s); auto; try apply between_start; apply between_end. }
  assert (Mn : low <= least /\ low' <= least /\ (least = low \/ least = low')) by (destruct (q_max_spec low low') as [[-> ?]|[-> ?]]; repeat split; auto; qlra).
  assert (Mx : greatest <= high /\ greatest <= high' /\ (greatest = high \/ greatest = high')) by (destruct (q_min_spec high high') as [[-> ?]|[-> ?]]; repeat split; auto; qlra).
  destruct Mn as (Mn1 & Mn2 & Mn3), Mx as (Mx1 & Mx2 & Mx3).
  assert (RangeP : forall e, In e (outlines r) -> low' <= px (lo e) /\ px (hi e) <= high').
  { intros e I. destruct (list_range kp r low' high' e Vk Pr Spread I) as (Q1 & _ & _ & Q2). auto. }
  assert (Cov : forall e g, In e (outlines r) -> In g lin -> px (lo e) <= px (hi g) -> px (lo g) <= px (hi e) -> reach least greatest e = true).
  { intros e g Ie Ig L1 L2. destruct (RangeL g Ig), (RangeP e Ie). pose proof (lo_le_hi e). pose proof (lo_le_hi g).
    apply (proj2 (reach_true _ _ _)). split; [destruct Mn3 as [-> | ->]|destruct Mx3 as [-> | ->]]; qlra. }
  assert (Lim1 : (forall g, In g lin -> px (hi g) <= greatest) \/ (forall e, In e (outlines r) -> px (hi e) <= greatest)).
  { destruct Mx3 as [-> | ->]; [left; intros g I; apply RangeL; auto|right; intros e I; apply RangeP; auto]. }
  assert (Lim2 : forall g e z, In g lin -> In e (outlines r) -> z <= px (hi g) -> z <= px (hi e) -> z <= greatest).
  { intros g e z Ig Ie L1 L2. destruct (RangeL g Ig), (RangeP e Ie). destruct Mx3 as [-> | ->]; qlra. }
  assert (Eq : edges = filter (reach least greatest) (outlines r)) by (rewrite (pl_segments _ _ Pr); reflexivity).
  assert (Fu : (enough (length (filter (if Bool.eqb true f then fun _ => true else reach least greatest) (if Bool.eqb true f then lin else outlines r)
     ++ filter (if Bool.eqb false f then fun _ => true else reach least greatest) (if Bool.eqb false f then lin else outlines r))) <= fuel)%nat).
  { eapply Nat.le_trans; [|exact Fuel]. apply enough_mono. rewrite app_length.
    pose proof (filter_len fl sgs). pose proof (filter_count fp l). pose proof (same_lengths _ _ (pl_same _ _ Pr)) as Ln. pose proof (outlines_length r) as Lo.
    pose proof (filter_len (reach least greatest) (outlines r)). pose proof (filter_len (fun _ : segment => true) lin).
    destruct f; cbn [Bool.eqb]; lia. }
  destruct (run_mixed f lin r (reach least greatest) NL (pl_nc _ _ Pr) (pl_side _ _ Pr) Cov greatest Lim1 Lim2 from_result FR shape fuel Fu)
    as (m & ev & Es & Nc & So & Co).
  destruct (Proof_SegLoops.collect_maybe (reduce_mixed m ev)) as (g & Eg & Pg & Gg). exists g. split; [|split; auto].
  - rewrite Eq. destruct f; cbn [Bool.eqb] in Es; rewrite filter_all in Es; rewrite Es; cbn [collect_mixed]; rewrite Eg; reflexivity.
  - intros q. unfold on_geometry. rewrite Pg. split.
    + intros (t & It & Ot). destruct (So t It) as (Pt & (s & Is & Sb) & C). apply filter_In in Is. exists s, t. split; [apply Is|]. repeat (split; [auto|]).
      intros x Ox. apply (in_some_filter fp). apply (in_some_covered kp r); auto.
    + intros (s & t & Is & Sb & Pt & Ot & C). destruct (shrink q s t) as (w & Nw & Ow & A); auto.
      assert (Sw : seg_subset (Seg q w) s) by (intros y Oy; apply Sb; apply (between_trans _ _ q w y); auto).
      assert (Pw : proper_seg (Seg q w)) by (intros Q; apply Nw; symmetry; exact Q).
      apply (Co (Seg q w) s q); auto; [|apply between_start|].
      * apply filter_In. split; auto. apply (Fl s (Seg q w) q); auto.
      * intros x Ox Nx. apply (in_some_covered kp r); auto.
Qed.
End Clip6.
