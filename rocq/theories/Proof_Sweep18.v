(** The plane sweep, part 18: the operations on lists of segments. *)
From Coq Require Import QArith Qcanon Bool List Arith Lia.
From Verif Require Import QcTac Model_Base Model_Box Model_Geometry Model_Utils Model_Linear Spec_Base
  Spec_Segment Spec_Clip Spec_Sweep Spec_Bounds Proof_Base Proof_Line Proof_Box Proof_Box2 Proof_Bounds Proof_SegRel
  Proof_SegOps Proof_SegLoops Proof_SegUnion Proof_Sweep Proof_Sweep6 Proof_Sweep9 Proof_Sweep15 Proof_Sweep16 Proof_Sweep17.
Import ListNotations.
Local Open Scope Qc_scope.

(** ** Boxes *)
Lemma extreme_end s p : on_seg s p ->
  (forall q, on_seg s q -> px p <= px q) \/ (forall q, on_seg s q -> px q <= px p) ->
  (forall q, on_seg s q -> py p <= py q) \/ (forall q, on_seg s q -> py q <= py p) ->
  endpoint_of s p.
Proof.
  intros O Hx Hy. destruct (point_dec p (seg_start s)) as [|N1]; [left; auto|].
  destruct (point_dec p (seg_end s)) as [|N2]; [right; auto|]. exfalso.
  assert (A : on_seg s (seg_start s)) by apply between_start.
  assert (B : on_seg s (seg_end s)) by apply between_end.
  destruct s as [[xa ya] [xb yb]]. destruct O as (t & T0 & T1 & E). cbn [seg_start seg_end] in *.
  assert (P0 : 0 < t).
  { destruct (Qcle_lt_or_eq _ _ T0) as [| <-]; auto. exfalso. apply N1. rewrite E. apply lerp_0. }
  assert (P1 : t < 1).
  { destruct (Qcle_lt_or_eq _ _ T1) as [| ->]; auto. exfalso. apply N2. rewrite E. apply lerp_1. }
  assert (Ex : px p = xa + t * (xb - xa)) by (rewrite E; reflexivity).
  assert (Ey : py p = ya + t * (yb - ya)) by (rewrite E; reflexivity).
  assert (Qx : xa = xb).
  { destruct Hx as [Hx|Hx]; pose proof (Hx _ A) as I1; pose proof (Hx _ B) as I2; cbn in I1, I2;
      rewrite Ex in I1, I2; apply Qcle_antisym; qnra. }
  assert (Qy : ya = yb).
  { destruct Hy as [Hy|Hy]; pose proof (Hy _ A) as I1; pose proof (Hy _ B) as I2; cbn in I1, I2;
      rewrite Ey in I1, I2; apply Qcle_antisym; qnra. }
  apply N1. rewrite E, Qx, Qy. unfold lerp; cbn. f_equal; ring.
Qed.

Lemma corner_ends b1 b2 s t p : do_boxes_have_common_continuum b1 b2 = false ->
  (forall q, on_seg s q -> in_box b1 q) -> (forall q, on_seg t q -> in_box b2 q) ->
  on_seg s p -> on_seg t p -> endpoint_of s p /\ endpoint_of t p.
Proof.
  intros F H1 H2 Os Ot.
  pose proof (H1 p Os) as [[A1 A2] [A3 A4]]. pose proof (H2 p Ot) as [[B1 B2] [B3 B4]].
  assert (Q : (min_y b1 = max_y b2 \/ min_y b2 = max_y b1) /\ (min_x b1 = max_x b2 \/ min_x b2 = max_x b1)).
  { unfold do_boxes_have_common_continuum, box_disjoint_with in F.
    repeat match type of F with
    | context [qltb ?a ?b] => destruct (qltb_spec a b); [exfalso; qlra|]
    end. cbn [orb negb andb] in F. apply orb_false_iff in F. destruct F as [F F2].
    apply orb_false_iff in F. destruct F as [_ F1].
    destruct (qeqb_spec (min_y b1) (max_y b2)), (qeqb_spec (min_y b2) (max_y b1)),
      (qeqb_spec (min_x b1) (max_x b2)), (qeqb_spec (min_x b2) (max_x b1)); cbn in F1, F2;
      try discriminate; auto. }
  assert (Hs : forall q, on_seg s q -> min_x b1 <= px q /\ px q <= max_x b1 /\ min_y b1 <= py q /\ py q <= max_y b1).
  { intros q Oq. destruct (H1 q Oq) as [[? ?] [? ?]]. auto. }
  assert (Ht : forall q, on_seg t q -> min_x b2 <= px q /\ px q <= max_x b2 /\ min_y b2 <= py q /\ py q <= max_y b2).
  { intros q Oq. destruct (H2 q Oq) as [[? ?] [? ?]]. auto. }
  destruct Q as [Qy Qx]. split; apply extreme_end; auto.
  - destruct Qx as [Qx|Qx]; [left|right]; intros q Oq; apply Hs in Oq; qlra.
  - destruct Qy as [Qy|Qy]; [left|right]; intros q Oq; apply Hs in Oq; qlra.
  - destruct Qx as [Qx|Qx]; [right|left]; intros q Oq; apply Ht in Oq; qlra.
  - destruct Qy as [Qy|Qy]; [right|left]; intros q Oq; apply Ht in Oq; qlra.
Qed.
Lemma no_continuum_negb a b : do_boxes_have_no_common_continuum a b = negb (do_boxes_have_common_continuum a b).
Proof. rewrite <- continuum_filters_complementary. auto. Qed.

(** ** Lists of segments *)
Lemma on_segs_app k l p : on_segs (k ++ l) p <-> on_segs k p \/ on_segs l p.
Proof.
  split.
  - intros (s & I & O). apply in_app_or in I. destruct I; [left|right]; exists s; auto.
  - intros [(s & I & O)|(s & I & O)]; exists s; split; auto; apply in_or_app; auto.
Qed.
Definition ends_only (k l : list segment) : Prop := forall u v p, In u k -> In v l ->
  on_seg u p -> on_seg v p -> endpoint_of u p /\ endpoint_of v p.
Lemma ends_only_sym k l : ends_only k l -> ends_only l k.
Proof. intros E u v p Iu Iv Ou Ov. destruct (E v u p); auto. Qed.

Lemma non_crossing_In l u w : non_crossing l -> In u l -> In w l -> u <> w -> touch_or_disjoint u w.
Proof.
  intros N Iu Iw D. apply In_nth_error in Iu. apply In_nth_error in Iw.
  destruct Iu as (i & Ei), Iw as (j & Ej). apply (non_crossing_nth l i j); auto. congruence.
Qed.
Lemma non_crossing_filter f l : non_crossing l -> non_crossing (filter f l).
Proof.
  intros [P F]. split.
  - apply Forall_forall. intros u I. apply filter_In in I. rewrite Forall_forall in P. apply P; tauto.
  - clear P. induction F as [|u l Fu F IH]; cbn; [constructor|]. destruct (f u); auto. constructor; auto.
    apply Forall_forall. intros w I. apply filter_In in I. rewrite Forall_forall in Fu. apply Fu; tauto.
Qed.
Lemma non_crossing_app k l : non_crossing k -> non_crossing l ->
  (forall u w, In u k -> In w l -> touch_or_disjoint u w) -> non_crossing (k ++ l).
Proof.
  intros [P1 F1] [P2 F2] H. split; [apply Forall_app; auto|]. apply FOP_app; auto.
Qed.
Lemma non_crossing_nil : non_crossing [].
Proof. split; constructor. Qed.
Lemma non_crossing_one s : proper_seg s -> non_crossing [s].
Proof. intros P. split; constructor; auto; constructor. Qed.
Lemma non_crossing_proper l u : non_crossing l -> In u l -> proper_seg u.
Proof. intros [P _] I. rewrite Forall_forall in P. auto. Qed.

(** [k2] holds the segments of [a] that may meet [b] in endpoints only. *)
Record split_off (a b k1 k2 : list segment) : Prop := {
  so_in : forall u, In u a <-> In u k1 \/ In u k2;
  so_nc1 : non_crossing k1;
  so_nc2 : non_crossing k2;
  so_apart : forall u w, In u k1 -> In w k2 -> touch_or_disjoint u w;
  so_ends : ends_only k2 b }.

Lemma split_all a b : non_crossing a -> split_off a b a [].
Proof.
  intros N. constructor; auto.
  - intros u. cbn. tauto.
  - apply non_crossing_nil.
  - intros u w _ [].
  - intros u v p [].
Qed.
Lemma split_box a b box_b : non_crossing a ->
  (forall v q, In v b -> on_seg v q -> in_box box_b q) ->
  split_off a b (with_common_continuum box_b a) (without_common_continuum box_b a).
Proof.
  intros N Hb. unfold with_common_continuum, without_common_continuum. constructor.
  - intros u. rewrite !filter_In. destruct (do_boxes_have_common_continuum _ _); cbn; tauto.
  - apply non_crossing_filter; auto.
  - apply non_crossing_filter; auto.
  - intros u w Iu Iw. apply filter_In in Iu. apply filter_In in Iw. destruct Iu as [Iu Fu], Iw as [Iw Fw].
    apply (non_crossing_In a); auto. intros ->. rewrite Fu in Fw. discriminate.
  - intros u v p Iu Iv Ou Ov. apply filter_In in Iu. destruct Iu as [Iu Fu].
    apply negb_true_iff in Fu.
    apply (corner_ends (segment_bounding_box u) box_b); auto.
    + intros q Oq. apply segment_box_covers; auto.
    + intros q Oq. apply (Hb v); auto.
Qed.

(** Disjoint ranges. *)
Lemma fold_min_le l : forall v, fold_left q_min l v <= v /\ forall x, In x l -> fold_left q_min l v <= x.
Proof.
  induction l as [|y l IH]; intros v; cbn; [split; [apply Qcle_refl|intros x []]|].
  destruct (IH (q_min v y)) as [A B].
  assert (M : q_min v y <= v /\ q_min v y <= y) by (unfold q_min; destruct (qltb_spec y v); split; qlra).
  split; [qlra|]. intros x [<-|I]; [qlra|auto].
Qed.
Lemma fold_max_le l : forall v, v <= fold_left q_max l v /\ forall x, In x l -> x <= fold_left q_max l v.
Proof.
  induction l as [|y l IH]; intros v; cbn; [split; [apply Qcle_refl|intros x []]|].
  destruct (IH (q_max v y)) as [A B].
  assert (M : v <= q_max v y /\ y <= q_max v y) by (unfold q_max; destruct (qltb_spec v y); split; qlra).
  split; [qlra|]. intros x [<-|I]; [qlra|auto].
Qed.
Lemma min_of_le l x : In x l -> min_of l <= x.
Proof. destruct l as [|v l]; cbn; [tauto|]. destruct (fold_min_le l v) as [A B]. intros [<-|I]; auto. Qed.
Lemma max_of_le l x : In x l -> x <= max_of l.
Proof. destruct l as [|v l]; cbn; [tauto|]. destruct (fold_max_le l v) as [A B]. intros [<-|I]; auto. Qed.
Lemma min_x_of_le l u p : In u l -> on_seg u p -> min_x_of l <= px p.
Proof.
  intros I O. apply segment_box_covers in O. destruct O as [[A _] _].
  assert (Q : min_x_of l <= min_x (segment_bounding_box u)); [|qlra].
  apply min_of_le. apply (in_map (fun s => min_x (segment_bounding_box s))); auto.
Qed.
Lemma max_x_of_le l u p : In u l -> on_seg u p -> px p <= max_x_of l.
Proof.
  intros I O. apply segment_box_covers in O. destruct O as [[_ A] _].
  assert (Q : max_x (segment_bounding_box u) <= max_x_of l); [|qlra].
  apply max_of_le. apply (in_map (fun s => max_x (segment_bounding_box s))); auto.
Qed.
Lemma q_min_spec a b : (q_min a b = a /\ a <= b) \/ (q_min a b = b /\ b <= a).
Proof. unfold q_min. destruct (qltb_spec b a); [right|left]; split; auto; qlra. Qed.
Lemma q_max_spec a b : (q_max a b = a /\ b <= a) \/ (q_max a b = b /\ a <= b).
Proof. unfold q_max. destruct (qltb_spec a b); [right|left]; split; auto; qlra. Qed.
Lemma on_seg_range u p : on_seg u p -> q_min (px (seg_start u)) (px (seg_end u)) <= px p
  /\ px p <= q_max (px (seg_start u)) (px (seg_end u)).
Proof.
  intros O. apply segment_box_covers in O. destruct O as [[A B] _]. cbn in A, B.
  destruct (q_min_spec (px (seg_end u)) (px (seg_start u))) as [[Q ?]|[Q ?]]; rewrite Q in A;
  destruct (q_min_spec (px (seg_start u)) (px (seg_end u))) as [[Q' ?]|[Q' ?]]; rewrite Q';
  destruct (q_max_spec (px (seg_end u)) (px (seg_start u))) as [[Q2 ?]|[Q2 ?]]; rewrite Q2 in B;
  destruct (q_max_spec (px (seg_start u)) (px (seg_end u))) as [[Q3 ?]|[Q3 ?]]; rewrite Q3; split; qlra.
Qed.
Lemma reaching_In lo hi l u p : In u l -> on_seg u p -> lo <= px p -> px p <= hi -> In u (reaching lo hi l).
Proof.
  intros I O A B. unfold reaching. apply filter_In. split; auto. apply andb_true_iff.
  destruct (on_seg_range u p O). split; apply qleb_true; qlra.
Qed.
Lemma reaching_incl lo hi l u : In u (reaching lo hi l) -> In u l.
Proof. intros I. apply filter_In in I. tauto. Qed.

(** ** The results *)
Lemma nc_from a b k1 k2 l1 l2 R :
  split_off a b k1 k2 -> split_off b a l1 l2 -> non_crossing R ->
  (forall s, In s R -> proper_seg s /\ exists u, (In u k1 \/ In u l1) /\ seg_subset s u) ->
  non_crossing (R ++ k2 ++ l2).
Proof.
  intros SA SB NR FR.
  assert (KL : forall u w, In u k2 -> In w l2 -> touch_or_disjoint u w).
  { intros u w Iu Iw. apply meet_ends_tod.
    - apply (non_crossing_proper k2); auto. apply SA.
    - apply (non_crossing_proper l2); auto. apply SB.
    - intros p Ou Ow. apply (so_ends _ _ _ _ SA u w p); auto. apply (so_in _ _ _ _ SB); auto. }
  apply non_crossing_app; auto; [apply non_crossing_app; auto; [apply SA|apply SB]|].
  intros s w Is Iw. destruct (FR s Is) as (Ps & u & Iu & Sb).
  assert (T : touch_or_disjoint u w /\ proper_seg u /\ proper_seg w).
  { assert (Pu : proper_seg u).
    { destruct Iu as [Iu|Iu]; [apply (non_crossing_proper k1)|apply (non_crossing_proper l1)]; auto;
        [apply SA|apply SB]. }
    apply in_app_or in Iw. destruct Iw as [Iw|Iw].
    - assert (Pw : proper_seg w) by (apply (non_crossing_proper k2); auto; apply SA).
      split; auto. destruct Iu as [Iu|Iu]; [apply (so_apart _ _ _ _ SA); auto|].
      apply meet_ends_tod; auto. intros p Ou Ow. apply (ends_only_sym _ _ (so_ends _ _ _ _ SA) u w p); auto.
      apply (so_in _ _ _ _ SB); auto.
    - assert (Pw : proper_seg w) by (apply (non_crossing_proper l2); auto; apply SB).
      split; auto. destruct Iu as [Iu|Iu]; [|apply (so_apart _ _ _ _ SB); auto].
      apply meet_ends_tod; auto. intros p Ou Ow. apply (ends_only_sym _ _ (so_ends _ _ _ _ SB) u w p); auto.
      apply (so_in _ _ _ _ SA); auto. }
  destruct T as (T & Pu & Pw). apply (touch_or_disjoint_sub u w s w); auto. intros p; auto.
Qed.

Lemma inside_between u p q r : proper_seg u -> on_seg u p -> on_seg u q -> p <> q ->
  strictly_between p q r -> inside_seg u r.
Proof.
  intros P Op Oq N S. assert (Or : on_seg u r) by (apply (on_seg_convex u p q r); auto).
  apply strictly_between_iff; auto. split; auto.
  assert (Ps : proper_seg (Seg p q)) by exact N.
  assert (Sb : seg_subset (Seg p q) u) by (intros x Ox; apply (between_trans _ _ p q x); auto).
  assert (Ni : ~ endpoint_of u r).
  { intros E. apply (endpoint_not_inside (Seg p q) r Ps); [|exact S].
    apply (endpoint_sub u (Seg p q)); auto. apply strictly_between_between; auto. }
  split; intros ->; apply Ni; [left|right]; auto.
Qed.

Lemma difference_ext u l l' p : proper_seg u ->
  (forall r, inside_seg u r -> on_segs l r -> on_segs l' r) ->
  in_difference_list u l' p -> in_difference_list u l p.
Proof.
  intros P H (Ou & q & Nq & Oq & W). split; auto. exists q. split; auto. split; auto.
  intros r R Q. apply (W r R). apply H; auto. apply (inside_between u p q); auto.
Qed.
Lemma difference_whole u l p : proper_seg u -> (forall r, inside_seg u r -> ~ on_segs l r) ->
  on_seg u p -> in_difference_list u l p.
Proof.
  intros P H O. split; auto. destruct (way_inside u p P O) as (q & Nq & Oq & W).
  exists q. split; auto.
Qed.

(** The difference of the whole operands from that of the parts swept. *)
Lemma difference_parts a b k1 k2 l1 : split_off a b k1 k2 ->
  (forall v r u, In u k1 -> inside_seg u r -> In v b -> on_seg v r -> In v l1) ->
  (forall v, In v l1 -> In v b) ->
  forall p, in_difference_lists a b p <-> in_difference_lists k1 l1 p \/ on_segs k2 p.
Proof.
  intros SA H1 H2 p. split.
  - intros (u & Iu & D). apply (so_in _ _ _ _ SA) in Iu. destruct Iu as [Iu|Iu].
    + left. exists u. split; auto. revert D. apply difference_ext.
      * apply (non_crossing_proper k1); auto. apply SA.
      * intros r _ (v & Iv & Ov). exists v. auto.
    + right. exists u. split; auto. apply D.
  - intros [(u & Iu & D)|(u & Iu & O)].
    + exists u. split; [apply (so_in _ _ _ _ SA); auto|]. revert D. apply difference_ext.
      * apply (non_crossing_proper k1); auto. apply SA.
      * intros r Ir (v & Iv & Ov). exists v. split; auto. apply (H1 v r u); auto.
    + assert (Pu : proper_seg u) by (apply (non_crossing_proper k2); auto; apply SA).
      exists u. split; [apply (so_in _ _ _ _ SA); auto|]. apply difference_whole; auto.
      intros r Ir (v & Iv & Ov). destruct (so_ends _ _ _ _ SA u v r) as [E _]; auto.
      * apply inside_on; auto.
      * apply (endpoint_not_inside u r); auto.
Qed.
(** What is split off from the other operand is not met inside. *)
Lemma split_inside a b k1 k2 l1 l2 : split_off a b k1 k2 -> split_off b a l1 l2 ->
  forall v r u, In u k1 -> inside_seg u r -> In v b -> on_seg v r -> In v l1.
Proof.
  intros SA SB v r u Iu Ir Iv Ov. apply (so_in _ _ _ _ SB) in Iv. destruct Iv as [|Iv]; auto. exfalso.
  assert (Pu : proper_seg u) by (apply (non_crossing_proper k1); auto; apply SA).
  destruct (so_ends _ _ _ _ SB v u r) as [_ E]; auto.
  - apply (so_in _ _ _ _ SA); auto.
  - apply inside_on; auto.
  - apply (endpoint_not_inside u r); auto.
Qed.

Lemma enough_mono n m : (n <= m)%nat -> (enough n <= enough m)%nat.
Proof. intros L. unfold enough. assert (n * n <= m * m)%nat by (apply Nat.mul_le_mono; auto).
  assert (n * (2 * n + n * n) <= m * (2 * m + m * m))%nat by (apply Nat.mul_le_mono; lia). lia.
Qed.

Section Lists.
Variables (a b k1 k2 l1 l2 : list segment).
Hypothesis SA : split_off a b k1 k2.
Hypothesis SB : split_off b a l1 l2.
Variables (fuel : nat) (shape : tree_shape).

Section Swept.
Variables (k l : list segment) (limit : option Qc).
Hypothesis Ik : incl k k1.
Hypothesis Il : incl l l1.
Hypothesis Nk : non_crossing k.
Hypothesis Nl : non_crossing l.
Hypothesis F : (enough (length (k ++ l)) <= fuel)%nat.

Lemma swept keep : exists o ev, sweep fuel shape limit (from_segments_iterables k l) [] = Sweeps o ev
  /\ arranged k l limit (entries o ev) /\ op_first_count o = length k
  /\ (forall y, In y ev -> is_event_left y = true)
  /\ non_crossing (reduce_groups keep o ev)
  /\ non_crossing (reduce_groups keep o ev ++ k2)
  /\ non_crossing (reduce_groups keep o ev ++ k2 ++ l2).
Proof.
  destruct (sweep_arranged k l Nk Nl fuel shape limit F) as (o & ev & Q & A & Fc & Le).
  exists o, ev. split; auto. split; auto. split; auto. split; auto.
  assert (NR : non_crossing (reduce_groups keep o ev)).
  { apply (list_non_crossing k l limit (entries o ev) A).
    - apply (reduce_NoDup k l limit o ev A Le).
    - intros s I. apply (reduce_from k l limit o ev A Le keep s I). }
  assert (FR : forall s, In s (reduce_groups keep o ev) -> proper_seg s
    /\ exists u, (In u k1 \/ In u l1) /\ seg_subset s u).
  { intros s I. destruct (reduce_from k l limit o ev A Le keep s I) as (i & J).
    destruct (a_part _ _ _ _ A s i J) as (u & Eu & P & Sb). split; auto. exists u. split; auto.
    apply nth_error_In in Eu. apply in_app_or in Eu. destruct Eu; [left; apply Ik|right; apply Il]; auto. }
  pose proof (nc_from a b k1 k2 l1 l2 _ SA SB NR FR) as NN.
  split; auto. split; auto.
  rewrite app_assoc in NN. destruct NN as [P1 F1]. apply Forall_app in P1. apply FOP_app_inv in F1. split; tauto.
Qed.
End Swept.

Lemma union_result : (enough (length (k1 ++ l1)) <= fuel)%nat -> exists o ev,
  sweep fuel shape None (from_segments_iterables k1 l1) [] = Sweeps o ev
  /\ non_crossing (reduce_union o ev ++ k2 ++ l2)
  /\ forall p, on_segs (reduce_union o ev ++ k2 ++ l2) p <-> on_segs a p \/ on_segs b p.
Proof.
  intros F. destruct (swept k1 l1 None (incl_refl _) (incl_refl _) (so_nc1 _ _ _ _ SA) (so_nc1 _ _ _ _ SB) F (fun _ => true))
    as (o & ev & Q & A & Fc & Le & _ & _ & NR). exists o, ev. split; auto. split; auto. intros p.
  assert (E : on_segs (reduce_union o ev) p <-> on_segs (k1 ++ l1) p).
  { rewrite <- (covered k1 l1 None _ A p eq_refl). split.
    - intros (s & I & O). apply (union_In k1 l1 None o ev A Le) in I. destruct I as (i & I). exists s, i. auto.
    - intros (s & i & I & O). exists s. split; auto. apply (union_In k1 l1 None o ev A Le). eauto. }
  rewrite !on_segs_app, E, on_segs_app. unfold on_segs.
  assert (EA : (exists s, In s a /\ on_seg s p) <-> (exists s, In s k1 /\ on_seg s p) \/ (exists s, In s k2 /\ on_seg s p)).
  { split.
    - intros (s & I & O). apply (so_in _ _ _ _ SA) in I. destruct I; [left|right]; eauto.
    - intros [(s & I & O)|(s & I & O)]; exists s; split; auto; apply (so_in _ _ _ _ SA); auto. }
  assert (EB : (exists s, In s b /\ on_seg s p) <-> (exists s, In s l1 /\ on_seg s p) \/ (exists s, In s l2 /\ on_seg s p)).
  { split.
    - intros (s & I & O). apply (so_in _ _ _ _ SB) in I. destruct I; [left|right]; eauto.
    - intros [(s & I & O)|(s & I & O)]; exists s; split; auto; apply (so_in _ _ _ _ SB); auto. }
  rewrite EA, EB. tauto.
Qed.

Lemma common_swept p : on_common_continuum_lists a b p -> on_common_continuum_lists k1 l1 p.
Proof.
  intros (u & v & Iu & Iv & Sh & O). exists u, v.
  assert (NS : forall k' l' u v, ends_only k' l' -> In u k' -> In v l' -> proper_seg u -> proper_seg v ->
    ~ share_continuum u v).
  { clear. intros k' l' u v E Iu Iv Pu Pv. apply tod_no_share, meet_ends_tod; auto. }
  assert (Pu : proper_seg u).
  { apply (so_in _ _ _ _ SA) in Iu. destruct Iu; [apply (non_crossing_proper k1)|apply (non_crossing_proper k2)]; auto; apply SA. }
  assert (Pv : proper_seg v).
  { apply (so_in _ _ _ _ SB) in Iv. destruct Iv; [apply (non_crossing_proper l1)|apply (non_crossing_proper l2)]; auto; apply SB. }
  split; [|split; [|split; auto]].
  - pose proof Iu as Ju. apply (so_in _ _ _ _ SA) in Ju. destruct Ju as [|J]; auto. exfalso.
    apply (NS k2 b u v); auto. apply SA.
  - pose proof Iv as Jv. apply (so_in _ _ _ _ SB) in Jv. destruct Jv as [|J]; auto. exfalso.
    apply (NS l2 a v u); auto; [apply SB|]. apply share_continuum_sym; auto.
Qed.

Lemma intersection_result :
  let lo := q_max (min_x_of k1) (min_x_of l1) in let hi := q_min (max_x_of k1) (max_x_of l1) in
  (enough (length (reaching lo hi k1 ++ reaching lo hi l1)) <= fuel)%nat -> exists o ev,
  sweep fuel shape (Some hi) (from_segments_iterables (reaching lo hi k1) (reaching lo hi l1)) [] = Sweeps o ev
  /\ non_crossing (reduce_intersection o ev)
  /\ forall p, on_segs (reduce_intersection o ev) p <-> on_common_continuum_lists a b p.
Proof.
  intros lo hi F. set (k := reaching lo hi k1) in *. set (l := reaching lo hi l1) in *.
  assert (Ik : incl k k1) by (intros u; apply reaching_incl).
  assert (Il : incl l l1) by (intros u; apply reaching_incl).
  destruct (swept k l (Some hi) Ik Il (non_crossing_filter _ _ (so_nc1 _ _ _ _ SA))
    (non_crossing_filter _ _ (so_nc1 _ _ _ _ SB)) F has_two_or_more_elements)
    as (o & ev & Q & A & Fc & Le & NR & _ & _). exists o, ev. split; auto. split; auto. intros p.
  assert (Wh : Forall (whole (Some hi)) k \/ Forall (whole (Some hi)) l).
  { destruct (q_min_spec (max_x_of k1) (max_x_of l1)) as [[M _]|[M _]]; [left|right];
      apply Forall_forall; intros u I x q E O; assert (Ex : hi = x) by congruence; subst x; unfold hi; rewrite M.
    - apply (max_x_of_le k1 u q); auto.
    - apply (max_x_of_le l1 u q); auto. }
  assert (E : on_segs (reduce_intersection o ev) p <-> on_common_continuum_lists k l p).
  { rewrite <- (common_pair k l (Some hi) _ (non_crossing_filter _ _ (so_nc1 _ _ _ _ SA))
      (non_crossing_filter _ _ (so_nc1 _ _ _ _ SB)) A p Wh). split.
    - intros (s & I & O). apply (intersection_In k l (Some hi) o ev A Le) in I. destruct I as (i & j & N & I & J).
      exists s, i, j. auto.
    - intros (s & i & j & N & I & J & O). exists s. split; auto. apply (intersection_In k l (Some hi) o ev A Le).
      exists i, j. auto. }
  rewrite E. split.
  - intros (u & v & Iu & Iv & C). exists u, v. split; [apply (so_in _ _ _ _ SA); left; auto|].
    split; auto. apply (so_in _ _ _ _ SB). left; auto.
  - intros C. apply common_swept in C. destruct C as (u & v & Iu & Iv & C).
    exists u, v. destruct C as (Sh & Ou & Ov).
    assert (A1 : lo <= px p /\ px p <= hi).
    { pose proof (min_x_of_le k1 u p Iu Ou). pose proof (min_x_of_le l1 v p Iv Ov).
      pose proof (max_x_of_le k1 u p Iu Ou). pose proof (max_x_of_le l1 v p Iv Ov). unfold lo, hi.
      destruct (q_min_spec (max_x_of k1) (max_x_of l1)) as [[-> _]|[-> _]],
        (q_max_spec (min_x_of k1) (min_x_of l1)) as [[-> _]|[-> _]]; auto. }
    split; [apply (reaching_In lo hi k1 u p); tauto|]. split; [apply (reaching_In lo hi l1 v p); tauto|].
    split; auto.
Qed.

Lemma difference_result :
  let lo := min_x_of k1 in let hi := max_x_of k1 in
  (enough (length (k1 ++ reaching lo hi l1)) <= fuel)%nat -> exists o ev,
  sweep fuel shape (Some hi) (from_segments_iterables k1 (reaching lo hi l1)) [] = Sweeps o ev
  /\ non_crossing (reduce_difference o ev ++ k2)
  /\ forall p, on_segs (reduce_difference o ev ++ k2) p <-> in_difference_lists a b p.
Proof.
  intros lo hi F. set (l := reaching lo hi l1) in *.
  assert (Il : incl l l1) by (intros u; apply reaching_incl).
  assert (Nl : non_crossing l) by apply (non_crossing_filter _ _ (so_nc1 _ _ _ _ SB)).
  assert (Nk := so_nc1 _ _ _ _ SA).
  destruct (swept k1 l (Some hi) (incl_refl _) Il Nk Nl F (forallb (is_event_from_first_operand (from_segments_iterables k1 l))))
    as (o & ev & Q & A & Fc & Le & _ & _ & _).
  destruct (swept k1 l (Some hi) (incl_refl _) Il Nk Nl F (forallb (is_event_from_first_operand o)))
    as (o' & ev' & Q' & _ & _ & _ & _ & NR & _).
  assert (Eo : o' = o /\ ev' = ev) by (split; congruence). destruct Eo as [-> ->].
  exists o, ev. split; auto. split; auto. intros p.
  assert (Wh : Forall (whole (Some hi)) k1).
  { apply Forall_forall; intros u I x q E O; assert (Ex : hi = x) by congruence; subst x.
    apply (max_x_of_le k1 u q); auto. }
  assert (E : on_segs (reduce_difference o ev) p <-> in_difference_lists k1 l p).
  { split.
    - intros (s & I & O). apply (difference_In k1 l (Some hi) o ev A Fc Le) in I.
      destruct I as ((i & I) & Fr). apply (rest_first k1 l (Some hi) _ A s i p I (Fr i I)); auto.
    - intros D. destruct (first_rest k1 l (Some hi) _ Nk Nl A p Wh D) as (s & i & I & Li & U & O).
      exists s. split; auto. apply (difference_In k1 l (Some hi) o ev A Fc Le). split; [eauto|].
      intros j J. apply U in J. subst; auto. }
  rewrite on_segs_app, E. symmetry. apply (difference_parts a b k1 k2 l SA).
  - intros v r u Iu Ir Iv Ov. pose proof (split_inside a b k1 k2 l1 l2 SA SB v r u Iu Ir Iv Ov) as J.
    assert (Or : on_seg u r) by (apply inside_on; auto).
    apply (reaching_In lo hi l1 v r); auto.
    + apply (min_x_of_le k1 u r); auto.
    + apply (max_x_of_le k1 u r); auto.
  - intros v I. apply (so_in _ _ _ _ SB). left. apply Il; auto.
Qed.

Lemma symmetric_difference_result : (enough (length (k1 ++ l1)) <= fuel)%nat -> exists o ev,
  sweep fuel shape None (from_segments_iterables k1 l1) [] = Sweeps o ev
  /\ non_crossing (reduce_symmetric_difference o ev ++ k2 ++ l2)
  /\ forall p, on_segs (reduce_symmetric_difference o ev ++ k2 ++ l2) p
               <-> in_difference_lists a b p \/ in_difference_lists b a p.
Proof.
  intros F. assert (Nk := so_nc1 _ _ _ _ SA). assert (Nl := so_nc1 _ _ _ _ SB).
  destruct (swept k1 l1 None (incl_refl _) (incl_refl _) Nk Nl F (fun group => negb (has_two_or_more_elements group)))
    as (o & ev & Q & A & Fc & Le & _ & _ & NR). exists o, ev. split; auto. split; auto. intros p.
  assert (Wh : forall k, Forall (whole None) k).
  { intros k. apply Forall_forall; intros u I x q E; discriminate. }
  assert (E : on_segs (reduce_symmetric_difference o ev) p <->
    in_difference_lists k1 l1 p \/ in_difference_lists l1 k1 p).
  { split.
    - intros (s & I & O). apply (symmetric_difference_In k1 l1 None o ev A Le) in I.
      destruct I as (i & I & U). destruct (Nat.lt_ge_cases i (length k1)) as [Li|Li].
      + left. apply (rest_first k1 l1 None _ A s i p I Li); auto. intros j J. apply U in J. subst; auto.
      + right. apply (rest_second k1 l1 None _ A s i p I Li); auto. intros j J. apply U in J. subst; auto.
    - intros [D|D].
      + destruct (first_rest k1 l1 None _ Nk Nl A p (Wh _) D) as (s & i & I & Li & U & O).
        exists s. split; auto. apply (symmetric_difference_In k1 l1 None o ev A Le). eauto.
      + destruct (second_rest k1 l1 None _ Nk Nl A p (Wh _) D) as (s & i & I & Li & U & O).
        exists s. split; auto. apply (symmetric_difference_In k1 l1 None o ev A Le). eauto. }
  rewrite !on_segs_app, E.
  rewrite (difference_parts a b k1 k2 l1 SA).
  - rewrite (difference_parts b a l1 l2 k1 SB); [tauto|..].
    + apply (split_inside b a l1 l2 k1 k2 SB SA).
    + intros v I. apply (so_in _ _ _ _ SA); auto.
  - apply (split_inside a b k1 k2 l1 l2 SA SB).
  - intros v I. apply (so_in _ _ _ _ SB); auto.
Qed.
End Lists.
