(** The trapezoidation, part 14: what the trapezoidation of a polygon tells. *)
From Coq Require Import QArith Qcanon Bool List Arith Lia NArith Permutation.
From Verif Require Import QcTac Model_Base Model_Utils Model_Box Model_Geometry Model_Contour Model_Linear Model_Mixed Model_Seidel Spec_Base Spec_Bounds Spec_Segment Spec_Contour
  Spec_Clip Spec_Shaped Spec_Relate Spec_RelateShaped Spec_Validity Spec_Seidel Proof_Base Proof_Utils Proof_Bounds Proof_Locate Proof_Locate2 Proof_Locate4 Proof_Parity Proof_Ray Proof_Orient Proof_Odd Proof_Clip Proof_Result Proof_Shrink Proof_Region Proof_Contour Proof_Edges Proof_Contour Proof_Ready
  Proof_Sweep Proof_Sweep4 Proof_Seidel11 Proof_Seidel12 Proof_Seidel13.
Import ListNotations.
Local Open Scope Qc_scope.

Lemma between_swap a b p : between a b p -> between b a p.
Proof. apply between_sym. Qed.
Lemma smaller_rising e d pts : 0 < d -> d <= e ->
  (forall p q, In p pts -> In q pts -> lex_lt p q -> px p + e * py p < px q + e * py q) ->
  (forall p q, In p pts -> In q pts -> lex_lt p q -> px p + d * py p < px q + d * py q).
Proof.
  intros D L H p q Ip Iq Lt. pose proof (H p q Ip Iq Lt) as Q. destruct Lt as [Lt|[Eq Lt]].
  - assert (Z1 : 0 <= (px q - px p) * (e - d)) by qnra.
    assert (Z2 : 0 < d * ((px q + e * py q) - (px p + e * py p))) by qnra.
    assert (Z3 : e * ((px q + d * py q) - (px p + d * py p)) = (px q - px p) * (e - d) + d * ((px q + e * py q) - (px p + e * py p))) by ring.
    apply Qcnot_le_lt. intros N.
    assert (Z4 : e * ((px q + d * py q) - (px p + d * py p)) <= 0) by qnra. qlra.
  - rewrite Eq. assert (0 < d * (py q - py p)) by qnra. qlra.
Qed.
Lemma even_crossings (f : point -> bool) l : xsum (fun s => xorb (f (seg_start s)) (f (seg_end s))) (outlines l) = false.
Proof.
  assert (E : forall es, xsum (fun s => xorb (f (seg_start s)) (f (seg_end s))) es = sides f es).
  { induction es as [|e es IH]; auto. cbn [xsum sides fold_right]. rewrite IH. auto. }
  unfold outlines. rewrite xsum_flat. apply xsum_false. intros vs _. rewrite E. destruct vs as [|v vs]; auto. unfold Spec_Segment.edges.
  rewrite sides_edges_from by discriminate. cbn [hd]. apply xorb_nilpotent.
Qed.
Lemma flag_reverse s : proper_seg s -> segment_flag (reverse_seg s) = negb (segment_flag s).
Proof.
  intros P. unfold segment_flag, reverse_seg. cbn [seg_start seg_end]. rewrite negb_involutive.
  destruct (lex_total (seg_start s) (seg_end s)) as [[L|E]|L]; [|contradiction|].
  - rewrite (proj2 (point_lt_true _ _) L). rewrite (proj2 (point_lt_false _ _)); auto. unfold lex_lt in *. intros Q. destruct L as [L|[L1 L2]], Q as [Q|[Q1 Q2]]; qlra.
  - rewrite (proj2 (point_lt_true _ _) L). rewrite (proj2 (point_lt_false _ _)); auto. unfold lex_lt in *. intros Q. destruct L as [L|[L1 L2]], Q as [Q|[Q1 Q2]]; qlra.
Qed.
Lemma Permutation_meet l l' : Permutation l l' -> meet_at_ends l -> meet_at_ends l'.
Proof.
  intros P M. apply Permutation_nth_error in P as (_ & f & If & Hf). intros i j s t x Ne N1 N2. rewrite Hf in N1, N2.
  apply (M (f i) (f j)); auto.
Qed.

Lemma nth_all {T U} (f : T -> U) (l : list T) x : map (fun g => f (nth g l x)) (seq 0 (length l)) = map f l.
Proof. induction l as [|y l IH]; auto. cbn [length seq map nth]. f_equal. rewrite <- seq_shift, map_map. exact IH. Qed.

Lemma sides_multiset p : same_multiset same_segment (outlines (rings p)) (polygon_to_correctly_oriented_segments p).
Proof. destruct p as [b hs]. apply polygon_segments_multiset. Qed.

Section Polygon.
Variables (p : polygon) (seed : N) (q : point).
Hypothesis V : valid_polygon p.
Hypothesis M : meet_at_ends (outlines (rings p)).
Let sides := outlines (rings p).
Let eps := border p ++ concat (holes p).
Let L0 := populate_from_contour (border p) COUNTERCLOCKWISE 0 ++ populate_from_holes (holes p) (length (border p)).
Let es := permute L0 seed.
Variable ss : list (segment * bool).
Hypothesis Sp : Permutation (marks p) ss.
Hypothesis Sf : Forall2 (belongs p) es ss.
Variable r : list (list point).
Hypothesis P : prepared p r.
Notation n := (length es).
Definition side (g : nat) : segment := fst (nth g ss (Seg origin origin, false)).
Definition mark (g : nat) : bool := snd (nth g ss (Seg origin origin, false)).
Notation eL' := (eL es eps).
Notation eR' := (eR es eps).

Lemma ss_length : length ss = n.
Proof. clear - Sf. symmetry. induction Sf; cbn; auto. Qed.
Lemma ss_nth g : (g < n)%nat -> In (side g, mark g) ss /\ belongs p (edge_at es g) (side g, mark g) /\ nth_error (map fst ss) g = Some (side g).
Proof.
  intros L. unfold side, mark. set (sm := nth g ss _). replace (fst sm, snd sm) with sm by (destruct sm; auto).
  split; [apply nth_In; rewrite ss_length; auto|]. split.
  - unfold edge_at. subst sm. clear - Sf L. revert g L. induction Sf as [|e s l l' B F IH]; intros g L; [cbn in L; lia|]. destruct g; auto. cbn in L |- *. apply IH; auto. lia.
  - rewrite nth_error_map. subst sm. rewrite (nth_error_nth' ss (Seg origin origin, false)) by (rewrite ss_length; auto). auto.
Qed.
Lemma ss_sides : Permutation (map fst ss) sides.
Proof. unfold sides. rewrite <- marks_outlines. apply Permutation_map. symmetry. auto. Qed.
Lemma side_in g : (g < n)%nat -> In (side g) sides.
Proof. intros L. apply (Permutation_in _ ss_sides). eapply nth_error_In. apply ss_nth; auto. Qed.
Lemma side_proper g : (g < n)%nat -> proper_seg (side g).
Proof. intros L. destruct (vp_edges _ V) as [F _]. rewrite Forall_forall in F. apply F. apply side_in; auto. Qed.
Lemma in_side s : In s sides -> exists g, (g < n)%nat /\ side g = s.
Proof.
  intros I. apply (Permutation_in _ (Permutation_sym ss_sides)) in I. apply In_nth_error in I as (g & N).
  assert (L : (g < n)%nat) by (rewrite <- ss_length, <- (map_length fst); apply nth_error_Some; congruence).
  exists g. split; auto. destruct (ss_nth g L) as (_ & _ & N'). congruence.
Qed.
Lemma mark_closing g : (g < n)%nat -> mark g = true -> closing p (side g).
Proof. intros L E. apply marks_true. apply (Permutation_in _ (Permutation_sym Sp)). rewrite <- E. apply ss_nth; auto. Qed.
Lemma closing_mark s : closing p s -> exists g, (g < n)%nat /\ side g = s /\ mark g = true.
Proof.
  intros C. apply marks_true in C. apply (Permutation_in _ Sp) in C. destruct (In_nth _ _ (Seg origin origin, false) C) as (g & L & E).
  exists g. rewrite ss_length in L. unfold side, mark. rewrite E. auto.
Qed.
Lemma side_facts g : (g < n)%nat -> (elp es g < length eps)%nat /\ (erp es g < length eps)%nat /\ lex_lt (eL' g) (eR' g) /\
  ((eL' g = seg_start (side g) /\ eR' g = seg_end (side g)) \/ (eL' g = seg_end (side g) /\ eR' g = seg_start (side g))) /\
  exists c : bool, In (if c then side g else reverse_seg (side g)) (outlines r) /\ interior_to_left (edge_at es g) = xorb (mark g) (Bool.eqb c (segment_flag (side g))).
Proof.
  intros L. destruct (ss_nth g L) as (_ & (vs & o & Vs & Im & k & l & K1 & K2 & K3 & K4 & Ee) & _). cbn [fst snd] in K3, K4, Ee, Im. fold eps in K1, K2, K3, K4.
  pose proof (side_proper g L) as Pr.
  assert (C : In (if orientation_is (contour_orientation vs) o then side g else reverse_seg (side g)) (outlines r)).
  { rewrite <- (pr_segments _ _ P). unfold polygon_to_correctly_oriented_segments. assert (I : In (side g) (edges vs)) by (rewrite <- ring_marks_edges; apply (in_map fst) in Im; auto).
    apply in_or_app. destruct Vs as [[-> ->]|[Iv ->]].
    - left. apply oriented_side; auto.
    - right. apply in_flat_map. exists vs. split; auto. apply oriented_side; auto. }
  unfold eL, eR, elp, erp. rewrite Ee. unfold contour_edge, segment_flag.
  destruct (lex_total (seg_start (side g)) (seg_end (side g))) as [[Lt|E]|Lt]; [|contradiction|].
  - assert (Nl : ~ lex_lt (seg_end (side g)) (seg_start (side g))) by (unfold lex_lt in *; intros Q; destruct Lt as [?|[? ?]], Q as [?|[? ?]]; qlra).
    rewrite (proj2 (point_lt_true _ _) Lt), (proj2 (point_lt_false _ _) Nl).
    destruct (mark g); cbn [left_point_index right_point_index interior_to_left]; rewrite K3, K4; (split; [auto|]; split; [auto|]; split; [auto|]; split; [auto|]);
      exists (orientation_is (contour_orientation vs) o); (split; [exact C|]); destruct (orientation_is _ _); auto.
  - assert (Nl : ~ lex_lt (seg_start (side g)) (seg_end (side g))) by (unfold lex_lt in *; intros Q; destruct Lt as [?|[? ?]], Q as [?|[? ?]]; qlra).
    rewrite (proj2 (point_lt_true _ _) Lt), (proj2 (point_lt_false _ _) Nl).
    destruct (mark g); cbn [left_point_index right_point_index interior_to_left]; rewrite K3, K4; (split; [auto|]; split; [auto|]; split; [auto|]; split; [auto|]);
      exists (orientation_is (contour_orientation vs) o); (split; [exact C|]); destruct (orientation_is _ _); auto.
Qed.
Lemma side_between g f : (g < n)%nat -> (between (eL' g) (eR' g) f <-> on_seg (side g) f) /\ (f = eL' g \/ f = eR' g <-> endpoint_of (side g) f).
Proof.
  intros L. destruct (side_facts g L) as (_ & _ & _ & Q & _). unfold on_seg, endpoint_of.
  destruct Q as [[-> ->]|[-> ->]]; split; try tauto. split; apply between_sym.
Qed.
Lemma sides_meet g g' f : (g < n)%nat -> (g' < n)%nat -> g <> g' -> between (eL' g) (eR' g) f -> between (eL' g') (eR' g') f ->
  (f = eL' g \/ f = eR' g) /\ (f = eL' g' \/ f = eR' g').
Proof.
  intros L L' Ne B B'. destruct (side_between g f L) as [E1 E2]. destruct (side_between g' f L') as [E1' E2']. rewrite E2, E2'.
  assert (Mp : meet_at_ends (map fst ss)) by (apply (Permutation_meet sides); [symmetry; apply ss_sides|exact M]).
  apply (Mp g g'); auto; try (apply ss_nth; auto); [apply E1; auto|apply E1'; auto].
Qed.
Lemma same_ends : forall v, In v (ends_of (outlines r)) <-> exists g, (g < n)%nat /\ (v = eL' g \/ v = eR' g).
Proof.
  intros v. rewrite <- concat_ends.
  assert (A : In v (concat r) <-> In v (concat (rings p))).
  { pose proof (pr_same _ _ P) as F. clear - F. induction F as [|a b l m S F IH]; [tauto|]. cbn [concat]. rewrite !in_app_iff, IH.
    pose proof (same_cycle_permutation _ _ S) as Pm. split; (intros [I|I]; [left|right; auto]); [apply (Permutation_in _ (Permutation_sym Pm))|apply (Permutation_in _ Pm)]; auto. }
  rewrite A, concat_ends. unfold ends_of. fold sides. rewrite in_flat_map. split.
  - intros (s & I & J). apply in_side in I as (g & L & <-). exists g. split; auto. apply side_between; auto. destruct J as [<-|[<-|[]]]; [left|right]; auto.
  - intros (g & L & E). exists (side g). split; [apply side_in; auto|]. apply side_between in E; auto. destruct E as [->| ->]; [left|right; left]; auto.
Qed.

(** The lines are inclined by [d]. *)
Variable d : Qc.
Hypothesis Dp : 0 < d.
Let ins := map (fun g => (eL' g, eR' g)) (seq 0 n) ++ [(q, Pt (px q + 1) (py q))].
Hypothesis Small : forall v w, In v (all_points ins) -> In w (all_points ins) -> lex_lt v w -> px v + d * py v < px w + d * py w.
Let c := Ctx d (all_points ins) ins 0.
Lemma ins_lex s : In s ins -> lex_lt (fst s) (snd s).
Proof.
  intros I. apply in_app_or in I as [I|[<-|[]]].
  - apply in_map_iff in I as (g & <- & I). apply in_seq in I. cbn. apply side_facts. lia.
  - left. cbn. qlra.
Qed.
Lemma G : good c.
Proof. apply good_rising; [apply ins_lex|exact Small]. Qed.
Lemma ins_at g : (g < n)%nat -> input c g = (eL' g, eR' g).
Proof.
  intros L. unfold input. cbn [c_ins c]. unfold ins. rewrite app_nth1 by (rewrite map_length, seq_length; auto).
  rewrite (nth_indep _ _ ((fun g => (eL' g, eR' g)) 0%nat)) by (rewrite map_length, seq_length; auto).
  rewrite (map_nth (fun g => (eL' g, eR' g))). rewrite seq_nth by auto. auto.
Qed.
Lemma ins_count : (n < length (c_ins c))%nat.
Proof. cbn [c_ins c]. unfold ins. rewrite app_length, map_length, seq_length. cbn. lia. Qed.
Lemma q_in : In q (c_pts c).
Proof.
  cbn [c_pts c]. unfold all_points. apply in_or_app. left. apply in_flat_map. exists (q, Pt (px q + 1) (py q)). split; [|left; auto].
  unfold ins. apply in_or_app. right. left. auto.
Qed.
Lemma ends_in g : (g < n)%nat -> In (eL' g) (c_pts c) /\ In (eR' g) (c_pts c).
Proof. intros L. destruct (g_ins _ G g) as (_ & A & B); [pose proof ins_count; lia|]. rewrite ins_at in A, B by auto. auto. Qed.
Definition x0 : Qc := X c q.
Definition at_ (y : Qc) : point := Pt (x0 - d * y) y.
Lemma X_at y : X c (at_ y) = x0.
Proof. unfold X, at_. cbn. ring. Qed.
Lemma at_q : at_ (py q) = q.
Proof. apply point_ext; unfold at_, x0, X; cbn; ring. Qed.
Notation passes := (passes es eps q c).
Notation Hg g := (H c g x0).
Definition pas (g : nat) : bool := qltb (X c (eL' g)) x0 && qltb x0 (X c (eR' g)).
Lemma pas_true g : pas g = true <-> passes g.
Proof. unfold pas, Proof_Seidel11.passes. rewrite andb_true_iff. fold x0. destruct (qltb_spec (X c (eL' g)) x0), (qltb_spec x0 (X c (eR' g))); intuition congruence. Qed.
Lemma below_at g y : (g < n)%nat -> below_seg d (at_ y) (side g) = pas g && qltb (Hg g) y.
Proof.
  intros L. unfold below_seg. destruct (side_facts g L) as (_ & _ & Lx & Q & _).
  assert (E : below_pair d (seg_start (side g)) (seg_end (side g)) (at_ y) = below_pair d (eL' g) (eR' g) (at_ y)).
  { destruct Q as [[-> ->]|[-> ->]]; auto. apply below_pair_sym. }
  rewrite E. assert (Lt : Xs d (eL' g) < Xs d (eR' g)) by (destruct (ends_in g L); apply Small; auto).
  rewrite below_line by auto. unfold pas. change (Xs d (at_ y)) with (X c (at_ y)). rewrite X_at. change (Xs d (eL' g)) with (X c (eL' g)). change (Xs d (eR' g)) with (X c (eR' g)).
  f_equal. cbn [py at_]. f_equal. unfold line_at, H, K. rewrite ins_at by auto. reflexivity.
Qed.
Lemma EB g f : (g < n)%nat -> (between (eL' g) (eR' g) f <-> X c (eL' g) <= X c f /\ X c f <= X c (eR' g) /\ py f = H c g (X c f)).
Proof. intros L. apply edge_between; auto; [intros k Lk; apply side_facts; auto|apply G|apply ins_at|apply ins_count]. Qed.
Lemma on_at g y : (g < n)%nat -> passes g -> (on_seg (side g) (at_ y) <-> y = Hg g).
Proof.
  intros L [P1 P2]. rewrite <- (proj1 (side_between g (at_ y) L)), EB by auto. rewrite X_at. fold x0 in P1, P2. cbn [py at_].
  split; [tauto|]. intros E. repeat split; auto; qlra.
Qed.
Lemma same_height g g' : (g < n)%nat -> (g' < n)%nat -> passes g -> passes g' -> Hg g = Hg g' -> g = g'.
Proof.
  intros L L' Pg Pg' E. destruct (Nat.eq_dec g g') as [|Ne]; auto. exfalso.
  assert (B : between (eL' g) (eR' g) (at_ (Hg g))) by (apply side_between; auto; apply on_at; auto).
  assert (B' : between (eL' g') (eR' g') (at_ (Hg g))) by (apply side_between; auto; apply on_at; auto).
  destruct (sides_meet g g' _ L L' Ne B B') as [[Q|Q] _]; destruct Pg as [P1 P2]; fold x0 in P1, P2; rewrite <- Q, X_at in *; qlra.
Qed.
Lemma Rising : rising d (ends_of (outlines r)).
Proof.
  intros v w Iv Iw Lt. apply Small; auto.
  - apply same_ends in Iv as (g & L & E). destruct (ends_in g L). destruct E as [->| ->]; auto.
  - apply same_ends in Iw as (g & L & E). destruct (ends_in g L). destruct E as [->| ->]; auto.
Qed.
Definition cnt (y : Qc) : bool := xsum (fun g => pas g && qltb (Hg g) y) (seq 0 n).
Lemma cnt_sides y : cnt y = xsum (below_seg d (at_ y)) sides.
Proof.
  rewrite <- (xsum_perm _ _ _ ss_sides). assert (E : map fst ss = map side (seq 0 n)).
  { rewrite <- ss_length. symmetry. apply (nth_all fst). }
  rewrite E, xsum_map. unfold cnt. apply xsum_ext. intros g I. apply in_seq in I. symmetry. apply below_at. lia.
Qed.

Hypothesis Off : ~ on_segs sides q.
Lemma generic g : (g < n)%nat -> X c (eL' g) <> x0 /\ X c (eR' g) <> x0.
Proof.
  intros L. destruct (ends_in g L) as [I1 I2]. split; intros E; apply Off; exists (side g); (split; [apply side_in; auto|]); apply side_between; auto.
  - rewrite <- (X_inj c G _ _ I1 q_in E). apply between_start.
  - rewrite <- (X_inj c G _ _ I2 q_in E). apply between_end.
Qed.
Lemma on_sides_at y : on_segs sides (at_ y) <-> exists g, (g < n)%nat /\ passes g /\ y = Hg g.
Proof.
  split.
  - intros (s & I & O). apply in_side in I as (g & L & <-). apply side_between in O as O'; auto. apply EB in O' as (O1 & O2 & O3); auto.
    rewrite X_at in *. destruct (generic g L) as [N1 N2]. exists g. split; auto. split; [|exact O3].
    split; fold x0; apply Qcnot_le_lt; intros ?; [apply N1|apply N2]; apply Qcle_antisym; auto.
  - intros (g & L & Pg & E). exists (side g). split; [apply side_in; auto|apply on_at; auto].
Qed.
Lemma cnt_side g : (g < n)%nat -> passes g -> cnt (Hg g) = negb (xorb (interior_to_left (edge_at es g)) (mark g)).
Proof.
  intros L Pg. rewrite cnt_sides. destruct (side_facts g L) as (_ & _ & _ & _ & b & I & F).
  assert (O : on_seg (side g) (at_ (Hg g))) by (apply on_at; auto).
  assert (E : xsum (below_seg d (at_ (Hg g))) sides = xsum (below_seg d (at_ (Hg g))) (outlines r)).
  { rewrite <- (pr_segments _ _ P). apply below_same_multiset. apply sides_multiset. }
  rewrite E. rewrite (pr_side _ _ P d Rising _ (at_ (Hg g)) I).
  - f_equal. rewrite F. destruct b; cbn [Bool.eqb].
    + destruct (mark g), (segment_flag (side g)); auto.
    + rewrite flag_reverse by (apply side_proper; auto). destruct (mark g), (segment_flag (side g)); auto.
  - destruct b; auto. apply between_sym in O. exact O.
  - intros v Iv. apply same_ends in Iv as (k & Lk & Ek). destruct (generic k Lk) as [N1 N2]. change (Xs d v) with (X c v). change (Xs d (at_ (Hg g))) with (X c (at_ (Hg g))).
    rewrite X_at. destruct Ek as [->| ->]; auto.
Qed.
Lemma cnt_inside : inside_polygon p q <-> cnt (py q) = true.
Proof.
  rewrite cnt_sides, at_q. rewrite (polygon_odd p q V Off), odd_xsum, (insideb_outlines _ _ Off). fold sides.
  rewrite (parity_below d); [tauto|exact Off| |apply even_outlines].
  intros v Iv. unfold ends_of in Iv. apply in_flat_map in Iv as (s & I & J). apply in_side in I as (g & L & <-).
  assert (Q : v = eL' g \/ v = eR' g) by (apply side_between; auto; destruct J as [<-|[<-|[]]]; [left|right]; auto).
  destruct (generic g L) as [N1 N2]. change (Xs d v) with (X c v). change (Xs d q) with x0. destruct Q as [->| ->]; auto.
Qed.
Lemma cnt_same y1 y2 : y1 <= y2 -> (forall g, (g < n)%nat -> passes g -> y1 <= Hg g -> Hg g < y2 -> False) -> cnt y1 = cnt y2.
Proof.
  intros Le N. unfold cnt. apply xsum_ext. intros g I. apply in_seq in I. destruct (pas g) eqn:Pg; auto. apply pas_true in Pg. cbn [andb].
  destruct (qltb_spec (Hg g) y1), (qltb_spec (Hg g) y2); auto; exfalso; [qlra|]. apply (N g); auto; [lia|qlra].
Qed.
Lemma cnt_step b y2 : (b < n)%nat -> passes b -> Hg b < y2 -> (forall g, (g < n)%nat -> passes g -> Hg b < Hg g -> Hg g < y2 -> False) -> cnt y2 = negb (cnt (Hg b)).
Proof.
  intros L Pb Lt N. assert (E : xorb (cnt (Hg b)) (cnt y2) = true).
  { unfold cnt. rewrite <- xsum_xor. rewrite (xsum_one _ _ b).
    - rewrite (proj2 (pas_true b) Pb). cbn [andb]. destruct (qltb_spec (Hg b) (Hg b)) as [Q|Q]; [exfalso; qlra|]. destruct (qltb_spec (Hg b) y2); auto.
    - apply seq_NoDup.
    - apply in_seq. lia.
    - intros g I Ne. apply in_seq in I. destruct (pas g) eqn:Pg; auto. apply pas_true in Pg. cbn [andb].
      destruct (qltb_spec (Hg g) (Hg b)) as [Q1|Q1], (qltb_spec (Hg g) y2) as [Q2|Q2]; auto; exfalso; [qlra|].
      apply (N g); auto; [lia|]. apply Qcnot_le_lt. intros Q3. apply Ne. apply same_height; auto; [lia|]. apply Qcle_antisym; auto. apply Qcnot_lt_le; auto. }
  destruct (cnt (Hg b)), (cnt y2); auto.
Qed.
Lemma cnt_none y : (forall g, (g < n)%nat -> passes g -> Hg g < y -> False) -> cnt y = false.
Proof.
  intros N. unfold cnt. apply xsum_false. intros g I. apply in_seq in I. destruct (pas g) eqn:Pg; auto. apply pas_true in Pg. cbn [andb].
  destruct (qltb_spec (Hg g) y); auto. exfalso. apply (N g); auto. lia.
Qed.
Lemma cnt_all y : (forall g, (g < n)%nat -> passes g -> y <= Hg g -> False) -> cnt y = false.
Proof.
  intros N. rewrite <- (even_crossings (fun v => qltb (X c v) x0) (rings p)). fold sides. rewrite <- (xsum_perm _ _ _ ss_sides).
  assert (E : map fst ss = map side (seq 0 n)).
  { rewrite <- ss_length. symmetry. apply (nth_all fst). }
  rewrite E, xsum_map. unfold cnt. apply xsum_ext. intros g I. apply in_seq in I. assert (L : (g < n)%nat) by lia.
  transitivity (pas g).
  - destruct (pas g) eqn:Pg; auto. apply pas_true in Pg. cbn [andb]. destruct (qltb_spec (Hg g) y) as [Q|Q]; auto. exfalso. apply (N g); auto. apply Qcnot_lt_le; auto.
  - destruct (side_facts g L) as (_ & _ & Lx & Q & _). destruct (ends_in g L) as [I1 I2]. pose proof (g_mono _ G _ _ I1 I2 Lx) as Lt. destruct (generic g L) as [N1 N2].
    unfold pas. assert (E' : qltb x0 (X c (eR' g)) = negb (qltb (X c (eR' g)) x0)).
    { destruct (qltb_spec x0 (X c (eR' g))), (qltb_spec (X c (eR' g)) x0); auto; exfalso; [qlra|]. apply N2. apply Qcle_antisym; apply Qcnot_lt_le; auto. }
    rewrite E'. destruct Q as [[<- <-]|[<- <-]]; destruct (qltb_spec (X c (eL' g)) x0), (qltb_spec (X c (eR' g)) x0); auto; exfalso; qlra.
Qed.

(** The first sides met. *)
Lemma met_down s : first_met sides q d (- (1)) s <-> exists g, (g < n)%nat /\ side g = s /\ passes g /\ Hg g < py q /\
  (forall g', (g' < n)%nat -> passes g' -> Hg g < Hg g' -> Hg g' < py q -> False).
Proof.
  assert (Em : forall u, moved q d (- (1)) u = at_ (py q - u)) by (intros u; apply point_ext; unfold moved, at_, x0, X; cbn; ring).
  split.
  - intros (I & u & U & O & N). rewrite Em in O. assert (O' : on_segs sides (at_ (py q - u))) by (exists s; auto).
    apply in_side in I as (g & L & <-). apply side_between in O as O1; auto. apply EB in O1 as (O1 & O2 & O3); auto. rewrite X_at in *. cbn [py at_] in O3.
    destruct (generic g L) as [N1 N2]. assert (Pg : passes g) by (split; fold x0; apply Qcnot_le_lt; intros ?; [apply N1|apply N2]; apply Qcle_antisym; auto).
    exists g. split; auto. split; auto. split; auto. split; [qlra|]. intros g' L' Pg' Q1 Q2. apply (N (py q - Hg g')); [qlra|qlra|].
    rewrite Em. apply on_sides_at. exists g'. split; auto. split; auto. ring.
  - intros (g & L & <- & Pg & Lt & N). split; [apply side_in; auto|]. exists (py q - Hg g). split; [qlra|]. split.
    + rewrite Em. apply on_at; auto. ring.
    + intros v V1 V2. rewrite Em. intros O. apply on_sides_at in O as (g' & L' & Pg' & E). apply (N g'); auto; qlra.
Qed.
Lemma met_up s : first_met sides q (- d) 1 s <-> exists g, (g < n)%nat /\ side g = s /\ passes g /\ py q < Hg g /\
  (forall g', (g' < n)%nat -> passes g' -> Hg g' < Hg g -> py q < Hg g' -> False).
Proof.
  assert (Em : forall u, moved q (- d) 1 u = at_ (py q + u)) by (intros u; apply point_ext; unfold moved, at_, x0, X; cbn; ring).
  split.
  - intros (I & u & U & O & N). rewrite Em in O. assert (O' : on_segs sides (at_ (py q + u))) by (exists s; auto).
    apply in_side in I as (g & L & <-). apply side_between in O as O1; auto. apply EB in O1 as (O1 & O2 & O3); auto. rewrite X_at in *. cbn [py at_] in O3.
    destruct (generic g L) as [N1 N2]. assert (Pg : passes g) by (split; fold x0; apply Qcnot_le_lt; intros ?; [apply N1|apply N2]; apply Qcle_antisym; auto).
    exists g. split; auto. split; auto. split; auto. split; [qlra|]. intros g' L' Pg' Q1 Q2. apply (N (Hg g' - py q)); [qlra|qlra|].
    rewrite Em. apply on_sides_at. exists g'. split; auto. split; auto. ring.
  - intros (g & L & <- & Pg & Lt & N). split; [apply side_in; auto|]. exists (Hg g - py q). split; [qlra|]. split.
    + rewrite Em. apply on_at; auto. ring.
    + intros v V1 V2. rewrite Em. intros O. apply on_sides_at in O as (g' & L' & Pg' & E). apply (N g'); auto; qlra.
Qed.
Lemma mark_side g s : (g < n)%nat -> passes g -> side g = s -> (closing p s <-> mark g = true).
Proof.
  intros L Pg <-. split; [|apply mark_closing; auto]. intros C. destruct (closing_mark _ C) as (g' & L' & E & Mk).
  destruct (Nat.eq_dec g' g) as [->|Ne]; auto. exfalso.
  assert (B : between (eL' g) (eR' g) (at_ (Hg g))) by (apply side_between; auto; apply on_at; auto).
  assert (B' : between (eL' g') (eR' g') (at_ (Hg g))) by (apply side_between; auto; rewrite E; apply on_at; auto).
  assert (Ne' : g <> g') by congruence.
  destruct (sides_meet g g' _ L L' Ne' B B') as [[Q|Q] _]; destruct Pg as [P1 P2]; fold x0 in P1, P2; rewrite <- Q, X_at in *; qlra.
Qed.

(** The sides next below and above tell. *)
Variables (b a : nat) (fb fa : bool).
Hypothesis Below : (b = n + 1 /\ fb = false)%nat \/ ((b < n)%nat /\ passes b /\ Hg b < py q /\ fb = interior_to_left (edge_at es b)).
Hypothesis Above : (a = n /\ fa = true) \/ ((a < n)%nat /\ passes a /\ py q < Hg a /\ fa = interior_to_left (edge_at es a)).
Hypothesis Free : forall g, (g < n)%nat -> passes g -> ((b < n)%nat -> Hg b < Hg g) -> ((a < n)%nat -> Hg g < Hg a) -> False.
Lemma off_height g : (g < n)%nat -> passes g -> Hg g <> py q.
Proof. intros L Pg E. apply Off. exists (side g). split; [apply side_in; auto|]. rewrite <- at_q. apply on_at; auto. Qed.
Lemma no_below g : (g < n)%nat -> passes g -> ((b < n)%nat -> Hg b < Hg g) -> Hg g < py q -> False.
Proof. intros L Pg Lb Lt. apply (Free g); auto. intros La. destruct Above as [[E _]|(_ & _ & E & _)]; [lia|qlra]. Qed.
Lemma no_above g : (g < n)%nat -> passes g -> ((a < n)%nat -> Hg g < Hg a) -> py q <= Hg g -> False.
Proof. intros L Pg La Lt. apply (Free g); auto. intros Lb. destruct Below as [[E _]|(_ & _ & E & _)]; [lia|qlra]. Qed.
Lemma below_tells : (b < n)%nat -> xorb fb (mark b) = cnt (py q).
Proof.
  intros Lb. destruct Below as [[E _]|(_ & Pb & Lt & F)]; [lia|]. rewrite (cnt_step b (py q)), (cnt_side b), <- F, negb_involutive; auto.
  intros g L Pg Q1 Q2. apply (no_below g); auto.
Qed.
Lemma above_tells : (a < n)%nat -> xorb fa (mark a) = negb (cnt (py q)).
Proof.
  intros La. destruct Above as [[E _]|(_ & Pa & Lt & F)]; [lia|]. rewrite (cnt_same (py q) (Hg a)), (cnt_side a), <- F, negb_involutive; auto; [qlra|].
  intros g L Pg Q1 Q2. apply (no_above g); auto.
Qed.
Lemma below_real : cnt (py q) = true -> (b < n)%nat.
Proof.
  intros Q. destruct Below as [[E _]|(L & _)]; auto. exfalso. rewrite cnt_none in Q; [discriminate|]. intros g L Pg Lt. apply (no_below g); auto. lia.
Qed.
Lemma above_real : cnt (py q) = true -> (a < n)%nat.
Proof.
  intros Q. destruct Above as [[E _]|(L & _)]; auto. exfalso. rewrite cnt_all in Q; [discriminate|]. intros g L Pg Lt. apply (no_above g); auto. lia.
Qed.
Lemma down_b s : first_met sides q d (- (1)) s <-> (b < n)%nat /\ side b = s.
Proof.
  rewrite met_down. split.
  - intros (g & L & <- & Pg & Lt & N). destruct Below as [[E _]|(Lb & Pb & Ltb & F)].
    + exfalso. apply (no_below g); auto. lia.
    + split; auto. f_equal. apply same_height; auto. apply Qcle_antisym; apply Qcnot_lt_le; intros Q; [apply (N b); auto|apply (no_below g); auto].
  - intros (Lb & <-). destruct Below as [[E _]|(_ & Pb & Ltb & F)]; [lia|]. exists b. split; auto. split; auto. split; auto. split; auto.
    intros g L Pg Q1 Q2. apply (no_below g); auto.
Qed.
Lemma up_a s : first_met sides q (- d) 1 s <-> (a < n)%nat /\ side a = s.
Proof.
  rewrite met_up. split.
  - intros (g & L & <- & Pg & Lt & N). destruct Above as [[E _]|(La & Pa & Lta & F)].
    + exfalso. apply (no_above g); auto; [lia|qlra].
    + split; auto. f_equal. apply same_height; auto. apply Qcle_antisym; apply Qcnot_lt_le; intros Q; [apply (no_above g); auto; qlra|apply (N a); auto].
  - intros (La & <-). destruct Above as [[E _]|(_ & Pa & Lta & F)]; [lia|]. exists a. split; auto. split; auto. split; auto. split; auto.
    intros g L Pg Q1 Q2. apply (no_above g); auto; qlra.
Qed.
Lemma answer : (fb && negb fa = true -> taken_for_interior p q d) /\ (fb && negb fa = false -> ~ taken_for_interior p q d).
Proof.
  unfold taken_for_interior. fold sides. rewrite !cnt_inside. setoid_rewrite down_b. setoid_rewrite up_a.
  assert (Mb : (b < n)%nat -> (closing p (side b) <-> mark b = true)) by (intros L; apply mark_side; auto; destruct Below as [[E _]|(_ & Pb & _)]; [lia|auto]).
  assert (Ma : (a < n)%nat -> (closing p (side a) <-> mark a = true)) by (intros L; apply mark_side; auto; destruct Above as [[E _]|(_ & Pa & _)]; [lia|auto]).
  pose proof below_tells as Tb. pose proof above_tells as Ta. pose proof below_real as Rb. pose proof above_real as Ra.
  destruct (cnt (py q)) eqn:Cq.
  - specialize (Rb eq_refl). specialize (Ra eq_refl). specialize (Tb Rb). specialize (Ta Ra). specialize (Mb Rb). specialize (Ma Ra). split.
    + intros Q. left. split; auto. intros s C. split; intros (_ & <-).
      * apply Mb in C. rewrite C in Tb. destruct fb, fa; discriminate.
      * apply Ma in C. rewrite C in Ta. destruct fb, fa; discriminate.
    + intros Q [(_ & N)|(N & _)]; [|apply N; auto]. destruct fb; cbn [andb] in Q.
      * destruct fa; [|discriminate]. destruct (mark a) eqn:Mk; [|discriminate]. destruct (N (side a)) as [N1 N2]; [apply Ma; auto|]. apply N2. auto.
      * destruct (mark b) eqn:Mk; [|discriminate]. destruct (N (side b)) as [N1 N2]; [apply Mb; auto|]. apply N1. auto.
  - split.
    + intros Q. right. split; [discriminate|]. apply andb_true_iff in Q as [Q1 Q2]. destruct Below as [[_ Fb]|(Lb & _)]; [congruence|]. destruct Above as [[_ Fa]|(La & _)]; [rewrite Fa in Q2; discriminate|].
      specialize (Tb Lb). specialize (Ta La). rewrite Q1 in Tb. apply negb_true_iff in Q2. rewrite Q2 in Ta.
      exists (side b), (side a). split; [apply Mb; auto; destruct (mark b); auto; discriminate|]. split; [apply Ma; auto; destruct (mark a); auto; discriminate|]. auto 7.
    + intros Q [(N & _)|(_ & s & s' & C & C' & (Lb & <-) & (La & <-))]; [discriminate|].
      apply Mb in C; auto. apply Ma in C'; auto. specialize (Tb Lb). specialize (Ta La). rewrite C in Tb. rewrite C' in Ta. destruct fb, fa; discriminate.
Qed.
End Polygon.
