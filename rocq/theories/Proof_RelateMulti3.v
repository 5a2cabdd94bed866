(** [relate_to] between polygons and multipolygons. *)
From Coq Require Import QArith Qcanon Bool List Arith Lia Permutation.
From Verif Require Import QcTac Model_Base Model_Utils Model_Box Model_Geometry Model_Contour Model_Linear Model_Mixed Model_Shaped Model_Multipolygon Model_Relate Model_RelateLinear Model_RelateShaped
  Model_RelateMultipolygon Spec_Base Spec_Segment Spec_Clip Spec_Contour Spec_Relate Spec_Bounds Spec_Sweep Spec_Shaped Spec_Multipolygon Spec_RelateShaped
  Proof_Base Proof_Bounds Proof_Locate3 Proof_Locate4 Proof_RelateP Proof_Sweep6 Proof_Ready Proof_Polygons Proof_Multi Proof_Multi2 Proof_Multi3 Proof_RelateShaped Proof_RelateMulti1 Proof_RelateMulti2.
Import ListNotations.
Local Open Scope Qc_scope.

Lemma near_point b c : valid_box b -> valid_box c -> box_disjoint_with b c = false -> exists x, in_box b x /\ in_box c x.
Proof.
  intros (B1 & B2) (C1 & C2) D. unfold box_disjoint_with in D. repeat (apply orb_false_iff in D; destruct D as [D ?]).
  repeat match goal with H : qltb _ _ = false |- _ => apply qltb_false in H end.
  exists (Pt (q_max (min_x b) (min_x c)) (q_max (min_y b) (min_y c))). unfold in_box, q_max. cbn [px py]. repeat qcase; repeat split; qlra.
Qed.
Lemma polygon_box_valid p : valid_box (polygon_box p).
Proof.
  unfold polygon_box, bounding_box. destruct (border p) as [|v vs]; [split; cbn; apply Qcle_refl|]. apply (contour_box_hull v vs).
Qed.
Lemma in_within c d x : box_within c d -> in_box c x -> in_box d x.
Proof. intros (A & B & C & D) ((E & F) & (G & H)). repeat split; qlra. Qed.
Lemma list_box_valid l : l <> [] -> valid_box (multipolygon_box l).
Proof.
  destruct l as [|p l]; [congruence|]. intros _. destruct (box_in_list (p :: l) p) as (A & B & C & D); [left; auto|]. destruct (polygon_box_valid p). split; qlra.
Qed.
Lemma filter_filter {T} (f g : T -> bool) l : filter f (filter g l) = filter (fun x => g x && f x) l.
Proof. induction l as [|a l IH]; auto. cbn [filter]. destruct (g a); cbn [filter andb]; [|auto]. destruct (f a); rewrite IH; auto. Qed.

Section Drivers.
Variables l l' : list polygon.
Hypothesis V : valid_polygons l.
Hypothesis V' : valid_polygons l'.
Hypothesis Or : Forall oriented l.
Hypothesis Or' : Forall oriented l'.
Hypothesis St : settled l.
Hypothesis St' : settled l'.
Variables b b' : box.
Hypothesis Vb : valid_box b.
Hypothesis Vb' : valid_box b'.
Hypothesis Bx : forall p x, In p l -> in_box (polygon_box p) x -> in_box b x.
Hypothesis Bx' : forall p x, In p l' -> in_box (polygon_box p) x -> in_box b' x.
Variables g g' : Qc.
Hypothesis G : forall p, In p (intersecting b' l) -> max_x (polygon_box p) <= g.
Hypothesis G' : forall p, In p (intersecting b l') -> max_x (polygon_box p) <= g'.
Notation m := (q_min g g').
Definition taken (c : box) (t : Qc) (p : polygon) : bool := negb (box_disjoint_with (polygon_box p) c) && negb (qltb t (min_x (polygon_box p))).
Lemma taken_filter c t k : reached t (intersecting c k) = filter (taken c t) k.
Proof. apply filter_filter. Qed.
Lemma near_both c d (p : polygon) x : in_box c x -> in_box d x -> negb (box_disjoint_with c d) = true.
Proof. intros I J. destruct (box_disjoint_with c d) eqn:E; auto. exfalso. apply (disjoint_no_point c d x); auto. Qed.
Lemma min_le : m <= g /\ m <= g' /\ (m = g \/ m = g').
Proof. unfold q_min. qcase; repeat split; auto; qlra. Qed.
Lemma out_gen k k' c c' h h' : (forall p x, In p k -> in_box (polygon_box p) x -> in_box c x) -> (forall p x, In p k' -> in_box (polygon_box p) x -> in_box c' x) ->
  (forall p, In p (intersecting c' k) -> max_x (polygon_box p) <= h) -> (forall p, In p (intersecting c k') -> max_x (polygon_box p) <= h') ->
  forall t, t = h \/ t = h' -> forall p p' x, In p k -> taken c' t p = false -> In p' k' -> in_box (polygon_box p) x -> in_box (polygon_box p') x -> False.
Proof.
  intros B B' H H' t T p p' x Ip Tk Ip' X X'.
  assert (N : negb (box_disjoint_with (polygon_box p) c') = true) by (apply (near_both _ _ p x); eauto).
  assert (N' : negb (box_disjoint_with (polygon_box p') c) = true) by (apply (near_both _ _ p x); eauto).
  unfold taken in Tk. rewrite N in Tk. cbn [andb] in Tk. apply negb_false_iff in Tk. destruct (qltb_spec t (min_x (polygon_box p))) as [L|]; [|discriminate].
  assert (J : max_x (polygon_box p) <= h) by (apply H, filter_In; auto). assert (J' : max_x (polygon_box p') <= h') by (apply H', filter_In; auto).
  destruct X as ((X1 & X2) & _), X' as ((X3 & X4) & _). destruct T as [-> | ->]; qlra.
Qed.
Lemma gen_out : forall p p' x, In p l -> taken b' m p = false -> In p' l' -> in_box (polygon_box p) x -> in_box (polygon_box p') x -> False.
Proof. apply (out_gen l l' b b' g g'); auto. apply min_le. Qed.
Lemma gen_out' : forall p p' x, In p l' -> taken b m p = false -> In p' l -> in_box (polygon_box p) x -> in_box (polygon_box p') x -> False.
Proof. apply (out_gen l' l b' b g' g); auto. destruct min_le as (_ & _ & [E|E]); auto. Qed.
Lemma disjoint_all : (forall p p' x, In p l -> In p' l' -> in_box (polygon_box p) x -> in_box (polygon_box p') x -> False) -> lists_relation l l' DISJOINT.
Proof.
  intros D (x & R & R'). apply some_box in R; [|apply V]. apply some_box in R'; [|apply V']. destruct R as (p & Ip & _ & Bp), R' as (p' & Ip' & _ & Bp'). apply (D p p' x); auto.
Qed.
Lemma disjoint_boxes : box_disjoint_with b b' = true -> lists_relation l l' DISJOINT.
Proof. intros E. apply disjoint_all. intros p p' x Ip Ip' X X'. apply (disjoint_no_point b b' x); eauto. Qed.
Lemma disjoint_first : intersecting b' l = [] -> lists_relation l l' DISJOINT.
Proof.
  intros E. apply disjoint_all. intros p p' x Ip Ip' X X'. assert (I : In p (intersecting b' l)) by (apply filter_In; split; auto; apply (near_both _ _ p x); eauto). rewrite E in I. destruct I.
Qed.
Lemma disjoint_second : intersecting b l' = [] -> lists_relation l l' DISJOINT.
Proof.
  intros E. apply disjoint_all. intros p p' x Ip Ip' X X'. assert (I : In p' (intersecting b l')) by (apply filter_In; split; auto; apply (near_both _ _ p x); eauto). rewrite E in I. destruct I.
Qed.
Lemma disjoint_taken : filter (taken b' m) l = [] -> lists_relation l l' DISJOINT.
Proof.
  intros E. apply disjoint_all. intros p p' x Ip Ip' X X'. apply (gen_out p p' x); auto. destruct (taken b' m p) eqn:T; auto.
  assert (I : In p (filter (taken b' m) l)) by (apply filter_In; auto). rewrite E in I. destruct I.
Qed.
Lemma disjoint_taken' : filter (taken b m) l' = [] -> lists_relation l l' DISJOINT.
Proof.
  intros E. apply disjoint_all. intros p p' x Ip Ip' X X'. apply (gen_out' p' p x); auto. destruct (taken b m p') eqn:T; auto.
  assert (I : In p' (filter (taken b m) l')) by (apply filter_In; auto). rewrite E in I. destruct I.
Qed.
Variables (shape : tree_shape) (fuel : nat).
Hypothesis Fuel : (enough (lists_count l l') <= fuel)%nat.
Lemma driven t : t = m -> filter (taken b t) l' <> [] ->
  exists r, match clip_shaped (related_segments b' (filter (taken b' t) l)) (related_segments b (filter (taken b t) l')) with
  | None => RelateRaises
  | Some s => shaped_to_relation fuel shape s (length (filter (taken b' t) l) =? length l)%nat (length (filter (taken b t) l') =? length l')%nat t end = Relates r
  /\ lists_relation l l' r.
Proof.
  intros -> N.
  assert (Ne : forall c k p, valid_box c -> In p k -> taken c m p = true -> exists x, in_box (polygon_box p) x /\ in_box c x).
  { intros c k p Vc Ip T. apply near_point; auto using polygon_box_valid. unfold taken in T. apply andb_prop in T. destruct T as [T _]. apply negb_true_iff in T. auto. }
  apply lists_related; auto.
  - apply gen_out.
  - apply gen_out'.
  - intros p Ip. apply (Ne b' l); auto.
  - intros p Ip. apply (Ne b l'); auto.
  - destruct min_le as (_ & _ & [E|E]); [left|right]; intros p Ip T; rewrite E; [apply G|apply G']; apply filter_In; split; auto; apply andb_prop in T; apply T.
Qed.
End Drivers.

Lemma settled_one p : settled [p].
Proof.
  intros q q' h [<-|[]] [<-|[]] Ih. right. intros x [I J]. unfold inside_polygon in I. destruct p as [bd hs]. apply api_polygon in I. destruct I as [_ I].
  cbn [holes] in Ih. specialize (I h Ih). unfold inside_ring in J. congruence.
Qed.
Lemma boxes_list l : forall p x, In p l -> in_box (polygon_box p) x -> in_box (multipolygon_box l) x.
Proof. intros p x I. apply in_within, box_in_list; auto. Qed.
Lemma boxes_one q : forall p x, In p [q] -> in_box (polygon_box p) x -> in_box (polygon_box q) x.
Proof. intros p x [<-|[]]; auto. Qed.
Lemma greatest_in b l p : In p (intersecting b l) -> max_x (polygon_box p) <= greatest_x (intersecting b l).
Proof. intros I. apply (spread_of (intersecting b l)); auto. Qed.

Section Cases.
Variables (shape : tree_shape) (fuel : nat).
Theorem related_mm l l' : valid_polygons l -> valid_polygons l' -> l <> [] -> l' <> [] -> Forall oriented l -> Forall oriented l' -> settled l -> settled l' ->
  (enough (lists_count l l') <= fuel)%nat ->
  exists r, multipolygon_relate_to_multipolygon fuel shape l l' = Relates r /\ lists_relation l l' r.
Proof.
  intros V V' N N' Or Or' St St' Fu. unfold multipolygon_relate_to_multipolygon.
  set (b := multipolygon_box l). set (b' := multipolygon_box l').
  assert (Bx := boxes_list l). assert (Bx' := boxes_list l'). fold b in Bx. fold b' in Bx'.
  assert (Vb : valid_box b) by (apply list_box_valid; auto). assert (Vb' : valid_box b') by (apply list_box_valid; auto).
  destruct (box_disjoint_with b b') eqn:Dj; [exists DISJOINT; split; auto; apply (disjoint_boxes l l' V V' b b'); auto|].
  assert (G := greatest_in b' l). assert (G' := greatest_in b l'). 
  assert (Dr := driven l l' V V' Or Or' St St' b b' Vb Vb' Bx Bx' _ _ G G' shape fuel Fu _ eq_refl).
  assert (D1 := disjoint_taken l l' V V' b b' Bx Bx' _ _ G G'). assert (D2 := disjoint_taken' l l' V V' b b' Bx Bx' _ _ G G').
  rewrite <- !taken_filter in Dr. rewrite <- !taken_filter in D1. rewrite <- !taken_filter in D2.
  destruct (intersecting b' l) as [|a c] eqn:E1; [exists DISJOINT; split; auto; apply (disjoint_first l l' V V' b b'); auto|].
  destruct (intersecting b l') as [|a' c'] eqn:E2; [exists DISJOINT; split; auto; apply (disjoint_second l l' V V' b b'); auto|].
  set (t := q_min (greatest_x (a :: c)) (greatest_x (a' :: c'))) in *.
  destruct (reached t (a :: c)) as [|u us] eqn:E3; [exists DISJOINT; split; auto|].
  destruct (reached t (a' :: c')) as [|w ws] eqn:E4; [exists DISJOINT; split; auto|].
  apply Dr. discriminate.
Qed.
Lemma disjoint_sym c d : box_disjoint_with c d = box_disjoint_with d c.
Proof. unfold box_disjoint_with. destruct (qltb (max_x c) (min_x d)), (qltb (max_y c) (min_y d)), (qltb (max_x d) (min_x c)), (qltb (max_y d) (min_y c)); auto. Qed.
Lemma disjoint_x c d : box_disjoint_with c d = false -> min_x c <= max_x d /\ min_x d <= max_x c.
Proof.
  unfold box_disjoint_with. intros D. repeat (apply orb_false_iff in D; destruct D as [D ?]). repeat match goal with H : qltb _ _ = false |- _ => apply qltb_false in H end. auto.
Qed.
Lemma taken_one c t p : box_disjoint_with (polygon_box p) c = false -> min_x (polygon_box p) <= t -> filter (taken c t) [p] = [p].
Proof.
  intros D L. cbn [filter]. unfold taken. rewrite D. cbn [negb andb]. destruct (qltb_spec t (min_x (polygon_box p))) as [Q|Q]; auto. exfalso. qlra.
Qed.
(** The polygons near a box are reached. *)
Lemma some_taken c l t : (forall p, In p (intersecting c l) -> max_x (polygon_box p) <= greatest_x (intersecting c l)) -> intersecting c l <> [] -> t = q_min (max_x c) (greatest_x (intersecting c l)) -> filter (taken c t) l <> [].
Proof.
  intros G N -> E. destruct (intersecting c l) as [|q r] eqn:Q; [congruence|]. rewrite <- Q in *. assert (I : In q (intersecting c l)) by (rewrite Q; left; auto).
  pose proof (G q I) as L. assert (J := I). apply filter_In in J. destruct J as [Iq Dq]. apply negb_true_iff in Dq. destruct (disjoint_x _ _ Dq) as [X1 X2]. destruct (polygon_box_valid q) as [X3 _].
  assert (K : In q (filter (taken c (q_min (max_x c) (greatest_x (intersecting c l)))) l)).
  { apply filter_In. split; auto. unfold taken. rewrite Dq. cbn [negb andb]. destruct (qltb_spec (q_min (max_x c) (greatest_x (intersecting c l))) (min_x (polygon_box q))) as [Lt|]; auto.
    exfalso. unfold q_min in Lt. destruct (qltb_spec (greatest_x (intersecting c l)) (max_x c)) in Lt; qlra. }
  rewrite E in K. destruct K.
Qed.
Lemma common_reach c l q : In q (intersecting c l) -> min_x c <= greatest_x (intersecting c l).
Proof.
  intros I. pose proof (greatest_in c l q I). apply filter_In in I. destruct I as [_ D]. apply negb_true_iff in D. destruct (disjoint_x _ _ D). qlra.
Qed.
Lemma segs_one b p : related_segments b [p] = polygon_to_segments p b.
Proof. unfold related_segments. cbn [flat_map]. apply app_nil_r. Qed.
Lemma reach_min p c l q : In q (intersecting (polygon_box p) l) -> c = q_min (max_x (polygon_box p)) (greatest_x (intersecting (polygon_box p) l)) -> min_x (polygon_box p) <= c.
Proof. intros I ->. pose proof (common_reach _ _ _ I). destruct (polygon_box_valid p). unfold q_min. qcase; auto. Qed.
Theorem related_mp l p : valid_polygons l -> valid_polygon p -> l <> [] -> Forall oriented l -> oriented p -> settled l ->
  (enough (lists_count l [p]) <= fuel)%nat ->
  exists r, multipolygon_relate_to_polygon fuel shape l p = Relates r /\ lists_relation l [p] r.
Proof.
  intros V Vp N Or Op St Fu. unfold multipolygon_relate_to_polygon.
  set (b := multipolygon_box l). set (b' := polygon_box p).
  assert (V' := valid_one p Vp). assert (Or' : Forall oriented [p]) by auto. assert (St' := settled_one p).
  assert (Bx := boxes_list l). assert (Bx' := boxes_one p). fold b in Bx. fold b' in Bx'.
  assert (Vb : valid_box b) by (apply list_box_valid; auto). assert (Vb' : valid_box b') by apply polygon_box_valid.
  destruct (box_disjoint_with b b') eqn:Dj; [exists DISJOINT; split; auto; apply (disjoint_boxes l [p] V V' b b'); auto|].
  assert (G := greatest_in b' l). assert (G' : forall q, In q (intersecting b [p]) -> max_x (polygon_box q) <= max_x b').
  { intros q I. apply filter_In in I. destruct I as [[<-|[]] _]. apply Qcle_refl. }
  destruct (intersecting b' l) as [|a c] eqn:E1; [exists DISJOINT; split; auto; apply (disjoint_first l [p] V V' b'); auto|]. rewrite <- E1 in *.
  assert (I1 : In a (intersecting b' l)) by (rewrite E1; left; auto).
  set (t := q_min (max_x b') (greatest_x (intersecting b' l))) in *.
  assert (Et : t = q_min (greatest_x (intersecting b' l)) (max_x b')) by apply q_min_comm.
  assert (Dr := driven l [p] V V' Or Or' St St' b b' Vb Vb' Bx Bx' _ _ G G' shape fuel Fu t Et).
  rewrite (taken_one b t p) in Dr; [|rewrite disjoint_sym; auto|apply (reach_min p t l a); auto].
  assert (N1 : filter (taken b' t) l <> []) by (apply some_taken; auto; rewrite E1; discriminate).
  rewrite taken_filter. rewrite segs_one in Dr. cbn [length Nat.eqb] in Dr.
  destruct (filter (taken b' t) l) as [|u us]; [congruence|]. apply Dr. discriminate.
Qed.
Theorem related_pm p l : valid_polygon p -> valid_polygons l -> l <> [] -> oriented p -> Forall oriented l -> settled l ->
  (enough (lists_count [p] l) <= fuel)%nat ->
  exists r, polygon_relate_to_multipolygon fuel shape p l = Relates r /\ lists_relation [p] l r.
Proof.
  intros Vp V' N Op Or' St' Fu. unfold polygon_relate_to_multipolygon.
  set (b := polygon_box p). set (b' := multipolygon_box l).
  assert (V := valid_one p Vp). assert (Or : Forall oriented [p]) by auto. assert (St := settled_one p).
  assert (Bx := boxes_one p). assert (Bx' := boxes_list l). fold b in Bx. fold b' in Bx'.
  assert (Vb : valid_box b) by apply polygon_box_valid. assert (Vb' : valid_box b') by (apply list_box_valid; auto).
  destruct (box_disjoint_with b b') eqn:Dj; [exists DISJOINT; split; auto; apply (disjoint_boxes [p] l V V' b b'); auto|].
  assert (G' := greatest_in b l). assert (G : forall q, In q (intersecting b' [p]) -> max_x (polygon_box q) <= max_x b).
  { intros q I. apply filter_In in I. destruct I as [[<-|[]] _]. apply Qcle_refl. }
  destruct (intersecting b l) as [|a c] eqn:E1; [exists DISJOINT; split; auto; apply (disjoint_second [p] l V V' b); auto|]. rewrite <- E1 in *.
  assert (I1 : In a (intersecting b l)) by (rewrite E1; left; auto).
  set (t := q_min (max_x b) (greatest_x (intersecting b l))) in *.
  assert (Dr := driven [p] l V V' Or Or' St St' b b' Vb Vb' Bx Bx' _ _ G G' shape fuel Fu t eq_refl).
  rewrite (taken_one b' t p) in Dr; [|auto|apply (reach_min p t l a); auto].
  assert (N1 : filter (taken b t) l <> []) by (apply some_taken; auto; rewrite E1; discriminate).
  rewrite taken_filter. rewrite segs_one in Dr. cbn [length Nat.eqb] in Dr.
  destruct (filter (taken b t) l) as [|u us]; [congruence|]. apply Dr. discriminate.
Qed.
Theorem related_pp p p' : valid_polygon p -> valid_polygon p' -> oriented p -> oriented p' -> (enough (lists_count [p] [p']) <= fuel)%nat ->
  exists r, polygon_relate_to_polygon fuel shape p p' = Relates r /\ lists_relation [p] [p'] r.
Proof.
  intros Vp Vp' Op Op' Fu. unfold polygon_relate_to_polygon. fold (polygon_box p) (polygon_box p').
  set (b := polygon_box p). set (b' := polygon_box p').
  assert (V := valid_one p Vp). assert (Or : Forall oriented [p]) by auto. assert (St := settled_one p).
  assert (V' := valid_one p' Vp'). assert (Or' : Forall oriented [p']) by auto. assert (St' := settled_one p').
  assert (Bx := boxes_one p). assert (Bx' := boxes_one p'). fold b in Bx. fold b' in Bx'.
  assert (Vb : valid_box b) by apply polygon_box_valid. assert (Vb' : valid_box b') by apply polygon_box_valid.
  destruct (box_disjoint_with b b') eqn:Dj; [exists DISJOINT; split; auto; apply (disjoint_boxes [p] [p'] V V' b b'); auto|].
  assert (G : forall q, In q (intersecting b' [p]) -> max_x (polygon_box q) <= max_x b).
  { intros q I. apply filter_In in I. destruct I as [[<-|[]] _]. apply Qcle_refl. }
  assert (G' : forall q, In q (intersecting b [p']) -> max_x (polygon_box q) <= max_x b').
  { intros q I. apply filter_In in I. destruct I as [[<-|[]] _]. apply Qcle_refl. }
  destruct (disjoint_x _ _ Dj) as [X1 X2]. destruct Vb as [Y1 Y2], Vb' as [Y3 Y4].
  assert (Dr := driven [p] [p'] V V' Or Or' St St' b b' (conj Y1 Y2) (conj Y3 Y4) Bx Bx' _ _ G G' shape fuel Fu _ eq_refl).
  rewrite (taken_one b _ p') in Dr; [|rewrite disjoint_sym; exact Dj|unfold q_min; fold b'; qcase; auto].
  rewrite (taken_one b' _ p) in Dr; [|exact Dj|unfold q_min; fold b; qcase; auto].
  rewrite !segs_one in Dr. cbn [length Nat.eqb] in Dr. apply Dr. discriminate.
Qed.
End Cases.

(** All of them. *)
Theorem shaped_related g g' shape fuel : valid_shaped g -> valid_shaped g' -> Forall oriented (polygons_of g) -> Forall oriented (polygons_of g') ->
  settled (polygons_of g) -> settled (polygons_of g') -> (enough (shaped_size g + shaped_size g') <= fuel)%nat ->
  exists r, shaped_relate_to fuel shape g g' = Some (Relates r) /\ lists_relation (polygons_of g) (polygons_of g') r.
Proof.
  intros V V' O O' S S' Fu.
  assert (Ne : forall l : list polygon, (2 <= length l)%nat -> l <> []) by (intros [|q l] L; [cbn in L; lia|discriminate]).
  assert (Rl : forall o l l', (exists r, o = Relates r /\ lists_relation l l' r) -> exists r, Some o = Some (Relates r) /\ lists_relation l l' r) by (intros o k k' (r & -> & R); exists r; auto).
  assert (Fo : forall p, Forall oriented [p] -> oriented p) by (intros p F; apply Forall_inv in F; auto).
  destruct g as [|s|ms|vs|p|l]; cbn [valid_shaped] in V; try contradiction; destruct g' as [|s'|ms'|vs'|p'|l']; cbn [valid_shaped] in V'; try contradiction;
    cbn [shaped_relate_to polygons_of] in *; unfold shaped_size, geometry_rings in Fu.
  - apply Rl, related_pp; auto. unfold lists_count. cbn [flat_map]. rewrite !app_nil_r. exact Fu.
  - destruct V'. apply Rl, related_pm; auto. unfold lists_count. cbn [flat_map]. rewrite !app_nil_r. exact Fu.
  - destruct V. apply Rl, related_mp; auto. unfold lists_count. cbn [flat_map]. rewrite !app_nil_r. exact Fu.
  - destruct V, V'. apply Rl, related_mm; auto.
Qed.
Lemma polygons_valid g : valid_shaped g -> valid_polygons (polygons_of g) /\ polygons_of g <> [].
Proof. destruct g as [|s|ms|vs|p|l]; cbn [valid_shaped polygons_of]; try contradiction; [intros V; split; [apply valid_one; auto|discriminate]|intros [L V]; split; auto; destruct l; [cbn in L; lia|discriminate]]. Qed.
Theorem related_exclusive g g' r r' : valid_shaped g -> valid_shaped g' -> lists_relation (polygons_of g) (polygons_of g') r -> lists_relation (polygons_of g) (polygons_of g') r' -> r = r'.
Proof. intros V V'. destruct (polygons_valid g V), (polygons_valid g' V'). apply lists_exclusive; auto. Qed.
Theorem related_exchanged g g' shape shape' fuel : valid_shaped g -> valid_shaped g' -> Forall oriented (polygons_of g) -> Forall oriented (polygons_of g') ->
  settled (polygons_of g) -> settled (polygons_of g') -> (enough (shaped_size g + shaped_size g') <= fuel)%nat ->
  exists r, shaped_relate_to fuel shape g g' = Some (Relates r) /\ shaped_relate_to fuel shape' g' g = Some (Relates (complement r)).
Proof.
  intros V V' O O' S S' Fu. destruct (shaped_related g g' shape fuel V V' O O' S S' Fu) as (r & E & R). exists r. split; auto.
  destruct (shaped_related g' g shape' fuel V' V O' O S' S) as (r' & E' & R'); [rewrite Nat.add_comm; auto|].
  rewrite E'. f_equal. f_equal. apply (related_exclusive g' g); auto. apply sets_swap. auto.
Qed.

(** Two polygons. *)
Lemma one_relation p p' r : lists_relation [p] [p'] r <-> shaped_relation p p' r.
Proof. unfold lists_relation, shaped_relation. split; apply sets_ext; intros x; rewrite ?one_inside, ?one_boundary; tauto. Qed.
Lemma one_size p : shaped_size (GPolygon p) = vertices_count p.
Proof. reflexivity. Qed.
Theorem polygons_related p p' shape fuel : valid_polygon p -> valid_polygon p' -> oriented p -> oriented p' ->
  (enough (vertices_count p + vertices_count p') <= fuel)%nat ->
  exists r, polygon_relate_to_polygon fuel shape p p' = Relates r /\ shaped_relation p p' r.
Proof.
  intros V V' O O' Fu. destruct (related_pp shape fuel p p' V V' O O') as (r & E & R); [unfold lists_count; cbn [flat_map]; rewrite !app_nil_r; exact Fu|].
  exists r. split; auto. apply one_relation; auto.
Qed.
Theorem shaped_exclusive p p' r r' : valid_polygon p -> valid_polygon p' -> shaped_relation p p' r -> shaped_relation p p' r' -> r = r'.
Proof. intros V V'. rewrite <- !one_relation. apply lists_exclusive; auto using valid_one; discriminate. Qed.
Theorem polygons_exchanged p p' shape shape' fuel : valid_polygon p -> valid_polygon p' -> oriented p -> oriented p' ->
  (enough (vertices_count p + vertices_count p') <= fuel)%nat ->
  exists r, polygon_relate_to_polygon fuel shape p p' = Relates r /\ polygon_relate_to_polygon fuel shape' p' p = Relates (complement r).
Proof.
  intros V V' O O' Fu.
  destruct (related_exchanged (GPolygon p) (GPolygon p') shape shape' fuel V V' (Forall_cons _ O (Forall_nil _)) (Forall_cons _ O' (Forall_nil _)) (settled_one p) (settled_one p') Fu) as (r & E & R).
  exists r. cbn [shaped_relate_to] in *. split; congruence.
Qed.
