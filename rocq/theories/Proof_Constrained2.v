(** The constrained triangulation, part 2: crossings and swaps keep the structure. *)
From Coq Require Import QArith Qcanon Bool List Arith Lia Permutation.
From Verif Require Import QcTac Model_Base Model_Utils Model_Geometry Model_Mesh Model_Constrained Spec_Base Spec_Mesh Proof_Base Proof_Mesh Proof_Mesh2
  Proof_Mesh3 Proof_Delaunay Proof_Delaunay2 Proof_Constrained1.
Import ListNotations.
Local Open Scope nat_scope.

(** Case analysis on a chain of computations. *)
Lemma bind_ok {A B} (x : res A) (f : A -> res B) r : bind x f = Ok r -> exists a, x = Ok a /\ f a = Ok r.
Proof. destruct x; cbn; try discriminate. intros H; eauto. Qed.
Ltac unbind H := let x := fresh "v" in let E := fresh "E" in apply bind_ok in H; destruct H as (x & E & H).

Lemma check_ok b v : check b = Ok v -> b = true.
Proof. destruct b; cbn; [auto|discriminate]. Qed.
Lemma keep_filter {A} (f : A -> res bool) : forall l r, keep f l = Ok r ->
  r = filter (fun x => match f x with Ok b => b | _ => false end) l.
Proof.
  induction l as [|x l IH]; cbn; intros r H; [congruence|]. unbind H. rewrite E. unbind H.
  apply IH in E0. subst v0. destruct v; congruence.
Qed.
Lemma keep_in {A} (f : A -> res bool) l r x : keep f l = Ok r -> In x r -> In x l /\ f x = Ok true.
Proof.
  intros H I. apply keep_filter in H. subst r. apply filter_In in I. destruct I as (I & F). split; auto.
  destruct (f x) as [[]| |]; congruence.
Qed.

Section Keeping.
Variable ps : list point.
Hypothesis Distinct : forall i j, i < length ps -> j < length ps -> at_ ps i = at_ ps j -> i = j.
Variable n : nat.
(** What swaps keep. *)
Definition sound (m : mesh) : Prop := quad_structure m /\ m_endpoints m = ps /\ size m = n.
Definition edge_index (e : nat) : Prop := Nat.even e = true /\ e < n.
Lemma sound_edge m e : sound m -> (edge m e <-> edge_index e).
Proof. intros (_ & _ & S). unfold edge, edge_index. rewrite S. reflexivity. Qed.

Lemma sound_get_start m e p : sound m -> edge m e -> to_start m e = Ok p -> p = at_ ps (start m e).
Proof. intros (Q & P & _) E H. rewrite (get_start m Q e E), P in H. injection H as <-. reflexivity. Qed.

Lemma convex_loop m e : sound m -> edge m e -> is_convex_quadrilateral_diagonal m e = Ok true -> start m e <> end_of m e.
Proof.
  intros (Q & P & _) E H Loop. unfold is_convex_quadrilateral_diagonal, is_counterclockwise_to in H.
  pose proof (edge_sym m Q e E) as Es.
  rewrite (get_left_end m Q e (proj2 E)) in H. cbn [bind] in H.
  assert (El : edge m (oprev m (sym e))) by (apply edge_oprev; auto).
  rewrite (get_start m Q e E) in H. cbn [bind] in H. rewrite (orient_at m Q _ _ El) in H. cbn [bind] in H.
  rewrite start_oprev in H by auto. fold (end_of m e) in H. rewrite <- Loop in H.
  match type of H with context [orientation_is ?o COUNTERCLOCKWISE] =>
    assert (O : orientation_is o COUNTERCLOCKWISE = false) end.
  { match goal with |- orientation_is ?o _ = _ => destruct (orientation_is_spec o COUNTERCLOCKWISE) as [O|O]; auto end.
    exfalso. apply orient_ccw in O. unfold at_ in O. unfold area2 in O. qlra. }
  rewrite O in H. clear O.
  unbind H. unbind H. unbind H. cbn [andb] in H. discriminate.
Qed.
Lemma should_loop m e : sound m -> edge m e -> edge_should_be_swapped m e = Ok true -> start m e <> end_of m e.
Proof.
  intros S E H. apply convex_loop; auto. unfold edge_should_be_swapped in H. unbind H. destruct v; [auto|discriminate].
Qed.

Lemma sound_swap m a m' : sound m -> edge_index a -> start m a <> end_of m a -> swap_diagonal m a = Ok m' ->
  sound m' /\ (forall f, edge_index f -> f / 4 <> a / 4 -> start m' f = start m f /\ end_of m' f = end_of m f).
Proof.
  intros S Ea Loop H. pose proof (proj2 (sound_edge m a S) Ea) as E. destruct S as (Q & P & Sz).
  destruct (swap_keeps m a m' Q E Loop) as (Q' & P' & Sz' & St); [rewrite P; exact Distinct|exact H|].
  split; [split; [exact Q'|split; congruence]|].
  intros f Ef Ng. assert (Ef' : edge m f) by (unfold edge; rewrite Sz; exact Ef).
  assert (forall g, edge m g -> g / 4 <> a / 4 -> start m' g = start m g) as Other.
  { intros g Eg Nq. apply St; [exact Eg|intros ->; apply Nq; reflexivity|intros ->; apply Nq; apply sym_div]. }
  split; [apply Other; auto|]. unfold end_of. apply Other; [apply edge_sym; auto|]. rewrite sym_div. exact Ng.
Qed.

(** Distinct edges, up to direction. *)
Definition separate (l : list nat) : Prop := NoDup (map (fun e => e / 4) l) /\ Forall edge_index l.
Lemma separate_filter g l : separate l -> separate (filter g l).
Proof.
  intros (N & F). split.
  - induction l as [|x l IH]; cbn in *; [constructor|]. inversion N as [|? ? N1 N2]; subst. inversion F; subst.
    destruct (g x); cbn; [constructor; auto|auto]. intros I. apply N1. apply in_map_iff in I. destruct I as (y & Y & I).
    apply in_map_iff. exists y. apply filter_In in I. tauto.
  - apply Forall_forall. intros x I. apply filter_In in I. apply (proj1 (Forall_forall _ _) F). tauto.
Qed.
Lemma swaps_sound : forall l m m', sound m -> separate l -> (forall e, In e l -> start m e <> end_of m e) ->
  swap_diagonals m l = Ok m' -> sound m'.
Proof.
  induction l as [|e l IH]; intros m m' Sd Sp Loops H; cbn [swap_diagonals] in H; [congruence|].
  unbind H. destruct Sp as (N & F). inversion N as [|? ? N1 N2]; subst. inversion F as [|? ? F1 F2]; subst.
  destruct (sound_swap m e v Sd F1 (Loops e (or_introl eq_refl)) E) as (Sv & St).
  apply (IH v m' Sv); [split; auto| |auto].
  intros f I. destruct (St f) as (S1 & S2).
  - apply (proj1 (Forall_forall _ _) F2); auto.
  - intros X. apply N1. apply in_map_iff. exists f. split; auto.
  - rewrite S1, S2. apply Loops. right; auto.
Qed.
Lemma restore_sound : forall fuel m l m', sound m -> separate l -> restore_delaunay_criterion fuel m l = Ok m' -> sound m'.
Proof.
  induction fuel as [|fuel IH]; intros m l m' Sd Sp H; cbn [restore_delaunay_criterion] in H; [discriminate|].
  unbind H. unbind H. destruct v as [|e rest] eqn:V; [congruence|]. rewrite <- V in *. clear V e rest.
  unbind H. apply (IH v1 v0 m'); [| |exact H].
  - apply (swaps_sound v m v1 Sd); auto.
    + rewrite (keep_filter _ _ _ E). apply separate_filter; auto.
    + intros e I. destruct (keep_in _ _ _ _ E I) as (I' & T). apply should_loop; auto.
      apply sound_edge; auto. apply (proj1 (Forall_forall _ _) (proj2 Sp)); auto.
  - rewrite (keep_filter _ _ _ E0). apply separate_filter; auto.
Qed.
Lemma separate_perm l k : (forall x, count_occ Nat.eq_dec l x = count_occ Nat.eq_dec k x) -> separate l -> separate k.
Proof.
  intros C (N & F). assert (P : Permutation l k) by (apply (Permutation_count_occ Nat.eq_dec); auto).
  split.
  - eapply Permutation_NoDup; [apply Permutation_map, P|exact N].
  - eapply Permutation_Forall; eauto.
Qed.
Lemma resolve_sound : forall fuel m a b queue result m' new_edges, sound m -> separate (queue ++ result) ->
  resolve_crossings fuel m a b queue result = Ok (m', new_edges) -> sound m' /\ separate new_edges.
Proof.
  induction fuel as [|fuel IH]; intros m a b queue result m' new_edges Sd Sp H; cbn [resolve_crossings] in H;
    destruct queue as [|e queue]; try discriminate; try (injection H as <- <-; auto; fail).
  unbind H.
  assert (Rot : separate ((queue ++ [e]) ++ result)).
  { eapply separate_perm; [|exact Sp]. intros x. rewrite !count_occ_app. cbn. destruct (Nat.eq_dec e x); lia. }
  assert (Move : separate (queue ++ result ++ [e])).
  { eapply separate_perm; [|exact Sp]. intros x. rewrite !count_occ_app. cbn. destruct (Nat.eq_dec e x); rewrite ?count_occ_app; lia. }
  assert (Drop : separate (queue ++ result)).
  { destruct Sp as (N & F). inversion N; inversion F; subst. split; auto. }
  destruct v; [|apply (IH _ _ _ _ _ _ _ Sd Rot H)].
  unbind H. unbind H.
  assert (Ee : edge_index e) by (destruct Sp as (_ & F); inversion F; auto).
  assert (Sv : sound v).
  { refine (proj1 (sound_swap m e v Sd Ee _ E0)). apply convex_loop; auto. apply sound_edge; auto. }
  destruct (relation_is v0 CROSS); [apply (IH _ _ _ _ _ _ _ Sv Rot H)|].
  destruct (negb (relation_is v0 EQUAL)); [apply (IH _ _ _ _ _ _ _ Sv Move H)|apply (IH _ _ _ _ _ _ _ Sv Drop H)].
Qed.

(** The crossings of a constraint are distinct. *)
Section Collect.
Variable m : mesh.
Hypothesis Sd : sound m.
Variables a b : point.
Definition next_crossing (e : nat) : res nat :=
  let* crosses := edge_crosses m a b e in
  let* _ := check crosses in
  let* candidate := to_right_from_start m e in
  let* o := orient_point_to_edge m candidate b in
  let* turns :=
    if negb (orientation_is o CLOCKWISE) then Ok true
    else let* end_ := to_end m candidate in Ok (orientation_is (orient a b end_) CLOCKWISE) in
  if turns then let* next := to_right_from_end m e in Ok (to_opposite_edge next) else Ok candidate.
Inductive chain : nat -> list nat -> Prop :=
| chain_end e : to_start m e = Ok b -> chain e []
| chain_step e e' l : (forall p, to_start m e = Ok p -> p <> b) -> next_crossing e = Ok e' -> chain e' l -> chain e (e :: l).
Lemma collect_chain : forall fuel e acc r, collect_crossings fuel m e a b acc = Ok r ->
  exists l, chain e l /\ r = acc ++ l.
Proof.
  induction fuel as [|fuel IH]; intros e acc r H; cbn [collect_crossings] in *; [discriminate|].
  unbind H. destruct (point_eq v b) eqn:PE.
  - injection H as <-. exists []. split; [|rewrite app_nil_r; reflexivity].
    apply chain_end. apply point_eq_true in PE. congruence.
  - unbind H. unbind H. unbind H. unbind H. unbind H. unbind H.
    destruct (IH _ _ _ H) as (l & L & R). exists (e :: l). split; [|rewrite R, <- app_assoc; reflexivity].
    apply chain_step with v5; auto.
    + intros p Hp Eb. rewrite Hp in E. injection E as <-. rewrite (proj2 (point_eq_true _ _) Eb) in PE. discriminate.
    + unfold next_crossing. rewrite E0. cbn [bind]. rewrite E1. cbn [bind]. rewrite E2. cbn [bind].
      rewrite E3. cbn [bind]. rewrite E4. cbn [bind]. exact E5.
Qed.
Lemma chain_unique e l : chain e l -> forall l', chain e l' -> l = l'.
Proof.
  induction 1 as [e E|e e' l N X C IH]; intros l' C'; inversion C'; subst; auto.
  - exfalso. eapply H; eauto.
  - exfalso. eapply N; eauto.
  - f_equal. apply IH. congruence.
Qed.
Lemma chain_suffix e l : chain e l -> forall x, In x l -> exists l1 l2, l = l1 ++ l2 /\ chain x l2.
Proof.
  induction 1 as [e E|e e' l N X C IH]; intros x I; [destruct I|]. destruct I as [->|I].
  - exists [], (x :: l). split; auto. apply chain_step with e'; auto.
  - destruct (IH x I) as (l1 & l2 & -> & C2). exists (e :: l1), l2. auto.
Qed.
Lemma chain_nodup e l : chain e l -> NoDup l.
Proof.
  induction 1 as [e E|e e' l N X C IH]; constructor; auto. intros I.
  destruct (chain_suffix _ _ C _ I) as (l1 & l2 & L & C2).
  assert (l2 = e :: l) by (eapply chain_unique; [exact C2|apply chain_step with e'; auto]).
  subst l2. assert (X' : length l = length (l1 ++ e :: l)) by congruence. rewrite app_length in X'. cbn in X'. lia.
Qed.
Lemma next_edge e e' : edge_index e -> next_crossing e = Ok e' -> edge_index e'.
Proof.
  intros Ei H. pose proof (proj2 (sound_edge m e Sd) Ei) as Ee. destruct Sd as (Q & P & Sz).
  unfold next_crossing in H. unbind H. unbind H. unbind H. unbind H. unbind H.
  rewrite get_right in E1 by (auto; apply Ee). injection E1 as <-.
  destruct v3.
  - unbind H. rewrite get_right_end in E1 by (auto; apply Ee). injection E1 as <-. injection H as <-. rewrite opposite_sym.
    apply (sound_edge m); [split; [exact Q|split; auto]|]. apply edge_sym; auto. apply edge_onext; auto. apply edge_sym; auto.
  - injection H as <-. apply (sound_edge m); [split; [exact Q|split; auto]|]. apply edge_oprev; auto.
Qed.
Lemma chain_edges e l : chain e l -> edge_index e -> Forall edge_index l.
Proof.
  induction 1 as [e E|e e' l N X C IH]; intros Ei; constructor; auto. apply IH. eapply next_edge; eauto.
Qed.
Lemma crossings_separate fuel base r : edge_index base -> detect_crossings fuel m base a b = Ok r -> separate r.
Proof.
  intros Ei H. unfold detect_crossings in H. unbind H. unbind H. unbind H. unbind H. unbind H. unbind H.
  injection H as <-. apply check_ok in E1.
  pose proof (proj2 (sound_edge m base Sd) Ei) as Ee.
  assert (Ev : edge_index v).
  { apply (sound_edge m); auto. destruct Sd as (Q & _ & _). rewrite get_left_end in E by (auto; apply Ee).
    injection E as <-. apply edge_oprev; auto. apply edge_sym; auto. }
  destruct (collect_chain _ _ _ _ E0) as (l & C & R). cbn in R. subst v0.
  pose proof (chain_edges _ _ C Ev) as F. pose proof (chain_nodup _ _ C) as N. split; auto.
  rewrite forallb_forall in E1. clear - E1 F N.
  assert (forall x y, In x l -> In y l -> x / 4 = y / 4 -> x = y) as Inj.
  { intros x y Ix Iy D. rewrite Forall_forall in F.
    destruct (same_group x y (proj1 (F x Ix)) (proj1 (F y Iy)) D) as [->|Hs]; auto.
    exfalso. specialize (E1 x Ix). rewrite opposite_sym, <- Hs in E1. unfold mem in E1.
    rewrite (proj2 (existsb_exists _ _)) in E1; [discriminate|]. exists y. split; auto. apply Nat.eqb_refl. }
  clear E1 F. induction l as [|x l IH]; cbn; constructor.
  - inversion N; subst. intros I. apply in_map_iff in I. destruct I as (y & D & I).
    apply H1. rewrite <- (Inj y x); auto; [right|left]; auto.
  - inversion N; subst. apply IH; auto. intros x' y' Ix Iy. apply Inj; right; auto.
Qed.
End Collect.
End Keeping.
