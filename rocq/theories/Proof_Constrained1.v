(** The constrained triangulation, part 1: swapping a diagonal whatever its neighbours. *)
From Coq Require Import QArith Qcanon Bool List Arith Lia.
From Verif Require Import QcTac Model_Base Model_Utils Model_Mesh Spec_Base Spec_Mesh Proof_Base Proof_Mesh Proof_Mesh2 Proof_Mesh3
  Proof_Delaunay Proof_Delaunay2.
Import ListNotations.
Local Open Scope nat_scope.

Lemma starts_below m e : quad_structure m -> edge m e -> e / 2 < length (m_starts_indices m).
Proof.
  intros Q [E L]. destruct (qs_groups m Q) as (k & S1 & S2). rewrite S2. rewrite S1 in L.
  apply Nat.div_lt_upper_bound; lia.
Qed.

Section Swap.
Variable m : mesh.
Hypothesis Q : quad_structure m.
Variable a : nat.
Hypothesis Ea : edge m a.
Hypothesis Loop : start m a <> end_of m a.
Hypothesis Distinct : forall i j, i < length (m_endpoints m) -> j < length (m_endpoints m) ->
  at_ (m_endpoints m) i = at_ (m_endpoints m) j -> i = j.
Notation s := (oprev m a). Notation t := (oprev m (sym a)).
Notation d := (deleted m a).

Lemma side_not : s <> sym a.
Proof.
  intros H. apply Loop. unfold end_of. rewrite <- H. symmetry. apply start_oprev; auto.
Qed.
Lemma opposite_side_not : t <> a.
Proof.
  intros H. apply Loop. unfold end_of. rewrite <- H at 1. apply start_oprev; auto. apply edge_sym; auto.
Qed.
Notation first_end := (end_of m s).
Notation second_end := (if t =? sym a then end_of m s else end_of m t).
Definition renamed : mesh :=
  Mesh (m_endpoints m) (m_left_from_start d)
    (set_nth (set_nth (m_starts_indices m) (a / 2) first_end) (sym a / 2) second_end).
Definition renamed_half : mesh := spliced renamed a (oprev d (sym s)).
Definition renamed_swapped : mesh := spliced renamed_half (sym a) (oprev renamed_half (sym t)).

Lemma edge_s : edge m s. Proof. apply edge_oprev; auto. Qed.
Lemma edge_t : edge m t. Proof. apply edge_oprev; auto. apply edge_sym; auto. Qed.
Lemma ends_below e : edge m e -> end_of m e < length (m_endpoints m).
Proof. intros E. apply (start_point m Q). apply edge_sym; auto. Qed.
Lemma second_below : second_end < length (m_endpoints m).
Proof. destruct (t =? sym a); apply ends_below; [apply edge_s|apply edge_t]. Qed.

Lemma renamed_structure : quad_structure renamed.
Proof.
  pose proof (deleted_structure m Q a Ea) as Qd. destruct (deleted_self m Q a Ea) as (L1 & L2).
  pose proof (restarted_structure d Qd a first_end (proj2 (deleted_edge m a a) Ea) L1 (ends_below s edge_s)) as Q1.
  refine (restarted_structure _ Q1 (sym a) second_end _ _ _).
  - change (edge d (sym a)). apply deleted_edge, edge_sym; auto.
  - exact L2.
  - exact second_below.
Qed.
Lemma renamed_edge e : edge renamed e <-> edge m e.
Proof. change (edge d e <-> edge m e). apply deleted_edge. Qed.
Lemma renamed_start e : edge m e -> start renamed e =
  if e =? a then first_end else if e =? sym a then second_end else start m e.
Proof.
  clear Loop Distinct. intros E. unfold renamed, start. cbn [m_starts_indices]. rewrite !nth_set_nth.
  assert (La : a / 2 < length (m_starts_indices m)) by (apply starts_below; auto).
  assert (Ls : sym a / 2 < length (m_starts_indices m)) by (apply starts_below; auto; apply edge_sym; auto).
  destruct (Nat.eqb_spec (sym a / 2) (e / 2)) as [H|H].
  - apply half_inj in H; [|rewrite sym_even; apply Ea|apply E]. subst e.
    rewrite (neq_eqb (sym a) a) by apply sym_neq. rewrite Nat.eqb_refl.
    rewrite set_nth_len. destruct (Nat.ltb_spec (sym a / 2) (length (m_starts_indices m))); [reflexivity|lia].
  - destruct (Nat.eqb_spec (a / 2) (e / 2)) as [H'|H'].
    + apply half_inj in H'; [|apply Ea|apply E]. subst e. rewrite Nat.eqb_refl.
      destruct (Nat.ltb_spec (a / 2) (length (m_starts_indices m))); [reflexivity|lia].
    + rewrite (neq_eqb e a), (neq_eqb e (sym a)); [reflexivity|congruence|congruence].
Qed.

(** The first splice, if the two new ends agree when the edge is alone at its start. *)
Hypothesis Agree : s = a -> first_end = second_end.
Lemma first_joined : edge renamed (oprev d (sym s)) /\ start renamed (oprev d (sym s)) = start renamed a.
Proof.
  pose proof (deleted_structure m Q a Ea) as Qd. destruct (deleted_self m Q a Ea) as (L1 & L2).
  assert (Esd : edge d (sym s)) by (apply deleted_edge, edge_sym; auto; apply edge_s).
  assert (Ex : edge d (oprev d (sym s))) by (apply edge_oprev; auto).
  split; [exact Ex|].
  assert (Ex' : edge m (oprev d (sym s))) by (exact (proj1 (deleted_edge m a _) Ex)).
  rewrite !renamed_start by auto. rewrite Nat.eqb_refl.
  destruct (Nat.eq_dec s a) as [E|N].
  - assert (X : oprev d (sym s) = sym a).
    { rewrite E. rewrite <- L2 at 1. apply oprev_onext; auto. apply (proj2 (deleted_edge m a (sym a))), edge_sym; auto. }
    rewrite X. rewrite (neq_eqb (sym a) a) by apply sym_neq. rewrite Nat.eqb_refl. symmetry. apply Agree. auto.
  - assert (N1 : oprev d (sym s) <> sym a).
    { intros X. apply N. apply sym_inj. transitivity (onext d (oprev d (sym s))); [symmetry; apply onext_oprev; auto; apply Esd|].
      rewrite X. exact L2. }
    assert (N2 : oprev d (sym s) <> a).
    { intros X. apply side_not. rewrite <- (sym_sym s). f_equal. transitivity (onext d (oprev d (sym s))); [symmetry; apply onext_oprev; auto; apply Esd|].
      rewrite X. exact L1. }
    rewrite (neq_eqb _ _ N1), (neq_eqb _ _ N2).
    rewrite <- (deleted_start m a). rewrite start_oprev by auto. rewrite deleted_start. reflexivity.
Qed.
Lemma renamed_half_ok : splice_edges renamed a (oprev d (sym s)) = Ok renamed_half /\ quad_structure renamed_half.
Proof.
  destruct first_joined as (Ex & St). pose proof renamed_structure as Qr.
  assert (Ear : edge renamed a) by (apply renamed_edge; auto).
  split; [apply splice_ok; auto|apply spliced_structure; auto].
Qed.
Lemma renamed_half_edge e : edge renamed_half e <-> edge m e.
Proof.
  rewrite <- renamed_edge. unfold edge, renamed_half. rewrite spliced_size. reflexivity.
Qed.
Lemma second_joined : edge renamed_half (oprev renamed_half (sym t)) /\
  start renamed_half (oprev renamed_half (sym t)) = start renamed_half (sym a).
Proof.
  destruct renamed_half_ok as (_ & Qh).
  assert (Et : edge renamed_half (sym t)) by (apply renamed_half_edge, edge_sym; auto; apply edge_t).
  split; [apply edge_oprev; auto|]. rewrite start_oprev by auto.
  unfold renamed_half. rewrite !spliced_start.
  pose proof (edge_sym m Q _ edge_t) as Es. pose proof (edge_sym m Q _ Ea) as Esa.
  rewrite !renamed_start by auto. rewrite (neq_eqb (sym a) a) by apply sym_neq. rewrite Nat.eqb_refl.
  destruct (Nat.eqb_spec t (sym a)) as [E|N].
  - rewrite E, sym_sym, Nat.eqb_refl. reflexivity.
  - rewrite (neq_eqb (sym t) a), (neq_eqb (sym t) (sym a)); [reflexivity| |].
    + intros X. apply opposite_side_not. apply sym_inj; auto.
    + intros X. apply N. apply sym_inj. rewrite sym_sym. exact X.
Qed.
Lemma renamed_swapped_ok : splice_edges renamed_half (sym a) (oprev renamed_half (sym t)) = Ok renamed_swapped /\
  quad_structure renamed_swapped.
Proof.
  destruct second_joined as (Ex & St). destruct renamed_half_ok as (_ & Qr).
  assert (Ear : edge renamed_half (sym a)) by (apply renamed_half_edge, edge_sym; auto).
  split; [apply splice_ok; auto|apply spliced_structure; auto].
Qed.
End Swap.

Lemma ok_inj {A} (x y : A) : Ok x = Ok y -> x = y.
Proof. intros H. injection H as H. exact H. Qed.
(** The splices of two meshes with the same neighbours. *)
Lemma splice_lefts m0 m1 x y r : m_endpoints m0 = m_endpoints m1 -> m_left_from_start m0 = m_left_from_start m1 ->
  splice_edges m0 x y = Ok r -> splice_edges m1 x y = Ok (Mesh (m_endpoints r) (m_left_from_start r) (m_starts_indices m1)).
Proof.
  intros P L E. pose proof (splice_starts m0 (m_starts_indices m1) x y) as H. rewrite E, P, L in H.
  destruct m1; exact H.
Qed.
Lemma splice_starts_same m0 x y r : splice_edges m0 x y = Ok r ->
  m_starts_indices r = m_starts_indices m0 /\ m_endpoints r = m_endpoints m0.
Proof.
  unfold splice_edges. intros H.
  repeat match type of H with context [bind ?z _] => destruct z; cbn [bind] in H; try discriminate end.
  injection H as <-. auto.
Qed.

Lemma swap_keeps m a m' : quad_structure m -> edge m a -> start m a <> end_of m a ->
  (forall i j, i < length (m_endpoints m) -> j < length (m_endpoints m) ->
     at_ (m_endpoints m) i = at_ (m_endpoints m) j -> i = j) ->
  swap_diagonal m a = Ok m' ->
  quad_structure m' /\ m_endpoints m' = m_endpoints m /\ size m' = size m /\
  (forall f, edge m f -> f <> a -> f <> sym a -> start m' f = start m f).
Proof.
  intros Q Ea Loop Distinct Sw. unfold swap_diagonal in Sw.
  pose proof (edge_sym m Q a Ea) as Ea'.
  rewrite get_right in Sw by (auto; apply Ea). cbn [bind] in Sw. rewrite opposite_sym in Sw.
  rewrite get_right in Sw by (auto; apply Ea'). cbn [bind] in Sw.
  rewrite (removed_ok m Q a Ea) in Sw. cbn [bind] in Sw.
  pose proof (removed_structure m Q a Ea) as Q1. pose proof (edge_sym_removed m Q a Ea) as E1.
  pose proof (side_not m Q a Ea Loop) as Ns. pose proof (opposite_side_not m Q a Ea Loop) as Nt.
  assert (T : oprev m (sym a) = oprev (removed m a) (sym a)).
  { rewrite removed_oprev by (auto; apply sym_neq). rewrite neq_eqb; auto. }
  rewrite T in Sw at 1. rewrite (removed_ok (removed m a) Q1 (sym a) E1) in Sw. fold (deleted m a) in Sw. cbn [bind] in Sw.
  pose proof (deleted_structure m Q a Ea) as Qd.
  pose proof (edge_s m Q a Ea) as Es. pose proof (edge_t m Q a Ea) as Et.
  set (s := oprev m a) in *. set (t := oprev m (sym a)) in *. set (d := deleted m a) in *.
  assert (Lsd : s < size d) by (unfold d; rewrite deleted_size; apply Es).
  rewrite (get_left_end d Qd s Lsd) in Sw. cbn [bind] in Sw.
  set (x := oprev d (sym s)) in *.
  destruct (splice_edges d a x) as [h| |] eqn:Eh; cbn [bind] in Sw; try discriminate.
  destruct (splice_starts_same _ _ _ _ Eh) as (Sh & Ph).
  destruct (to_left_from_end h t) as [y| |] eqn:Ly; cbn [bind] in Sw; try discriminate.
  destruct (splice_edges h (sym a) y) as [g| |] eqn:Eg; cbn [bind] in Sw; try discriminate.
  destruct (splice_starts_same _ _ _ _ Eg) as (Sg & Pg).
  assert (Sz : m_starts_indices g = m_starts_indices m) by (rewrite Sg, Sh; reflexivity).
  assert (Pz : m_endpoints g = m_endpoints m) by (rewrite Pg, Ph; reflexivity).
  assert (Ends : forall e, edge m e -> to_end_index g e = Ok (end_of m e)).
  { intros e E. pose proof (get_end_index m Q e E) as P. unfold to_end_index, to_start_index in *.
    rewrite Sz. exact P. }
  rewrite Ends in Sw by auto. cbn [bind] in Sw. rewrite Sz in Sw.
  rewrite put_ok in Sw by (apply starts_below; auto). cbn [bind] in Sw.
  set (second := if t =? sym a then end_of m s else end_of m t).
  assert (T2 : to_end_index (Mesh (m_endpoints g) (m_left_from_start g) (set_nth (m_starts_indices m) (a / 2) (end_of m s))) t
    = Ok second).
  { unfold to_end_index, to_start_index. rewrite opposite_sym. rewrite sym_even, (proj1 Et). cbn [m_starts_indices].
    rewrite (get_nth _ _ 0) by (rewrite set_nth_len; apply starts_below; auto; apply edge_sym; auto).
    rewrite nth_set_nth. unfold second. destruct (Nat.eqb_spec t (sym a)) as [E|N].
    - rewrite E, sym_sym, Nat.eqb_refl.
      destruct (Nat.ltb_spec (a / 2) (length (m_starts_indices m))) as [|B]; [reflexivity|].
      pose proof (starts_below m a Q Ea). lia.
    - rewrite neq_eqb; [reflexivity|]. intros X. apply half_inj in X; [|apply Ea|rewrite sym_even; apply Et].
      apply N. rewrite X, sym_sym. reflexivity. }
  rewrite T2 in Sw. cbn [bind] in Sw. cbn [m_starts_indices m_endpoints m_left_from_start] in Sw.
  rewrite put_ok in Sw by (rewrite set_nth_len; apply starts_below; auto). cbn [bind] in Sw.
  set (st := set_nth (set_nth (m_starts_indices m) (a / 2) (end_of m s)) (sym a / 2) second) in *.
  set (r := renamed m a). assert (St : m_starts_indices r = st) by reflexivity.
  (* the assertion makes the two ends agree *)
  assert (Start : forall e, edge m e -> to_start_index (Mesh (m_endpoints g) (m_left_from_start g) st) e = Ok (start r e)).
  { intros e E. unfold to_start_index. cbn [m_starts_indices]. rewrite (proj1 E).
    rewrite (get_nth _ _ 0); [reflexivity|]. unfold st. rewrite !set_nth_len. apply starts_below; auto. }
  assert (Agree : s = a -> end_of m s = second).
  { intros E. unfold to_end, to_start, to_end_index in Sw. rewrite !opposite_sym, !E in Sw.
    rewrite !Start in Sw by auto. cbn [bind m_endpoints] in Sw. unfold r in Sw.
    rewrite (renamed_start m Q a Ea a Ea), (renamed_start m Q a Ea (sym a) Ea') in Sw.
    rewrite (neq_eqb (sym a) a) in Sw by apply sym_neq. rewrite !Nat.eqb_refl in Sw.
    fold s in Sw. fold t in Sw. fold second in Sw. rewrite Pz in Sw.
    assert (B1 : end_of m s < length (m_endpoints m)) by (apply ends_below; auto).
    assert (B2 : second < length (m_endpoints m)) by (apply (second_below m Q a Ea)).
    rewrite (get_nth _ _ (Pt 0 0)) in Sw by exact B1. cbn [bind] in Sw.
    rewrite (get_nth _ _ (Pt 0 0)) in Sw by exact B2. cbn [bind] in Sw.
    apply Distinct; auto. unfold at_.
    destruct (point_eq (nth (end_of m s) (m_endpoints m) (Pt 0 0)) (nth second (m_endpoints m) (Pt 0 0))) eqn:PE;
      [apply point_eq_true; exact PE|].
    exfalso. cbn [andb] in Sw.
    repeat match type of Sw with context [bind ?z _] => destruct z; cbn [bind] in Sw; try discriminate end. }
  destruct (renamed_half_ok m Q a Ea Loop Agree) as (H1 & Qh).
  destruct (renamed_swapped_ok m Q a Ea Loop Agree) as (H2 & Qs).
  assert (Final : Mesh (m_endpoints g) (m_left_from_start g) st = renamed_swapped m a).
  { pose proof (splice_lefts d r a x h eq_refl eq_refl Eh) as Hx. unfold r, x, s, d in Hx.
    rewrite H1 in Hx. apply ok_inj in Hx. rename Hx into Hh.
    assert (Ly' : to_left_from_end (renamed_half m a) t = Ok y).
    { rewrite Hh. exact Ly. }
    rewrite get_left_end in Ly' by (auto; apply (proj2 (renamed_half_edge m a t) Et)). injection Ly' as Hy.
    pose proof (splice_lefts h (renamed_half m a) (sym a) y g) as Hz.
    fold t in H2. rewrite <- Hy in Hz. rewrite H2 in Hz. rewrite Hy in Hz.
    assert (Hg : Ok (renamed_swapped m a) = Ok (Mesh (m_endpoints g) (m_left_from_start g) (m_starts_indices (renamed_half m a)))).
    { apply Hz; auto; rewrite Hh; reflexivity. }
    apply ok_inj in Hg. rewrite Hg. f_equal. }
  rewrite Final in Sw.
  assert (M : m' = renamed_swapped m a).
  { repeat match type of Sw with context [bind ?z _] => destruct z; cbn [bind] in Sw; try discriminate end.
    match type of Sw with (if ?z then _ else _) = _ => destruct z end; congruence. }
  subst m'. split; [exact Qs|]. split; [reflexivity|]. split.
  - unfold renamed_swapped, renamed_half. rewrite !spliced_size. apply deleted_size.
  - intros f Ef Na Ns'. unfold renamed_swapped, renamed_half. rewrite !spliced_start.
    rewrite (renamed_start m Q a Ea f Ef). rewrite (neq_eqb f a), (neq_eqb f (sym a)) by auto. reflexivity.
Qed.
