(** The trapezoidation, part 6: the way down the search structure, and the trapezoids an
    edge goes through. *)
From Coq Require Import QArith Qcanon Bool List Arith Lia.
From Verif Require Import QcTac Model_Base Model_Utils Model_Seidel Proof_Seidel Proof_Seidel2 Proof_Seidel3 Proof_Seidel4 Proof_Seidel5.
Import ListNotations.
Local Open Scope Qc_scope.

Section Paths.
Variable w : world.
Variables (D : nat -> Prop) (nodes : list node) (s : store).
Hypothesis R : rep nodes s.

Lemma inner_not_leaf i nd c : s_i s i = Some nd -> s_c s i = Some c -> False.
Proof.
  intros I C. destruct (rep_leaf _ _ _ _ R C) as (t & N & _). pose proof (r_i _ _ R i) as Q. unfold inner in Q. rewrite N in Q. congruence.
Qed.
Lemma rep_inner i nd : s_i s i = Some nd -> nth_error nodes i = Some nd /\ (i < s_n s)%nat.
Proof.
  intros I. pose proof (r_i _ _ R i) as Q. rewrite I in Q. unfold inner in Q.
  destruct (nth_error nodes i) as [x|] eqn:N; [|discriminate]. assert (x = nd) by (destruct x; congruence). subst x. split; auto.
  rewrite <- (r_n _ _ R). apply nth_error_Some. congruence.
Qed.

Lemma path_det t y i l o : path w D s t y i l o -> forall l' o', path w D s t y i l' o' -> l = l' /\ o = o'.
Proof.
  induction 1 as [i C|i k a b l o I V L P IH|i k a b l o I V L P IH|i k a b I V L
    |i g a b l o I Dg Sg L P IH|i g a b l o I Dg Sg L P IH|i g a b I Dg Sg L]; intros l' o' P';
    inversion P' as [i0 C0|i0 k0 a0 b0 l0 o0 I0 V0 L0 P0|i0 k0 a0 b0 l0 o0 I0 V0 L0 P0|i0 k0 a0 b0 I0 V0 L0
    |i0 g0 a0 b0 l0 o0 I0 D0 S0 L0 P0|i0 g0 a0 b0 l0 o0 I0 D0 S0 L0 P0|i0 g0 a0 b0 I0 D0 S0 L0]; subst; auto;
    try (destruct C as (c & C & _); exfalso; eapply inner_not_leaf; eauto; fail);
    try (destruct C0 as (c & C0 & _); exfalso; eapply inner_not_leaf; eauto; fail);
    rewrite I in I0; try discriminate; injection I0 as <- <- <-; try (exfalso; qlra);
    try (destruct (IH _ _ P0) as [-> ->]; auto); auto.
Qed.
Lemma path_bound t y i l o : path w D s t y i l o -> forall j, In j l -> (j < s_n s)%nat.
Proof.
  induction 1 as [i C|i k a b l o I V L P IH|i k a b l o I V L P IH|i k a b I V L
    |i g a b l o I Dg Sg L P IH|i g a b l o I Dg Sg L P IH|i g a b I Dg Sg L]; intros j [<-|J]; auto;
    try (apply (proj2 (rep_inner _ _ I))); try destruct J.
  destruct C as (c & C & _). apply (rep_lt _ _ _ _ R C).
Qed.
Lemma path_suffix t y i l o : path w D s t y i l o -> forall j, In j l ->
  exists l', path w D s t y j l' o /\ (length l' <= length l)%nat.
Proof.
  intros P0. pose proof P0 as PP. revert PP.
  induction P0 as [i C|i k a b l o I V L P IH|i k a b l o I V L P IH|i k a b I V L
    |i g a b l o I Dg Sg L P IH|i g a b l o I Dg Sg L P IH|i g a b I Dg Sg L]; intros PP j [<-|J];
    try (eexists; split; [exact PP|auto]; fail); try destruct J;
    destruct (IH P j J) as (l' & P' & Ln); exists l'; split; auto; cbn; lia.
Qed.
Lemma path_nodup t y i l o : path w D s t y i l o -> NoDup l.
Proof.
  assert (One : forall i : nat, NoDup [i]) by (intros i1; constructor; [intros []|constructor]).
  assert (Cons : forall i l o, path w D s t y i (i :: l) o -> (forall j, In j l -> exists l', path w D s t y j l' o /\ (length l' <= length l)%nat) -> NoDup l -> NoDup (i :: l)).
  { intros i0 l0 o0 P Sf ND. constructor; auto. intros I. destruct (Sf i0 I) as (l' & P' & Ln). destruct (path_det _ _ _ _ _ P _ _ P') as [E _].
    subst l'. cbn in Ln. lia. }
  intros P0. pose proof P0 as PP. revert PP.
  induction P0 as [i C|i k a b l o I V L P IH|i k a b l o I V L P IH|i k a b I V L
    |i g a b l o I Dg Sg L P IH|i g a b l o I Dg Sg L P IH|i g a b I Dg Sg L]; intros PP; auto;
    apply (Cons i l o PP); auto; intros j J; apply (path_suffix _ _ _ _ _ P j J).
Qed.
Lemma path_length t y i l o : path w D s t y i l o -> (length l <= length nodes)%nat.
Proof.
  intros P. rewrite (r_n _ _ R). rewrite <- (seq_length (s_n s) 0). apply NoDup_incl_length; [apply (path_nodup _ _ _ _ _ P)|].
  intros j J. apply in_seq. pose proof (path_bound _ _ _ _ _ P j J). lia.
Qed.
Lemma path_head t y i l o : path w D s t y i l o -> exists l', l = i :: l'.
Proof. destruct 1; eauto. Qed.
Lemma path_leaf t y i l o : path w D s t y i l o -> forall j, o = Some j -> contains w s j t y.
Proof. induction 1; intros j Ej; auto; try discriminate. injection Ej as <-. auto. Qed.
End Paths.

(** What the model's tests mean in the plane. *)
Record means (w : world) (edges : list edge) (endpoints : list point) : Prop := {
  m_lp : forall g, real w g -> left_point_index (edge_at edges g) = lp w g;
  m_rp : forall g, real w g -> right_point_index (edge_at edges g) = rp w g;
  m_lt : forall g g' k k', real w g -> (k = lp w g \/ k = rp w g) -> (real w g' /\ (k' = lp w g' \/ k' = rp w g')) \/ k' = cl w \/ k' = cr w ->
    (point_lt (endpoint_at endpoints k) (endpoint_at endpoints k') = true <-> xp w k < xp w k')
    /\ (point_lt (endpoint_at endpoints k') (endpoint_at endpoints k) = true <-> xp w k' < xp w k)
    /\ (point_eq (endpoint_at endpoints k) (endpoint_at endpoints k') = true <-> xp w k = xp w k');
  m_below : forall g g' k, real w g -> real w g' -> (k = lp w g' \/ k = rp w g') ->
    (orientation_is (orientation_of (edge_at edges g) (endpoint_at endpoints k) endpoints) CLOCKWISE = true <-> yp w k < h w g (xp w k));
  m_under : forall g g' t, real w g -> real w g' -> g <> g' -> spans w g t -> spans w g' t ->
    (is_under (edge_at edges g) (edge_at edges g') endpoints = true <-> h w g t < h w g' t) }.

Section Search.
Variables (w : world) (edges : list edge) (endpoints : list point).
Hypothesis M : means w edges endpoints.
Variables (D : nat -> Prop) (nodes : list node) (s : store) (e : nat) (t : Qc).
Hypothesis R : rep nodes s.
Hypothesis Dr : forall g, D g -> real w g.
Hypothesis Re : real w e.
Hypothesis De : ~ D e.
Hypothesis St : spans w e t.
Hypothesis Close : forall g k, real w g -> k = lp w g \/ k = rp w g -> lo w e < xp w k -> t < xp w k.

Lemma search_spec i l o : path w D s t (h w e t) i l o -> forall n, (length l <= S n)%nat ->
  o = Some (search_leaf n i (edge_at edges e) edges endpoints nodes).
Proof.
  destruct (w_real w e Re) as (L1 & L2 & L3 & _).
  assert (Vx : forall k, vertex w D k -> (point_lt (endpoint_at endpoints (left_point_index (edge_at edges e))) (endpoint_at endpoints k) = true <-> t < xp w k)).
  { intros k (g & Dg & K). rewrite (m_lp _ _ _ M e Re). pose proof (Dr g Dg) as Rg.
    destruct (m_lt _ _ _ M e g (lp w e) k Re (or_introl eq_refl)) as (Q & _); [auto|].
    rewrite Q, <- L1. split; [intros Z; apply (Close g k Rg K Z)|intros Z; destruct St; qlra]. }
  assert (Vy : forall g, D g -> spans w g t -> h w e t <> h w g t /\ (is_under (edge_at edges g) (edge_at edges e) endpoints = true <-> h w g t < h w e t)).
  { intros g Dg Sg. assert (Ng : g <> e) by congruence. split; [|apply (m_under _ _ _ M); auto].
    apply not_eq_sym. apply (w_apart w g e t); auto; apply Sg || apply St. }
  assert (Go : forall i l o a, path w D s t (h w e t) i (i :: l) o -> path w D s t (h w e t) a l o ->
    search_edge_node i (edge_at edges e) edges endpoints nodes = a ->
    (forall n, (length l <= S n)%nat -> o = Some (search_leaf n a (edge_at edges e) edges endpoints nodes)) ->
    forall n, (length (i :: l) <= S n)%nat -> o = Some (search_leaf n i (edge_at edges e) edges endpoints nodes)).
  { intros i0 l0 o0 a P Pa Ea IH n Ln. destruct (path_head _ _ _ _ _ _ _ _ Pa) as (l1 & ->).
    pose proof (path_nodup w D nodes s R _ _ _ _ _ P) as ND. inversion ND as [|? ? NI _]; subst.
    destruct n as [|n]; [cbn in Ln; lia|]. cbn [search_leaf].
    assert (NE : search_edge_node i0 (edge_at edges e) edges endpoints nodes <> i0) by (intros E; apply NI; left; auto).
    rewrite (proj2 (Nat.eqb_neq _ _) NE). apply IH. cbn in Ln |- *. lia. }
  intros P0. pose proof P0 as PP. revert PP.
  induction P0 as [i C|i k a b l o I V L P IH|i k a b l o I V L P IH|i k a b I V L
    |i g a b l o I Dg Sg L P IH|i g a b l o I Dg Sg L P IH|i g a b I Dg Sg L]; intros PP.
  - intros n _. destruct C as (c & C & _). destruct (rep_leaf _ _ _ _ R C) as (u & Nu & _).
    destruct n as [|n]; auto. cbn [search_leaf]. unfold search_edge_node. rewrite Nu, Nat.eqb_refl. auto.
  - apply (Go i l o a PP P); [|apply IH; auto]. unfold search_edge_node. rewrite (proj1 (rep_inner nodes s R _ _ I)).
    rewrite (proj2 (Vx k V) L). auto.
  - apply (Go i l o b PP P); [|apply IH; auto]. unfold search_edge_node. rewrite (proj1 (rep_inner nodes s R _ _ I)).
    destruct (point_lt _ _) eqn:B; auto. apply (Vx k V) in B. exfalso. qlra.
  - exfalso. destruct V as (g & Dg & K). pose proof (Close g k (Dr g Dg) K) as Z. destruct St. rewrite L in *. specialize (Z ltac:(qlra)). qlra.
  - apply (Go i l o a PP P); [|apply IH; auto]. unfold search_edge_node. rewrite (proj1 (rep_inner nodes s R _ _ I)).
    destruct (is_under _ _ _) eqn:B; auto. apply (Vy g Dg Sg) in B. exfalso. qlra.
  - apply (Go i l o b PP P); [|apply IH; auto]. unfold search_edge_node. rewrite (proj1 (rep_inner nodes s R _ _ I)).
    rewrite (proj2 (proj2 (Vy g Dg Sg)) L). auto.
  - exfalso. destruct (Vy g Dg Sg). auto.
Qed.
End Search.
