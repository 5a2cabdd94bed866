(** The trapezoidation, part 10: the trapezoid of the box, and locating a point. *)
From Coq Require Import QArith Qcanon Bool List Arith Lia.
From Verif Require Import QcTac Model_Base Model_Utils Model_Geometry Model_Contour Model_Seidel Proof_Seidel Proof_Seidel2 Proof_Seidel3 Proof_Seidel4 Proof_Seidel5 Proof_Seidel6 Proof_Seidel7 Proof_Seidel8 Proof_Seidel9.
Import ListNotations.
Local Open Scope Qc_scope.

Section Box.
Variables (w : world) (edges : list edge) (endpoints : list point).
Hypothesis M : means w edges endpoints.
Notation X := (xp w). Notation Y := (yp w). Notation H := (h w).
Let nodes0 := fst (create_trapezoid (cl w) (cr w) (bot w) (top w) edges []).

Lemma box_store i : s_c (store_of nodes0) i = if (i =? 0)%nat then Some (mk edges (cl w) (cr w) (bot w) (top w)) else None.
Proof. destruct i as [|i]; [reflexivity|]. cbn. unfold of_trapezoid, get_trapezoid. cbn. destruct i; reflexivity. Qed.
Lemma box_link_l up i : s_l (store_of nodes0) up i = None.
Proof. destruct i as [|[|i]], up; reflexivity. Qed.
Lemma box_link_r up i : s_r (store_of nodes0) up i = None.
Proof. destruct i as [|[|i]], up; reflexivity. Qed.
Lemma box_leaf i c : s_c (store_of nodes0) i = Some c -> i = 0%nat /\ c = mk edges (cl w) (cr w) (bot w) (top w).
Proof. rewrite box_store. destruct (Nat.eqb_spec i 0); [|discriminate]. intros Q. injection Q as <-. auto. Qed.

Lemma box_inv : inv w edges (fun _ => False) (fun _ => X (cr w)) (store_of nodes0).
Proof.
  destruct (w_box w) as (B1 & B2 & B3 & B4 & B5 & _). constructor.
  - intros g [].
  - intros g [].
  - auto.
  - intros j _ up. rewrite box_link_l, box_link_r. auto.
  - intros i c C. apply box_leaf in C as [_ ->]. constructor; cbn; auto.
    + intros []; cbn; [rewrite B1|rewrite B2]; apply Qcle_refl.
    + intros _. apply Qcle_refl.
    + intros t _ _. apply w_flat.
  - intros t y (I1 & I2 & I3 & I4). exists [0%nat], (Some 0%nat). apply p_leaf. eexists. split; [rewrite box_store; reflexivity|]. repeat split; auto.
  - intros i g t _ _ [].
  - intros i j t y _ (c & C & _) (d & C' & _). apply box_leaf in C as [-> _]. apply box_leaf in C' as [-> _]. auto.
  - intros up i a F. unfold sview in F. destruct (s_c (store_of nodes0) i) as [c|] eqn:C; [|discriminate]. apply box_leaf in C as [-> ->].
    rewrite box_link_l, box_link_r in F. injection F as <-. constructor; cbn; auto; try (intros ? Q; discriminate Q).
    intros L. exfalso. cbn in L. apply (Qclt_not_eq _ _ L). reflexivity.
Qed.

Lemma box_done e es : real w e -> NoDup (e :: es) -> (forall g, In g es -> real w g) ->
  exists nodes1 nodes2, add_edge_to_single_trapezoid e 0 edges endpoints nodes0 = Some nodes1 /\
  add_edges es edges endpoints nodes1 = Some nodes2 /\ exists D, done w edges D nodes2 /\ forall g, D g <-> In g (e :: es).
Proof.
  intros Re ND Res. destruct (w_box w) as (B1 & B2 & B3 & B4 & B5 & _). destruct (w_in w e Re) as [I1 I2]. destruct (w_real w e Re) as (_ & _ & W3 & _).
  assert (Ct : s_c (store_of nodes0) 0 = Some (mk edges (cl w) (cr w) (bot w) (top w))) by (rewrite box_store; reflexivity).
  destruct (add_single w edges endpoints M e Re (fun _ => False) (fun _ => X (cr w)) nodes0 (store_of nodes0) 0 _ box_inv (rep_store _)
    ltac:(intros g []) ltac:(intros []) Ct) as (nodes1 & Ad & Dn); cbn [mk k_l k_r k_b k_a].
  - qlra.
  - qlra.
  - intros t T1 T2 T3. apply (w_between w e t Re); qlra.
  - qlra.
  - specialize (Dn (or_intror eq_refl)). inversion ND as [|? ? NI ND']; subst.
    destruct (add_edges_done w edges endpoints M es _ nodes1 Dn ND') as (nodes2 & Ad2 & D2 & Dn2 & DD2).
    + intros g G. split; auto. intros [[]| ->]. auto.
    + exists nodes1, nodes2. split; auto. split; auto. exists D2. split; auto. intros g. rewrite DD2. cbn. intuition auto.
Qed.
End Box.

Section Locate.
Variables (w : world) (edges : list edge) (endpoints : list point) (p : point) (t y : Qc).
Notation X := (xp w). Notation Y := (yp w). Notation H := (h w).
Hypothesis Px : forall g k, real w g -> k = lp w g \/ k = rp w g ->
  (point_lt p (endpoint_at endpoints k) = true <-> t < X k) /\ (point_lt (endpoint_at endpoints k) p = true <-> X k < t) /\ (t = X k -> y = Y k).
Hypothesis Po : forall g, real w g -> match orientation_of (edge_at edges g) p endpoints with
  | COUNTERCLOCKWISE => H g t < y | CLOCKWISE => y < H g t | COLLINEAR => y = H g t end.
Hypothesis In1 : inbox w t y.

Definition on_edge (g : nat) : Prop := lo w g <= t /\ t <= hi w g /\ y = H g t.

Section Found.
Variables (D : nat -> Prop) (nodes : list node).
Hypothesis Dn : done w edges D nodes.

Lemma locate_path s i l o : rep nodes s -> (forall g, D g -> real w g) -> path w D s t y i l o -> forall fuel, (length l <= fuel)%nat ->
  locate_from fuel i p edges endpoints nodes =
  match o with
  | None => Some BOUNDARY
  | Some j => match s_c s j with Some c => Some (if k_in c then INTERIOR else EXTERIOR) | None => None end
  end.
Proof.
  intros R Dr P. induction P as [i C|i k a b l o I V L P IH|i k a b l o I V L P IH|i k a b I V L
    |i g a b l o I Dg Sg L P IH|i g a b l o I Dg Sg L P IH|i g a b I Dg Sg L]; intros fuel Ln;
    (destruct fuel as [|fuel]; [cbn in Ln; lia|]); cbn [locate_from].
  - destruct C as (c & C & _). destruct (rep_leaf _ _ _ _ R C) as (u & Nu & _ & Cu & _). rewrite Nu, C, <- Cu. reflexivity.
  - rewrite (proj1 (rep_inner nodes s R _ _ I)). destruct V as (g & Dg & K). destruct (Px g k (Dr g Dg) K) as (P1 & P2 & _).
    rewrite (proj2 P1 L). apply IH. cbn in Ln. lia.
  - rewrite (proj1 (rep_inner nodes s R _ _ I)). destruct V as (g & Dg & K). destruct (Px g k (Dr g Dg) K) as (P1 & P2 & _).
    rewrite (proj2 P2 L). destruct (point_lt p _) eqn:B; [pose proof (proj1 P1 eq_refl); exfalso; qlra|]. apply IH. cbn in Ln. lia.
  - rewrite (proj1 (rep_inner nodes s R _ _ I)). destruct V as (g & Dg & K). destruct (Px g k (Dr g Dg) K) as (P1 & P2 & _).
    destruct (point_lt p _) eqn:B; [pose proof (proj1 P1 eq_refl); exfalso; qlra|]. destruct (point_lt _ p) eqn:B'; [pose proof (proj1 P2 eq_refl); exfalso; qlra|]. auto.
  - rewrite (proj1 (rep_inner nodes s R _ _ I)). pose proof (Po g (Dr g Dg)) as Q. destruct (orientation_of _ _ _); try (exfalso; qlra). apply IH. cbn in Ln. lia.
  - rewrite (proj1 (rep_inner nodes s R _ _ I)). pose proof (Po g (Dr g Dg)) as Q. destruct (orientation_of _ _ _); try (exfalso; qlra). apply IH. cbn in Ln. lia.
  - rewrite (proj1 (rep_inner nodes s R _ _ I)). pose proof (Po g (Dr g Dg)) as Q. destruct (orientation_of _ _ _); try (exfalso; qlra). auto.
Qed.

Lemma locate_none s i l o : path w D s t y i l o -> (forall g, D g -> real w g) -> o = None -> exists g, D g /\ on_edge g.
Proof.
  intros P Dr. induction P as [i C|i k a b l o I V L P IH|i k a b l o I V L P IH|i k a b I V L
    |i g a b l o I Dg Sg L P IH|i g a b l o I Dg Sg L P IH|i g a b I Dg Sg L]; intros Eo; auto; try discriminate.
  - destruct V as (g & Dg & K). exists g. split; auto. destruct (Px g k (Dr g Dg) K) as (_ & _ & P3). specialize (P3 L).
    destruct (w_real w g (Dr g Dg)) as (W1 & W2 & W3 & W4 & W5). destruct K as [-> | ->].
    + rewrite <- W1 in L. split; [|split]; [qlra|qlra|]. rewrite P3, L, W4. auto.
    + rewrite <- W2 in L. split; [|split]; [qlra|qlra|]. rewrite P3, L, W5. auto.
  - exists g. split; auto. destruct Sg. split; [|split]; auto; qlra.
Qed.

Lemma min3 (a b c x : Qc) : x < a -> x < b -> x < c -> exists m, x < m /\ m <= a /\ m <= b /\ m <= c.
Proof.
  intros A B C. destruct (Qclt_le_dec a b), (Qclt_le_dec a c), (Qclt_le_dec b c);
    first [exists a; repeat split; qlra|exists b; repeat split; qlra|exists c; repeat split; qlra].
Qed.
Lemma max3 (a b c x : Qc) : a < x -> b < x -> c < x -> exists m, m < x /\ a <= m /\ b <= m /\ c <= m.
Proof.
  intros A B C. destruct (Qclt_le_dec a b), (Qclt_le_dec a c), (Qclt_le_dec b c);
    first [exists a; repeat split; qlra|exists b; repeat split; qlra|exists c; repeat split; qlra].
Qed.
Lemma locate_free hi' s j g : inv w edges D hi' s -> (forall g, D g -> hi' g = hi w g) -> contains w s j t y -> D g -> on_edge g -> False.
Proof.
  intros INV Full (c & C & W1 & W2 & W3 & W4) Dg (O1 & O2 & O3). rewrite O3 in W3, W4. pose proof (i_real _ _ _ _ _ INV g Dg) as Rg.
  destruct (w_real w g Rg) as (_ & _ & L & _).
  destruct (order_near w _ _ t W3) as (d1 & D1 & N1). destruct (order_near w _ _ t W4) as (d2 & D2 & N2).
  assert (Fin : forall u, generic w u -> X (k_l c) < u -> u < X (k_r c) -> t - d1 < u -> u < t + d1 -> t - d2 < u -> u < t + d2 -> lo w g < u -> u < hi w g -> False).
  { intros u Gu U1 U2 U3 U4 U5 U6 U7 U8. apply (i_free _ _ _ _ _ INV j g u Gu); auto; [|rewrite (Full g Dg); auto].
    exists c. split; auto. repeat split; auto. }
  destruct (Qclt_le_dec t (hi w g)) as [Lt|Ge].
  - destruct (min3 (hi w g) (X (k_r c)) (t + (if Qclt_le_dec d1 d2 then d1 else d2)) t) as (m & M1 & M2 & M3 & M4); auto;
      [destruct (Qclt_le_dec d1 d2); qlra|].
    destruct (w_dense w t m M1) as (u & U1 & U2 & Gu). apply (Fin u Gu); destruct (Qclt_le_dec d1 d2); qlra.
  - destruct (max3 (lo w g) (X (k_l c)) (t - (if Qclt_le_dec d1 d2 then d1 else d2)) t) as (m & M1 & M2 & M3 & M4); auto;
      [qlra|destruct (Qclt_le_dec d1 d2); qlra|].
    destruct (w_dense w m t M1) as (u & U1 & U2 & Gu). apply (Fin u Gu); destruct (Qclt_le_dec d1 d2); qlra.
Qed.

Theorem locate_done : (forall g, D g -> interior_to_left (edge_at edges g) = false) -> interior_to_left (edge_at edges (bot w)) = false ->
  ((exists g, D g /\ on_edge g) -> locate_from (length nodes) 0 p edges endpoints nodes = Some BOUNDARY) /\
  (~ (exists g, D g /\ on_edge g) -> locate_from (length nodes) 0 p edges endpoints nodes = Some EXTERIOR).
Proof.
  intros Fl Fb. destruct Dn as (hi' & s & INV & R & Full & _). pose proof (i_real _ _ _ _ _ INV) as Dr.
  destruct (i_path _ _ _ _ _ INV t y In1) as (l & o & P).
  rewrite (locate_path s 0 l o R Dr P (length nodes) (path_length w D nodes s R _ _ _ _ _ P)).
  destruct o as [j|].
  - pose proof (path_leaf _ _ _ _ _ _ _ _ P j eq_refl) as Cj. split.
    + intros (g & Dg & Og). exfalso. apply (locate_free hi' s j g INV Full Cj Dg Og).
    + intros _. destruct Cj as (c & C & _). rewrite C. pose proof (i_core _ _ _ _ _ INV _ _ C) as G.
      rewrite (g_in _ _ _ _ _ G). cbn. destruct (g_b _ _ _ _ _ G) as [ -> |Db]; [rewrite Fb|rewrite (Fl _ Db)]; reflexivity.
  - split; auto. intros N. exfalso. apply N. apply (locate_none s 0 l None P Dr eq_refl).
Qed.
End Found.
End Locate.

(** What is between the sides of the leaf that is found. *)
Section Between.
Variables (w : world) (edges : list edge) (endpoints : list point) (p : point) (t y : Qc).
Notation X := (xp w). Notation Y := (yp w). Notation H := (h w).
Hypothesis Px : forall g k, real w g -> k = lp w g \/ k = rp w g ->
  (point_lt p (endpoint_at endpoints k) = true <-> t < X k) /\ (point_lt (endpoint_at endpoints k) p = true <-> X k < t) /\ (t = X k -> y = Y k).
Hypothesis Po : forall g, real w g -> match orientation_of (edge_at edges g) p endpoints with
  | COUNTERCLOCKWISE => H g t < y | CLOCKWISE => y < H g t | COLLINEAR => y = H g t end.
Hypothesis In1 : inbox w t y.
Variables (D : nat -> Prop) (nodes : list node).
Hypothesis Dn : done w edges D nodes.
Theorem locate_found :
  ((exists g, D g /\ on_edge w t y g) -> locate_from (length nodes) 0 p edges endpoints nodes = Some BOUNDARY) /\
  (~ (exists g, D g /\ on_edge w t y g) -> exists b a, (b = bot w \/ D b) /\ (a = top w \/ D a) /\
    (D b -> lo w b < t /\ t < hi w b) /\ (D a -> lo w a < t /\ t < hi w a) /\ H b t < y /\ y < H a t /\
    (forall g, D g -> lo w g < t -> t < hi w g -> H b t < H g t -> H g t < H a t -> False) /\
    locate_from (length nodes) 0 p edges endpoints nodes
    = Some (if interior_to_left (edge_at edges b) && negb (interior_to_left (edge_at edges a)) then INTERIOR else EXTERIOR)).
Proof.
  destruct Dn as (hi' & s & INV & R & Full & _). pose proof (i_real _ _ _ _ _ INV) as Dr.
  destruct (i_path _ _ _ _ _ INV t y In1) as (l & o & P).
  rewrite (locate_path w edges endpoints p t y Px Po D nodes s 0 l o R Dr P (length nodes) (path_length w D nodes s R _ _ _ _ _ P)).
  destruct o as [j|].
  - pose proof (path_leaf _ _ _ _ _ _ _ _ P j eq_refl) as Cj. split.
    + intros (g & Dg & Og). exfalso. apply (locate_free w edges t y D hi' s j g INV Full Cj Dg Og).
    + intros _. destruct Cj as (c & C & W1 & W2 & W3 & W4). rewrite C. pose proof (i_core _ _ _ _ _ INV _ _ C) as G.
      exists (k_b c), (k_a c). split; [exact (g_b _ _ _ _ _ G)|]. split; [exact (g_a _ _ _ _ _ G)|].
      assert (Sp : forall up, D (side up c) -> lo w (side up c) < t /\ t < hi w (side up c)).
      { intros up Ds. pose proof (g_lo _ _ _ _ _ G up) as L. pose proof (g_hi _ _ _ _ _ G up) as Hh. rewrite (Full _ Ds) in Hh. split; qlra. }
      split; [exact (Sp false)|]. split; [exact (Sp true)|]. split; [exact W3|]. split; [exact W4|]. split.
      * intros g Dg L1 L2 L3 L4.
        apply (locate_free w edges t (H g t) D hi' s j g INV Full); auto.
        -- exists c. split; auto. repeat split; auto.
        -- split; [|split]; auto; qlra.
      * rewrite (g_in _ _ _ _ _ G). reflexivity.
  - split; auto. intros N. exfalso. apply N. apply (locate_none w endpoints p t y Px D s 0 l None P Dr eq_refl).
Qed.
End Between.
