(** The Bentley-Ottmann sweep, part 10: a left event at the first critical abscissa
    tied with a piece of the sweep line is noticed. *)
From Coq Require Import QArith Qcanon Bool List Arith Lia.
From Verif Require Import QcTac Model_Base Model_Utils Model_Linear Model_BentleyOttmann Spec_Base
  Spec_Sweep Proof_Base Proof_Line Proof_Sweep Proof_Sweep2 Proof_Sweep3 Proof_Sweep5 Proof_Sweep7
  Proof_Sweep8 Proof_Sweep9 Proof_Sweep10 Proof_Sweep11 Proof_Sweep12 Proof_Ottmann Proof_Ottmann2
  Proof_Ottmann3 Proof_Ottmann4 Proof_Ottmann5 Proof_Ottmann6 Proof_Ottmann7 Proof_Ottmann8
  Proof_Ottmann9.
Import ListNotations.
Local Open Scope Qc_scope.

Lemma search_found root o e z : forall fuel l1 l2,
  (length (l1 ++ z :: l2) <= fuel)%nat -> line_key_lt o e z = false -> line_key_lt o z e = false ->
  (forall x, In x l1 -> line_key_lt o x e = true /\ line_key_lt o e x = false) ->
  (forall x, In x l2 -> line_key_lt o e x = true) ->
  search fuel root o e (l1 ++ z :: l2) = (l1, Some z, l2).
Proof.
  intros fuel; induction fuel as [|fuel IH]; intros l1 l2 Lf He He' H1 H2.
  - exfalso. rewrite app_length in Lf. cbn in Lf. lia.
  - cbn [search].
    set (entries := l1 ++ z :: l2) in *.
    destruct (nth_error entries (root entries mod length entries)) as [x|] eqn:N.
    2: { exfalso. apply nth_error_None in N. assert (Le : length entries <> O).
      { unfold entries. rewrite app_length. cbn. lia. }
      pose proof (Nat.mod_upper_bound (root entries) (length entries) Le). lia. }
    pose proof (nth_error_split _ _ N) as (p & q & Ep & Lp).
    set (i := (root entries mod length entries)%nat) in *.
    assert (F1 : firstn i entries = p).
    { rewrite Ep, firstn_app, <- Lp, firstn_all, Nat.sub_diag. cbn. apply app_nil_r. }
    assert (F2 : skipn (S i) entries = q).
    { rewrite Ep. change (p ++ x :: q) with (p ++ [x] ++ q). rewrite app_assoc, skipn_app.
      rewrite skipn_all2 by (rewrite app_length; cbn; lia). rewrite app_length. cbn [length].
      replace (S i - (length p + 1))%nat with O by lia. reflexivity. }
    rewrite F1, F2. assert (Le : length entries = (length p + S (length q))%nat) by (rewrite Ep, app_length; reflexivity).
    assert (Pos : (exists r, l1 = p ++ x :: r /\ q = r ++ z :: l2)
                  \/ (z = x /\ l1 = p /\ l2 = q)
                  \/ (exists r, l2 = r ++ x :: q /\ p = l1 ++ z :: r)).
    { unfold entries in Ep. apply app_eq_app in Ep. destruct Ep as (r & [[E1 E2]|[E1 E2]]).
      - destruct r as [|y r].
        + cbn in E2. rewrite app_nil_r in E1. subst l1. right; left. injection E2 as -> ->. auto.
        + injection E2 as -> E2. left. exists r. split; auto.
      - destruct r as [|y r]; cbn in E2.
        + rewrite app_nil_r in E1. right; left. injection E2 as -> ->. auto.
        + injection E2 as -> E2. right; right. exists r. split; auto. }
    destruct Pos as [(r & -> & ->)|[(<- & -> & ->)|(r & -> & ->)]].
    + destruct (H1 x) as [A B]; [apply in_or_app; right; left; auto|]. rewrite B, A.
      rewrite IH; auto.
      * lia.
      * intros y I. apply H1. apply in_or_app; right; right; auto.
    + rewrite He, He'. reflexivity.
    + rewrite (H2 x); [|apply in_or_app; right; left; auto].
      rewrite IH; auto.
      * lia.
      * intros y I. apply H2. apply in_or_app; auto.
Qed.

Section Ten.
Variable c : ctx.
Hypothesis G : good c.
Hypothesis C0 : c_first c = O.
Variable R : Qc.
Hypothesis NB : calm c R.
Notation S' := (SX c). Notation E' := (EX c). Notation h := (hh c). Notation k := (kk c).
Notation EV := (EVX c). Notation d := (dd c).
Notation core := (core c). Notation below := (below c). Notation whole := (whole c R).
Notation apline := (apline c). Notation steady := (steady c R).
Notation wk := (wk c R). Notation flawed := (flawed c R). Notation begun := (begun c R).
Notation kept := (kept c R).

(** Pieces of the sweep line tied at [t] begin there. *)
Lemma tie_group o t x y : steady o t -> (forall x, active o x -> t < E' o x) -> active o x -> active o y -> x <> y ->
  h o x t = h o y t -> S' o x = t /\ S' o y = t.
Proof.
  intros V Bey. pose proof (s_core _ _ _ _ V) as C.
  assert (Ap : forall x y, adj (op_line o) x y -> h o x t = h o y t -> S' o x = t /\ S' o y = t).
  { intros a b Ad Eh. pose proof (adj_In _ _ _ Ad) as [Ia Ib]. apply (i_line _ _ _ C) in Ia. apply (i_line _ _ _ C) in Ib.
    pose proof (active_S _ _ _ _ C Ia). pose proof (active_S _ _ _ _ C Ib). pose proof (Bey a Ia) as B1. pose proof (Bey b Ib) as B2.
    destruct (s_apart _ _ _ _ V a b Ad t) as [Q1 Q2]; auto; try qlra.
    split; [destruct Q1 as [Q|Q]|destruct Q2 as [Q|Q]]; auto; rewrite Q in *; qlra. }
  assert (F : forall x y, before (op_line o) x y -> h o x t = h o y t -> S' o x = t /\ S' o y = t).
  { intros a b Bf Eh. split.
    - destruct (before_next _ _ _ Bf) as (w & Ad & Q). apply (Ap a w Ad).
      pose proof (be_t _ _ _ _ _ (i_ord _ _ _ C _ _ (adj_before _ _ _ Ad))) as B1. unfold dd in B1.
      destruct Q as [->|Q]; auto. pose proof (be_t _ _ _ _ _ (i_ord _ _ _ C _ _ Q)) as B2. unfold dd in B2. qlra.
    - destruct (before_prev _ _ _ Bf) as (w & Ad & Q). apply (Ap w b Ad).
      pose proof (be_t _ _ _ _ _ (i_ord _ _ _ C _ _ (adj_before _ _ _ Ad))) as B1. unfold dd in B1.
      destruct Q as [->|Q]; auto. pose proof (be_t _ _ _ _ _ (i_ord _ _ _ C _ _ Q)) as B2. unfold dd in B2. qlra. }
  intros Ax Ay N Eh. destruct (before_total (op_line o) x y) as [Bf|Bf]; auto; try (apply (i_line _ _ _ C); auto).
  destruct (F y x Bf (eq_sym Eh)); auto.
Qed.

Section Odd.
Variables (r : registry) (e z : event) (es : list event).
Notation o := (rg_op r).
Hypothesis V : steady o R.
Hypothesis Wk : wk r es.
Hypothesis Ie : In e (op_queue o).
Hypothesis Et : EV o e = R.
Hypothesis Re : is_event_left e = true.
Hypothesis Bey : forall x, active o x -> R < E' o x.
Hypothesis Az : active o z.
Hypothesis Hz : h o z R = h o e R.
Hypothesis Odd : S' o z < R \/ k o z = k o e.
Let C : core o R := s_core _ _ _ _ V.
Let W : wf c o := i_wf _ _ _ C.
Let Le : left_of o e := bl_left c r R e C Ie Re.
Let Se : S' o e = R := Et.
Let Ee : R < E' o e.
Proof. rewrite <- Se at 1. apply (w_lt c o W e Le). Qed.
Let F0 : op_first_count o = O := base_first c C0 _ (core_base c _ _ C).

Lemma odd_others y : active o y -> y <> z -> h o y R = h o e R -> S' o y = R /\ S' o z = R /\ k o z = k o e /\ k o y <> k o e.
Proof.
  intros Ay N Eh. destruct (tie_group o R y z V Bey Ay Az N) as [S1 S2]; [congruence|].
  split; auto. split; auto. assert (Kz : k o z = k o e) by (destruct Odd as [L|L]; auto; exfalso; rewrite S2 in L; qlra).
  split; auto. intros Ky. apply (active_cross c C0 o R y z C Ay Az N).
  apply (col_slope c o y z R); congruence.
Qed.
Lemma odd_neq : z <> e.
Proof. intros E. apply (bl_not_active r e Ie). rewrite <- E. exact Az. Qed.
Lemma odd_sid : sid o z <> sid o e.
Proof.
  intros E. pose proof (active_S _ _ _ _ C Az). pose proof (Bey z Az).
  destruct (w_disj c o W z e (proj1 Az) Le odd_neq E) as [Q|Q]; rewrite ?Se in Q; qlra.
Qed.

Section Lines.
Variables (A B : list event).
Hypothesis El : op_line o = A ++ z :: B.
Lemma odd_A x : In x A -> active o x /\ x <> z /\ below o R x e.
Proof.
  intros I. assert (Bf : before (op_line o) x z).
  { rewrite El. apply in_split in I. destruct I as (p & q & ->). exists p, q, B. rewrite <- app_assoc. reflexivity. }
  assert (Ax : active o x) by (apply (i_line _ _ _ C); apply (before_In _ _ _ Bf)).
  assert (Nx : x <> z) by (intros ->; apply (line_irrefl c o R z C Bf)).
  split; auto. split; auto. apply (bl_lower_below c r R e C Et x Ax). unfold blowerb.
  pose proof (i_ord _ _ _ C x z Bf) as [B1 Bt B3]. unfold dd, ds in *.
  destruct (Qc_eq_dec (h o x R) (h o e R)) as [E|E].
  - destruct (odd_others x Ax Nx E) as (S1 & S2 & K1 & K2).
    assert (Mx : mx (S' o x) (S' o z) = R) by (rewrite S1, S2; apply mx_eq_r, Qcle_refl). rewrite Mx in *.
    rewrite (proj2 (qeqb_true _ _) E). apply orb_true_iff. right. cbn [andb]. apply qltb_true.
    destruct B3 as [[_ B3]|(_ & B3 & _)]; try qlra.
    rewrite (no_first c C0 o x W) in B3. discriminate.
  - apply orb_true_iff. left. apply qltb_true. qne; qlra.
Qed.
Lemma odd_B y : In y B -> active o y /\ y <> z /\ below o R e y.
Proof.
  intros I. assert (Bf : before (op_line o) z y).
  { rewrite El. apply in_split in I. destruct I as (p & q & ->). exists A, p, q. reflexivity. }
  assert (Ay : active o y) by (apply (i_line _ _ _ C); apply (before_In _ _ _ Bf)).
  assert (Ny : y <> z) by (intros ->; apply (line_irrefl c o R z C Bf)).
  split; auto. split; auto. pose proof (i_ord _ _ _ C z y Bf) as [B1 Bt B3]. unfold dd, ds in *.
  apply (bl_upper_below c r R e C Et y Ay).
  - unfold blowerb. destruct (Qc_eq_dec (h o y R) (h o e R)) as [E|E].
    + destruct (odd_others y Ay Ny E) as (S1 & S2 & K1 & K2).
      assert (Mx : mx (S' o z) (S' o y) = R) by (rewrite S1, S2; apply mx_eq_r, Qcle_refl). rewrite Mx in *.
      apply orb_false_iff. split; [apply qltb_false; qlra|]. rewrite (proj2 (qeqb_true _ _) E). cbn [andb]. apply qltb_false.
      destruct B3 as [[_ B3]|(_ & B3 & _)]; try qlra.
      rewrite (no_first c C0 o z W) in B3. discriminate.
    + apply orb_false_iff. split; [apply qltb_false; qlra|]. destruct (qeqb_spec (h o y R) (h o e R)); [contradiction|reflexivity].
  - intros E. apply (odd_others y Ay Ny E).
Qed.

(** Comparisons with [e] in states where pieces may have been cut. *)
Lemma below_later o' x y : (forall w, left_of o w -> S' o' w = S' o w) -> (forall w t, left_of o w -> h o' w t = h o w t) ->
  (forall w, left_of o w -> k o' w = k o w) -> wf c o' -> left_of o x -> left_of o y -> left_of o' x -> left_of o' y ->
  below o R x y -> S' o x <= R -> S' o y <= R -> R <= E' o' x -> R <= E' o' y ->
  line_key_lt o' x y = true /\ line_key_lt o' y x = false.
Proof.
  intros HS Hh Hk W' Lx Ly Lx' Ly' [B1 Bt B3] Sx Sy Ex Ey.
  apply (lt_spec c o' R x y W' Lx' Ly'); auto; try (rewrite HS; auto).
  unfold dd, ds in *. constructor; unfold dd, ds; rewrite ?(HS x), ?(HS y), ?(Hh x), ?(Hh y), ?(Hk x), ?(Hk y); auto.
  intros Q1 Q2. destruct (B3 Q1 Q2) as [Q|(Q & Q3 & _)]; auto. rewrite (no_first c C0 o x W) in Q3. discriminate.
Qed.

(** [z] against [e]. *)
Lemma odd_compare : (line_key_lt o z e = true /\ line_key_lt o e z = false)
  \/ (line_key_lt o e z = true /\ line_key_lt o z e = false)
  \/ (line_key_lt o z e = false /\ line_key_lt o e z = false /\ pt o z = pt o e /\ to_event_end o z = to_event_end o e).
Proof.
  pose proof (active_S _ _ _ _ C Az) as Sz. pose proof (active_E _ _ _ _ C Az) as Ez.
  destruct (Qc_dec (k o z) (k o e)) as [[L|L]|Ek].
  - left. apply (lt_spec c o R z e W (proj1 Az) Le); auto; try (rewrite Se; apply Qcle_refl); try qlra.
    apply (bl_lower_below c r R e C Et z Az). unfold blowerb. rewrite (proj2 (qeqb_true _ _) Hz), (proj2 (qltb_true _ _) L).
    apply orb_true_r.
  - right; left. apply (lt_spec c o R e z W Le (proj1 Az)); auto; try (rewrite Se; apply Qcle_refl); try qlra.
    apply (bl_upper_below c r R e C Et z Az).
    + unfold blowerb. apply orb_false_iff. split; [apply qltb_false; rewrite Hz; apply Qcle_refl|].
      apply andb_false_iff. right. apply qltb_false. qlra.
    + intros _ E. rewrite E in L. qlra.
  - pose proof (col_slope c o z e R Ek Hz) as [_ Col].
    assert (Col' : forall t, h o e t = h o z t) by (intros; symmetry; apply Col).
    rewrite (line_key_col c C0 o z e W (proj1 Az) Le Col), (line_key_col c C0 o e z W Le (proj1 Az) Col').
    destruct (tail_cases (pt o z) (to_event_end o z) (pt o e) (to_event_end o e)) as [Q|[Q|[P1 P2]]].
    + left. split; auto. apply tail_asym; auto.
    + right; left. split; auto. apply tail_asym; auto.
    + right; right. rewrite P1, P2.
      assert (Q : tail_lt (pt o e) (to_event_end o e) (pt o e) (to_event_end o e) = false).
      { destruct (tail_lt (pt o e) (to_event_end o e) (pt o e) (to_event_end o e)) eqn:Q; auto.
        pose proof (tail_asym _ _ _ _ Q). congruence. }
      auto.
Qed.
Notation es' := (es ++ [e]).
Lemma odd_wk line : (forall x, In x line -> x = e \/ In x (op_line o)) -> wk (set_op r (relined o e line)) es'.
Proof.
  intros I. destruct (wk_pop c R r es e Wk Ie Et) as [Wk1 _].
  destruct (wk_line c C0 R _ es' line Wk1) as (Wk2 & _); [|exact Wk2].
  intros x Ix. cbn [rg_op set_op]. destruct (I x Ix) as [->|J].
  - split; [exact Le|]. change (S' (popping o e) e) with (S' o e). rewrite Se. split; [apply Qcle_refl|].
    intros _. apply in_or_app; right; left; auto.
  - destruct (k_line c R r es Wk x J) as (B1 & B2 & B3). split; auto. split; auto. intros Q. apply in_or_app; left; auto.
Qed.
Lemma odd_begun line : begun (relined o e line) es' e.
Proof.
  split; [exact Le|]. change (S' (relined o e line) e) with (S' o e). rewrite Se. split; [apply Qcle_refl|].
  intros _. apply in_or_app; right; left; auto.
Qed.
Lemma odd_tie shape index r1 r2 Y Z : wk r1 es' -> left_of (rg_op r1) Y -> left_of (rg_op r1) Z ->
  registry_detect shape index r1 Y Z = Some r2 -> S' (rg_op r1) Y <= R -> R < E' (rg_op r1) Y ->
  S' (rg_op r1) Z <= R -> R < E' (rg_op r1) Z -> d (rg_op r1) Y Z R = 0 ->
  (S' (rg_op r1) Y < R \/ S' (rg_op r1) Z < R \/ forall t, d (rg_op r1) Y Z t = 0) -> flawed r2 es'.
Proof.
  intros Wk1 LY LZ D A1 A2 A3 A4 A5 A6.
  destruct (detect_tie c G C0 R NB shape index r1 r2 Y Z es' (k_base c R r1 es' Wk1) LY LZ D A1 A2 A3 A4 A5 A6)
    as [(mid & X1 & T)|(i & j & N & Li & Lj & M)].
  - apply (flawed_twin c R r2 es' mid); auto.
  - apply (flawed_merged c R r1 r2 es' i j); auto. apply (k_dec c R r1 es' Wk1).
Qed.
Lemma odd_why (o' : operation) : (forall w, left_of o w -> S' o' w = S' o w) -> (forall w t, left_of o w -> h o' w t = h o w t) ->
  S' o' z < R \/ forall t, h o' z t = h o' e t.
Proof.
  intros HS Hh. destruct Odd as [L|Ek]; [left; rewrite HS; auto; apply Az|right]. intros t. rewrite !Hh; auto; [|apply Az].
  apply (col_slope c o z e R Ek Hz).
Qed.

(** [e] above [z]. *)
Lemma odd_case1 shape r' : line_key_lt o z e = true -> line_key_lt o e z = false ->
  registry_process shape (set_op r (popping o e)) e = Some r' -> flawed r' es'.
Proof.
  intros L1 L2. assert (El' : op_line o = (A ++ [z]) ++ B) by (rewrite El, <- app_assoc; reflexivity).
  pose proof (active_S _ _ _ _ C Az) as Sz. pose proof (Bey z Az) as Ez.
  rewrite (bl_process c C0 r R e C Ie Re (A ++ [z]) B El').
  2: { intros x I. apply in_app_or in I. destruct I as [I|[<-|[]]]; [|split; auto].
       destruct (odd_A x I) as (Ax & Nx & Bx).
       apply (lt_spec c o R x e W (proj1 Ax) Le Bx); auto; try (rewrite Se; apply Qcle_refl); try qlra.
       - apply (active_S _ _ _ _ C Ax).
       - apply (active_E _ _ _ _ C Ax). }
  2: { intros x I. destruct (odd_B x I) as (Ax & Nx & Bx).
       apply (lt_spec c o R e x W Le (proj1 Ax) Bx); auto; try (rewrite Se; apply Qcle_refl); try qlra.
       - apply (active_S _ _ _ _ C Ax).
       - apply (active_E _ _ _ _ C Ax). }
  2: { intros x. rewrite rev_app_distr. cbn. intros [= <-] [P1 P2].
       assert (Col : forall t, h o z t = h o e t) by (apply (same_two c); auto; apply Az).
       rewrite (line_key_col c C0 o z e W (proj1 Az) Le Col), P1, P2 in L1.
       pose proof (tail_asym _ _ _ _ L1). congruence. }
  rewrite rev_app_distr. cbn [rev app hd_error registry_detect_optional].
  set (line := (A ++ [z]) ++ e :: B). set (r1 := set_op r (relined o e line)).
  assert (Wk1 : wk r1 es').
  { apply odd_wk. intros x I. unfold line in I. rewrite El'. rewrite !in_app_iff in *. cbn in *. intuition. }
  destruct (registry_detect shape 3 r1 z e) as [r2|] eqn:D; [|discriminate]. intros D2.
  change (registry_detect_optional shape 6 r2 (Some e) (registry_above shape 5 (rg_op r2) e) = Some r') in D2.
  assert (Bz : begun (rg_op r1) es' z).
  { apply (k_line c R r1 es' Wk1). unfold r1, line. cbn. rewrite !in_app_iff. cbn. auto. }
  assert (Fl : flawed r2 es').
  { apply (odd_tie shape 3 r1 r2 z e Wk1); auto.
    - apply Az.
    - change (S' o e <= R). rewrite Se. apply Qcle_refl.
    - change (h o e R - h o z R = 0). rewrite Hz. ring.
    - destruct (odd_why (rg_op r1)) as [Q|Q]; auto. right; right. intros t. unfold dd. rewrite Q. ring. }
  destruct (detect_kept c G C0 R NB shape 3 r1 z e r2 es' Wk1 Bz (odd_begun line) D) as (Wk2 & La2 & _).
  apply (detect_optional_kept c G C0 R NB shape 6 r2 _ _ r' es' Wk2) in D2.
  - destruct D2 as (_ & _ & F). auto.
  - intros y [= <-]. apply (begun_later c C0 R (rg_op r1)); auto. apply odd_begun.
  - intros y Q. apply registry_above_In in Q; [|apply (base_first c C0), (k_base c R r2 es' Wk2)]. apply (k_line c R r2 es' Wk2); auto.
Qed.

(** [e] is [z]. *)
Lemma odd_case3 shape r' : line_key_lt o z e = false -> line_key_lt o e z = false -> pt o z = pt o e ->
  to_event_end o z = to_event_end o e ->
  registry_process shape (set_op r (popping o e)) e = Some r' -> flawed r' es'.
Proof.
  intros L1 L2 P1 P2. unfold registry_process. rewrite Re. cbv zeta. cbn [rg_op set_op].
  assert (Lk : registry_lookup shape 0 (popping o e) e = (A, Some z, B)).
  { rewrite registry_lookup_eq by exact F0. unfold lookup. change (op_line (popping o e)) with (op_line o). rewrite El.
    apply search_found; auto.
    - intros x I. destruct (odd_A x I) as (Ax & Nx & Bx). change (line_key_lt o x e = true /\ line_key_lt o e x = false).
      apply (lt_spec c o R x e W (proj1 Ax) Le Bx); auto; try (rewrite Se; apply Qcle_refl); try qlra.
      + apply (active_S _ _ _ _ C Ax).
      + apply (active_E _ _ _ _ C Ax).
    - intros x I. destruct (odd_B x I) as (Ax & Nx & Bx). change (line_key_lt o e x = true).
      apply (lt_spec c o R e x W Le (proj1 Ax) Bx); auto; try (rewrite Se; apply Qcle_refl); try qlra.
      + apply (active_S _ _ _ _ C Ax).
      + apply (active_E _ _ _ _ C Ax). }
  unfold registry_find. rewrite Lk.
  change (to_event_start (popping o e) z) with (pt o z). change (to_event_start (popping o e) e) with (pt o e).
  change (to_event_end (popping o e) z) with (to_event_end o z). change (to_event_end (popping o e) e) with (to_event_end o e).
  rewrite P1, P2. rewrite !(proj2 (point_eq_true _ _) eq_refl). cbn [andb]. intros [= <-].
  apply (flawed_merged c R r _ es' (sid o z) (sid o e)).
  - apply (k_dec c R r es Wk).
  - rewrite merge_merged. reflexivity.
  - apply (w_sid c o W). apply Az.
  - apply (w_sid c o W). apply Le.
  - apply odd_sid.
Qed.

(** [e] below [z]. *)
Section Below.
Hypothesis L1 : line_key_lt o e z = true.
Hypothesis L2 : line_key_lt o z e = false.
Notation line := (A ++ e :: z :: B).
Notation r1 := (set_op r (relined o e line)).

Lemma odd_z_again (o' : operation) : wf c o' -> left_of o' e -> left_of o' z -> (forall w, left_of o w -> S' o' w = S' o w) ->
  (forall w t, left_of o w -> h o' w t = h o w t) -> (forall w, left_of o w -> k o' w = k o w) ->
  (forall w, left_of o w -> pt o' w = pt o w) -> E' o' z = E' o z -> R < E' o' e -> E' o' e <= E' o e ->
  (S' o z = R -> k o z = k o e -> E' o z < E' o e -> E' o z < E' o' e) ->
  line_key_lt o' e z = true /\ line_key_lt o' z e = false.
Proof.
  intros W' Le' Lz' HS Hh Hk Hp Ez Ee1 Ee2 Ee3. pose proof (active_S _ _ _ _ C Az) as Sz. pose proof (Bey z Az) as Ezr.
  destruct (Qc_dec (k o z) (k o e)) as [[L|L]|Ek].
  - exfalso. assert (Q : line_key_lt o z e = true); [|congruence].
    apply (lt_spec c o R z e W (proj1 Az) Le); auto; try (rewrite Se; apply Qcle_refl); try qlra.
    apply (bl_lower_below c r R e C Et z Az). unfold blowerb. rewrite (proj2 (qeqb_true _ _) Hz), (proj2 (qltb_true _ _) L).
    apply orb_true_r.
  - apply (below_later o' e z); auto; try apply Az; try (rewrite Se; apply Qcle_refl); try (rewrite ?Ez; qlra).
    apply (bl_upper_below c r R e C Et z Az).
    + unfold blowerb. apply orb_false_iff. split; [apply qltb_false; rewrite Hz; apply Qcle_refl|].
      apply andb_false_iff. right. apply qltb_false. qlra.
    + intros _ E. rewrite E in L. qlra.
  - pose proof (col_slope c o z e R Ek Hz) as [_ Col].
    assert (Col' : forall t, h o e t = h o z t) by (intros; symmetry; apply Col).
    assert (Col1 : forall t, h o' e t = h o' z t) by (intros t; rewrite !Hh; auto; apply Az).
    assert (Col2 : forall t, h o' z t = h o' e t) by (intros t; symmetry; auto).
    assert (Q : line_key_lt o' e z = true).
    { destruct (point_dec (pt o e) (pt o z)) as [P|P].
      - rewrite (key_same_start c C0 o' e z W' Le' Lz' Col1) by (rewrite ?Hk, ?Hp; auto; apply Az).
        rewrite (key_same_start c C0 o e z W Le (proj1 Az) Col') in L1 by auto. rewrite Hk by auto. rewrite Ez.
        assert (Sz' : S' o z = R) by (unfold SX; rewrite <- P; exact Se).
        destruct (qltb (k o e) 0).
        + apply qltb_true in L1. apply qltb_true. auto.
        + apply qltb_true in L1. apply qltb_true. qlra.
      - rewrite (line_key_col c C0 o' e z W' Le' Lz' Col1).
        rewrite (line_key_col c C0 o e z W Le (proj1 Az) Col') in L1. rewrite !Hp by (auto; apply Az).
        rewrite <- L1. apply tail_starts; auto. }
    split; auto. rewrite (line_key_col c C0 o' z e W' Lz' Le' Col2).
    rewrite (line_key_col c C0 o' e z W' Le' Lz' Col1) in Q. apply tail_asym; auto.
Qed.

Lemma odd_lookup (o' : operation) shape i : base c o' -> op_line o' = line -> (forall w, left_of o w -> left_of o' w) ->
  (forall w, left_of o w -> S' o' w = S' o w) ->
  (forall w t, left_of o w -> h o' w t = h o w t) -> (forall w, left_of o w -> k o' w = k o w) ->
  (forall w, left_of o w -> pt o' w = pt o w) -> (forall w, active o w -> R <= E' o' w) ->
  E' o' z = E' o z -> R < E' o' e -> E' o' e <= E' o e ->
  (S' o z = R -> k o z = k o e -> E' o z < E' o e -> E' o z < E' o' e) ->
  registry_lookup shape i o' e = (A, Some e, z :: B).
Proof.
  intros B' Li Ll HS Hh Hk Hp HE Ez Ee1 Ee2 Ee3. pose proof (proj1 B') as W'.
  apply bl_lookup1; auto.
  - apply (base_first c C0); auto.
  - apply (line_key_irrefl c o' e W'). auto.
  - intros x I. destruct (odd_A x I) as (Ax & Nx & Bx).
    apply (below_later o' x e); auto; try (apply Ll); try apply Ax; try (rewrite Se; apply Qcle_refl); try qlra.
    apply (active_S _ _ _ _ C Ax).
  - intros x [<-|I]; [apply odd_z_again; auto; apply Ll, Az|]. destruct (odd_B x I) as (Ax & Nx & Bx).
    apply (below_later o' e x); auto; try (apply Ll); try apply Ax; try (rewrite Se; apply Qcle_refl); try qlra.
    apply (active_S _ _ _ _ C Ax).
Qed.

Lemma odd_case2 shape r' : registry_process shape (set_op r (popping o e)) e = Some r' -> flawed r' es'.
Proof.
  pose proof (active_S _ _ _ _ C Az) as Sz. pose proof (Bey z Az) as Ez.
  assert (CmpA : forall x, In x A -> line_key_lt o x e = true /\ line_key_lt o e x = false).
  { intros x I. destruct (odd_A x I) as (Ax & Nx & Bx).
    apply (lt_spec c o R x e W (proj1 Ax) Le Bx); auto; try (rewrite Se; apply Qcle_refl); try qlra.
    - apply (active_S _ _ _ _ C Ax).
    - apply (active_E _ _ _ _ C Ax). }
  rewrite (bl_process c C0 r R e C Ie Re A (z :: B) El); auto.
  2: { intros x [<-|I]; [split; auto|]. destruct (odd_B x I) as (Ax & Nx & Bx).
       apply (lt_spec c o R e x W Le (proj1 Ax) Bx); auto; try (rewrite Se; apply Qcle_refl); try qlra.
       - apply (active_S _ _ _ _ C Ax).
       - apply (active_E _ _ _ _ C Ax). }
  2: { intros x Ix [P1 P2]. apply last_In in Ix. destruct (odd_A x Ix) as (Ax & Nx & Bx). destruct (CmpA x Ix) as [Q _].
       assert (Col : forall t, h o x t = h o e t) by (apply (same_two c); auto; apply Ax).
       rewrite (line_key_col c C0 o x e W (proj1 Ax) Le Col), P1, P2 in Q.
       pose proof (tail_asym _ _ _ _ Q). congruence. }
  assert (Wk1 : wk r1 es').
  { apply odd_wk. intros x I. rewrite El. rewrite !in_app_iff in *. cbn in *. intuition. }
  assert (B1 : base c (rg_op r1)) by apply (k_base c R r1 es' Wk1).
  (* the first detection *)
  assert (Step : forall r2, registry_detect_optional shape 3 r1 (hd_error (rev A)) (Some e) = Some r2 ->
    kept r1 r2 es' /\ (flawed r2 es' \/ (registry_above shape 5 (rg_op r2) e = Some z
      /\ (forall w, left_of o w -> S' (rg_op r2) w = S' o w) /\ (forall w t, left_of o w -> h (rg_op r2) w t = h o w t)
      /\ E' (rg_op r2) z = E' o z /\ R < E' (rg_op r2) e))).
  { intros r2 D. destruct (hd_error (rev A)) as [b|] eqn:Eb; cbn [registry_detect_optional] in D.
    - pose proof (last_In _ _ Eb) as Ib. destruct (odd_A b Ib) as (Ab & Nb & Bb).
      assert (Neb : b <> e) by (intros ->; apply (bl_not_active r e Ie Ab)).
      assert (Bgb : begun (rg_op r1) es' b).
      { apply (k_line c R r1 es' Wk1). cbn. apply in_or_app; auto. }
      split; [apply (detect_kept c G C0 R NB shape 3 r1 b e r2 es' Wk1 Bgb (odd_begun line) D)|].
      assert (Nc : exists t, d (rg_op r1) b e t <> 0).
      { destruct (Qc_eq_dec (h o b R) (h o e R)) as [E|E].
        - destruct (odd_others b Ab Nb E) as (_ & _ & _ & Kb). exists (R + 1). intros Q.
          change (h o e (R + 1) - h o b (R + 1) = 0) in Q.
          destruct (col_two c o b e R (R + 1)) as [Kq _]; auto; [intros Q'; qlra|qlra].
        - exists R. intros Q. change (h o e R - h o b R = 0) in Q. apply E. qlra. }
      destruct (cross_result c G C0 R NB shape 3 r1 r2 b e B1 (proj1 Ab) Le Neb Nc D) as [(i & j & N & Li & Lj & M)|[Pl Cs]].
      + left. apply (flawed_merged c R r1 r2 es' i j); auto. apply (k_dec c R r1 es' Wk1).
      + right.
        assert (Fr : forall o', places c R (rg_op r1) b e o' -> base c o' /\ op_line o' = line
          /\ (forall w, left_of o w -> left_of o' w) /\ (forall w, left_of o w -> S' o' w = S' o w)
          /\ (forall w t, left_of o w -> h o' w t = h o w t) /\ (forall w, left_of o w -> k o' w = k o w)
          /\ (forall w, left_of o w -> pt o' w = pt o w) /\ (forall w, active o w -> R <= E' o' w)
          /\ E' o' z = E' o z).
        { intros o' [G1 G2 G3 G4 G5 G6 G7 G8]. pose proof G1 as (Bo & La & _).
          split; auto. split; auto. split; [intros w; apply (later_left c C0 R (rg_op r1)); auto|].
          split; auto. split; auto. split; auto.
          split; [intros w Lw; apply (la_pt _ _ _ _ La); apply Lw|].
          split.
          - intros w Aw. pose proof (Bey w Aw) as Ew. assert (Nw : w <> e) by (intros ->; apply (bl_not_active r e Ie Aw)).
            destruct (Nat.eq_dec w b) as [->|Nwb].
            + destruct G7 as [Q|Q]; auto. rewrite Q. change (R <= E' o b). qlra.
            + rewrite G6; auto; [|apply Aw]. change (R <= E' o w). qlra.
          - apply G6; auto; [apply Az|apply odd_neq]. }
        destruct (Fr _ Pl) as (Bo & Fl & Fll & FS & Fh & Fk & Fp & FE & Fz).
        assert (Done : R < E' (rg_op r2) e -> E' (rg_op r2) e <= E' o e ->
           (S' o z = R -> k o z = k o e -> E' o z < E' o e -> E' o z < E' (rg_op r2) e) ->
           registry_above shape 5 (rg_op r2) e = Some z
            /\ (forall w, left_of o w -> S' (rg_op r2) w = S' o w) /\ (forall w t, left_of o w -> h (rg_op r2) w t = h o w t)
            /\ E' (rg_op r2) z = E' o z /\ R < E' (rg_op r2) e).
        { intros Q1 Q2 Q3. split; auto. unfold registry_above. rewrite (odd_lookup (rg_op r2) shape 5); auto. }
        destruct Cs as [Q|(mid & rr & Cu & Em & Pl1 & E1 & Un)].
        * change (E' (rg_op r2) e = E' o e) in Q. apply Done; rewrite Q; auto. apply Qcle_refl.
        * destruct Cu as [Ci Cl Cm CS CE CSm CEm _].
          change (py mid = h o e (X c mid)) in Cl. change (py mid = h o b (X c mid)) in Cm.
          change (S' o e < X c mid) in CS. change (X c mid < E' o e) in CE. change (S' o b <= X c mid) in CSm.
          change (X c mid <= E' o b) in CEm. rewrite Se in CS.
          apply Done; rewrite ?Em; auto; [qlra|]. intros Sz' Kz Lz.
          destruct (Qc_dec (E' o z) (X c mid)) as [[Q|Q]|Q]; auto; exfalso.
          -- assert (Ad : adj (op_line o) b z) by (rewrite El; apply last_adj; auto).
             destruct (s_apart _ _ _ _ V b z Ad (X c mid)) as [_ Q']; auto; try qlra.
             { rewrite <- Cm, Cl. symmetry. apply (col_slope c o z e R Kz Hz). }
             destruct Q' as [Q'|Q']; rewrite Q' in *; qlra.
          -- destruct (Fr _ Pl1) as (Bo1 & Fl1 & Fll1 & FS1 & Fh1 & Fk1 & Fp1 & FE1 & Fz1).
             change (E' (rg_op r1) e) with (E' o e) in E1.
             assert (Ab1 : registry_above shape 3 (rg_op rr) e = Some z).
             { unfold registry_above. rewrite (odd_lookup (rg_op rr) shape 3); auto; try (rewrite E1; auto); apply Qcle_refl. }
             apply (Un z Ab1).
             ++ rewrite !Fp1; auto; [|apply Az]. apply (X_inj c G); [apply (w_ptS c o W); apply Az|apply (w_ptS c o W); apply Le|].
                change (S' o z = S' o e). congruence.
             ++ apply (X_inj c G); auto.
                ** apply (w_ptE c _ (proj1 Bo1)). apply Fll1, Az.
                ** change (E' (rg_op rr) z = X c mid). congruence.
    - injection D as <-. split; [apply (kept_refl c C0); auto|]. right.
      assert (EA : A = []) by (destruct (rev A) eqn:Q; [|discriminate]; rewrite <- (rev_involutive A), Q; reflexivity).
      split; auto. unfold registry_above. rewrite (odd_lookup (rg_op r1) shape 5); auto.
      + intros w Aw. pose proof (Bey w Aw). change (R <= E' o w). qlra.
      + apply Qcle_refl. }
  destruct (registry_detect_optional shape 3 r1 (hd_error (rev A)) (Some e)) as [r2|] eqn:D; [|discriminate].
  destruct (Step r2 eq_refl) as ((Wk2 & La2 & _) & Cs). intros D2.
  pose proof (k_base c R r2 es' Wk2) as B2.
  assert (Kp : kept r2 r' es').
  { revert D2. apply (detect_optional_kept c G C0 R NB); auto.
    - intros y [= <-]. apply (begun_later c C0 R (rg_op r1)); auto. apply odd_begun.
    - intros y Q. apply registry_above_In in Q; [|apply (base_first c C0); auto]. apply (k_line c R r2 es' Wk2); auto. }
  destruct Cs as [Fl|(Ab & FS & Fh & Fz & Fe)]; [apply Kp; auto|].
  rewrite Ab in D2. cbn [registry_detect_optional] in D2.
  apply (odd_tie shape 6 r2 r' e z Wk2); auto.
  - apply (later_left c C0 R (rg_op r1)); auto.
  - apply (later_left c C0 R (rg_op r1)); auto. apply Az.
  - rewrite FS by exact Le. rewrite Se. apply Qcle_refl.
  - rewrite FS by apply Az. auto.
  - rewrite Fz. auto.
  - unfold dd. rewrite !Fh; auto; [|apply Az]. rewrite Hz. ring.
  - destruct (odd_why (rg_op r2)) as [Q|Q]; auto. right; right. intros t. unfold dd. rewrite Q. ring.
Qed.
End Below.

Lemma odd_lines shape r' : registry_process shape (set_op r (popping o e)) e = Some r' -> flawed r' es'.
Proof.
  destruct odd_compare as [[Q1 Q2]|[[Q1 Q2]|(Q1 & Q2 & Q3 & Q4)]].
  - apply odd_case1; auto.
  - apply odd_case2; auto.
  - apply odd_case3; auto.
Qed.
End Lines.
Lemma odd_left shape r' : registry_process shape (set_op r (popping o e)) e = Some r' -> flawed r' (es ++ [e]).
Proof.
  assert (I : In z (op_line o)) by (apply (i_line _ _ _ C); auto).
  apply in_split in I. destruct I as (A & B & El). apply (odd_lines A B El).
Qed.
End Odd.
End Ten.
