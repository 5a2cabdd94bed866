(** The Bentley-Ottmann sweep, part 11: a run that reaches a critical abscissa does not
    visit all the intersections. *)
From Coq Require Import QArith Qcanon Bool List Arith Lia.
From Verif Require Import QcTac Model_Base Model_Utils Model_Linear Model_BentleyOttmann Spec_Base
  Spec_Sweep Proof_Base Proof_Line Proof_Sweep Proof_Sweep2 Proof_Sweep3 Proof_Sweep5 Proof_Sweep7
  Proof_Sweep8 Proof_Sweep9 Proof_Sweep10 Proof_Sweep11 Proof_Sweep12 Proof_Ottmann Proof_Ottmann2
  Proof_Ottmann3 Proof_Ottmann4 Proof_Ottmann5 Proof_Ottmann6 Proof_Ottmann7 Proof_Ottmann8
  Proof_Ottmann9 Proof_Ottmann10.
Import ListNotations.
Local Open Scope Qc_scope.

Section Eleven.
Variable c : ctx.
Hypothesis G : good c.
Hypothesis C0 : c_first c = O.
Variable R : Qc.
Hypothesis NB : calm c R.
Notation S' := (SX c). Notation E' := (EX c). Notation h := (hh c). Notation k := (kk c).
Notation EV := (EVX c). Notation d := (dd c).
Notation core := (core c). Notation below := (below c). Notation whole := (whole c R).
Notation apline := (apline c). Notation steady := (steady c R).
Notation wk := (wk c R). Notation flawed := (flawed c R). Notation begun := (begun c R).
Notation Sx i := (X c (fst (input c i))).
Notation Ex i := (X c (snd (input c i))).
Notation n := (length (c_ins c)).

(** The ways two inputs may meet at [R] other than in a common endpoint. *)
Definition inside : Prop := exists i j, (i < n)%nat /\ (j < n)%nat /\ i <> j /\ Sx i < R /\ R < Ex i
  /\ Sx j <= R /\ R <= Ex j /\ H c i R = H c j R.
Definition along : Prop := exists i j, (i < n)%nat /\ (j < n)%nat /\ i <> j /\ Sx i = R /\ Sx j = R
  /\ K c i = K c j.

(** A piece through [R] is tied with no other piece of the line. *)
Lemma lonely o x y : steady o R -> active o x -> active o y -> x <> y -> S' o x < R -> R < E' o x ->
  h o x R = h o y R -> False.
Proof.
  intros V Ax Ay N S1 E1 Eh. pose proof (s_core _ _ _ _ V) as C.
  assert (Ap : forall w, active o w -> (adj (op_line o) x w \/ adj (op_line o) w x) -> h o x R = h o w R -> False).
  { intros w Aw Ad Q. pose proof (active_S _ _ _ _ C Aw). pose proof (active_E _ _ _ _ C Aw).
    destruct Ad as [Ad|Ad].
    - destruct (s_apart _ _ _ _ V x w Ad R) as [[Q1|Q1] _]; auto; try qlra; rewrite Q1 in *; qlra.
    - destruct (s_apart _ _ _ _ V w x Ad R) as [_ [Q1|Q1]]; auto; try qlra; rewrite Q1 in *; qlra. }
  destruct (before_total (op_line o) x y) as [Bf|Bf]; auto; try (apply (i_line _ _ _ C); auto).
  - destruct (before_next _ _ _ Bf) as (w & Ad & Q). pose proof (adj_In _ _ _ Ad) as [_ Iw].
    apply (Ap w); auto; [apply (i_line _ _ _ C); auto|].
    pose proof (be_t _ _ _ _ _ (i_ord _ _ _ C _ _ (adj_before _ _ _ Ad))) as B1. unfold dd in B1.
    destruct Q as [->|Q]; auto. pose proof (be_t _ _ _ _ _ (i_ord _ _ _ C _ _ Q)) as B2. unfold dd in B2. qlra.
  - destruct (before_prev _ _ _ Bf) as (w & Ad & Q). pose proof (adj_In _ _ _ Ad) as [Iw _].
    apply (Ap w); auto; [apply (i_line _ _ _ C); auto|].
    pose proof (be_t _ _ _ _ _ (i_ord _ _ _ C _ _ (adj_before _ _ _ Ad))) as B1. unfold dd in B1.
    destruct Q as [->|Q]; auto. pose proof (be_t _ _ _ _ _ (i_ord _ _ _ C _ _ Q)) as B2. unfold dd in B2. qlra.
Qed.

(** ** Arrival at [R] *)
Section Entry.
Variables (r : registry) (t : Qc).
Notation o := (rg_op r).
Hypothesis V : steady o t.
Hypothesis Lt : t < R.
Hypothesis Qu : forall e, In e (op_queue o) -> R <= EV o e.
Hypothesis Mi : rg_min_collinear r = seq 0 n.
Let C : core o t := s_core _ _ _ _ V.
Let W : wf c o := i_wf _ _ _ C.

Lemma entry_steady : steady o R.
Proof. apply (steady_next c R NB o t); auto. apply Qcle_refl. Qed.
Lemma seq_decreasing : decreasing n (rg_min_collinear r).
Proof. rewrite Mi. split; [apply seq_length|]. intros i L. rewrite seq_nth by auto. lia. Qed.
Lemma seq_closed U : closed n U (rg_min_collinear r).
Proof. intros i L Q. rewrite Mi, seq_nth in Q by auto. destruct Q. reflexivity. Qed.
Lemma entry_wk : wk r [].
Proof.
  constructor.
  - apply (core_base c o t C).
  - exact Qu.
  - intros x [].
  - intros x I. apply (i_line _ _ _ C) in I. pose proof (active_S _ _ _ _ C I) as Q. split; [apply I|].
    split; [qlra|]. intros E. exfalso. rewrite E in Q. qlra.
  - apply seq_decreasing.
  - apply seq_closed.
Qed.

(** The piece at the start of an input begun before [R]. *)
Lemma entry_piece i : (i < n)%nat -> Sx i < R -> R <= Ex i ->
  exists Y, active o Y /\ sid o Y = i /\ S' o Y = Sx i /\ R <= E' o Y.
Proof.
  intros L L1 L2. destruct (w_cover c o W i (Sx i) L) as (Y & LY & Si & A1 & A2); [apply Qcle_refl|qlra|].
  destruct (w_in c o W Y LY) as [B1 B2]. rewrite Si in B1, B2. pose proof (w_lt c o W Y LY) as L3.
  assert (Es : S' o Y = Sx i) by (apply Qcle_antisym; auto).
  destruct (s_whole _ _ _ _ V Y LY) as (_ & Q & _). rewrite Si in Q.
  assert (Re : R <= E' o Y) by (destruct Q as [Q|Q]; [auto|rewrite Q; auto]).
  exists Y. split; auto. split; auto. split.
  - intros I. apply Qu in I. change (R <= S' o Y) in I. qlra.
  - destruct (in_dec Nat.eq_dec (opp o Y) (op_queue o)) as [|N]; auto. exfalso.
    pose proof (i_E _ _ _ C Y (conj LY N)). qlra.
Qed.

Lemma entry_nonempty : (exists i, (i < n)%nat /\ R < Ex i) -> op_queue o <> [].
Proof.
  intros (i & L & L2) E. destruct (g_ins c G i L) as (Lx & P1 & P2). pose proof (proj2 (X_lt c G _ _ P1 P2) Lx).
  destruct (w_cover c o W i (Ex i) L) as (Y & LY & Si & A1 & A2); [qlra|apply Qcle_refl|].
  assert (D : done o Y) by (split; auto; rewrite E; auto). pose proof (i_E _ _ _ C Y D). qlra.
Qed.

Lemma entry_inside : inside -> flawed r [] \/ forall shape e r', is_head o e ->
  registry_process shape (set_op r (popping o e)) e = Some r' -> EV o e = R /\ flawed r' [e].
Proof.
  intros (i & j & Li & Lj & N & A1 & A2 & B1 & B2 & Eh).
  pose proof entry_steady as V'. pose proof (s_core _ _ _ _ V') as C'.
  assert (A2' : R <= Ex i) by qlra.
  destruct (entry_piece i Li A1 A2') as (Y & AY & SiY & SY & EY).
  destruct (Qcle_lt_or_eq _ _ EY) as [EY'|EY'].
  - right. intros shape e r' Hd Pr.
    assert (Sj : Sx j = R).
    { destruct (Qcle_lt_or_eq _ _ B1) as [Q|Q]; auto. exfalso.
      destruct (entry_piece j Lj Q B2) as (Z & AZ & SiZ & SZ & EZ).
      apply (lonely o Y Z V' AY AZ); auto; try congruence.
      unfold hh. rewrite SiY, SiZ. exact Eh. }
    destruct (g_ins c G j Lj) as (Lx & P1 & P2).
    assert (Py : py (fst (input c j)) = H c j R). { unfold H. rewrite Sj. ring. }
    assert (At : forall x, In x (op_queue o) -> EV o x = R -> py (pt o x) = h o Y R).
    { intros x I Q. assert (Ep : pt o x = fst (input c j)).
      { apply (X_inj c G); auto; [apply (ev_pts c o x W), (i_qsz _ _ _ C); auto|]. rewrite Sj. exact Q. }
      rewrite Ep, Py, <- Eh. unfold hh. rewrite SiY. reflexivity. }
    assert (Rt : forall x, In x (op_queue o) -> EV o x = R -> is_event_left x = true).
    { intros x I Q. destruct (is_event_left x) eqn:Lx'; auto. exfalso.
      destruct (k_opp o (w_linked c o W) x (i_qsz _ _ _ C x I)) as (K1 & K2 & K3). rewrite Lx' in K3.
      assert (LO : left_of o (opp o x)) by (split; auto).
      assert (EO : E' o (opp o x) = R) by (unfold EX; rewrite K2; exact Q).
      pose proof (w_lt c o W _ LO) as L3.
      assert (AO : active o (opp o x)).
      { split; auto. split; [|rewrite K2; auto]. intros J. apply Qu in J. change (R <= S' o (opp o x)) in J. qlra. }
      apply (lonely o Y (opp o x) V' AY AO); auto.
      - intros E. rewrite <- E in EO. rewrite EO in EY'. qlra.
      - rewrite SY. auto.
      - rewrite <- (At x I Q). pose proof (w_E c o W _ LO) as Q9. rewrite EO, K2 in Q9. exact Q9. }
    destruct (w_cover c o W j R Lj) as (Z & LZ & SiZ & _ & _); [rewrite Sj; apply Qcle_refl|auto|].
    destruct (w_cover c o W j (Sx j) Lj) as (l & Ll & Sil & Q1 & Q2); [apply Qcle_refl|rewrite Sj; auto|].
    destruct (w_in c o W l Ll) as [Q3 Q4]. rewrite Sil in Q3, Q4.
    assert (Sl : S' o l = R) by (rewrite <- Sj; apply Qcle_antisym; auto).
    assert (Il : In l (op_queue o)).
    { destruct (in_dec Nat.eq_dec l (op_queue o)) as [|Nl]; auto. exfalso.
      pose proof (i_S _ _ _ C l (conj Ll Nl)). qlra. }
    pose proof (Qu e (proj1 Hd)) as Q5. destruct (head_least c G o e l (core_base c o t C) Hd Il) as [Q6 _].
    change (EV o l) with (S' o l) in Q6. rewrite Sl in Q6.
    assert (Er : EV o e = R) by (apply Qcle_antisym; auto). split; auto.
    assert (Le : is_event_left e = true) by (apply Rt; auto; apply Hd).
    apply (odd_left c G C0 R NB r e Y [] V' entry_wk (proj1 Hd) Er Le) with (shape := shape); auto.
    + intros x Ax. apply (head_beyond c G o R e x C' Hd Er Le Ax).
    + rewrite <- (At e (proj1 Hd) Er). pose proof (w_S c o W e (bl_left c r R e C' (proj1 Hd) Le)) as Q9.
      change (S' o e) with (EV o e) in Q9. rewrite Er in Q9. exact Q9.
    + left. rewrite SY. auto.
  - left. destruct (s_whole _ _ _ _ V Y (proj1 AY)) as (_ & _ & [Q|(l & Ll & Sl & Q)]).
    + exfalso. rewrite SiY in Q. rewrite <- EY' in Q. rewrite Q in A2. qlra.
    + left. destruct AY as (LY & NY & IY). exists (opp o Y), l.
      destruct (k_opp o (w_linked c o W) Y (proj2 LY)) as (K1 & K2 & K3). rewrite (proj1 LY) in K3.
      assert (Il : In l (op_queue o)).
      { destruct (in_dec Nat.eq_dec l (op_queue o)) as [|Nl]; auto. exfalso.
        pose proof (i_S _ _ _ C l (conj Ll Nl)). rewrite Q in *. qlra. }
      split; [intros E; rewrite E, (proj1 Ll) in K3; discriminate|].
      split; [split; auto; split; auto|].
      split; [split; [apply Ll|split; auto]; change (S' o l = R); congruence|].
      rewrite (eid_left o l (proj1 Ll)). unfold to_event_segment_id. rewrite K3. cbn [negb].
      change (to_opposite_event o (opp o Y)) with (opp o (opp o Y)). rewrite K2. auto.
Qed.
End Entry.

(** ** The run *)
Section Loop.
Context {A : Type}.
Variable visit : A -> intersection -> A + bool.
Hypothesis VT : forall a i a', visit a i = inl a' -> in_relation i = TOUCH.

Lemma along_queue o : steady o R -> along -> exists l, In l (op_queue o) /\ EV o l = R.
Proof.
  intros V (i & j & Li & Lj & N & A1 & A2 & Ek). pose proof (s_core _ _ _ _ V) as C. pose proof (i_wf _ _ _ C) as W.
  destruct (g_ins c G i Li) as (Lxi & Pi1 & Pi2). pose proof (proj2 (X_lt c G _ _ Pi1 Pi2) Lxi) as Li2.
  destruct (g_ins c G j Lj) as (Lxj & Pj1 & Pj2). pose proof (proj2 (X_lt c G _ _ Pj1 Pj2) Lxj) as Lj2.
  assert (P : forall i, (i < n)%nat -> Sx i = R -> Sx i < Ex i -> exists l, left_of o l /\ sid o l = i /\ S' o l = R
     /\ (In l (op_queue o) \/ active o l)).
  { intros m Lm Sm Lm2. destruct (w_cover c o W m (Sx m) Lm) as (l & Ll & Sl & Q1 & Q2); [apply Qcle_refl|qlra|].
    destruct (w_in c o W l Ll) as [Q3 Q4]. rewrite Sl in Q3, Q4. pose proof (w_lt c o W l Ll).
    assert (Es : S' o l = Sx m) by (apply Qcle_antisym; auto). exists l. split; auto. split; auto. split; [congruence|].
    destruct (in_dec Nat.eq_dec l (op_queue o)) as [|Nl]; auto. right. split; auto. split; auto.
    destruct (in_dec Nat.eq_dec (opp o l) (op_queue o)) as [|Nr]; auto. exfalso.
    pose proof (i_E _ _ _ C l (conj Ll Nr)). qlra. }
  destruct (P i Li A1 Li2) as (x & Lx & Six & Sx' & [Ix|Ax]); [exists x; auto|].
  destruct (P j Lj A2 Lj2) as (y & Ly & Siy & Sy' & [Iy|Ay]); [exists y; auto|].
  exfalso. apply (active_cross c C0 o R x y C Ax Ay); [congruence|].
  assert (Ep : fst (input c i) = fst (input c j)) by (apply (X_inj c G); auto; congruence).
  intros u. unfold hh. rewrite Six, Siy. unfold H. rewrite Ep, Ek. reflexivity.
Qed.

Lemma along_loop shape pick : along -> forall fuel r g es a x, steady (rg_op r) R -> wk r es ->
  rg_min_collinear r = seq 0 n -> ends c (rg_op r) -> grouped c R g (rg_op r) es ->
  sweep_intersections visit fuel shape pick r g a = AllVisited x -> False.
Proof.
  intros Al. induction fuel as [|fuel IH]; intros r g es a x V Wk Mi En Gr Sw; [discriminate|].
  pose proof (s_core _ _ _ _ V) as C. pose proof (core_base c _ _ C) as B.
  destruct (along_queue (rg_op r) V Al) as (l & Il & Er0).
  assert (Ne : op_queue (rg_op r) <> []) by (intros Q; rewrite Q in Il; destruct Il).
  destruct (sweep_step visit fuel shape pick r g a x Sw Ne) as (e & r' & Hd & Pr & Cs).
  assert (Er : EV (rg_op r) e = R).
  { apply Qcle_antisym; [|apply (k_queue c R r es Wk), Hd]. rewrite <- Er0. apply (head_least c G (rg_op r) e l B Hd Il). }
  assert (Ls : (e < size (rg_op r))%nat) by (destruct B as (_ & Q & _); apply Q, Hd).
  assert (Ip : In (pt (rg_op r) e) (c_pts c)) by (apply ev_pts; auto; apply B).
  assert (Les : forall y, In y es -> (y < size (rg_op r))%nat) by (intros y Iy; apply (k_es c R r es Wk y Iy)).
  destruct (wk_pop c R r es e Wk (proj1 Hd) Er) as [Wk1 _].
  assert (Ie : In e (es ++ [e])) by (apply in_or_app; right; left; auto).
  destruct (process_kept c G C0 R NB shape _ e (es ++ [e]) r' Wk1 Ie Pr) as (Wk2 & La & _).
  assert (En2 : ends c (rg_op r')) by (apply (ends_later c C0 R (popping (rg_op r) e)); auto).
  destruct (grouped_step c G R g (rg_op r) es (rg_op r') e Gr La Les Ls Ip Er) as [G1 G2].
  assert (Cases : flawed r' (es ++ [e]) \/ (steady (rg_op r') R /\ rg_min_collinear r' = seq 0 n)).
  { destruct (is_event_left e) eqn:Le.
    - assert (Bey : forall x, active (rg_op r) x -> R < E' (rg_op r) x).
      { intros y Ay. apply (head_beyond c G (rg_op r) R e y C Hd Er Le Ay). }
      destruct (Forall_Exists_dec (fun z => h (rg_op r) z R = h (rg_op r) e R -> S' (rg_op r) z = R /\ k (rg_op r) z <> k (rg_op r) e)) with (l := op_line (rg_op r))
        as [Fo|Ex].
      { intros z. destruct (Qc_eq_dec (h (rg_op r) z R) (h (rg_op r) e R)) as [E1|E1]; [|left; tauto].
        destruct (Qc_eq_dec (S' (rg_op r) z) R) as [E2|E2]; [|right; tauto].
        destruct (Qc_eq_dec (k (rg_op r) z) (k (rg_op r) e)) as [E3|E3]; [right|left]; tauto. }
      + right. destruct (bl_ordinary c G C0 R NB r R e C (s_whole _ _ _ _ V) (proj1 Hd) Er Le) with (shape := shape)
          as (l1 & l2 & o3 & _ & Q & C3 & Wh3 & _ & _ & _ & Ap).
        * intros y Ay. unfold ordinary. apply (proj1 (Forall_forall _ _) Fo y). apply (i_line _ _ _ C); auto.
        * rewrite Pr in Q. injection Q as ->. split; auto. constructor; auto. apply Ap, (s_apart _ _ _ _ V).
      + left. apply Exists_exists in Ex. destruct Ex as (z & Iz & Nz).
        assert (Az : active (rg_op r) z) by (apply (i_line _ _ _ C); auto).
        destruct (Qc_eq_dec (h (rg_op r) z R) (h (rg_op r) e R)) as [E1|E1]; [|tauto].
        apply (odd_left c G C0 R NB r e z es V Wk (proj1 Hd) Er Le Bey Az E1) with (shape := shape); auto.
        destruct (Qc_eq_dec (k (rg_op r) z) (k (rg_op r) e)) as [E3|E3]; auto. left.
        destruct (Qcle_lt_or_eq _ _ (active_S _ _ _ _ C Az)) as [|E2]; auto. tauto.
    - right. destruct (br_split c R r R e V (proj1 Hd) Er Le) as (l1 & l2 & El).
      destruct (br_step c G C0 R NB r R e V (proj1 Hd) Er Le l1 l2 El n Mi eq_refl shape) as (o2 & Q & V2 & _ & _).
      rewrite Pr in Q. injection Q as ->. auto. }
  destruct Cases as [Fl|[V2 Mi2]].
  - destruct Cs as [(ids & Eg & Sw')|(Ng & a' & _ & Sw')].
    + apply (doomed c G C0 R NB visit VT shape pick fuel r' _ (es ++ [e]) a x Wk2 Fl En2 (G1 ids Eg) Sw').
    + apply (doomed c G C0 R NB visit VT shape pick fuel r' _ (es ++ [e]) a' x Wk2 Fl En2 (G2 Ng) Sw').
  - destruct Cs as [(ids & Eg & Sw')|(Ng & a' & _ & Sw')].
    + apply (IH r' _ (es ++ [e]) a x V2 Wk2 Mi2 En2 (G1 ids Eg) Sw').
    + apply (IH r' _ (es ++ [e]) a' x V2 Wk2 Mi2 En2 (G2 Ng) Sw').
Qed.

Lemma critical_fails shape pick : inside \/ along -> forall fuel r g a x t, steady (rg_op r) t -> t < R ->
  rg_min_collinear r = seq 0 n -> ends c (rg_op r) ->
  (forall p ids, g = Some (p, ids) -> X c p <> R) ->
  sweep_intersections visit fuel shape pick r g a = AllVisited x -> False.
Proof.
  intros Cr. induction fuel as [|fuel IH]; intros r g a x t V Lt Mi En Gr Sw; [discriminate|].
  pose proof (s_core _ _ _ _ V) as C. pose proof (core_base c _ _ C) as B.
  assert (Ex : exists i, (i < n)%nat /\ R < Ex i).
  { destruct Cr as [(i & _ & Li & _ & _ & _ & Q & _)|(i & _ & Li & _ & _ & Q & _)]; exists i; split; auto.
    destruct (g_ins c G i Li) as (Lxi & Pi1 & Pi2). rewrite <- Q. apply (X_lt c G); auto. }
  assert (Ne : op_queue (rg_op r) <> []).
  { intros E. revert E. destruct Ex as (i & L & L2). destruct (g_ins c G i L) as (Lx & P1 & P2).
    pose proof (proj2 (X_lt c G _ _ P1 P2) Lx). intros E. pose proof (i_wf _ _ _ C) as W.
    destruct (w_cover c _ W i (Ex i) L) as (Y & LY & Si & A1 & A2); [qlra|apply Qcle_refl|].
    assert (D : done (rg_op r) Y) by (split; auto; rewrite E; auto). pose proof (i_E _ _ _ C Y D). qlra. }
  destruct (sweep_step visit fuel shape pick r g a x Sw Ne) as (e & r' & Hd & Pr & Cs).
  assert (Ls : (e < size (rg_op r))%nat) by (destruct B as (_ & Q & _); apply Q, Hd).
  assert (Ip : In (pt (rg_op r) e) (c_pts c)) by (apply ev_pts; auto; apply B).
  destruct (Qclt_le_dec (EV (rg_op r) e) R) as [L|L].
  - destruct (calm_step c G C0 R NB shape r t e n V Hd L Mi eq_refl) as (o2 & Q & V2 & La).
    rewrite Pr in Q. injection Q as ->.
    assert (En2 : ends c o2) by (apply (ends_later c C0 R (popping (rg_op r) e)); auto).
    assert (Pe : pt o2 e = pt (rg_op r) e) by (apply (la_pt _ _ _ _ La e Ls)).
    assert (Nr : X c (pt o2 e) <> R). { rewrite Pe. intros Q. change (EV (rg_op r) e = R) in Q. rewrite Q in L. qlra. }
    destruct Cs as [(ids & Eg & Sw')|(Ng & a' & _ & Sw')].
    + apply (IH (set_op r o2) _ a x (EV (rg_op r) e) V2 L Mi En2) in Sw'; auto. intros p ids' [= <- _]. exact Nr.
    + apply (IH (set_op r o2) _ a' x (EV (rg_op r) e) V2 L Mi En2) in Sw'; auto. intros p ids' [= <- _]. exact Nr.
  - assert (Qu : forall y, In y (op_queue (rg_op r)) -> R <= EV (rg_op r) y).
    { intros y Iy. destruct (head_least c G (rg_op r) e y B Hd Iy). eapply Qcle_trans; eauto. }
    pose proof (entry_steady r t V Lt Qu) as V'. pose proof (entry_wk r t V Lt Qu Mi) as Wk.
    assert (Gr0 : grouped c R g (rg_op r) []) by (left; auto).
    destruct Cr as [In'|Al].
    + destruct (entry_inside r t V Lt Qu Mi In') as [Fl|Fl].
      * apply (doomed c G C0 R NB visit VT shape pick (S fuel) r g [] a x Wk Fl En Gr0 Sw).
      * destruct (Fl shape e r' Hd Pr) as [Er Fl'].
        destruct (wk_pop c R r [] e Wk (proj1 Hd) Er) as [Wk1 _].
        assert (Ie : In e ([] ++ [e])) by (left; auto).
        destruct (process_kept c G C0 R NB shape _ e ([] ++ [e]) r' Wk1 Ie Pr) as (Wk2 & La & _).
        assert (En2 : ends c (rg_op r')) by (apply (ends_later c C0 R (popping (rg_op r) e)); auto).
        destruct (grouped_step c G R g (rg_op r) [] (rg_op r') e Gr0 La) as [G1 G2]; auto; [intros y []|].
        destruct Cs as [(ids & Eg & Sw')|(Ng & a' & _ & Sw')].
        -- apply (doomed c G C0 R NB visit VT shape pick fuel r' _ [e] a x Wk2 Fl' En2 (G1 ids Eg) Sw').
        -- apply (doomed c G C0 R NB visit VT shape pick fuel r' _ [e] a' x Wk2 Fl' En2 (G2 Ng) Sw').
    + apply (along_loop shape pick Al (S fuel) r g [] a x V' Wk Mi En Gr0 Sw).
Qed.
End Loop.
End Eleven.
