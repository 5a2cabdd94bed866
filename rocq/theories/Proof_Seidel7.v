(** The trapezoidation, part 7: an edge is added. *)
From Coq Require Import QArith Qcanon Bool List Arith Lia.
From Verif Require Import QcTac Model_Base Model_Utils Model_Seidel Proof_Seidel Proof_Seidel2 Proof_Seidel3 Proof_Seidel4 Proof_Seidel5 Proof_Seidel6.
Import ListNotations.
Local Open Scope Qc_scope.

Lemma middle_of (a b : Qc) : a < b -> exists t, a < t /\ t < b.
Proof.
  intros L. exists ((a + b) / (1 + 1)). assert (E : (a + b) / (1 + 1) * (1 + 1) = a + b) by (field; discriminate).
  generalize dependent ((a + b) / (1 + 1)). intros m E. split; qlra.
Qed.
Lemma between3 (p q r : Qc) : p < r -> q < r -> exists y, p < y /\ q < y /\ y < r.
Proof.
  intros A B. destruct (Qclt_le_dec p q) as [L|L].
  - destruct (middle_of q r B) as (y & Y1 & Y2). exists y. repeat split; auto. qlra.
  - destruct (middle_of p r A) as (y & Y1 & Y2). exists y. repeat split; auto. qlra.
Qed.
Lemma between3' (p q r : Qc) : r < p -> r < q -> exists y, y < p /\ y < q /\ r < y.
Proof.
  intros A B. destruct (Qclt_le_dec p q) as [L|L].
  - destruct (middle_of r p A) as (y & Y1 & Y2). exists y. repeat split; auto. qlra.
  - destruct (middle_of r q B) as (y & Y1 & Y2). exists y. repeat split; auto. qlra.
Qed.

Section Insert.
Variables (w : world) (edges : list edge) (endpoints : list point).
Hypothesis M : means w edges endpoints.
Variable e : nat.
Hypothesis Re : real w e.
Notation X := (xp w). Notation Y := (yp w). Notation H := (h w).

Lemma same_side D hi' s up i j ci cj : inv w edges D hi' s -> s_c s i = Some ci -> s_c s j = Some cj -> side up ci = side up cj ->
  X (k_l ci) < X (k_r cj) -> X (k_l cj) < X (k_r ci) -> i = j.
Proof.
  intros I Ci Cj E L1 L2. pose proof (i_core _ _ _ _ _ I i ci Ci) as Gi. pose proof (i_core _ _ _ _ _ I j cj Cj) as Gj.
  pose proof (g_lt _ _ _ _ _ Gi) as Li. pose proof (g_lt _ _ _ _ _ Gj) as Lj.
  assert (T : exists a b, a < b /\ X (k_l ci) <= a /\ X (k_l cj) <= a /\ b <= X (k_r ci) /\ b <= X (k_r cj)).
  { exists (if Qclt_le_dec (X (k_l ci)) (X (k_l cj)) then X (k_l cj) else X (k_l ci)),
      (if Qclt_le_dec (X (k_r ci)) (X (k_r cj)) then X (k_r ci) else X (k_r cj)).
    destruct (Qclt_le_dec _ _), (Qclt_le_dec _ _); repeat split; qlra. }
  destruct T as (a & b & L & A1 & A2 & B1 & B2). destruct (w_dense w a b L) as (t & T1 & T2 & Gt).
  assert (Oi := g_over _ _ _ _ _ Gi t). assert (Oj := g_over _ _ _ _ _ Gj t).
  specialize (Oi ltac:(qlra) ltac:(qlra)). specialize (Oj ltac:(qlra) ltac:(qlra)).
  assert (Yy : exists y, H (k_b ci) t < y /\ y < H (k_a ci) t /\ H (k_b cj) t < y /\ y < H (k_a cj) t).
  { destruct up; cbn in E.
    - rewrite <- E in Oj |- *. destruct (between3 _ _ _ Oi Oj) as (y & ? & ? & ?). exists y. auto.
    - rewrite <- E in Oj |- *. destruct (between3' _ _ _ Oi Oj) as (y & ? & ? & ?). exists y. auto. }
  destruct Yy as (y & Y1 & Y2 & Y3 & Y4).
  apply (i_one _ _ _ _ _ I i j t y Gt); [exists ci|exists cj]; split; auto; repeat split; auto; qlra.
Qed.

(** ** The next trapezoid *)
Section Next.
Variables (D : nat -> Prop) (hi' : nat -> Qc) (nodes : list node) (s : store) (T : nat) (c0 : core) (x0 : Qc).
Hypothesis INV : inv w edges D hi' s.
Hypothesis R : rep nodes s.
Hypothesis CT : s_c s T = Some c0.
Hypothesis Full : forall g, D g -> g <> e -> hi' g = hi w g.
Hypothesis NE : forall up, side up c0 <> e.
Hypothesis L0 : s_c s 0 = None.
Notation xl := (X (k_l c0)).
Notation xr := (X (k_r c0)).
Hypothesis Lo : lo w e <= x0.
Hypothesis Xl : xl <= x0.
Hypothesis Xr : x0 < xr.
Hypothesis Hi : xr < hi w e.
Hypothesis Inside : forall t, x0 < t -> t < xr -> H (k_b c0) t < H e t /\ H e t < H (k_a c0) t.

Definition next_of (t : trapezoid) : option nat :=
  if orientation_is (orientation_of (edge_at edges e) (endpoint_at endpoints (right_point t)) endpoints) CLOCKWISE
  then index_or (upper_right t) (lower_right t) else index_or (lower_right t) (upper_right t).

Lemma next_spec : exists m U cu, s_r s m T = Some U /\ s_c s U = Some cu /\ side m cu = side m c0 /\ X (k_l cu) = xr /\
  vertex w D (k_l cu) /\ (if m : bool then Y (k_l cu) < H e xr else H e xr < Y (k_l cu)) /\
  (forall t, xr < t -> t < X (k_r cu) -> t < hi w e -> H (k_b cu) t < H e t /\ H e t < H (k_a cu) t) /\
  (forall t, get_trapezoid T nodes = Some t -> next_of t = Some U).
Proof.
  pose proof (i_core _ _ _ _ _ INV T c0 CT) as G0. destruct (w_in w e Re) as [E1 E2].
  destruct (w_box w) as (B1 & B2 & B3 & B4 & B5 & _).
  assert (Ae : anedge w e) by (left; auto).
  assert (VR : vertex w D (k_r c0)).
  { destruct (g_r _ _ _ _ _ G0) as [K|V]; auto. exfalso. rewrite K in *. qlra. }
  destruct VR as (g0 & Dg0 & K0). pose proof (i_real _ _ _ _ _ INV g0 Dg0) as Rg0.
  assert (NR : Y (k_r c0) <> H e xr) by (apply (w_vertex w e g0); auto; qlra).
  assert (An : forall up c, good_core w edges D hi' c -> anedge w (side up c) /\ hi' (side up c) <= hi w (side up c)).
  { intros up c G. destruct (i_box _ _ _ _ _ INV) as [Q1 Q2].
    assert (Dn : forall g, D g -> anedge w g /\ hi' g <= hi w g).
    { intros g Dg. split; [left; apply (i_real _ _ _ _ _ INV); auto|]. apply (i_hi _ _ _ _ _ INV); auto. }
    destruct up; cbn; [destruct (g_a _ _ _ _ _ G) as [ -> |Q]|destruct (g_b _ _ _ _ _ G) as [ -> |Q]]; auto; split; try qlra; right; auto. }
  assert (Ends : forall m : bool, (if m then Y (k_r c0) < H e xr else H e xr < Y (k_r c0)) -> xr < hi' (side m c0)).
  { intros m Ym. destruct (An m c0 G0) as [A1 A2]. pose proof (g_hi _ _ _ _ _ G0 m) as A3. pose proof (g_lo _ _ _ _ _ G0 m) as A4.
    destruct (Qc_eq_dec xr (hi' (side m c0))) as [Eq|Ne]; [exfalso|qne; qlra].
    assert (Cl : if m then H e xr <= H (k_a c0) xr else H (k_b c0) xr <= H e xr).
    { destruct (middle_of x0 xr Xr) as (t & T1 & T2). destruct (Inside t T1 T2).
      destruct m; cbn in *; eapply (order_closed w _ _ x0 xr t); auto; qlra. }
    assert (Dm : D (side m c0)).
    { destruct (i_box _ _ _ _ _ INV) as [Q1 Q2]. destruct m; cbn in *; [destruct (g_a _ _ _ _ _ G0) as [Z|Z]|destruct (g_b _ _ _ _ _ G0) as [Z|Z]]; auto;
        rewrite Z in *; exfalso; qlra. }
    pose proof (i_real _ _ _ _ _ INV _ Dm) as Rm. destruct (w_real w _ Rm) as (W1 & W2 & W3 & W4 & W5).
    rewrite (Full _ Dm (NE m)) in Eq.
    assert (SY : Y (k_r c0) = Y (rp w (side m c0))) by (apply (w_same w g0 (side m c0)); auto; qlra).
    rewrite <- Eq in W5. destruct m; cbn in *; qlra. }
  assert (Main : forall m : bool, (if m then Y (k_r c0) < H e xr else H e xr < Y (k_r c0)) ->
    exists U cu, s_r s m T = Some U /\ s_c s U = Some cu /\ side m cu = side m c0 /\ X (k_l cu) = xr /\
      vertex w D (k_l cu) /\ (if m : bool then Y (k_l cu) < H e xr else H e xr < Y (k_l cu)) /\
      (forall t, xr < t -> t < X (k_r cu) -> t < hi w e -> H (k_b cu) t < H e t /\ H e t < H (k_a cu) t)).
  { intros m Ym. pose proof (Ends m Ym) as Em. pose proof (i_link _ _ _ _ _ INV m) as LK.
    assert (FT : sview w s m T = Some (View xl xr (side m c0) (s_l s m T) (s_r s m T))) by (unfold sview; rewrite CT; auto).
    destruct (LK T _ FT) as [_ La _ Le]. cbn in La, Le. specialize (Le Em). destruct (s_r s m T) as [U|] eqn:EU; [|congruence].
    destruct (La U eq_refl) as (b & Fb & Eb & Xb & _). unfold sview in Fb. destruct (s_c s U) as [cu|] eqn:CU; [|discriminate].
    injection Fb as <-. cbn in Eb, Xb. exists U, cu. pose proof (i_core _ _ _ _ _ INV U cu CU) as Gu.
    assert (VU : vertex w D (k_l cu) /\ H (k_b cu) xr <= Y (k_l cu) /\ Y (k_l cu) <= H (k_a cu) xr).
    { destruct (g_l _ _ _ _ _ Gu) as [K|K]; [|rewrite <- Xb; auto]. exfalso. rewrite K in Xb. qlra. }
    destruct VU as (VU & VU1 & VU2).
    assert (SY : Y (k_l cu) = Y (k_r c0)).
    { destruct VU as (gu & Du & Ku). apply (w_same w gu g0); auto. apply (i_real _ _ _ _ _ INV); auto. }
    rewrite SY in VU1, VU2 |- *.
    do 6 (split; auto). intros t T1 T2 T3.
    destruct (middle_of x0 xr Xr) as (v & V1 & V2). destruct (Inside v V1 V2) as [I1 I2].
    destruct (An m c0 G0) as [A1 A2]. destruct (An (negb m) cu Gu) as [A3 A4]. destruct (An m cu Gu) as [A1' A2'].
    pose proof (g_lo _ _ _ _ _ Gu m) as Q1. pose proof (g_hi _ _ _ _ _ Gu m) as Q2.
    pose proof (g_lo _ _ _ _ _ Gu (negb m)) as Q3. pose proof (g_hi _ _ _ _ _ Gu (negb m)) as Q4.
    pose proof (g_lo _ _ _ _ _ G0 m) as Q5. pose proof (g_hi _ _ _ _ _ G0 m) as Q6.
    assert (S1 : spans w e t) by (split; qlra). assert (S2 : spans w e v) by (split; qlra).
    assert (S3 : spans w (side m cu) t) by (split; qlra).
    assert (S4 : spans w (side (negb m) cu) t) by (split; qlra).
    assert (S5 : spans w (side m c0) v) by (split; qlra).
    rewrite Eb in S3.
    destruct m; cbn [negb side] in *.
    - split.
      + destruct (order_near w (k_b cu) e xr) as (d & D0 & Nd); [qlra|].
        destruct (middle_of xr (if Qclt_le_dec t (xr + d) then t else xr + d)) as (u & U1 & U2); [destruct (Qclt_le_dec _ _); qlra|].
        assert (U3 : u < t /\ u < xr + d) by (destruct (Qclt_le_dec _ _); split; qlra). destruct U3.
        apply (order_same w (k_b cu) e u t); auto; try (split; destruct S1, S4; qlra). apply Nd; qlra.
      + rewrite Eb. apply (order_same w e (k_a c0) v t); auto.
    - split.
      + rewrite Eb. apply (order_same w (k_b c0) e v t); auto.
      + destruct (order_near w e (k_a cu) xr) as (d & D0 & Nd); [qlra|].
        destruct (middle_of xr (if Qclt_le_dec t (xr + d) then t else xr + d)) as (u & U1 & U2); [destruct (Qclt_le_dec _ _); qlra|].
        assert (U3 : u < t /\ u < xr + d) by (destruct (Qclt_le_dec _ _); split; qlra). destruct U3.
        apply (order_same w e (k_a cu) u t); auto; try (split; destruct S1, S4; qlra). apply Nd; qlra. }
  assert (Cand : forall (m : bool) U cu, s_r s m T = Some U -> s_c s U = Some cu ->
    (if m then Y (k_r c0) < H e xr else H e xr < Y (k_r c0)) -> forall t, get_trapezoid T nodes = Some t -> next_of t = Some U).
  { intros m U cu EU CU Ym t Gt. destruct (rep_leaf _ _ _ _ R CT) as (t' & _ & Gt' & C & _ & L2). rewrite Gt in Gt'. injection Gt' as <-.
    unfold next_of. assert (Kr : right_point t = k_r c0) by (rewrite <- C; auto). rewrite Kr.
    pose proof (m_below _ _ _ M e g0 (k_r c0) Re Rg0 K0) as Q.
    assert (NU : exists k, U = S k) by (destruct U; [congruence|eauto]). destruct NU as [k ->].
    pose proof (L2 m) as Lm. rewrite EU in Lm.
    destruct (orientation_is _ _) eqn:Bo.
    - destruct m; [cbn in Lm; rewrite Lm; reflexivity|]. exfalso. apply proj1 in Q. specialize (Q eq_refl). qlra.
    - destruct m; [|cbn in Lm; rewrite Lm; reflexivity]. exfalso. apply proj2 in Q. specialize (Q Ym). discriminate. }
  destruct (Qc_dec (Y (k_r c0)) (H e xr)) as [[L|L]|L]; [| |congruence].
  - destruct (Main true L) as (U & cu & E & C & Rst). exists true, U, cu. destruct Rst as (? & ? & ? & ? & ?). repeat (split; auto).
    apply (Cand true U cu); auto.
  - destruct (Main false L) as (U & cu & E & C & Rst). exists false, U, cu. destruct Rst as (? & ? & ? & ? & ?). repeat (split; auto).
    apply (Cand false U cu); auto.
Qed.
End Next.
End Insert.
