(** The trapezoidation, part 9: adding an edge keeps the invariant. *)
From Coq Require Import QArith Qcanon Bool List Arith Lia.
From Verif Require Import QcTac Model_Base Model_Utils Model_Seidel Proof_Seidel Proof_Seidel2 Proof_Seidel3 Proof_Seidel4 Proof_Seidel5 Proof_Seidel6 Proof_Seidel7 Proof_Seidel8.
Import ListNotations.
Local Open Scope Qc_scope.

Lemma filter_le {A} (f g : A -> bool) l : (forall x, In x l -> f x = true -> g x = true) -> (length (filter f l) <= length (filter g l))%nat.
Proof.
  induction l as [|x l IH]; cbn; intros I; auto. assert (L := IH (fun y Iy => I y (or_intror Iy))).
  destruct (f x) eqn:F; [rewrite (I x (or_introl eq_refl) F); cbn; lia|]. destruct (g x); cbn; lia.
Qed.
Lemma filter_lt {A} (f g : A -> bool) l z : (forall x, In x l -> f x = true -> g x = true) -> In z l -> f z = false -> g z = true ->
  (length (filter f l) < length (filter g l))%nat.
Proof.
  intros I Z Fz Gz. destruct (in_split _ _ Z) as (a & b & ->). rewrite !filter_app. cbn. rewrite Fz, Gz. rewrite !app_length. cbn.
  pose proof (filter_le f g a (fun x Ix => I x (in_or_app _ _ _ (or_introl Ix)))).
  pose proof (filter_le f g b (fun x Ix => I x (in_or_app a (z :: b) x (or_intror (or_intror Ix))))). lia.
Qed.

Section Add.
Variables (w : world) (edges : list edge) (endpoints : list point).
Hypothesis M : means w edges endpoints.
Variable e : nat.
Hypothesis Re : real w e.
Notation X := (xp w). Notation Y := (yp w). Notation H := (h w).
Notation E := (edge_at edges e).

Section Walk.
Variables (D0 : nat -> Prop) (hi0 : nat -> Qc) (nodes0 : list node) (s0 : store).
Hypothesis INV0 : inv w edges D0 hi0 s0.
Hypothesis R0 : rep nodes0 s0.

Definition count (x : Qc) : nat := length (filter (fun j => match s_c s0 j with
  | Some d => if Qclt_le_dec (X (k_l d)) x then false else true | None => false end) (seq 0 (s_n s0))).
Lemma count_lt T c0 x : s_c s0 T = Some c0 -> X (k_l c0) < x -> (count x < count (X (k_l c0)))%nat.
Proof.
  intros C L. apply (filter_lt _ _ _ T).
  - intros j _. destruct (s_c s0 j) as [d|]; auto. destruct (Qclt_le_dec (X (k_l d)) x); [discriminate|]. intros _.
    destruct (Qclt_le_dec (X (k_l d)) (X (k_l c0))); auto. exfalso. qlra.
  - apply in_seq. pose proof (rep_lt _ _ _ _ R0 C). lia.
  - rewrite C. destruct (Qclt_le_dec (X (k_l c0)) x); auto. exfalso. qlra.
  - rewrite C. destruct (Qclt_le_dec (X (k_l c0)) (X (k_l c0))); auto. exfalso. qlra.
Qed.
Lemma count_le x : (count x <= s_n s0)%nat.
Proof.
  unfold count. rewrite <- (seq_length (s_n s0) 0) at 2. generalize (seq 0 (s_n s0)). intros l.
  induction l as [|a l IH]; cbn; auto. destruct (match s_c s0 a with Some _ => _ | None => _ end); cbn; lia.
Qed.

Lemma walk_run fuel : forall T c0 D hi' nodes s Q, state w edges e D hi' nodes s T c0 Q -> s_c s0 T = Some c0 ->
  kept w s0 s (X (k_l c0)) -> (count (X (k_l c0)) <= fuel)%nat ->
  exists L, walk_right fuel E T endpoints nodes0 = Some (T :: L) /\
  exists nodes', add_edge_to_rest e (T :: L) (Q true) (Q false) edges endpoints nodes = Some nodes' /\
  exists D1, done w edges D1 nodes' /\ forall g, D1 g <-> D g.
Proof.
  induction fuel as [|fuel IH]; intros T c0 D hi' nodes s Q ST C0 Kp Fu.
  - exfalso. pose proof (count_lt T c0 (X (k_l c0) + 1) C0 ltac:(qlra)). lia.
  - pose proof (st_inv _ _ _ _ _ _ _ _ _ _ ST) as INV. pose proof (st_T _ _ _ _ _ _ _ _ _ _ ST) as CT. pose proof (st_rep _ _ _ _ _ _ _ _ _ _ ST) as R.
    pose proof (g_lt _ _ _ _ _ (i_core _ _ _ _ _ INV _ _ CT)) as L0.
    destruct (Kp T c0 C0 ltac:(qlra)) as [_ KT].
    destruct (walk_step edges endpoints e s0 nodes0 s nodes T c0 fuel R0 R C0 CT KT) as (t & Gt & Wk). rewrite Wk. clear Wk.
    destruct (cmp_r w edges endpoints M e Re D hi' s INV T c0 CT) as [Cr _]. rewrite <- (m_rp _ _ _ M e Re) in Cr.
    destruct (point_lt _ _) eqn:B.
    + apply proj1 in Cr. specialize (Cr eq_refl).
      destruct (state_middle w edges endpoints M e Re D hi' nodes s T c0 Q ST Cr) as (nodes' & s' & N & Ad & U & cu & D1 & hi1 & CU & XU & (m & LU) & NU & ST' & DD & Kp').
      rewrite (NU t Gt). rewrite (KT m) in LU.
      destruct (link_leaf_r w edges D0 hi0 s0 INV0 T c0 m U C0 LU) as (d & Cd & _ & Xd & _).
      destruct (Kp U d Cd ltac:(qlra)) as [Cd' _]. rewrite CU in Cd'. injection Cd' as <-.
      destruct (IH U cu D1 hi1 nodes' s' N ST' Cd) as (L & WL & nodes2 & Ad2 & D2 & Dn & DD2).
      * intros j d Cj Lj. destruct (Kp j d Cj ltac:(qlra)) as [A1 A2]. destruct (Kp' j d A1 ltac:(qlra)) as [A3 A4]. split; auto.
        intros up. rewrite A4, A2. auto.
      * pose proof (count_lt T c0 (X (k_l cu)) C0 ltac:(qlra)). lia.
      * rewrite WL. exists (U :: L). split; auto. exists nodes2. split.
        -- cbn [add_edge_to_rest]. rewrite Ad. exact Ad2.
        -- exists D2. split; auto. intros g. rewrite DD2. auto.
    + assert (Hi : hi w e <= X (k_r c0)).
      { apply Qcnot_lt_le. intros L. apply Cr in L. congruence. }
      destruct (state_last w edges endpoints M e Re D hi' nodes s T c0 Q ST Hi) as (nodes' & Ad & Dn).
      exists []. split; auto. exists nodes'. split; auto.
Qed.
End Walk.

(** ** The first trapezoid *)
Section First.
Variables (D : nat -> Prop) (hi' : nat -> Qc) (nodes : list node) (s : store) (T : nat) (c0 : core).
Hypothesis INV : inv w edges D hi' s.
Hypothesis R : rep nodes s.
Hypothesis Full : forall g, D g -> hi' g = hi w g.
Hypothesis De : ~ D e.
Hypothesis CT : s_c s T = Some c0.
Notation xl := (X (k_l c0)).
Notation xr := (X (k_r c0)).
Hypothesis Xl : xl <= lo w e.
Hypothesis Xr : lo w e < xr.
Hypothesis Inside : forall t, lo w e < t -> t < xr -> t < hi w e -> H (k_b c0) t < H e t /\ H e t < H (k_a c0) t.

Lemma first_ne up : side up c0 <> e.
Proof.
  intros Eq. pose proof (i_core _ _ _ _ _ INV _ _ CT) as G. destruct (w_box w) as (_ & _ & _ & _ & _ & _ & B1 & B2).
  apply De. destruct up; cbn in Eq; [destruct (g_a _ _ _ _ _ G) as [Q1|Q1]|destruct (g_b _ _ _ _ _ G) as [Q1|Q1]]; congruence.
Qed.
Lemma start_case sl : (sl = None <-> point_eq (endpoint_at endpoints (lp w e)) (endpoint_at endpoints (k_l c0)) = true) ->
  (sl = None -> xl = lo w e) /\ (forall l : nat, sl = Some l -> xl < lo w e).
Proof.
  intros Sl. pose proof (cmp_l w edges endpoints M e Re D hi' s INV T c0 CT) as C. rewrite C in Sl. split.
  - intros Q. symmetry. apply Sl. auto.
  - intros l El. destruct (Qc_eq_dec (lo w e) xl) as [Eq|Ne]; [apply Sl in Eq; congruence|qne; qlra].
Qed.

Lemma add_single : hi w e <= xr ->
  exists nodes', add_edge_to_single_trapezoid e T edges endpoints nodes = Some nodes' /\
  ((exists nd, s_i s 0 = Some nd) \/ T = 0%nat -> done w edges (fun g => D g \/ g = e) nodes').
Proof.
  intros Hi.
  destruct (single_after edges endpoints nodes s T e c0 R CT (fun up b => LL_ _ _ _ _ _ INV T c0 up b CT) (fun up b => LR_ _ _ _ _ _ INV T c0 up b CT))
    as (nodes' & s' & N & sl & sr & Ad & R' & AF & Sl & Sr).
  rewrite (m_lp _ _ _ M e Re), (m_rp _ _ _ M e Re) in AF. rewrite (m_rp _ _ _ M e Re) in Sr. rewrite (m_lp _ _ _ M e Re) in Sl.
  destruct (cmp_r w edges endpoints M e Re D hi' s INV T c0 CT) as [_ Cr]. rewrite Cr in Sr.
  destruct (w_real w e Re) as (W1 & W2 & W3 & _).
  destruct (step_all w edges D hi' s s' T c0 e (rp w e) false (fun _ => false) N N sl sr (lo w e) (hi w e) INV CT AF Re) as (INV' & _); auto; try discriminate.
  - intros _. split; auto. split; auto. apply start_case. auto.
  - left. split; auto. split; [|tauto]. intros r Er. destruct (Qc_eq_dec (hi w e) xr) as [Eq|Ne]; [|qne; qlra].
    apply Sr in Eq. congruence.
  - intros t T1 T2. apply Inside; auto. qlra.
  - exists nodes'. split; auto. intros Z.
    exists (fun g => if (g =? e)%nat then hi w e else hi' g), s'. split; [exact INV'|]. split; auto. split.
    + intros g G. destruct (Nat.eqb_spec g e) as [->|Ne]; auto. destruct G; [|congruence]. apply Full; auto.
    + destruct Z as [(nd & I0)| <-].
      * exists nd. apply (a_inner _ _ _ _ _ _ _ _ _ _ _ _ _ _ _ AF); auto.
      * destruct (a_dag _ _ _ _ _ _ _ _ _ _ _ _ _ _ _ AF) as (x & u & A1 & A2 & A3).
        destruct sl as [l|]; [eauto|]. destruct sr as [r|]; [subst; eauto|]. subst. eauto.
Qed.

Lemma add_first : xr < hi w e -> (exists nd, s_i s 0 = Some nd) ->
  exists nodes' s' N, add_edge_to_first_trapezoid e T edges endpoints nodes = Some (nodes', N true, N false) /\
  exists U cu D1 hi1, s_c s U = Some cu /\ X (k_l cu) = xr /\ (forall t, get_trapezoid T nodes = Some t -> next_of edges endpoints e t = Some U) /\
  state w edges e D1 hi1 nodes' s' U cu N /\ (forall g, D1 g <-> D g \/ g = e) /\ kept w s s' xr.
Proof.
  intros Hi Z.
  destruct (first_after edges endpoints nodes s T e c0 R CT (fun up b => LL_ _ _ _ _ _ INV T c0 up b CT) (fun up b => LR_ _ _ _ _ _ INV T c0 up b CT))
    as (nodes' & s' & N & sl & Ad & R' & AF & Sl).
  rewrite (m_lp _ _ _ M e Re), (m_rp _ _ _ M e Re) in AF. rewrite (m_lp _ _ _ M e Re) in Sl.
  destruct (w_real w e Re) as (W1 & W2 & W3 & _).
  assert (In1 : forall t, lo w e < t -> t < xr -> H (k_b c0) t < H e t /\ H e t < H (k_a c0) t).
  { intros t T1 T2. apply Inside; auto. qlra. }
  destruct (step_all w edges D hi' s s' T c0 e (k_r c0) false (fun _ => false) N N sl None (lo w e) xr INV CT AF Re) as (INV' & On & RN & RF & Hv & Kp); auto; try discriminate.
  - intros _. split; auto. split; auto. apply start_case. auto.
  - assert (I0 : exists nd, s_i s' 0 = Some nd).
    { destruct Z as (nd & I0). exists nd. apply (a_inner _ _ _ _ _ _ _ _ _ _ _ _ _ _ _ AF); auto. }
    destruct (next_state w edges endpoints M e Re D hi' nodes nodes' s s' T c0 N (lo w e) INV R R' CT (fun g Dg _ => Full g Dg) first_ne Z I0) as (U & cu & CU & XU & LU & NU & ST'); auto.
    + qlra.
    + apply (a_NN _ _ _ _ _ _ _ _ _ _ _ _ _ _ _ AF).
    + exists nodes', s', N. split; auto. exists U, cu. do 2 eexists. do 4 (split; [eassumption|]). split; auto. intros g. cbn. tauto.
Qed.
End First.

(** ** All of it *)
Lemma first_found D hi' nodes s : inv w edges D hi' s -> rep nodes s -> (forall g, D g -> hi' g = hi w g) -> ~ D e ->
  exists c0, let T := search_leaf (length nodes - 1) 0 E edges endpoints nodes in s_c s T = Some c0 /\ X (k_l c0) <= lo w e /\ lo w e < X (k_r c0) /\
  forall t, lo w e < t -> t < X (k_r c0) -> t < hi w e -> H (k_b c0) t < H e t /\ H e t < H (k_a c0) t.
Proof.
  intros INV R Full De. destruct (w_real w e Re) as (W1 & W2 & W3 & _). destruct (w_in w e Re) as [I1 I2].
  destruct (w_close w (lo w e) (hi w e) W3) as (t & T1 & T2 & Cl).
  assert (IB : inbox w t (H e t)).
  { destruct (w_between w e t Re) as [B1 B2]; [qlra|qlra|]. repeat split; auto; qlra. }
  destruct (i_path _ _ _ _ _ INV t _ IB) as (l & o & P).
  assert (St : spans w e t) by (split; auto).
  pose proof (path_length w D nodes s R _ _ _ _ _ P) as Ln.
  pose proof (search_spec w edges endpoints M D nodes s e t R (i_real _ _ _ _ _ INV) Re De St Cl _ _ _ P (length nodes - 1) ltac:(lia)) as So.
  rewrite So in P. destruct (path_leaf _ _ _ _ _ _ _ _ P _ eq_refl) as (c0 & C0 & P1 & P2 & P3 & P4). exists c0. cbv zeta. split; auto.
  pose proof (i_core _ _ _ _ _ INV _ _ C0) as G.
  assert (Xl : X (k_l c0) <= lo w e).
  { destruct (g_l _ _ _ _ _ G) as [K|((g & Dg & K) & _)]; [rewrite K; qlra|].
    apply Qcnot_lt_le. intros L. pose proof (Cl g _ (i_real _ _ _ _ _ INV g Dg) K L). qlra. }
  split; auto. split; [qlra|]. intros u U1 U2 U3.
  assert (An : forall up, anedge w (side up c0) /\ hi' (side up c0) <= hi w (side up c0)).
  { intros up. destruct (i_box _ _ _ _ _ INV) as [Q1 Q2]. destruct (w_box w) as (_ & _ & B3 & B4 & _).
    assert (Dn : forall g, D g -> anedge w g /\ hi' g <= hi w g).
    { intros g Dg. split; [left; apply (i_real _ _ _ _ _ INV); auto|]. apply (i_hi _ _ _ _ _ INV); auto. }
    destruct up; cbn; [destruct (g_a _ _ _ _ _ G) as [ -> |Q]|destruct (g_b _ _ _ _ _ G) as [ -> |Q]]; auto; split; try qlra; right; auto. }
  assert (Ae : anedge w e) by (left; auto).
  assert (Sp : forall up v, lo w e < v -> v < X (k_r c0) -> spans w (side up c0) v).
  { intros up v V1 V2. pose proof (g_lo _ _ _ _ _ G up). pose proof (g_hi _ _ _ _ _ G up). destruct (An up). split; qlra. }
  assert (Su : spans w e u) by (split; auto).
  split; [apply (order_same w (k_b c0) e t u)|apply (order_same w e (k_a c0) t u)]; auto;
    try (apply (An false)); try (apply (An true)); try (apply (Sp false); qlra); try (apply (Sp true); qlra).
Qed.

Theorem add_edge_done D nodes : done w edges D nodes -> ~ D e ->
  exists nodes', add_edge e edges endpoints nodes = Some nodes' /\ exists D1, done w edges D1 nodes' /\ forall g, D1 g <-> D g \/ g = e.
Proof.
  intros (hi' & s & INV & R & Full & Z) De.
  destruct (first_found D hi' nodes s INV R Full De) as (c0 & C0 & Xl & Xr & In1). set (T := search_leaf _ _ _ _ _ _) in *.
  unfold add_edge, find_intersecting_trapezoids. fold T. clearbody T.
  destruct (walk_step edges endpoints e s nodes s nodes T c0 (length nodes) R R C0 C0 (fun up => eq_refl)) as (t & Gt & Wk). rewrite Wk. clear Wk.
  destruct (cmp_r w edges endpoints M e Re D hi' s INV T c0 C0) as [Cr _]. rewrite <- (m_rp _ _ _ M e Re) in Cr.
  destruct (point_lt _ _) eqn:B.
  - apply proj1 in Cr. specialize (Cr eq_refl).
    destruct (add_first D hi' nodes s T c0 INV R Full De C0 Xl Xr In1 Cr Z) as (nodes' & s' & N & Ad & U & cu & D1 & hi1 & CU & XU & NU & ST & DD & Kp).
    rewrite (NU t Gt).
    assert (Kp' : kept w s s' (X (k_l cu))) by (rewrite XU; auto).
    assert (Cn : (count s (X (k_l cu)) <= length nodes)%nat) by (rewrite (r_n _ _ R); apply count_le).
    destruct (walk_run D hi' nodes s INV R (length nodes) U cu D1 hi1 nodes' s' N ST CU Kp' Cn) as (L & WL & nodes2 & Ad2 & D2 & Dn & DD2).
    rewrite WL, Ad. exists nodes2. split; auto. exists D2. split; auto. intros g. rewrite DD2. auto.
  - assert (Hi : hi w e <= X (k_r c0)).
    { apply Qcnot_lt_le. intros L. apply Cr in L. congruence. }
    destruct (add_single D hi' nodes s T c0 INV R Full De C0 Xl Xr In1 Hi) as (nodes' & Ad & Dn).
    exists nodes'. split; auto. eexists. split; [apply Dn; auto|]. intros g. cbn. tauto.
Qed.
End Add.

Lemma add_edges_done w edges endpoints (M : means w edges endpoints) es : forall D nodes, done w edges D nodes ->
  NoDup es -> (forall g, In g es -> real w g /\ ~ D g) ->
  exists nodes', add_edges es edges endpoints nodes = Some nodes' /\ exists D1, done w edges D1 nodes' /\ forall g, D1 g <-> D g \/ In g es.
Proof.
  induction es as [|e es IH]; intros D nodes Dn ND Es.
  - exists nodes. split; auto. exists D. split; auto. cbn. tauto.
  - inversion ND as [|? ? NI ND']; subst. destruct (Es e (or_introl eq_refl)) as [Re De].
    destruct (add_edge_done w edges endpoints M e Re D nodes Dn De) as (nodes1 & Ad & D1 & Dn1 & DD1). cbn [add_edges]. rewrite Ad.
    destruct (IH D1 nodes1 Dn1 ND') as (nodes2 & Ad2 & D2 & Dn2 & DD2).
    + intros g G. destruct (Es g (or_intror G)) as [A B]. split; auto. rewrite DD1. intros [Q| ->]; auto.
    + exists nodes2. split; auto. exists D2. split; auto. intros g. rewrite DD2, DD1. cbn. intuition auto.
Qed.
