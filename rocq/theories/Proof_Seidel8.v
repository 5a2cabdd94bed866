(** The trapezoidation, part 8: an edge goes through the trapezoids it meets. *)
From Coq Require Import QArith Qcanon Bool List Arith Lia.
From Verif Require Import QcTac Model_Base Model_Utils Model_Seidel Proof_Seidel Proof_Seidel2 Proof_Seidel3 Proof_Seidel4 Proof_Seidel5 Proof_Seidel6 Proof_Seidel7.
Import ListNotations.
Local Open Scope Qc_scope.

Section Through.
Variables (w : world) (edges : list edge) (endpoints : list point).
Hypothesis M : means w edges endpoints.
Variable e : nat.
Hypothesis Re : real w e.
Notation X := (xp w). Notation Y := (yp w). Notation H := (h w).
Notation E := (edge_at edges e).

Record state (D : nat -> Prop) (hi' : nat -> Qc) (nodes : list node) (s : store) (T : nat) (c0 : core) (Q : bool -> nat) : Prop := {
  st_inv : inv w edges D hi' s;
  st_rep : rep nodes s;
  st_T : s_c s T = Some c0;
  st_e : D e;
  st_hi : hi' e = X (k_l c0);
  st_full : forall g, D g -> g <> e -> hi' g = hi w g;
  st_lt : X (k_l c0) < hi w e;
  st_in : forall t, X (k_l c0) < t -> t < X (k_r c0) -> t < hi w e -> H (k_b c0) t < H e t /\ H e t < H (k_a c0) t;
  st_half : forall up, exists q, s_c s (Q up) = Some q /\ side (negb up) q = e /\ X (k_r q) = X (k_l c0)
    /\ lo w e <= X (k_l q) /\ s_r s (negb up) (Q up) = None;
  st_near : forall up q, s_c s (Q up) = Some q -> side up q = side up c0 -> s_r s up (Q up) = Some T;
  st_apart : forall up q, s_c s (Q up) = Some q -> side up q <> side up c0 ->
    vertex w D (k_l c0) /\ (if up then H e (X (k_l c0)) < Y (k_l c0) else Y (k_l c0) < H e (X (k_l c0)));
  st_only : forall up j c, s_c s j = Some c -> side up c = e -> s_r s up j = None -> j = Q (negb up);
  st_QQ : Q true <> Q false;
  st_0 : exists nd, s_i s 0 = Some nd }.

(** The trapezoids further to the right are untouched. *)
Definition kept (s0 s : store) (x : Qc) : Prop :=
  forall j d, s_c s0 j = Some d -> x <= X (k_l d) -> s_c s j = Some d /\ forall up, s_r s up j = s_r s0 up j.

(** What holds when the edge is in. *)
Definition done (D : nat -> Prop) (nodes : list node) : Prop :=
  exists hi' s, inv w edges D hi' s /\ rep nodes s /\ (forall g, D g -> hi' g = hi w g) /\ exists nd, s_i s 0 = Some nd.

Section Facts.
Variables (D : nat -> Prop) (hi' : nat -> Qc) (nodes : list node) (s : store).
Hypothesis INV : inv w edges D hi' s.
Hypothesis R : rep nodes s.

Lemma link_leaf_l T c0 up b : s_c s T = Some c0 -> s_l s up T = Some b ->
  exists d, s_c s b = Some d /\ side up d = side up c0 /\ X (k_r d) = X (k_l c0) /\ s_r s up b = Some T /\ b <> T.
Proof.
  intros CT E0. assert (F : sview w s up T = Some (View (X (k_l c0)) (X (k_r c0)) (side up c0) (s_l s up T) (s_r s up T))) by (unfold sview; rewrite CT; auto).
  destruct (i_link _ _ _ _ _ INV up T _ F) as [A1 _ B _]. cbn in A1, B. destruct (B b E0) as (v & Fv & V1 & V2 & V3). unfold sview in Fv.
  destruct (s_c s b) as [d|] eqn:Cb; [|discriminate]. injection Fv as <-. cbn in *. exists d. repeat split; auto.
  intros ->. rewrite CT in Cb. injection Cb as <-. qlra.
Qed.
Lemma link_leaf_r T c0 up b : s_c s T = Some c0 -> s_r s up T = Some b ->
  exists d, s_c s b = Some d /\ side up d = side up c0 /\ X (k_l d) = X (k_r c0) /\ s_l s up b = Some T /\ b <> T.
Proof.
  intros CT E0. assert (F : sview w s up T = Some (View (X (k_l c0)) (X (k_r c0)) (side up c0) (s_l s up T) (s_r s up T))) by (unfold sview; rewrite CT; auto).
  destruct (i_link _ _ _ _ _ INV up T _ F) as [A1 B _ _]. cbn in A1, B. destruct (B b E0) as (v & Fv & V1 & V2 & V3). unfold sview in Fv.
  destruct (s_c s b) as [d|] eqn:Cb; [|discriminate]. injection Fv as <-. cbn in *. exists d. repeat split; auto.
  intros ->. rewrite CT in Cb. injection Cb as <-. qlra.
Qed.
Lemma link_end T c0 up : s_c s T = Some c0 -> X (k_r c0) < hi' (side up c0) -> s_r s up T <> None.
Proof.
  intros CT. assert (F : sview w s up T = Some (View (X (k_l c0)) (X (k_r c0)) (side up c0) (s_l s up T) (s_r s up T))) by (unfold sview; rewrite CT; auto).
  destruct (i_link _ _ _ _ _ INV up T _ F) as [_ _ _ B]. exact B.
Qed.
Lemma LL_ T c0 up b : s_c s T = Some c0 -> s_l s up T = Some b -> s_c s b <> None /\ b <> T.
Proof. intros C L. destruct (link_leaf_l _ _ _ _ C L) as (d & A & _ & _ & _ & B). split; auto. congruence. Qed.
Lemma LR_ T c0 up b : s_c s T = Some c0 -> s_r s up T = Some b -> s_c s b <> None /\ b <> T.
Proof. intros C L. destruct (link_leaf_r _ _ _ _ C L) as (d & A & _ & _ & _ & B). split; auto. congruence. Qed.

(** The comparisons. *)
Lemma cmp_r T c0 : s_c s T = Some c0 ->
  (point_lt (endpoint_at endpoints (k_r c0)) (endpoint_at endpoints (rp w e)) = true <-> X (k_r c0) < hi w e)
  /\ (point_eq (endpoint_at endpoints (rp w e)) (endpoint_at endpoints (k_r c0)) = true <-> hi w e = X (k_r c0)).
Proof.
  intros CT. destruct (w_real w e Re) as (_ & L2 & _). rewrite L2.
  assert (K : exists g', (real w g' /\ (k_r c0 = lp w g' \/ k_r c0 = rp w g')) \/ k_r c0 = cl w \/ k_r c0 = cr w).
  { destruct (g_r _ _ _ _ _ (i_core _ _ _ _ _ INV _ _ CT)) as [K|(g & Dg & K)]; [exists e; auto|exists g; left; split; auto].
    apply (i_real _ _ _ _ _ INV); auto. }
  destruct K as (g' & K). destruct (m_lt _ _ _ M e g' (rp w e) (k_r c0) Re (or_intror eq_refl) K) as (_ & A & B). split; [exact A|exact B].
Qed.
Lemma cmp_l T c0 : s_c s T = Some c0 ->
  (point_eq (endpoint_at endpoints (lp w e)) (endpoint_at endpoints (k_l c0)) = true <-> lo w e = X (k_l c0)).
Proof.
  intros CT. destruct (w_real w e Re) as (L1 & _). rewrite L1.
  assert (K : exists g', (real w g' /\ (k_l c0 = lp w g' \/ k_l c0 = rp w g')) \/ k_l c0 = cl w \/ k_l c0 = cr w).
  { destruct (g_l _ _ _ _ _ (i_core _ _ _ _ _ INV _ _ CT)) as [K|((g & Dg & K) & _)]; [exists e; auto|exists g; left; split; auto].
    apply (i_real _ _ _ _ _ INV); auto. }
  destruct K as (g' & K). destruct (m_lt _ _ _ M e g' (lp w e) (k_l c0) Re (or_introl eq_refl) K) as (_ & _ & B). exact B.
Qed.
End Facts.

(** One step of the walk. *)
Lemma walk_step s0 nodes0 s nodes T c0 fuel : rep nodes0 s0 -> rep nodes s -> s_c s0 T = Some c0 -> s_c s T = Some c0 ->
  (forall up, s_r s up T = s_r s0 up T) ->
  exists t, get_trapezoid T nodes = Some t /\
  walk_right (S fuel) E T endpoints nodes0 =
  if point_lt (endpoint_at endpoints (k_r c0)) (endpoint_at endpoints (right_point_index E))
  then match next_of edges endpoints e t with
       | Some U => match walk_right fuel E U endpoints nodes0 with Some rest => Some (T :: rest) | None => None end
       | None => None
       end
  else Some [T].
Proof.
  intros R0 R C0 C Lk. destruct (rep_leaf _ _ _ _ R0 C0) as (t0 & _ & G0 & K0 & _ & L0). destruct (rep_leaf _ _ _ _ R C) as (t & _ & G & K & _ & L).
  exists t. split; auto. cbn [walk_right]. rewrite G0. assert (E1 : right_point t0 = k_r c0) by (rewrite <- K0; auto). rewrite E1.
  destruct (point_lt _ _); auto. unfold next_of. assert (E2 : right_point t = k_r c0) by (rewrite <- K; auto). rewrite E2.
  pose proof (L true) as LT. pose proof (L false) as LF. pose proof (L0 true) as LT0. pose proof (L0 false) as LF0. cbn in LT, LF, LT0, LF0.
  rewrite LT, LF, LT0, LF0, !Lk. auto.
Qed.

(** The next state. *)
Section NextState.
Variables (D : nat -> Prop) (hi' : nat -> Qc) (nodes nodes' : list node) (s s' : store) (T : nat) (c0 : core) (N : bool -> nat) (x0 : Qc).
Hypothesis INV : inv w edges D hi' s.
Hypothesis R : rep nodes s.
Hypothesis R' : rep nodes' s'.
Hypothesis CT : s_c s T = Some c0.
Hypothesis Full : forall g, D g -> g <> e -> hi' g = hi w g.
Hypothesis NE : forall up, side up c0 <> e.
Hypothesis L0 : exists nd, s_i s 0 = Some nd.
Hypothesis L0' : exists nd, s_i s' 0 = Some nd.
Notation xl := (X (k_l c0)).
Notation xr := (X (k_r c0)).
Let D' (g : nat) : Prop := D g \/ g = e.
Let hi2 (g : nat) : Qc := if (g =? e)%nat then xr else hi' g.
Hypothesis Lo : lo w e <= x0.
Hypothesis Xl : xl <= x0.
Hypothesis Xr : x0 < xr.
Hypothesis Hi : xr < hi w e.
Hypothesis Inside : forall t, x0 < t -> t < xr -> H (k_b c0) t < H e t /\ H e t < H (k_a c0) t.
Hypothesis INV' : inv w edges D' hi2 s'.
Hypothesis Only' : forall up j d, s_c s' j = Some d -> side up d = e -> s_r s' up j = None -> j = N (negb up).
Hypothesis RN : forall up, s_r s' up (N up) = s_r s up T.
Hypothesis RF : forall up, s_r s' up (N (negb up)) = None.
Hypothesis Hv : forall up, exists q, s_c s' (N up) = Some q /\ side (negb up) q = e /\ side up q = side up c0 /\ X (k_r q) = xr /\ lo w e <= X (k_l q).
Hypothesis Kp : forall j d, s_c s j = Some d -> xr <= X (k_l d) -> s_c s' j = Some d /\ forall up, s_r s' up j = s_r s up j.
Hypothesis NN : N true <> N false.

Lemma next_state : exists U cu, s_c s U = Some cu /\ X (k_l cu) = xr /\ (exists m, s_r s m T = Some U) /\ (forall t, get_trapezoid T nodes = Some t -> next_of edges endpoints e t = Some U) /\
  state D' hi2 nodes' s' U cu N.
Proof.
  assert (Z : s_c s 0 = None).
  { destruct L0 as (nd & I0). destruct (s_c s 0) as [c|] eqn:C; auto. exfalso. apply (inner_not_leaf nodes s R 0 nd c I0 C). }
  destruct (next_spec w edges endpoints M e Re D hi' nodes s T c0 x0 INV R CT Full NE Z Lo Xl Xr Hi Inside) as (m & U & cu & LU & CU & SU & XU & VU & YU & IU & NU).
  exists U, cu. split; auto. split; auto. split; [exists m; auto|]. split; auto.
  destruct (Kp U cu CU ltac:(qlra)) as [CU' _].
  pose proof (i_core _ _ _ _ _ INV U cu CU) as Gu. pose proof (g_lt _ _ _ _ _ Gu) as Lu.
  constructor; auto.
  - right; auto.
  - unfold hi2. rewrite Nat.eqb_refl. auto.
  - intros g [G| ->] Ne; [|congruence]. unfold hi2. rewrite (proj2 (Nat.eqb_neq _ _) Ne). auto.
  - rewrite XU. auto.
  - rewrite XU. intros t T1 T2 T3. apply IU; auto.
  - intros up. destruct (Hv up) as (q & A1 & A2 & A3 & A4 & A5). exists q. rewrite XU. repeat split; auto.
    pose proof (RF (negb up)) as F. rewrite negb_involutive in F. auto.
  - intros up q Cq Sq. rewrite RN. destruct (Hv up) as (q' & A1 & A2 & A3 & A4 & A5). rewrite Cq in A1. injection A1 as <-.
    destruct (Bool.bool_dec up m) as [->|Nm]; auto.
    pose proof (g_hi _ _ _ _ _ Gu up) as Hu. rewrite <- Sq, A3 in Hu.
    destruct (s_r s up T) as [V|] eqn:LV; [|exfalso; apply (link_end _ _ _ INV T c0 up CT); auto; qlra].
    destruct (link_leaf_r _ _ _ INV T c0 up V CT LV) as (d & Cd & Sd & Xd & _).
    f_equal. pose proof (g_lt _ _ _ _ _ (i_core _ _ _ _ _ INV V d Cd)) as Ld.
    apply (same_side w edges D hi' s up V U d cu INV Cd CU); [congruence|qlra|qlra].
  - intros up q Cq Sq. destruct (Hv up) as (q' & A1 & A2 & A3 & A4 & A5). rewrite Cq in A1. injection A1 as <-.
    assert (Nm : up <> m) by (intros ->; apply Sq; congruence).
    split; [destruct VU as (g & Dg & K); exists g; split; auto; left; auto|]. rewrite XU. destruct up, m; auto; congruence.
Qed.
End NextState.

(** ** A further trapezoid *)
Section Further.
Variables (D : nat -> Prop) (hi' : nat -> Qc) (nodes : list node) (s : store) (T : nat) (c0 : core) (Q : bool -> nat).
Hypothesis ST : state D hi' nodes s T c0 Q.
Notation xl := (X (k_l c0)).
Notation xr := (X (k_r c0)).

Lemma st_ne up : side up c0 <> e.
Proof.
  intros Eq. pose proof (i_core _ _ _ _ _ (st_inv _ _ _ _ _ _ _ ST) _ _ (st_T _ _ _ _ _ _ _ ST)) as G.
  pose proof (g_hi _ _ _ _ _ G up) as A. pose proof (g_lt _ _ _ _ _ G) as B. rewrite Eq, (st_hi _ _ _ _ _ _ _ ST) in A. qlra.
Qed.
Lemma st_pre : exists q : bool -> core, exists mg : bool -> bool,
  (forall up, s_c s (Q up) = Some (q up)) /\ (forall up, Q up <> T) /\ (forall up u, s_r s up T <> Some (Q u)) /\
  (forall up, (side up (q up) =? side up c0)%nat = mg up) /\ (forall up u, mg up = false -> s_l s up T <> Some (Q u)) /\
  (forall up, mg up = true -> exists q, s_c s (Q up) = Some q /\ side (negb up) q = e /\ X (k_r q) = xl /\ lo w e <= X (k_l q)) /\
  (forall up, mg up = false -> vertex w D (k_l c0) /\ (if up then H e xl < Y (k_l c0) else Y (k_l c0) < H e xl)) /\
  (forall up, mg up = true -> s_r s up (Q up) = Some T).
Proof.
  pose proof (st_half _ _ _ _ _ _ _ ST) as Hf. destruct (Hf true) as (qt & Ct & St1 & Xt & Lt1 & Rt). destruct (Hf false) as (qf & Cf & Sf & Xf & Lf & Rf).
  pose proof (st_inv _ _ _ _ _ _ _ ST) as INV. pose proof (st_T _ _ _ _ _ _ _ ST) as CT.
  pose proof (g_lt _ _ _ _ _ (i_core _ _ _ _ _ INV _ _ CT)) as L0.
  exists (fun up : bool => if up then qt else qf), (fun up : bool => Nat.eqb (side up (if up then qt else qf)) (side up c0)).
  assert (C : forall up : bool, s_c s (Q up) = Some (if up then qt else qf)) by (intros []; auto).
  assert (Xq : forall up : bool, X (k_r (if up then qt else qf)) = xl) by (intros []; auto).
  assert (Sq : forall up : bool, side (negb up) (if up then qt else qf) = e) by (intros []; auto).
  split; auto. split; [|split; [|split; [|split; [|split; [|split]]]]]; auto.
  - intros up Eq. pose proof (C up) as Cu. pose proof (Xq up) as Xu. rewrite Eq, CT in Cu. injection Cu as Cu. rewrite <- Cu in Xu. qlra.
  - intros up u L. destruct (link_leaf_r _ _ _ INV _ _ _ _ CT L) as (d & Cd & _ & Xd & _). rewrite C in Cd. injection Cd as <-.
    pose proof (g_lt _ _ _ _ _ (i_core _ _ _ _ _ INV _ _ (C u))) as Lu. pose proof (Xq u) as Xu. qlra.
  - intros up u Mu L. destruct (link_leaf_l _ _ _ INV _ _ _ _ CT L) as (d & Cd & Sd & _). rewrite C in Cd. injection Cd as <-.
    apply Nat.eqb_neq in Mu. destruct (Bool.bool_dec u up) as [->|Nu]; [auto|].
    pose proof (Sq u) as Su. replace (negb u) with up in Su by (destruct u, up; auto; congruence).
    apply (st_ne up). congruence.
  - intros up _. destruct (Hf up) as (q & A1 & A2 & A3 & A4 & _). exists q; auto.
  - intros up Mu. apply Nat.eqb_neq in Mu. apply (st_apart _ _ _ _ _ _ _ ST up _ (C up) Mu).
  - intros up Mu. apply Nat.eqb_eq in Mu. apply (st_near _ _ _ _ _ _ _ ST up _ (C up) Mu).
Qed.

Lemma state_middle : xr < hi w e ->
  exists nodes' s' N, add_edge_to_middle_trapezoid e T (Q true) (Q false) edges nodes = Some (nodes', N true, N false) /\
  exists U cu D1 hi1, s_c s U = Some cu /\ X (k_l cu) = xr /\ (exists m, s_r s m T = Some U) /\ (forall t, get_trapezoid T nodes = Some t -> next_of edges endpoints e t = Some U) /\
  state D1 hi1 nodes' s' U cu N /\ (forall g, D1 g <-> D g) /\
  (forall j d, s_c s j = Some d -> xr <= X (k_l d) -> s_c s' j = Some d /\ forall up, s_r s' up j = s_r s up j).
Proof.
  intros Hi. destruct st_pre as (q & mg & CQ & QT & RQ & MG & LQ & Half & Apart & Near).
  pose proof (st_inv _ _ _ _ _ _ _ ST) as INV. pose proof (st_T _ _ _ _ _ _ _ ST) as CT. pose proof (st_rep _ _ _ _ _ _ _ ST) as R.
  pose proof (g_lt _ _ _ _ _ (i_core _ _ _ _ _ INV _ _ CT)) as L0. pose proof (st_e _ _ _ _ _ _ _ ST) as De.
  destruct (middle_after edges nodes s T e c0 R CT (fun up b => LL_ _ _ _ INV T c0 up b CT) (fun up b => LR_ _ _ _ INV T c0 up b CT)
    Q q CQ (st_QQ _ _ _ _ _ _ _ ST) QT RQ mg MG LQ) as (nodes' & s' & Ad & R' & AF).
  rewrite (m_lp _ _ _ M e Re), (m_rp _ _ _ M e Re) in AF.
  set (N := fun up : bool => if mg up then Q up else if up then s_n s else if mg true then s_n s else S (s_n s)) in *.
  pose proof (i_hi _ _ _ _ _ INV e De) as [Le1 Le2]. rewrite (st_hi _ _ _ _ _ _ _ ST) in Le1, Le2.
  assert (In1 : forall t, xl < t -> t < xr -> H (k_b c0) t < H e t /\ H e t < H (k_a c0) t).
  { intros t T1 T2. apply (st_in _ _ _ _ _ _ _ ST); auto. qlra. }
  destruct (step_all w edges D hi' s s' T c0 e (k_r c0) true mg Q N None None xl xr INV CT AF Re) as (INV' & On & RN & RF & Hv & Kp); auto.
  - discriminate.
  - intros _. repeat split; auto. apply (st_hi _ _ _ _ _ _ _ ST).
  - intros _. apply (st_half _ _ _ _ _ _ _ ST).
  - intros _. apply (st_only _ _ _ _ _ _ _ ST).
  - intros _. apply (st_QQ _ _ _ _ _ _ _ ST).
  - assert (I0 : exists nd, s_i s' 0 = Some nd).
    { destruct (st_0 _ _ _ _ _ _ _ ST) as (nd & I0). exists nd. apply (a_inner _ _ _ _ _ _ _ _ _ _ _ _ _ _ _ AF); auto. }
    destruct (next_state D hi' nodes nodes' s s' T c0 N xl INV R R' CT (st_full _ _ _ _ _ _ _ ST) st_ne (st_0 _ _ _ _ _ _ _ ST) I0) as (U & cu & CU & XU & LU & NU & ST'); auto.
    + qlra. + qlra. + apply (a_NN _ _ _ _ _ _ _ _ _ _ _ _ _ _ _ AF).
    + exists nodes', s', N. split; auto. exists U, cu. do 2 eexists. do 5 (split; [eassumption|]). split; auto.
      intros g. split; [intros [G| ->]; auto|left; auto].
Qed.

Lemma state_last : hi w e <= xr ->
  exists nodes', add_edge_to_last_trapezoid e T (Q true) (Q false) edges endpoints nodes = Some nodes' /\
  exists D1, done D1 nodes' /\ forall g, D1 g <-> D g.
Proof.
  intros Hi. destruct st_pre as (q & mg & CQ & QT & RQ & MG & LQ & Half & Apart & Near).
  pose proof (st_inv _ _ _ _ _ _ _ ST) as INV. pose proof (st_T _ _ _ _ _ _ _ ST) as CT. pose proof (st_rep _ _ _ _ _ _ _ ST) as R.
  pose proof (g_lt _ _ _ _ _ (i_core _ _ _ _ _ INV _ _ CT)) as L0. pose proof (st_e _ _ _ _ _ _ _ ST) as De.
  destruct (last_after edges endpoints nodes s T e c0 R CT (fun up b => LL_ _ _ _ INV T c0 up b CT) (fun up b => LR_ _ _ _ INV T c0 up b CT)
    Q q CQ (st_QQ _ _ _ _ _ _ _ ST) QT RQ mg MG LQ) as (nodes' & s' & sr & Ad & R' & AF & Sr).
  rewrite (m_lp _ _ _ M e Re), (m_rp _ _ _ M e Re) in AF. rewrite (m_rp _ _ _ M e Re) in Sr.
  destruct (cmp_r D hi' s INV T c0 CT) as [_ Cr]. rewrite Cr in Sr.
  set (N := fun up : bool => if mg up then Q up else if up then s_n s else if mg true then s_n s else S (s_n s)) in *.
  destruct (w_real w e Re) as (W1 & W2 & W3 & _).
  assert (In1 : forall t, xl < t -> t < hi w e -> H (k_b c0) t < H e t /\ H e t < H (k_a c0) t).
  { intros t T1 T2. apply (st_in _ _ _ _ _ _ _ ST); auto. qlra. }
  destruct (step_all w edges D hi' s s' T c0 e (rp w e) true mg Q N None sr xl (hi w e) INV CT AF Re) as (INV' & _); auto.
  - discriminate.
  - intros _. repeat split; auto. apply (st_hi _ _ _ _ _ _ _ ST).
  - left. split; auto. split; [|tauto]. intros r Er. destruct (Qc_eq_dec (hi w e) xr) as [Eq|Ne]; [|qne; qlra].
    apply Sr in Eq. congruence.
  - apply (st_lt _ _ _ _ _ _ _ ST).
  - intros _. apply (st_half _ _ _ _ _ _ _ ST).
  - intros _. apply (st_only _ _ _ _ _ _ _ ST).
  - intros _. apply (st_QQ _ _ _ _ _ _ _ ST).
  - exists nodes'. split; auto. eexists. split; [|].
    + exists (fun g => if (g =? e)%nat then hi w e else hi' g), s'. split; [exact INV'|]. split; auto. split.
      * intros g G. destruct (Nat.eqb_spec g e) as [->|Ne]; auto. destruct G; [|congruence]. apply (st_full _ _ _ _ _ _ _ ST); auto.
      * destruct (st_0 _ _ _ _ _ _ _ ST) as (nd & I0). exists nd. apply (a_inner _ _ _ _ _ _ _ _ _ _ _ _ _ _ _ AF); auto.
    + intros g. cbn. split; [intros [G| ->]; auto|left; auto].
Qed.
End Further.
End Through.
