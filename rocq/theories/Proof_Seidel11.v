(** The trapezoidation, part 11: the plane of the given edges. *)
From Coq Require Import QArith Qcanon Bool List Arith Lia.
From Verif Require Import QcTac Model_Base Model_Utils Model_Box Model_Geometry Model_Contour Model_Linear Model_Seidel Spec_Base Proof_Base
  Proof_Sweep Proof_Sweep4 Proof_Seidel2 Proof_Seidel5 Proof_Seidel6 Proof_Seidel8 Proof_Seidel9 Proof_Seidel10.
Import ListNotations.
Local Open Scope Qc_scope.

Lemma bounded (l : list Qc) : exists A, 0 < A /\ forall v, In v l -> - A < v /\ v < A.
Proof.
  induction l as [|x l (A & PA & HA)].
  - exists 1. split; [qlra|]. intros v [].
  - exists (A + (if Qclt_le_dec x 0 then - x else x) + 1). destruct (Qclt_le_dec x 0); (split; [qlra|]); intros v [<-|I]; try (split; qlra);
      destruct (HA v I); split; qlra.
Qed.
Lemma close_exists (l : list Qc) a b : a < b -> exists t, a < t /\ t < b /\ forall v, In v l -> a < v -> t < v.
Proof.
  intros L. induction l as [|x l (t & T1 & T2 & HT)].
  - exists ((a + b) / (1 + 1)). assert (E : (a + b) / (1 + 1) * (1 + 1) = a + b) by (field; discriminate).
    generalize dependent ((a + b) / (1 + 1)). intros m E. repeat split; try qlra. intros v [].
  - destruct (Qclt_le_dec a x) as [Lx|Lx].
    + exists ((a + (if Qclt_le_dec t x then t else x)) / (1 + 1)).
      assert (E : (a + (if Qclt_le_dec t x then t else x)) / (1 + 1) * (1 + 1) = a + (if Qclt_le_dec t x then t else x)) by (field; discriminate).
      generalize dependent ((a + (if Qclt_le_dec t x then t else x)) / (1 + 1)). intros m E.
      assert (m < t /\ m < x /\ a < m) as (M1 & M2 & M3) by (destruct (Qclt_le_dec t x); repeat split; qlra).
      repeat split; auto; try qlra. intros v [<-|I] Lv; auto. specialize (HT v I Lv). qlra.
    + exists t. repeat split; auto. intros v [<-|I] Lv; auto. exfalso. qlra.
Qed.

Lemma sign_opp (u v : Qc) : u * v < 0 -> (u < 0 /\ 0 < v) \/ (v < 0 /\ 0 < u).
Proof.
  intros Q. destruct (Qc_dec u 0) as [[L|L]|L].
  - left. split; auto. apply Qcnot_le_lt. intros ?. qnra.
  - right. split; auto. apply Qcnot_le_lt. intros ?. qnra.
  - exfalso. rewrite L in Q. replace (0 * v) with 0 in Q by ring. qlra.
Qed.

Section Concrete.
Variables (es : list edge) (eps : list point) (corners : list point) (p : point) (c : ctx) (A : Qc).
Notation n := (length es).
Notation m := (length eps).
Let edges := es ++ [Edge true m (m + 1); Edge false (m + 2) (m + 3)].
Let endpoints := eps ++ corners.
Definition elp (g : nat) : nat := left_point_index (edge_at es g).
Definition erp (g : nat) : nat := right_point_index (edge_at es g).
Definition eL (g : nat) : point := endpoint_at eps (elp g).
Definition eR (g : nat) : point := endpoint_at eps (erp g).
Hypothesis Hidx : forall g, (g < n)%nat -> (elp g < m)%nat /\ (erp g < m)%nat.
Hypothesis Hlex : forall g, (g < n)%nat -> lex_lt (eL g) (eR g).
Hypothesis Hmeet : forall g g' f, (g < n)%nat -> (g' < n)%nat -> g <> g' -> between (eL g) (eR g) f -> between (eL g') (eR g') f ->
  (f = eL g \/ f = eR g) /\ (f = eL g' \/ f = eR g').
Hypothesis Corn : exists a1 a2 cl cr, corners = [a1; a2; cl; cr] /\ forall g, (g < n)%nat -> px cl < px (eL g) /\ px cl < px (eR g) /\ px (eL g) < px cr /\ px (eR g) < px cr.
Hypothesis G : good c.
Hypothesis Ins : forall g, (g < n)%nat -> input c g = (eL g, eR g).
Hypothesis InsL : (n < length (c_ins c))%nat.
Hypothesis PP : In p (c_pts c).
Hypothesis HA : forall q, In q (c_pts c) -> - A < X c q /\ X c q < A /\ - A < py q /\ py q < A.

Definition xk (k : nat) : Qc := if (k <? m)%nat then X c (endpoint_at eps k) else if (k =? m + 2)%nat then - A else A.
Definition yk (k : nat) : Qc := py (endpoint_at eps k).
Definition hg (g : nat) (t : Qc) : Qc := if (g <? n)%nat then H c g t else if (g =? n)%nat then A else - A.
Definition log (g : nat) : Qc := if (g <? n)%nat then X c (eL g) else - A.
Definition hig (g : nat) : Qc := if (g <? n)%nat then X c (eR g) else A.

Lemma ltb_t a b : (a < b)%nat -> (a <? b)%nat = true. Proof. apply Nat.ltb_lt. Qed.
Lemma A_pos : 0 < A. Proof. destruct (HA p PP). qlra. Qed.
Lemma pts_in g : (g < n)%nat -> In (eL g) (c_pts c) /\ In (eR g) (c_pts c).
Proof. intros L. destruct (g_ins c G g) as (_ & I1 & I2); [lia|]. rewrite (Ins g L) in I1, I2. auto. Qed.
Lemma start_H g : (g < n)%nat -> py (eL g) = H c g (X c (eL g)).
Proof. intros L. pose proof (H_start c g) as Q. rewrite (Ins g L) in Q. auto. Qed.
Lemma end_H g : (g < n)%nat -> py (eR g) = H c g (X c (eR g)).
Proof. intros L. pose proof (H_end c G g) as Q. rewrite (Ins g L) in Q. symmetry. apply Q. lia. Qed.
Lemma X_LR g : (g < n)%nat -> X c (eL g) < X c (eR g).
Proof. intros L. destruct (pts_in g L). apply (X_lt c G); auto. Qed.
Lemma edge_between g f : (g < n)%nat -> (between (eL g) (eR g) f <-> X c (eL g) <= X c f /\ X c f <= X c (eR g) /\ py f = H c g (X c f)).
Proof. intros L. apply between_X; [apply start_H|apply end_H|apply X_LR]; auto. Qed.
Lemma vert g k : (g < n)%nat -> k = elp g \/ k = erp g ->
  (k < m)%nat /\ (endpoint_at eps k = eL g \/ endpoint_at eps k = eR g) /\ In (endpoint_at eps k) (c_pts c) /\
  xk k = X c (endpoint_at eps k) /\ between (eL g) (eR g) (endpoint_at eps k).
Proof.
  intros L K. destruct (Hidx g L) as [I1 I2]. destruct (pts_in g L) as [P1 P2]. pose proof (X_LR g L) as LL. pose proof (start_H g L). pose proof (end_H g L).
  assert (Km : (k < m)%nat) by (destruct K; subst; auto).
  assert (Ek : endpoint_at eps k = eL g \/ endpoint_at eps k = eR g) by (destruct K; subst; auto).
  split; auto. split; auto. split; [destruct Ek as [ -> | -> ]; auto|]. split; [unfold xk; rewrite (ltb_t _ _ Km); auto|].
  apply edge_between; auto. destruct Ek as [ -> | -> ]; repeat split; auto; qlra.
Qed.
(** A point on an edge that is over the inner part of it. *)
Lemma inner_point g g' f : (g < n)%nat -> (g' < n)%nat -> g <> g' -> between (eL g) (eR g) f -> between (eL g') (eR g') f ->
  X c (eL g) < X c f -> X c f < X c (eR g) -> False.
Proof. intros L L' N B B' Q1 Q2. destruct (Hmeet g g' f L L' N B B') as [[Q| Q] _]; rewrite Q in *; qlra. Qed.
Lemma point_over (t : Qc) (y : Qc) : exists f, X c f = t /\ py f = y.
Proof. exists (Pt (t - c_eps c * y) y). split; auto. unfold X. cbn. ring. Qed.
Lemma apart_ g g' t : (g < n)%nat -> (g' < n)%nat -> g <> g' -> X c (eL g) < t -> t < X c (eR g) -> X c (eL g') < t -> t < X c (eR g') -> H c g t <> H c g' t.
Proof.
  intros L L' N T1 T2 T3 T4 Q. destruct (point_over t (H c g t)) as (f & F1 & F2).
  apply (inner_point g g' f L L' N); [apply edge_between; auto; rewrite F1; repeat split; auto; qlra
    |apply edge_between; auto; rewrite F1; repeat split; auto; try qlra; congruence|rewrite F1; auto|rewrite F1; auto].
Qed.

Definition the_world : world.
Proof.
  refine (World xk yk elp erp hg log hig (fun g => (g < n)%nat) n (n + 1) (m + 2) (m + 3) _ _ _ _ _ _ _ _ _ _).
  - intros g. unfold hg. destruct (g <? n)%nat; [|destruct (g =? n)%nat].
    + exists (K c g), (py (fst (input c g)) - K c g * X c (fst (input c g))). intros t. unfold H. ring.
    + exists 0, A. intros t. ring.
    + exists 0, (- A). intros t. ring.
  - intros g L. unfold log, hig, hg, yk. rewrite !(ltb_t _ _ L).
    destruct (vert g (elp g) L (or_introl eq_refl)) as (_ & _ & _ & -> & _). destruct (vert g (erp g) L (or_intror eq_refl)) as (_ & _ & _ & -> & _).
    fold (eL g) (eR g). split; auto. split; auto. split; [apply X_LR; auto|]. split; symmetry; [apply start_H|apply end_H]; auto.
  - unfold log, hig, xk. pose proof A_pos.
    rewrite !(proj2 (Nat.ltb_ge _ _)) by lia. rewrite Nat.eqb_refl. rewrite !(proj2 (Nat.eqb_neq _ _)) by lia. repeat split; try lia. qlra.
  - intros g L. unfold log, hig, xk. rewrite !(ltb_t _ _ L). rewrite !(proj2 (Nat.ltb_ge (m + _) m)) by lia. rewrite Nat.eqb_refl. rewrite !(proj2 (Nat.eqb_neq _ _)) by lia.
    destruct (pts_in g L) as [P1 P2]. destruct (HA _ P1), (HA _ P2). split; qlra.
  - intros t. unfold hg. rewrite !(proj2 (Nat.ltb_ge _ _)) by lia. rewrite Nat.eqb_refl. rewrite !(proj2 (Nat.eqb_neq _ _)) by lia. pose proof A_pos. qlra.
  - intros g t L T1 T2. unfold hg, log, hig in *. rewrite (ltb_t _ _ L) in *. rewrite !(proj2 (Nat.ltb_ge _ _)) by lia. rewrite Nat.eqb_refl. rewrite !(proj2 (Nat.eqb_neq _ _)) by lia.
    pose proof (H_affine c g t (X c (eL g))) as E1. pose proof (H_affine c g (X c (eR g)) t) as E2.
    rewrite <- (start_H g L) in E1. rewrite <- (end_H g L) in E2. destruct (pts_in g L) as [P1 P2]. destruct (HA _ P1) as (_ & _ & Q1 & Q2). destruct (HA _ P2) as (_ & _ & Q3 & Q4).
    generalize dependent (H c g t). intros v E1 E2. generalize dependent (K c g). intros k E1 E2.
    destruct (Qclt_le_dec k 0); split; qnra.
  - intros g g' t L L' N. unfold log, hig, hg. rewrite !(ltb_t _ _ L), !(ltb_t _ _ L'). apply apart_; auto.
  - intros g g' k L L' K0. destruct (vert g' k L' K0) as (_ & Ek & Pk & -> & Bk). unfold log, hig, hg, yk. rewrite !(ltb_t _ _ L).
    intros T1 T2 Q. destruct (Nat.eq_dec g g') as [<-|N].
    + destruct Ek as [E0|E0]; rewrite E0 in *; qlra.
    + apply (inner_point g g' (endpoint_at eps k) L L' N); auto. apply edge_between; auto. repeat split; auto; qlra.
  - intros g g' k k' L L' K0 K1. destruct (vert g k L K0) as (_ & _ & P1 & -> & _). destruct (vert g' k' L' K1) as (_ & _ & P2 & -> & _).
    intros E. unfold yk. rewrite (X_inj c G _ _ P1 P2 E). auto.
  - intros a b L. destruct (close_exists (map (X c) (c_pts c)) a b L) as (t & T1 & T2 & HT). exists t. split; auto. split; auto.
    intros g k Lg K0. destruct (vert g k Lg K0) as (_ & _ & P1 & -> & _). apply HT. apply in_map. auto.
Defined.

Lemma edge_old g : (g < n)%nat -> edge_at edges g = edge_at es g.
Proof. intros L. unfold edge_at, edges. apply app_nth1. auto. Qed.
Lemma end_old k : (k < m)%nat -> endpoint_at endpoints k = endpoint_at eps k.
Proof. intros L. unfold endpoint_at, endpoints. apply app_nth1. auto. Qed.
Lemma sgn_cw v : orientation_is (sgn v) CLOCKWISE = true <-> v < 0.
Proof. unfold sgn. destruct (qltb_spec 0 v); cbn; [split; [discriminate|intros; exfalso; qlra]|]. destruct (qeqb_spec v 0); cbn; split; auto; try discriminate; intros; try (exfalso; qlra). qne; qlra. Qed.
Lemma orient_at g q : (g < n)%nat -> orientation_of (edge_at edges g) q endpoints = sgn (py q - H c g (X c q)).
Proof.
  intros L. unfold orientation_of. rewrite (edge_old g L). fold (elp g) (erp g). destruct (Hidx g L) as [I1 I2]. rewrite !end_old by auto.
  fold (eL g) (eR g). apply (orient_sgn c g); [apply start_H|apply end_H|apply X_LR]; auto.
Qed.

(** The order of two edges from the four orientations. *)
Lemma under_spec g g' t : (g < n)%nat -> (g' < n)%nat -> g <> g' -> X c (eL g) < t -> t < X c (eR g) -> X c (eL g') < t -> t < X c (eR g') ->
  (is_under (edge_at edges g) (edge_at edges g') endpoints = true <-> H c g t < H c g' t).
Proof.
  intros L L' N T1 T2 T3 T4.
  destruct (Hidx g L) as [I1 I2]. destruct (Hidx g' L') as [I3 I4].
  unfold is_under. rewrite !orient_at by auto.
  rewrite !edge_old by auto. fold (elp g) (erp g) (elp g') (erp g'). rewrite !end_old by auto. fold (eL g) (eR g) (eL g') (eR g').
  rewrite (start_H g L), (end_H g L), (start_H g' L'), (end_H g' L').
  assert (Ap : forall u, X c (eL g) < u -> u < X c (eR g) -> X c (eL g') < u -> u < X c (eR g') -> H c g u <> H c g' u) by (intros; apply apart_; auto).
  assert (Af : exists a b, forall u, H c g' u - H c g u = a * u + b).
  { exists (K c g' - K c g), ((py (fst (input c g')) - K c g' * X c (fst (input c g'))) - (py (fst (input c g)) - K c g * X c (fst (input c g)))).
    intros u. unfold H. ring. }
  destruct Af as (a & b & Af).
  assert (Ag : forall u, H c g u - H c g' u = - (a * u + b)) by (intros u; rewrite <- Af; ring).
  rewrite !Af, !Ag.
  assert (E : H c g t < H c g' t <-> 0 < a * t + b) by (rewrite <- Af; split; intros; qlra). rewrite E.
  assert (Z : forall u, X c (eL g) < u -> u < X c (eR g) -> X c (eL g') < u -> u < X c (eR g') -> a * u + b <> 0).
  { intros u U1 U2 U3 U4 Q. apply (Ap u); auto. rewrite <- Af in Q. qlra. }
  clear Ap E Af Ag. generalize dependent (X c (eL g)). generalize dependent (X c (eR g)). generalize dependent (X c (eL g')). generalize dependent (X c (eR g')).
  intros r' T4 l' T3 r T2 l T1 Z. pose proof (Z t T1 T2 T3 T4) as Zt.
  assert (Lin : forall u v, u < t -> t < v -> (a * t + b) * (v - u) = (a * u + b) * (v - t) + (a * v + b) * (t - u)) by (intros; ring).
  pose proof (Lin l' r' T3 T4) as E1. pose proof (Lin l r T1 T2) as E2.
  assert (Sol : forall u v, a * u + b < 0 -> 0 < a * v + b -> exists x, a * x + b = 0 /\ ((u < x /\ x < v) \/ (v < x /\ x < u))) by (intros; apply affine_zero; auto).
  assert (Two : forall x x', a * x + b = 0 -> a * x' + b = 0 -> x <> x' -> False).
  { intros x x' Q1 Q2 Nx. assert (Ez : a * (x - x') = 0) by (transitivity ((a * x + b) - (a * x' + b)); [ring|rewrite Q1, Q2; ring]).
    apply Qcmult_integral in Ez. destruct Ez as [-> |Ez]; [|apply Nx; qlra]. apply Zt. qlra. }
  assert (Opp : (a * l' + b) * (a * r' + b) < 0 -> (a * l + b) * (a * r + b) < 0 -> False).
  { intros O1 O2. assert (X1 : exists x, a * x + b = 0 /\ l' < x /\ x < r').
    { destruct (sign_opp _ _ O1) as [[U1 U2]|[U1 U2]]; destruct (Sol _ _ U1 U2) as (x & Y1 & Y2); exists x; (split; [auto|]); destruct Y2 as [[]|[]]; split; qlra. }
    assert (X2 : exists x, a * x + b = 0 /\ l < x /\ x < r).
    { destruct (sign_opp _ _ O2) as [[U1 U2]|[U1 U2]]; destruct (Sol _ _ U1 U2) as (x & Y1 & Y2); exists x; (split; [auto|]); destruct Y2 as [[]|[]]; split; qlra. }
    destruct X1 as (x & X1 & X3 & X4). destruct X2 as (x' & X2 & X5 & X6). destruct (Qc_eq_dec x x') as [->|Nx]; [|apply (Two x x'); auto].
    apply (Z x'); auto. }
  assert (P1 : 0 < r' - l') by qlra. assert (P2 : 0 < r' - t) by qlra. assert (P3 : 0 < t - l') by qlra.
  assert (P4 : 0 < r - l) by qlra. assert (P5 : 0 < r - t) by qlra. assert (P6 : 0 < t - l) by qlra.
  clear Lin Sol Two Z T1 T2 T3 T4.
  generalize dependent (a * t + b). generalize dependent (a * l' + b). generalize dependent (a * r' + b). generalize dependent (a * l + b). generalize dependent (a * r + b).
  intros vr vl vr' vl' Opp v Zt E1 E2.
  remember (r' - l') as w6 eqn:Z6. clear Z6. remember (r' - t) as w5 eqn:Z5. clear Z5. remember (t - l') as w4 eqn:Z4. clear Z4.
  remember (r - l) as w3 eqn:Z3. clear Z3. remember (r - t) as w2 eqn:Z2. clear Z2. remember (t - l) as w1 eqn:Z1. clear Z1.
  assert (F1 : 0 < vl' -> 0 <= vr' -> 0 < v) by (intros; apply Qcnot_le_lt; intros ?; qnra).
  assert (F2 : 0 <= vl' -> 0 < vr' -> 0 < v) by (intros; apply Qcnot_le_lt; intros ?; qnra).
  assert (F3 : 0 < vl -> 0 <= vr -> 0 < v) by (intros; apply Qcnot_le_lt; intros ?; qnra).
  assert (F4 : 0 <= vl -> 0 < vr -> 0 < v) by (intros; apply Qcnot_le_lt; intros ?; qnra).
  assert (F5 : vl' <= 0 -> vr' <= 0 -> ~ 0 < v) by (intros A1 A2 A3; qnra).
  assert (F6 : vl <= 0 -> vr <= 0 -> ~ 0 < v) by (intros A1 A2 A3; qnra).
  assert (F7 : vl' = 0 -> vr' = 0 -> False) by (intros -> ->; apply Zt; apply Qcmult_integral_l with w6; [intros Q; qlra|rewrite Qcmult_comm, E1; ring]).
  assert (F8 : vl = 0 -> vr = 0 -> False) by (intros -> ->; apply Zt; apply Qcmult_integral_l with w3; [intros Q; qlra|rewrite Qcmult_comm, E2; ring]).
  assert (Sg : forall v, (0 < v /\ sgn v = COUNTERCLOCKWISE /\ sgn (- v) = CLOCKWISE) \/ (v = 0 /\ sgn v = COLLINEAR /\ sgn (- v) = COLLINEAR) \/ (v < 0 /\ sgn v = CLOCKWISE /\ sgn (- v) = COUNTERCLOCKWISE)).
  { intros u. unfold sgn. destruct (Qc_dec u 0) as [[Q|Q]|Q]; [right; right|left|right; left]; (split; [auto|]); split;
      repeat match goal with |- context[qltb ?a ?b] => destruct (qltb_spec a b) end;
      repeat match goal with |- context[qeqb ?a ?b] => destruct (qeqb_spec a b) end; auto; exfalso; try qlra; qne; qlra. }
  assert (Le0 : forall u v : Qc, u = v -> u <= v) by (intros u x ->; apply Qcle_refl).
  assert (Le1 : forall u v : Qc, u = v -> v <= u) by (intros u x ->; apply Qcle_refl).
  destruct (Sg vl') as [(S1 & -> & _)|[(S1 & -> & _)|(S1 & -> & _)]], (Sg vr') as [(S2 & -> & _)|[(S2 & -> & _)|(S2 & -> & _)]];
    cbn [orientation_is];
    try solve [split; [intros _|auto]; auto using Qclt_le_weak];
    try solve [split; [discriminate|]; intros; exfalso; auto using Qclt_le_weak];
    try solve [split; [discriminate|]; intros QQ; exfalso; revert QQ; apply F5; auto using Qclt_le_weak];
  destruct (Sg vl) as [(S3 & _ & ->)|[(S3 & _ & ->)|(S3 & _ & ->)]], (Sg vr) as [(S4 & _ & ->)|[(S4 & _ & ->)|(S4 & _ & ->)]];
    cbn [orientation_is];
    try solve [exfalso; auto];
    try solve [split; [intros _|auto]; auto using Qclt_le_weak];
    try solve [split; [discriminate|]; intros QQ; exfalso; revert QQ; first [solve [apply F5; auto using Qclt_le_weak]|apply F6; auto using Qclt_le_weak]];
    exfalso; apply Opp; qnra.
Qed.

Lemma the_means : means the_world edges endpoints.
Proof.
  constructor; cbn.
  - intros g L. rewrite edge_old by auto. auto.
  - intros g L. rewrite edge_old by auto. auto.
  - intros g g' k k' L K0 K1. destruct (vert g k L K0) as (Km & Ek & Pk & Xk & _). rewrite Xk. rewrite (end_old k Km).
    destruct K1 as [[L' K1]|K1].
    + destruct (vert g' k' L' K1) as (Km' & _ & Pk' & Xk' & _). rewrite Xk', (end_old k' Km').
      rewrite !(point_lt_X c G), (point_eq_X c G) by auto.
      repeat match goal with |- context[qltb ?a ?b] => destruct (qltb_spec a b) end; destruct (qeqb_spec (X c (endpoint_at eps k)) (X c (endpoint_at eps k'))); repeat split; intros; auto; try discriminate; exfalso; qlra.
    + destruct Corn as (a1 & a2 & cl & cr & -> & Co). destruct (HA _ Pk) as (A1 & A2 & _). unfold xk.
      destruct K1 as [-> | ->].
      * rewrite (proj2 (Nat.ltb_ge _ _)) by lia. rewrite Nat.eqb_refl.
        assert (Ec : endpoint_at endpoints (m + 2) = cl) by (unfold endpoint_at, endpoints; rewrite app_nth2 by lia; replace (m + 2 - m)%nat with 2%nat by lia; reflexivity).
        rewrite Ec. set (q := endpoint_at eps k) in *. assert (P : px cl < px q) by (destruct (Co g L) as (C1 & C2 & _); destruct Ek as [ -> | -> ]; auto). clearbody q.
        rewrite !point_lt_true, point_eq_true. unfold lex_lt. split; [|split]; split; intros Q; auto; try (exfalso; qlra); exfalso.
        -- destruct Q as [Q|[Q _]]; qlra.
        -- rewrite Q in P. qlra.
      * rewrite (proj2 (Nat.ltb_ge _ _)) by lia. rewrite (proj2 (Nat.eqb_neq _ _)) by lia.
        assert (Ec : endpoint_at endpoints (m + 3) = cr) by (unfold endpoint_at, endpoints; rewrite app_nth2 by lia; replace (m + 3 - m)%nat with 3%nat by lia; reflexivity).
        rewrite Ec. set (q := endpoint_at eps k) in *. assert (P : px q < px cr) by (destruct (Co g L) as (_ & _ & C1 & C2); destruct Ek as [ -> | -> ]; auto). clearbody q.
        rewrite !point_lt_true, point_eq_true. unfold lex_lt. split; [|split]; split; intros Q; auto; try (exfalso; qlra); exfalso.
        -- destruct Q as [Q|[Q _]]; qlra.
        -- rewrite Q in P. qlra.
  - intros g g' k L L' K0. destruct (vert g' k L' K0) as (Km & Ek & Pk & Xk & _). rewrite Xk, (end_old k Km). rewrite orient_at by auto. rewrite sgn_cw.
    unfold yk, hg. rewrite (ltb_t _ _ L). split; intros; qlra.
  - intros g g' t L L' N [S1 S2] [S3 S4]. cbn in S1, S2, S3, S4. unfold log, hig in *. rewrite (ltb_t _ _ L) in *. rewrite (ltb_t _ _ L') in *.
    unfold hg. rewrite (ltb_t _ _ L), (ltb_t _ _ L'). apply under_spec; auto.
Qed.

Theorem concrete_done : (0 < n)%nat -> (forall g, (g < n)%nat -> interior_to_left (edge_at es g) = false) ->
  exists nodes1 nodes2,
  add_edge_to_single_trapezoid 0 0 edges endpoints (fst (create_trapezoid (m + 2) (m + 3) (n + 1) n edges [])) = Some nodes1 /\
  add_edges (seq 1 (n - 1)) edges endpoints nodes1 = Some nodes2 /\
  ((exists g, (g < n)%nat /\ between (eL g) (eR g) p) -> locate_from (length nodes2) 0 p edges endpoints nodes2 = Some BOUNDARY) /\
  (~ (exists g, (g < n)%nat /\ between (eL g) (eR g) p) -> locate_from (length nodes2) 0 p edges endpoints nodes2 = Some EXTERIOR).
Proof.
  intros Hn Fl.
  destruct (box_done the_world edges endpoints the_means 0 (seq 1 (n - 1))) as (nodes1 & nodes2 & Ad & Ad2 & D & Dn & DD).
  - exact Hn.
  - change (0 :: seq 1 (n - 1))%nat with (seq 0 (S (n - 1))). apply seq_NoDup.
  - intros g I. apply in_seq in I. cbn. lia.
  - exists nodes1, nodes2. split; [exact Ad|]. split; [exact Ad2|].
    assert (DE : forall g, D g <-> (g < n)%nat).
    { intros g. rewrite DD. change (0 :: seq 1 (n - 1))%nat with (seq 0 (S (n - 1))). rewrite in_seq. lia. }
    destruct (HA p PP) as (A1 & A2 & A3 & A4).
    destruct (locate_done the_world edges endpoints p (X c p) (py p)) with (D := D) (nodes := nodes2) as [Q1 Q2]; auto.
    + cbn. intros g k L K0. destruct (vert g k L K0) as (Km & _ & Pk & Xk & _). rewrite Xk, (end_old k Km). rewrite !(point_lt_X c G) by auto.
      split; [|split].
      * destruct (qltb_spec (X c p) (X c (endpoint_at eps k))); split; auto; try discriminate; intros; exfalso; auto.
      * destruct (qltb_spec (X c (endpoint_at eps k)) (X c p)); split; auto; try discriminate; intros; exfalso; auto.
      * intros E. unfold yk. rewrite (X_inj c G p _ PP Pk E). auto.
    + cbn. intros g L. rewrite orient_at by auto. unfold hg, sgn. rewrite (ltb_t _ _ L).
      destruct (qltb_spec 0 (py p - H c g (X c p))) as [Q|Q]; [qlra|]. destruct (qeqb_spec (py p - H c g (X c p)) 0) as [Z|Z]; [qlra|]. qne; qlra.
    + repeat split; cbn; unfold xk, hg; rewrite ?(proj2 (Nat.ltb_ge _ _)) by lia; rewrite ?Nat.eqb_refl; rewrite ?(proj2 (Nat.eqb_neq _ _)) by lia; auto.
    + intros g Dg. apply DE in Dg. rewrite edge_old by auto. auto.
    + cbn. unfold edge_at, edges. rewrite app_nth2 by lia. replace (n + 1 - n)%nat with 1%nat by lia. reflexivity.
    + assert (OE : (exists g, D g /\ on_edge the_world (X c p) (py p) g) <-> exists g, (g < n)%nat /\ between (eL g) (eR g) p).
      { split; intros (g & Dg & Og); exists g; [apply DE in Dg|]; split; auto; try (apply DE; auto; fail).
        - unfold on_edge in Og. cbn in Og. unfold log, hig, hg in Og. rewrite (ltb_t _ _ Dg) in Og. apply edge_between; auto.
        - unfold on_edge. cbn. unfold log, hig, hg. rewrite (ltb_t _ _ Dg). apply edge_between in Og; auto. }
      rewrite OE in Q1, Q2. split; auto.
Qed.
(** Whatever the sides are on which the interior is: the edges next below and above the point
    ([n + 1] and [n] being those of the box) tell. *)
Definition passes (g : nat) : Prop := X c (eL g) < X c p /\ X c p < X c (eR g).
Theorem concrete_found : (0 < n)%nat ->
  exists nodes1 nodes2,
  add_edge_to_single_trapezoid 0 0 edges endpoints (fst (create_trapezoid (m + 2) (m + 3) (n + 1) n edges [])) = Some nodes1 /\
  add_edges (seq 1 (n - 1)) edges endpoints nodes1 = Some nodes2 /\
  ((exists g, (g < n)%nat /\ between (eL g) (eR g) p) -> locate_from (length nodes2) 0 p edges endpoints nodes2 = Some BOUNDARY) /\
  (~ (exists g, (g < n)%nat /\ between (eL g) (eR g) p) -> exists b a,
    ((b = n + 1)%nat \/ ((b < n)%nat /\ passes b /\ H c b (X c p) < py p)) /\
    (a = n \/ ((a < n)%nat /\ passes a /\ py p < H c a (X c p))) /\
    (forall g, (g < n)%nat -> passes g -> ((b < n)%nat -> H c b (X c p) < H c g (X c p)) -> ((a < n)%nat -> H c g (X c p) < H c a (X c p)) -> False) /\
    locate_from (length nodes2) 0 p edges endpoints nodes2
    = Some (if interior_to_left (edge_at edges b) && negb (interior_to_left (edge_at edges a)) then INTERIOR else EXTERIOR)).
Proof.
  intros Hn.
  destruct (box_done the_world edges endpoints the_means 0 (seq 1 (n - 1))) as (nodes1 & nodes2 & Ad & Ad2 & D & Dn & DD).
  - exact Hn.
  - change (0 :: seq 1 (n - 1))%nat with (seq 0 (S (n - 1))). apply seq_NoDup.
  - intros g I. apply in_seq in I. cbn. lia.
  - exists nodes1, nodes2. split; [exact Ad|]. split; [exact Ad2|].
    assert (DE : forall g, D g <-> (g < n)%nat).
    { intros g. rewrite DD. change (0 :: seq 1 (n - 1))%nat with (seq 0 (S (n - 1))). rewrite in_seq. lia. }
    destruct (HA p PP) as (A1 & A2 & A3 & A4).
    assert (OE : (exists g, D g /\ on_edge the_world (X c p) (py p) g) <-> exists g, (g < n)%nat /\ between (eL g) (eR g) p).
    { split; intros (g & Dg & Og); exists g; [apply DE in Dg|]; split; auto; try (apply DE; auto; fail).
      - unfold on_edge in Og. cbn in Og. unfold log, hig, hg in Og. rewrite (ltb_t _ _ Dg) in Og. apply edge_between; auto.
      - unfold on_edge. cbn. unfold log, hig, hg. rewrite (ltb_t _ _ Dg). apply edge_between in Og; auto. }
    destruct (locate_found the_world edges endpoints p (X c p) (py p)) with (D := D) (nodes := nodes2) as [Q1 Q2]; auto.
    + cbn. intros g k L K0. destruct (vert g k L K0) as (Km & _ & Pk & Xk & _). rewrite Xk, (end_old k Km). rewrite !(point_lt_X c G) by auto.
      split; [|split].
      * destruct (qltb_spec (X c p) (X c (endpoint_at eps k))); split; auto; try discriminate; intros; exfalso; auto.
      * destruct (qltb_spec (X c (endpoint_at eps k)) (X c p)); split; auto; try discriminate; intros; exfalso; auto.
      * intros E. unfold yk. rewrite (X_inj c G p _ PP Pk E). auto.
    + cbn. intros g L. rewrite orient_at by auto. unfold hg, sgn. rewrite (ltb_t _ _ L).
      destruct (qltb_spec 0 (py p - H c g (X c p))) as [Q|Q]; [qlra|]. destruct (qeqb_spec (py p - H c g (X c p)) 0) as [Z|Z]; [qlra|]. qne; qlra.
    + repeat split; cbn; unfold xk, hg; rewrite ?(proj2 (Nat.ltb_ge _ _)) by lia; rewrite ?Nat.eqb_refl; rewrite ?(proj2 (Nat.eqb_neq _ _)) by lia; auto.
    + rewrite OE in Q1, Q2. split; [exact Q1|]. intros N. destruct (Q2 N) as (b & a & B & A0 & Sb & Sa & Hb & Ha & Fr & Lo).
      exists b, a. cbn in B, A0, Sb, Sa, Hb, Ha, Fr. rewrite DE in B, A0, Sb, Sa.
      assert (Sp : forall g, (g < n)%nat -> (log g < X c p /\ X c p < hig g <-> passes g)).
      { intros g L. unfold log, hig, passes. rewrite (ltb_t _ _ L). tauto. }
      assert (Hg : forall g, (g < n)%nat -> hg g (X c p) = H c g (X c p)) by (intros g L; unfold hg; rewrite (ltb_t _ _ L); auto).
      split; [|split; [|split; [|exact Lo]]].
      * destruct B as [B|B]; [left; auto|right]. split; auto. split; [apply Sp; auto|]. rewrite <- Hg; auto.
      * destruct A0 as [A0|A0]; [left; auto|right]. split; auto. split; [apply Sp; auto|]. rewrite <- Hg; auto.
      * intros g L Pg Lb La. apply Sp in Pg; auto. destruct Pg as [P1 P2]. 
        assert (Hl : - A < H c g (X c p) /\ H c g (X c p) < A).
        { destruct (pts_in g L) as [I1 I2]. destruct (HA _ I1) as (_ & _ & Y1 & Y2), (HA _ I2) as (_ & _ & Y3 & Y4).
          rewrite (start_H g L) in Y1, Y2. rewrite (end_H g L) in Y3, Y4. unfold log, hig in P1, P2. rewrite (ltb_t _ _ L) in P1, P2.
          assert (Cx : H c g (X c p) * (X c (eR g) - X c (eL g)) = H c g (X c (eL g)) * (X c (eR g) - X c p) + H c g (X c (eR g)) * (X c p - X c (eL g))) by (unfold H; ring).
          clear - Y1 Y2 Y3 Y4 P1 P2 Cx. generalize dependent (H c g (X c p)). generalize dependent (H c g (X c (eL g))). generalize dependent (H c g (X c (eR g))).
          intros r R1 R2 l L1 L2 v E. split; apply Qcnot_le_lt; intros Z; qnra. }
        apply (Fr g); [apply DE; auto|auto|auto| |].
        -- destruct B as [-> |B]; [|rewrite !Hg by auto; auto]. rewrite (Hg g L). unfold hg. rewrite (proj2 (Nat.ltb_ge _ _)) by lia.
           rewrite (proj2 (Nat.eqb_neq _ _)) by lia. apply Hl.
        -- destruct A0 as [-> |A0]; [|rewrite !Hg by auto; auto]. rewrite (Hg g L). unfold hg. rewrite (proj2 (Nat.ltb_ge _ _)) by lia.
           rewrite Nat.eqb_refl. apply Hl.
Qed.
End Concrete.
