(** The sweep over two shaped operands, part 3: overlaps from the start are mates, fresh pieces
    have no mate among the others, the attributes as functions. *)
From Coq Require Import QArith Qcanon Bool List Arith Lia Permutation.
From Verif Require Import QcTac Model_Base Model_Utils Model_Linear Model_Mixed Model_Shaped Spec_Base
  Spec_Sweep Proof_Base Proof_Line Proof_Sweep Proof_Sweep2 Proof_Sweep3 Proof_Sweep5 Proof_Sweep7
  Proof_Sweep8 Proof_Sweep9 Proof_Sweep10 Proof_Sweep11 Proof_Sweep12 Proof_Sweep13 Proof_Mesh Proof_Parity
  Proof_Flags.
Import ListNotations.
Local Open Scope Qc_scope.

(** ** Attributes *)
Lemma left_position_inj x y : is_event_left x = true -> is_event_left y = true ->
  left_event_to_position x = left_event_to_position y -> x = y.
Proof.
  unfold is_event_left, left_event_to_position. intros A B E. apply Nat.even_spec in A. apply Nat.even_spec in B.
  destruct A as [a ->]. destruct B as [b ->]. rewrite !(Nat.mul_comm 2), !Nat.div_mul in E by lia. lia.
Qed.
Lemma nth_put {A} (d : A) l i v j : nth j (put d l i v) d = if (j =? i)%nat then v else nth j l d.
Proof.
  unfold put. rewrite nth_set_nth, (Nat.eqb_sym i j), app_length, repeat_length.
  destruct (Nat.eqb_spec j i) as [->|Ne].
  - assert (L : (i < length l + (S i - length l))%nat) by lia. apply Nat.ltb_lt in L. rewrite L, ?Nat.eqb_refl. auto.
  - destruct (Nat.lt_ge_cases j (length l)) as [L|L].
    + rewrite app_nth1; auto.
    + rewrite app_nth2, (nth_overflow l) by auto. apply nth_repeat.
Qed.

Record view := View { vo : event -> bool; vk : event -> overlap_kind; vr : event -> bool;
  vb : event -> option event }.
Definition upd {A} (f : event -> A) (e : event) (a : A) (x : event) : A := if (x =? e)%nat then a else f x.
Definition veq (v w : view) : Prop := forall x, is_event_left x = true ->
  vo v x = vo w x /\ vk v x = vk w x /\ vr v x = vr w x /\ vb v x = vb w x.
Definition view_of (s : shaped_operation) : view :=
  View (other_flag s) (kind_of s) (result_flag s) (below_result s).
Lemma veq_refl v : veq v v. Proof. intros x _; auto. Qed.
Lemma veq_trans u v w : veq u v -> veq v w -> veq u w.
Proof.
  intros A B x L. destruct (A x L) as (-> & -> & -> & ->). apply B; auto.
Qed.
Lemma veq_sym u v : veq u v -> veq v u.
Proof. intros A x L. destruct (A x L) as (-> & -> & -> & ->). auto. Qed.
Lemma upd_same {A} (f : event -> A) e a : upd f e a e = a.
Proof. unfold upd. rewrite Nat.eqb_refl. auto. Qed.
Lemma upd_other {A} (f : event -> A) e a x : x <> e -> upd f e a x = f x.
Proof. intros Ne. unfold upd. rewrite (proj2 (Nat.eqb_neq x e) Ne). auto. Qed.

Section Views.
Variable int : list bool.
Variable sel : bool -> bool -> overlap_kind -> bool.
Variable from_result : shaped_operation -> event -> bool.
Hypothesis FR : forall s e, from_result s e
  = sel (is_left_event_from_first_operand (so s) e) (other_flag s e) (kind_of s e).

Definition kind_at (o : operation) (x y : event) : overlap_kind :=
  if Bool.eqb (nth (sid o y) int false) (nth (sid o x) int false) then SAME_ORIENTATION else DIFFERENT_ORIENTATION.
Definition vcompute (o : operation) (vert : event -> bool) (v : view) (e : event) (below : option event) : view :=
  let ot := match below with
            | None => vo v e
            | Some b => if Bool.eqb (firstop o e) (firstop o b) then vo v b else nth (sid o b) int false
            end in
  let bl := match below with
            | None => vb v e
            | Some b => if negb (sel (firstop o b) (vo v b) (vk v b)) || vert b then vb v b else Some b
            end in
  View (upd (vo v) e ot) (vk v) (upd (vr v) e (sel (firstop o e) ot (vk v e))) (upd (vb v) e bl).
Definition vkinds (v : view) (b e : event) (q : overlap_kind) : view :=
  View (vo v) (upd (upd (vk v) b q) e q) (vr v) (vb v).

Definition same_rest (s s' : shaped_operation) : Prop :=
  so_interior s' = so_interior s /\ so_starts s' = so_starts s /\ so_current_first s' = so_current_first s
  /\ so_current_id s' = so_current_id s.
Lemma same_rest_trans s1 s2 s3 : same_rest s1 s2 -> same_rest s2 s3 -> same_rest s1 s3.
Proof. intros (A & B & D & F) (A' & B' & D' & F'). repeat split; congruence. Qed.
Lemma with_base_rest s o : same_rest s (with_base s o). Proof. repeat split. Qed.

Lemma eqb_position x y : is_event_left x = true -> is_event_left y = true ->
  (left_event_to_position x =? left_event_to_position y)%nat = (x =? y)%nat.
Proof.
  intros A B. destruct (Nat.eqb_spec x y) as [->|Ne]; [apply Nat.eqb_refl|].
  apply Nat.eqb_neq. intros E. apply Ne, left_position_inj; auto.
Qed.

Lemma compute_fields_view s e below : so_interior s = int -> is_event_left e = true ->
  (forall b, below = Some b -> is_event_left b = true /\ b <> e) ->
  so (compute_fields from_result s e below) = so s /\ same_rest s (compute_fields from_result s e below)
  /\ veq (view_of (compute_fields from_result s e below)) (vcompute (so s) (is_vertical s) (view_of s) e below).
Proof.
  intros Ei Le Hb. unfold compute_fields. cbv zeta. destruct below as [b|].
  - destruct (Hb b eq_refl) as [Lb Nb]. cbn -[put is_left_event_from_first_operand]. split; auto. split; [repeat split|]. intros x Lx.
    unfold other_flag, kind_of, result_flag, below_result, interior_flag. cbn -[put is_left_event_from_first_operand]. rewrite !FR.
    unfold other_flag, kind_of, result_flag, below_result, interior_flag. cbn -[put is_left_event_from_first_operand]. rewrite !nth_put, !eqb_position by auto.
    rewrite Nat.eqb_refl, (proj2 (Nat.eqb_neq b e) Nb). unfold upd. subst int.
    destruct (x =? e)%nat; auto 6.
  - cbn -[put is_left_event_from_first_operand]. split; auto. split; [repeat split|]. intros x Lx.
    unfold other_flag, kind_of, result_flag, below_result, interior_flag. cbn -[put is_left_event_from_first_operand]. rewrite !FR.
    unfold other_flag, kind_of, result_flag, below_result, interior_flag. cbn -[put is_left_event_from_first_operand]. rewrite !nth_put, !eqb_position by auto.
    unfold upd. destruct (Nat.eqb_spec x e) as [->|]; auto.
Qed.

Lemma detect_shaped_view s b e o' : so_interior s = int -> is_event_left e = true -> is_event_left b = true ->
  detect_intersection (so s) b e = Some o' ->
  exists s', detect_shaped s b e = Some (s', overlap_from_start (so s) b e) /\ so s' = o' /\ same_rest s s'
  /\ veq (view_of s') (if overlap_from_start (so s) b e then vkinds (view_of s) b e (kind_at (so s) b e) else view_of s).
Proof.
  intros Ei Le Lb D. unfold detect_shaped. rewrite D. destruct (overlap_from_start (so s) b e).
  - eexists. split; [reflexivity|]. cbn -[put is_left_event_from_first_operand]. split; auto. split; [repeat split|]. intros x Lx.
    unfold other_flag, kind_of, result_flag, below_result, interior_flag. cbn -[put is_left_event_from_first_operand]. rewrite !nth_put, !eqb_position by auto.
    unfold upd, kind_at. subst int. auto.
  - eexists. split; [reflexivity|]. cbn -[put is_left_event_from_first_operand]. split; auto. split; [repeat split|]. apply veq_refl.
Qed.

(** Only the operands and the segments of the two events matter. *)
Lemma vcompute_ext o o' vert v e below : firstop o' e = firstop o e ->
  (forall b, below = Some b -> firstop o' b = firstop o b /\ sid o' b = sid o b) ->
  vcompute o' vert v e below = vcompute o vert v e below.
Proof.
  intros E1 E2. unfold vcompute. destruct below as [b|]; rewrite E1; auto.
  destruct (E2 b eq_refl) as [-> ->]. auto.
Qed.
Lemma vcompute_veq o vert v w e below : is_event_left e = true ->
  (forall b, below = Some b -> is_event_left b = true) -> veq v w ->
  veq (vcompute o vert v e below) (vcompute o vert w e below).
Proof.
  intros Le Lb E x Lx. destruct (E x Lx) as (E1 & E2 & E3 & E4). destruct (E e Le) as (F1 & F2 & F3 & F4).
  unfold vcompute. cbn. unfold upd. destruct below as [b|].
  - destruct (E b (Lb b eq_refl)) as (B1 & B2 & B3 & B4). rewrite B1, B2, B4, F2, E1, E2, E3, E4. auto.
  - rewrite F1, F2, F4, E1, E2, E3, E4. auto.
Qed.
Lemma vkinds_veq v w b e q : veq v w -> veq (vkinds v b e q) (vkinds w b e q).
Proof.
  intros E x Lx. destruct (E x Lx) as (E1 & E2 & E3 & E4). unfold vkinds, upd. cbn. rewrite E1, E2, E3, E4. auto.
Qed.
End Views.

Section Mates.
Variable c : ctx.
Hypothesis G : good c.
Hypothesis N : nc c.
Notation S' := (SX c). Notation E' := (EX c). Notation h := (hh c). Notation k := (kk c).
Notation EV := (EVX c). Notation col := (col c).
Notation core := (core c). Notation th := (th c). Notation mates := (mates c).
Notation through := (through c). Notation inv := (inv c).

Lemma orient_swap a b p : orientation_is (orient b a p) COLLINEAR = orientation_is (orient a b p) COLLINEAR.
Proof.
  apply bool_iff. assert (Q : forall u, orientation_is u COLLINEAR = true <-> u = COLLINEAR).
  { intros []; cbn; split; congruence. }
  rewrite !Q, !orient_col. unfold area2. split; intros E; qnra.
Qed.
Lemma sgn_zero v : orientation_is (sgn v) COLLINEAR = true <-> v = 0.
Proof.
  destruct (sgn_cases v) as [[-> A]|[[-> A]|[-> A]]]; cbn; split; intros B; try congruence; exfalso; qlra.
Qed.
Lemma overlap_mates o Y Z : wf c o -> left_of o Y -> left_of o Z ->
  (overlap_from_start o Y Z = true <-> mates o Y Z).
Proof.
  intros W LY LZ. unfold overlap_from_start. rewrite !(orient_swap (pt o Y) (to_event_end o Y)), !andb_true_iff.
  rewrite (orient_start c o Y Z W LY LZ), (orient_end c o Y Z W LY LZ), !sgn_zero, point_eq_true.
  rewrite !d_zero. pose proof (w_lt _ _ W Z LZ) as LtZ. split.
  - intros ((A & B) & P). split.
    + apply (col_two c o Y Z (S' o Z) (E' o Z)); auto. intros Q; rewrite Q in LtZ; qlra.
    + unfold SX. rewrite P. auto.
  - intros ((A & B) & P). split; [split; apply B|].
    symmetry. apply (X_inj c G); auto; apply (w_ptS _ _ W); auto.
Qed.

(** A piece cut off at the present has no mate among the pieces that were there. *)
Lemma fresh_through o1 o2 t Y0 Z0 x : core o1 t -> wf c o2 -> frame c o1 o2 t Y0 Z0 ->
  left_of o2 x -> (size o1 <= x)%nat -> S' o2 x = t ->
  exists z, popped o1 z /\ through o1 t z /\ sid o1 z = sid o2 x.
Proof.
  intros C W2 F Lx Fx Sx. pose proof (i_wf _ _ _ C) as W. pose proof (w_lt _ _ W2 x Lx) as Ltx.
  destruct (gap_exists c t) as (u & Lu & Gu).
  assert (Bx : u < E' o2 x) by (apply Gu; [apply (w_ptE _ _ W2); auto|change (t < E' o2 x); rewrite <- Sx; auto]).
  destruct (w_in _ _ W2 x Lx) as [I1 I2]. pose proof (w_sid _ _ W2 x Lx) as Ix.
  destruct (w_cover _ _ W (sid o2 x) u Ix) as (z & Lz & Ez & A & B); [qlra|qlra|].
  assert (Sz : S' o1 z <= t).
  { apply Qcnot_lt_le. intros Q. assert (u < S' o1 z) by (apply Gu; [apply (w_ptS _ _ W); auto|auto]). qlra. }
  assert (Lz2 : left_of o2 z) by (apply (frame_left c o1 o2 t Y0 Z0); auto).
  assert (Nxz : x <> z) by (intros ->; destruct Lz; lia).
  assert (Ez2 : sid o2 x = sid o2 z) by (rewrite (f_sid _ _ _ _ _ _ F z Lz); auto).
  assert (Sz2 : S' o2 z = S' o1 z) by (apply (fr_S c o1 o2 t Y0 Z0 F); auto).
  assert (Tz : E' o2 z <= t).
  { destruct (w_disj _ _ W2 x z Lx Lz2 Nxz Ez2) as [Q|Q]; qlra. }
  pose proof (w_lt _ _ W2 z Lz2) as Ltz.
  exists z. split; [|split; auto].
  - split; auto. intros Q. pose proof (i_q1 _ _ _ C z Q) as R. unfold EVX in R. change (t <= S' o1 z) in R. qlra.
  - split; qlra.
Qed.
Lemma fresh_mate o1 o2 t Y0 Z0 (ex : event -> Prop) x a : core o1 t -> th o1 t ex ->
  (forall y, ex y -> S' o1 y = t) -> core o2 t -> frame c o1 o2 t Y0 Z0 ->
  left_of o2 x -> (size o1 <= x)%nat -> popped o1 a -> ~ ex a -> mates o2 a x -> False.
Proof.
  intros C T Ex C2 F Lx Fx Pa Na M. pose proof (i_wf _ _ _ C) as W. pose proof (i_wf _ _ _ C2) as W2.
  pose proof (proj1 Pa) as La.
  assert (Sa : S' o1 a <= t) by (apply (i_S _ _ _ C); auto).
  assert (Sxa : S' o2 x = S' o1 a).
  { rewrite <- (fr_S c o1 o2 t Y0 Z0 F a La). symmetry. apply M. }
  assert (Sx : S' o2 x = t).
  { destruct (f_fresh _ _ _ _ _ _ F x Lx Fx) as [Qx _]. pose proof (i_q1 _ _ _ C2 x Qx) as R.
    change (t <= S' o2 x) in R. apply Qcle_antisym; qlra. }
  destruct (fresh_through o1 o2 t Y0 Z0 x C W2 F Lx Fx Sx) as (z & Pz & Tz & Iz).
  pose proof (proj1 Pz) as Lz. assert (Sat : S' o1 a = t) by congruence.
  assert (Nz : ~ ex z) by (intros Q; apply Ex in Q; destruct Tz; qlra).
  assert (Nza : z <> a) by (intros ->; destruct Tz; qlra).
  assert (Caz : col o1 z a).
  { split.
    - unfold kk. rewrite Iz. change (k o2 x = k o1 a). rewrite <- (fr_k c o1 o2 t Y0 Z0 F a La). symmetry. apply M.
    - intros u. unfold hh. rewrite Iz. change (h o2 x u = h o1 a u). rewrite <- (fr_h c o1 o2 t Y0 Z0 F a u La).
      symmetry. apply M. }
  pose proof (w_lt _ _ W a La) as Lta.
  destruct (T z a Lz La) as [[Mz _]|(Nt & y & Ly & Qy & Sy & Cy)]; auto.
  - intros [Q|Q]; [apply Pz; auto|auto].
  - intros [Q|Q]; [apply Pa; auto|auto].
  - qlra.
  - apply Caz.
  - destruct Mz as [_ Mz]. destruct Tz. qlra.
  - assert (Nya : y <> a) by (intros ->; destruct Qy; [apply Pa; auto|auto]).
    assert (Nyz : y <> z) by (intros ->; destruct Tz; qlra).
    pose proof (w_lt _ _ W y Ly) as Lty. destruct Tz as [T1 T2].
    apply (col_three c N o1 z a y W Lz La Ly); auto; try qlra. apply col_sym; auto.
Qed.
End Mates.
