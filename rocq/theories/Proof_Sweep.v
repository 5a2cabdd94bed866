(** The plane sweep, part 1: sheared coordinates in which no segment is vertical,
    what a division does to the operation, and the structural invariant. *)
From Coq Require Import QArith Qcanon Bool List Arith Lia.
From Verif Require Import QcTac Model_Base Model_Utils Model_Linear Spec_Base Proof_Base.
Import ListNotations.
Local Open Scope Qc_scope.

(** The data of a sweep: the slope of the shear, a finite set of points holding
    every point that may become an endpoint, the sorted input segments, the
    number of those of the first operand. *)
Record ctx := Ctx { c_eps : Qc; c_pts : list point; c_ins : list (point * point);
                    c_first : nat }.
Definition X (c : ctx) (p : point) : Qc := px p + c_eps c * py p.
Definition input (c : ctx) (i : nat) : point * point := nth i (c_ins c) (origin, origin).
Definition K (c : ctx) (i : nat) : Qc :=
  let (a, b) := input c i in (py b - py a) / (X c b - X c a).
Definition H (c : ctx) (i : nat) (t : Qc) : Qc :=
  K c i * (t - X c (fst (input c i))) + py (fst (input c i)).

Record good (c : ctx) : Prop := {
  g_mono : forall p q, In p (c_pts c) -> In q (c_pts c) -> lex_lt p q -> X c p < X c q;
  g_ins : forall i, (i < length (c_ins c))%nat ->
    lex_lt (fst (input c i)) (snd (input c i))
    /\ In (fst (input c i)) (c_pts c) /\ In (snd (input c i)) (c_pts c);
  g_cross : forall i j t, (i < length (c_ins c))%nat -> (j < length (c_ins c))%nat ->
    K c i <> K c j -> H c i t = H c j t ->
    exists f, In f (c_pts c) /\ X c f = t /\ py f = H c i t }.

Section Coords.
Variable c : ctx.
Hypothesis G : good c.

Lemma X_lt p q : In p (c_pts c) -> In q (c_pts c) -> (X c p < X c q <-> lex_lt p q).
Proof.
  intros Hp Hq; split; [|now apply (g_mono c G)].
  intro Hlt. destruct (lex_total p q) as [[|]|L]; auto.
  - subst; exfalso; qlra.
  - apply (g_mono c G) in L; auto. exfalso; qlra.
Qed.
Lemma X_inj p q : In p (c_pts c) -> In q (c_pts c) -> X c p = X c q -> p = q.
Proof.
  intros Hp Hq E. destruct (lex_total p q) as [[L|]|L]; auto;
    apply (g_mono c G) in L; auto; exfalso; qlra.
Qed.
Lemma X_le p q : In p (c_pts c) -> In q (c_pts c) -> (X c p <= X c q <-> lex_le p q).
Proof.
  intros Hp Hq. rewrite <- lex_not_lt, <- X_lt; auto. split; intros; [intro; qlra|].
  apply Qcnot_lt_le; auto.
Qed.
Lemma point_lt_X p q : In p (c_pts c) -> In q (c_pts c) ->
  point_lt p q = qltb (X c p) (X c q).
Proof.
  intros Hp Hq. destruct (qltb_spec (X c p) (X c q)) as [L|L]; rewrite X_lt in L by auto.
  - apply point_lt_true; auto.
  - apply point_lt_false; auto.
Qed.
Lemma point_eq_X p q : In p (c_pts c) -> In q (c_pts c) ->
  point_eq p q = qeqb (X c p) (X c q).
Proof.
  intros Hp Hq. destruct (qeqb_spec (X c p) (X c q)) as [L|L].
  - apply point_eq_true, X_inj; auto.
  - apply point_eq_false; intros ->; auto.
Qed.

Lemma input_X i : (i < length (c_ins c))%nat ->
  X c (fst (input c i)) < X c (snd (input c i)).
Proof. intros Hi; destruct (g_ins c G i Hi) as (L & A & B). apply X_lt; auto. Qed.

Lemma H_affine i t u : H c i t - H c i u = K c i * (t - u).
Proof. unfold H; ring. Qed.
Lemma H_start i : H c i (X c (fst (input c i))) = py (fst (input c i)).
Proof. unfold H; ring. Qed.
Lemma H_end i : (i < length (c_ins c))%nat ->
  H c i (X c (snd (input c i))) = py (snd (input c i)).
Proof.
  intros Hi. pose proof (input_X i Hi) as L. unfold H, K.
  destruct (input c i) as [a b]; cbn [fst snd] in *.
  field. intro E. qlra.
Qed.

(** Orientation tests are signs of heights above lines. *)
Lemma area2_H i s e q : py s = H c i (X c s) -> py e = H c i (X c e) ->
  area2 s e q = (X c e - X c s) * (py q - H c i (X c q)).
Proof.
  intros Hs He.
  assert (A : area2 s e q = (X c e - X c s) * (py q - py s) - (py e - py s) * (X c q - X c s)).
  { unfold area2, X; ring. }
  rewrite A. pose proof (H_affine i (X c e) (X c s)) as E1.
  pose proof (H_affine i (X c q) (X c s)) as E2. rewrite He, Hs.
  replace (H c i (X c e) - H c i (X c s)) with (K c i * (X c e - X c s)) by (rewrite <- E1; ring).
  replace (py q - H c i (X c s)) with (py q - H c i (X c q) + K c i * (X c q - X c s))
    by (rewrite <- E2; ring).
  ring.
Qed.

Definition sgn (v : Qc) : orientation :=
  if qltb 0 v then COUNTERCLOCKWISE else if qeqb v 0 then COLLINEAR else CLOCKWISE.
Lemma orient_sgn i s e q : py s = H c i (X c s) -> py e = H c i (X c e) -> X c s < X c e ->
  orient s e q = sgn (py q - H c i (X c q)).
Proof.
  intros Hs He L. pose proof (area2_H i s e q Hs He) as A. unfold sgn.
  destruct (qltb_spec 0 (py q - H c i (X c q))) as [P|P].
  - apply orient_ccw. rewrite A. qnra.
  - destruct (qeqb_spec (py q - H c i (X c q)) 0) as [Z|Z].
    + apply orient_col. rewrite A, Z. ring.
    + apply orient_cw. rewrite A. assert (py q - H c i (X c q) < 0) by (qne; qlra).
      qnra.
Qed.

Lemma between_X a b i p : py a = H c i (X c a) -> py b = H c i (X c b) -> X c a < X c b ->
  (between a b p <-> X c a <= X c p /\ X c p <= X c b /\ py p = H c i (X c p)).
Proof.
  intros Ha Hb L. split.
  - intros (t & T0 & T1 & ->).
    assert (E : X c (lerp a b t) = X c a + t * (X c b - X c a)) by (unfold X, lerp; cbn [px py]; ring).
    rewrite E. split; [|split]; [qnra|qnra|].
    cbn [lerp py]. pose proof (H_affine i (X c a + t * (X c b - X c a)) (X c a)) as E1.
    pose proof (H_affine i (X c b) (X c a)) as E2. rewrite <- Ha in *. rewrite <- Hb in *.
    replace (py b - py a) with (K c i * (X c b - X c a)) by (rewrite <- E2; reflexivity).
    replace (H c i (X c a + t * (X c b - X c a)))
      with (K c i * (X c a + t * (X c b - X c a) - X c a) + py a) by (rewrite <- E1; ring).
    ring.
  - intros (A & B & C). exists ((X c p - X c a) / (X c b - X c a)).
    assert (N : X c b - X c a <> 0) by (intro; qlra).
    assert (E : (X c p - X c a) / (X c b - X c a) * (X c b - X c a) = X c p - X c a) by (field; auto).
    remember ((X c p - X c a) / (X c b - X c a)) as t eqn:Et. clear Et.
    split; [|split].
    + apply Qcnot_lt_le; intro; qnra.
    + apply Qcnot_lt_le; intro; qnra.
    + pose proof (H_affine i (X c b) (X c a)) as E2.
      pose proof (H_affine i (X c p) (X c a)) as E1. rewrite <- Ha in *. rewrite <- Hb in *.
      rewrite <- C in E1.
      assert (Ey : py p = py a + t * (py b - py a)).
      { rewrite E2. rewrite <- E in E1.
        replace (py p) with (py a + K c i * (t * (X c b - X c a))) by (rewrite <- E1; ring). ring. }
      apply point_ext; cbn [lerp px py]; auto.
      assert (Ex : px p = X c p - c_eps c * py p) by (unfold X; ring).
      rewrite Ex, Ey. replace (X c p) with (X c a + t * (X c b - X c a)) by (rewrite E; ring).
      unfold X. ring.
Qed.
End Coords.

(** ** Divisions *)
Notation pt := to_event_start.
Notation opp := to_opposite_event.
Notation sid := left_event_to_segment_id.
Definition size (o : operation) : nat := length (op_endpoints o).
Definition left_of (o : operation) (l : event) : Prop :=
  is_event_left l = true /\ (l < size o)%nat.

(** The data structure is in order: opposites pair left with right events. *)
Record linked (o : operation) : Prop := {
  k_opposites : length (op_opposites o) = size o;
  k_ids : (2 * length (op_segments_ids o) = size o)%nat;
  k_opp : forall e, (e < size o)%nat ->
    (opp o e < size o)%nat /\ opp o (opp o e) = e
    /\ is_event_left (opp o e) = negb (is_event_left e) }.

Record divided (o : operation) (l : event) (mid : point) (o' : operation) : Prop := {
  d_size : size o' = S (S (size o));
  d_first : op_first_count o' = op_first_count o;
  d_queue : op_queue o' = op_queue o ++ [S (size o); size o];
  d_line : op_line o' = op_line o;
  d_clock : op_clock o' = op_clock o;
  d_pt : forall e, (e < size o)%nat -> pt o' e = pt o e;
  d_pt1 : pt o' (size o) = mid;
  d_pt2 : pt o' (S (size o)) = mid;
  d_sid : forall m, left_of o m -> sid o' m = sid o m;
  d_sid1 : sid o' (size o) = sid o l;
  d_opp : forall e, (e < size o)%nat -> e <> l -> e <> opp o l -> opp o' e = opp o e;
  d_oppl : opp o' l = S (size o);
  d_oppr : opp o' (opp o l) = size o;
  d_opp1 : opp o' (size o) = opp o l;
  d_opp2 : opp o' (S (size o)) = l;
  d_linked : linked o' }.

Lemma nth_set_nth {A} (l : list A) i j v d :
  nth j (set_nth l i v) d = if (j =? i)%nat then (if (i <? length l)%nat then v else d) else nth j l d.
Proof.
  revert i j; induction l as [|x l IH]; intros [|i] [|j]; cbn; auto.
  - destruct (j =? i)%nat; auto.
  - rewrite IH. reflexivity.
Qed.
Lemma set_nth_length {A} (l : list A) i v : length (set_nth l i v) = length l.
Proof. revert i; induction l; intros [|i]; cbn; auto. Qed.

Lemma left_even l : is_event_left l = true <-> Nat.Even l.
Proof. unfold is_event_left. apply Nat.even_spec. Qed.
Lemma size_even o : linked o -> is_event_left (size o) = true.
Proof.
  intros K. apply left_even. exists (length (op_segments_ids o)). pose proof (k_ids o K). lia.
Qed.
Lemma size_odd o : linked o -> is_event_left (S (size o)) = false.
Proof.
  intros K. pose proof (size_even o K) as E. unfold is_event_left in *.
  rewrite Nat.even_succ, <- Nat.negb_even, E. reflexivity.
Qed.
Lemma left_position o l : linked o -> left_of o l ->
  (left_event_to_position l < length (op_segments_ids o))%nat.
Proof.
  intros K [E L]. pose proof (k_ids o K). apply left_even in E. destruct E as [m ->].
  unfold left_event_to_position. rewrite Nat.mul_comm, Nat.div_mul by lia. lia.
Qed.

Lemma opp_neq o e : linked o -> (e < size o)%nat -> opp o e <> e.
Proof.
  intros K L E. destruct (k_opp o K e L) as (_ & _ & P). rewrite E in P.
  destruct (is_event_left e); discriminate.
Qed.

Lemma divide_divided o l mid : linked o -> left_of o l ->
  exists o', divide_event_by_midpoint o l mid = Some o' /\ divided o l mid o'.
Proof.
  intros Kk [El Ll]. unfold divide_event_by_midpoint. rewrite El. eexists; split; [reflexivity|].
  destruct (k_opp o Kk l Ll) as (Lr & Or & Pr). rewrite El in Pr; cbn in Pr.
  pose proof (k_opposites o Kk) as Lo. pose proof (opp_neq o l Kk Ll) as Nl.
  pose proof (k_ids o Kk) as Ki.
  assert (Hopp : forall e, opp (push (push
    {| op_first_count := op_first_count o;
       op_endpoints := op_endpoints o ++ [mid; mid];
       op_opposites := set_nth
           (set_nth (op_opposites o ++ [opp o l]) (opp o l) (length (op_endpoints o)) ++ [l]) l
           (S (length (op_endpoints o)));
       op_segments_ids := op_segments_ids o ++ [sid o l];
       op_queue := op_queue o; op_line := op_line o; op_clock := op_clock o |}
      (S (length (op_endpoints o)))) (length (op_endpoints o))) e
    = if (e =? l)%nat then S (size o) else if (e =? opp o l)%nat then size o
      else if (e <? size o)%nat then opp o e
      else if (e =? size o)%nat then opp o l
      else if (e =? S (size o))%nat then l else O).
  { intros e. unfold to_opposite_event at 1; cbn [op_opposites push set_queue].
    fold (size o). rewrite nth_set_nth, app_length, set_nth_length, app_length; cbn [length].
    rewrite Lo. replace (l <? size o + 1 + 1)%nat with true by (symmetry; apply Nat.ltb_lt; lia).
    destruct (Nat.eqb_spec e l); auto.
    destruct (Nat.ltb_spec e (S (size o))) as [L|L].
    - rewrite app_nth1 by (rewrite set_nth_length, app_length; cbn; lia).
      rewrite nth_set_nth, app_length; cbn [length]. rewrite Lo.
      replace (opp o l <? size o + 1)%nat with true by (symmetry; apply Nat.ltb_lt; lia).
      destruct (Nat.eqb_spec e (opp o l)); auto.
      destruct (Nat.ltb_spec e (size o)).
      + rewrite app_nth1 by lia. reflexivity.
      + replace e with (size o) by lia. rewrite Nat.eqb_refl.
        rewrite app_nth2 by lia. rewrite Lo, Nat.sub_diag. reflexivity.
    - rewrite app_nth2 by (rewrite set_nth_length, app_length, Lo; cbn [length]; lia).
      rewrite set_nth_length, app_length, Lo; cbn [length].
      destruct (Nat.eqb_spec e (opp o l)); [lia|].
      destruct (Nat.ltb_spec e (size o)); [lia|].
      destruct (Nat.eqb_spec e (size o)); [lia|].
      destruct (Nat.eqb_spec e (S (size o))).
      + subst e. replace (S (size o) - (size o + 1))%nat with O by lia. reflexivity.
      + rewrite nth_overflow; [reflexivity|cbn; lia]. }
  set (o' := push _ _) in *.
  assert (Hsize : size o' = S (S (size o))).
  { unfold size at 1, o'; cbn [push set_queue op_endpoints]. rewrite app_length; cbn [length]; unfold size; lia. }
  assert (Hl : linked o').
  { constructor.
    - rewrite Hsize. unfold o'; cbn [push set_queue op_opposites].
      rewrite set_nth_length, app_length, set_nth_length, app_length; cbn. lia.
    - rewrite Hsize. unfold o'; cbn [push set_queue op_segments_ids].
      rewrite app_length; cbn. lia.
    - rewrite Hsize. intros e Le. rewrite !Hopp.
      pose proof (size_even o Kk) as SE. pose proof (size_odd o Kk) as SO.
      destruct (Nat.eqb_spec e l) as [->|Ne].
      { split; [lia|]. split.
        - destruct (Nat.eqb_spec (S (size o)) l); [lia|].
          destruct (Nat.eqb_spec (S (size o)) (opp o l)); [lia|].
          destruct (Nat.ltb_spec (S (size o)) (size o)); [lia|].
          destruct (Nat.eqb_spec (S (size o)) (size o)); [lia|].
          rewrite Nat.eqb_refl; auto.
        - rewrite El, SO; auto. }
      destruct (Nat.eqb_spec e (opp o l)) as [->|Ne'].
      { split; [lia|]. split.
        - destruct (Nat.eqb_spec (size o) l); [lia|].
          destruct (Nat.eqb_spec (size o) (opp o l)); [lia|].
          destruct (Nat.ltb_spec (size o) (size o)); [lia|].
          rewrite Nat.eqb_refl; auto.
        - rewrite Pr, SE; auto. }
      destruct (Nat.ltb_spec e (size o)) as [L|L].
      { destruct (k_opp o Kk e L) as (A & B & C).
        assert (opp o e <> l) by (intro E; rewrite E in B; congruence).
        assert (opp o e <> opp o l).
        { intro E. rewrite E, Or in B. congruence. }
        split; [lia|]. split; auto.
        destruct (Nat.eqb_spec (opp o e) l); [congruence|].
        destruct (Nat.eqb_spec (opp o e) (opp o l)); [congruence|].
        destruct (Nat.ltb_spec (opp o e) (size o)); [auto|lia]. }
      destruct (Nat.eqb_spec e (size o)) as [->|Ne2].
      { split; [lia|]. split.
        - destruct (Nat.eqb_spec (opp o l) l); [congruence|].
          rewrite Nat.eqb_refl; auto.
        - rewrite SE, Pr; auto. }
      assert (e = S (size o)) as -> by lia. rewrite Nat.eqb_refl.
      split; [lia|]. split; [rewrite Nat.eqb_refl; auto|rewrite SO, El; auto]. }
  assert (E1 : (S (size o) =? l)%nat = false) by (apply Nat.eqb_neq; lia).
  assert (E2 : (size o =? l)%nat = false) by (apply Nat.eqb_neq; lia).
  assert (E3 : (size o =? opp o l)%nat = false) by (apply Nat.eqb_neq; lia).
  assert (E4 : (S (size o) =? opp o l)%nat = false) by (apply Nat.eqb_neq; lia).
  assert (E5 : (S (size o) <? size o)%nat = false) by (apply Nat.ltb_ge; lia).
  assert (E6 : (S (size o) =? size o)%nat = false) by (apply Nat.eqb_neq; lia).
  constructor; auto.
  - unfold o'; cbn [push set_queue op_queue]. rewrite <- app_assoc. reflexivity.
  - intros e L. unfold o', to_event_start; cbn [push set_queue op_endpoints].
    apply app_nth1; auto.
  - unfold o', to_event_start; cbn [push set_queue op_endpoints].
    rewrite app_nth2 by (unfold size; lia). unfold size; rewrite Nat.sub_diag; reflexivity.
  - unfold o', to_event_start; cbn [push set_queue op_endpoints].
    rewrite app_nth2 by (unfold size; lia).
    unfold size; replace (S (length (op_endpoints o)) - length (op_endpoints o))%nat with 1%nat by lia.
    reflexivity.
  - intros m Lm. unfold o', left_event_to_segment_id; cbn [push set_queue op_segments_ids].
    apply app_nth1. apply (left_position o); auto.
  - unfold o', left_event_to_segment_id at 1; cbn [push set_queue op_segments_ids].
    assert (left_event_to_position (size o) = length (op_segments_ids o)) as ->.
    { unfold left_event_to_position. rewrite <- Ki, Nat.mul_comm, Nat.div_mul; lia. }
    rewrite app_nth2 by lia. rewrite Nat.sub_diag. reflexivity.
  - intros e L N1 N2. rewrite Hopp. rewrite (proj2 (Nat.eqb_neq _ _) N1), (proj2 (Nat.eqb_neq _ _) N2).
    rewrite (proj2 (Nat.ltb_lt _ _) L). reflexivity.
  - rewrite Hopp, Nat.eqb_refl. reflexivity.
  - rewrite Hopp, (proj2 (Nat.eqb_neq _ _) Nl), Nat.eqb_refl. reflexivity.
  - rewrite Hopp, E2, E3, Nat.ltb_irrefl, Nat.eqb_refl. reflexivity.
  - rewrite Hopp, E1, E4, E5, E6, Nat.eqb_refl. reflexivity.
Qed.
