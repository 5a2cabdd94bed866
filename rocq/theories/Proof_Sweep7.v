(** The plane sweep, part 7: the order of the sweep line and of the queue. *)
From Coq Require Import QArith Qcanon Bool List Arith Lia.
From Verif Require Import QcTac Model_Base Model_Utils Model_Linear Spec_Base Spec_Sweep
  Proof_Base Proof_Line Proof_Sweep Proof_Sweep2 Proof_Sweep3 Proof_Sweep5.
Import ListNotations.
Local Open Scope Qc_scope.

(** ** Affine functions, once more *)
Section Affine2.
Variables (d : Qc -> Qc) (s : Qc).
Hypothesis A : forall x y, d x - d y = s * (x - y).
Lemma aff_up x y : 0 < s -> x < y -> d x < d y.
Proof. intros P L. pose proof (A y x). assert (0 < s * (y - x)) by (assert (0 < y - x) by qlra; qnra). qlra. Qed.
Lemma aff_down x y : s < 0 -> x < y -> d y < d x.
Proof. intros P L. pose proof (A y x). assert (0 < (- s) * (y - x)) by (assert (0 < y - x) by qlra; assert (0 < - s) by qlra; qnra). qlra. Qed.
Lemma aff_slope_pos x y : x < y -> d x < d y -> 0 < s.
Proof.
  intros L D. destruct (Qclt_le_dec 0 s) as [|Le]; auto. exfalso.
  destruct (Qcle_lt_or_eq _ _ Le) as [N|E]; [pose proof (aff_down x y N L); qlra|].
  pose proof (A x y) as Q. rewrite E in Q. qlra.
Qed.
Lemma aff_slope_neg x y : x < y -> d y < d x -> s < 0.
Proof.
  intros L D. destruct (Qclt_le_dec s 0) as [|Le]; auto. exfalso.
  destruct (Qcle_lt_or_eq _ _ Le) as [N|E]; [pose proof (aff_up x y N L); qlra|].
  pose proof (A x y) as Q. rewrite <- E in Q. qlra.
Qed.
Lemma aff_slope_zero x y : x < y -> d x = d y -> s = 0.
Proof.
  intros L D. pose proof (A x y) as Q.
  assert (Z : s * (x - y) = 0) by (rewrite <- Q, D; ring).
  apply Qcmult_integral in Z. destruct Z; auto. exfalso; qlra.
Qed.
Lemma aff_flat x y : s = 0 -> d x = d y.
Proof. intros E. pose proof (A x y) as Q. rewrite E in Q. qlra. Qed.
End Affine2.

Definition mx (x y : Qc) : Qc := if qltb x y then y else x.
Lemma mx_cases x y : (mx x y = x /\ y <= x) \/ (mx x y = y /\ x < y).
Proof. unfold mx. destruct (qltb_spec x y); [right|left]; split; auto. apply Qcnot_lt_le; auto. Qed.
Lemma mx_ge x y : x <= mx x y /\ y <= mx x y.
Proof. destruct (mx_cases x y) as [[-> ?]|[-> ?]]; split; qlra. Qed.
Lemma mx_le x y t : x <= t -> y <= t -> mx x y <= t.
Proof. destruct (mx_cases x y) as [[-> ?]|[-> ?]]; auto. Qed.
Lemma mx_eq_r x y : x <= y -> mx x y = y.
Proof. intros. destruct (mx_cases x y) as [[-> ?]|[-> ?]]; auto. qlra. Qed.
Lemma mx_eq_l x y : y <= x -> mx x y = x.
Proof. intros. destruct (mx_cases x y) as [[-> ?]|[-> ?]]; auto. qlra. Qed.

(** ** Comparisons on the sweep line *)
Section Order.
Variable c : ctx.
Hypothesis G : good c.
Notation S' := (SX c). Notation E' := (EX c). Notation h := (hh c). Notation k := (kk c).
Notation d := (dd c). Notation first := (is_left_event_from_first_operand).

Lemma d_affine o Y Z x y : d o Y Z x - d o Y Z y = ds c o Y Z * (x - y).
Proof. unfold dd, ds. apply sub_affine. Qed.
Lemma d_swap o Y Z t : d o Z Y t = - d o Y Z t.
Proof. unfold dd. ring. Qed.

Record below (o : operation) (t : Qc) (Y Z : event) : Prop := {
  be_m : 0 <= d o Y Z (mx (S' o Y) (S' o Z));
  be_t : 0 <= d o Y Z t;
  be_tie : d o Y Z (mx (S' o Y) (S' o Z)) = 0 -> d o Y Z t = 0 ->
    (mx (S' o Y) (S' o Z) = t /\ 0 < ds c o Y Z)
    \/ (ds c o Y Z = 0 /\ first o Y = true /\ first o Z = false) }.

(** The comparison in terms of signs. *)
Definition lt_by_signs (u v a b : orientation) (tail : bool) : bool :=
  if orientation_is u v
  then if negb (orientation_is u COLLINEAR) then orientation_is u COUNTERCLOCKWISE else tail
  else if orientation_is a b then orientation_is a CLOCKWISE
  else if orientation_is u COLLINEAR then orientation_is v COUNTERCLOCKWISE
  else if orientation_is a COLLINEAR then orientation_is b CLOCKWISE
  else if orientation_is b COLLINEAR then orientation_is a CLOCKWISE
  else orientation_is u COUNTERCLOCKWISE.

Lemma piece_orient o Y q : wf c o -> left_of o Y ->
  orient (pt o Y) (to_event_end o Y) q = sgn (py q - h o Y (X c q)).
Proof.
  intros W L. apply (orient_sgn c (sid o Y)).
  - apply (w_S c o W); auto.
  - apply (w_E c o W); auto.
  - apply (w_lt c o W); auto.
Qed.
Lemma orient_start o Y Z : wf c o -> left_of o Y -> left_of o Z ->
  orient (pt o Y) (to_event_end o Y) (pt o Z) = sgn (d o Y Z (S' o Z)).
Proof. intros W L M. rewrite piece_orient by auto. rewrite (w_S c o W Z M). reflexivity. Qed.
Lemma orient_end o Y Z : wf c o -> left_of o Y -> left_of o Z ->
  orient (pt o Y) (to_event_end o Y) (to_event_end o Z) = sgn (d o Y Z (E' o Z)).
Proof.
  intros W L M. rewrite piece_orient by auto. unfold to_event_end at 1. rewrite (w_E c o W Z M).
  reflexivity.
Qed.

Lemma line_key_signs o Y Z : wf c o -> left_of o Y -> left_of o Z -> exists tail,
  line_key_lt o Y Z = lt_by_signs (sgn (d o Y Z (S' o Z))) (sgn (d o Y Z (E' o Z)))
                        (sgn (d o Z Y (S' o Y))) (sgn (d o Z Y (E' o Y))) tail
  /\ (first o Y <> first o Z -> tail = first o Y).
Proof.
  intros W L M. unfold line_key_lt. rewrite orient_start, orient_end by auto.
  rewrite (orient_start o Z Y), (orient_end o Z Y) by auto.
  eexists. split; [reflexivity|]. intros N.
  destruct (Bool.eqb_spec (first o Y) (first o Z)); [contradiction|]. reflexivity.
Qed.

Lemma sgn_opp v : sgn (- v) = match sgn v with COUNTERCLOCKWISE => CLOCKWISE
  | COLLINEAR => COLLINEAR | CLOCKWISE => COUNTERCLOCKWISE end.
Proof.
  destruct (Qc_dec v 0) as [[L|L]|E].
  - rewrite (sgn_neg v L), sgn_pos; auto. qlra.
  - rewrite (sgn_pos v L), sgn_neg; auto. qlra.
  - rewrite (sgn_zero v E), sgn_zero; auto. rewrite E; ring.
Qed.

Lemma sgn_cases v : (sgn v = COUNTERCLOCKWISE /\ 0 < v) \/ (sgn v = COLLINEAR /\ v = 0)
  \/ (sgn v = CLOCKWISE /\ v < 0).
Proof.
  destruct (Qc_dec v 0) as [[L|L]|E].
  - right; right. split; auto. apply sgn_neg; auto.
  - left. split; auto. apply sgn_pos; auto.
  - right; left. split; auto. apply sgn_zero; auto.
Qed.

Lemma lt_spec o t Y Z : wf c o -> left_of o Y -> left_of o Z -> below o t Y Z ->
  S' o Y <= t -> S' o Z <= t -> t <= E' o Y -> t <= E' o Z ->
  line_key_lt o Y Z = true /\ line_key_lt o Z Y = false.
Proof.
  intros W LY LZ B T1 T2 T3 T4.
  destruct (line_key_signs o Y Z W LY LZ) as (tl & -> & Tl).
  destruct (line_key_signs o Z Y W LZ LY) as (tl' & -> & Tl').
  pose proof (w_lt c o W Y LY) as LtY. pose proof (w_lt c o W Z LZ) as LtZ.
  rewrite !(d_swap o Y Z), !sgn_opp.
  destruct B as [Bm Bt Btie]. pose proof (d_affine o Y Z) as Af.
  pose proof (mx_cases (S' o Y) (S' o Z)) as Mc. pose proof (mx_le _ _ _ T1 T2) as Mt.
  set (a := S' o Y) in *. set (b := E' o Y) in *. set (u := S' o Z) in *. set (v := E' o Z) in *.
  set (m := mx a u) in *. clearbody m. clearbody a b u v.
  generalize dependent (d o Y Z). intros dl Bm Bt Btie Af.
  generalize dependent (ds c o Y Z). intros s Btie Af.
  assert (I1 : ~ (dl u < 0 /\ dl v < 0)).
  { intros [P Q]. assert (0 < - dl t); [|qlra].
    apply (aff_pos (fun t => - dl t) (- s) (aff_opp dl s Af) u v t); auto; qlra. }
  assert (I2 : ~ (dl a < 0 /\ dl b < 0)).
  { intros [P Q]. assert (0 < - dl t); [|qlra].
    apply (aff_pos (fun t => - dl t) (- s) (aff_opp dl s Af) a b t); auto; qlra. }
  assert (Cu : forall x y, x < y -> dl x = 0 -> dl y < 0 -> x <= m -> False).
  { intros x y Lxy Dx Dy Lm.
    assert (Sn : s < 0) by (apply (aff_slope_neg dl s Af x y); auto; qlra).
    assert (Em : m = x).
    { destruct (Qcle_lt_or_eq _ _ Lm) as [Q|Q]; auto. pose proof (aff_down dl s Af x m Sn Q). exfalso; qlra. }
    subst x. assert (Et : m = t).
    { destruct (Qcle_lt_or_eq _ _ Mt) as [Q|Q]; auto. pose proof (aff_down dl s Af m t Sn Q). exfalso; qlra. }
    subst t. destruct (Btie Dx Dx) as [[_ P]|[P _]]; [qlra|]. rewrite P in Sn. qlra. }
  assert (I3 : dl u = 0 -> ~ dl v < 0).
  { intros Du Dv. apply (Cu u v); auto. destruct Mc as [[-> ?]|[-> ?]]; qlra. }
  assert (I4 : dl a = 0 -> ~ dl b < 0).
  { intros Du Dv. apply (Cu a b); auto. destruct Mc as [[-> ?]|[-> ?]]; qlra. }
  assert (C5 : forall x y, x < y -> dl y = 0 -> dl x < 0 -> t <= y -> m = y).
  { intros x y Lxy Dy Dx Lt. assert (Sp : 0 < s) by (apply (aff_slope_pos dl s Af x y); auto; qlra).
    assert (m <= y) as My by qlra. destruct (Qcle_lt_or_eq _ _ My) as [Q|Q]; auto.
    pose proof (aff_up dl s Af m y Sp Q). exfalso; qlra. }
  assert (I5 : dl b = 0 -> dl a < 0 -> dl u = 0).
  { intros Db Da. pose proof (C5 a b LtY Db Da T3) as Em. destruct Mc as [[Q ?]|[Q ?]].
    - exfalso. rewrite Em in Q. rewrite Q in LtY. qlra.
    - rewrite <- Q, Em. auto. }
  assert (I5' : dl v = 0 -> dl u < 0 -> dl a = 0).
  { intros Db Da. pose proof (C5 u v LtZ Db Da T4) as Em. destruct Mc as [[Q ?]|[Q ?]].
    - rewrite <- Q, Em. auto.
    - exfalso. rewrite Em in Q. rewrite Q in LtZ. qlra. }
  assert (I6 : dl u < 0 -> 0 <= dl a /\ 0 < dl b).
  { intros Du. destruct Mc as [[Q Le]|[Q Le]]; rewrite Q in Bm; [|exfalso; qlra].
    split; auto. destruct (Qcle_lt_or_eq _ _ Le) as [L|L].
    - assert (Sp : 0 < s) by (apply (aff_slope_pos dl s Af u a); auto; qlra).
      pose proof (aff_up dl s Af a b Sp LtY). qlra.
    - rewrite L in Du. exfalso; qlra. }
  assert (I7 : dl a < 0 -> 0 <= dl u /\ 0 < dl v).
  { intros Du. destruct Mc as [[Q Le]|[Q Le]]; rewrite Q in Bm; [exfalso; qlra|].
    split; auto. assert (Sp : 0 < s) by (apply (aff_slope_pos dl s Af a u); auto; qlra).
    pose proof (aff_up dl s Af u v Sp LtZ). qlra. }
  assert (I8 : forall x y, x < y -> dl x = 0 -> dl y = 0 ->
            first o Y = true /\ first o Z = false /\ forall z, dl z = 0).
  { intros x y Lxy Dx Dy.
    assert (Sz : s = 0) by (apply (aff_slope_zero dl s Af x y); auto; congruence).
    assert (F : forall z, dl z = 0) by (intros z; rewrite (aff_flat dl s Af z x Sz); auto).
    destruct (Btie (F m) (F t)) as [[_ P]|(_ & P & Q)]; [exfalso; rewrite Sz in P; qlra|].
    auto. }
  destruct (sgn_cases (dl u)) as [[Eu Hu]|[[Eu Hu]|[Eu Hu]]];
  destruct (sgn_cases (dl v)) as [[Ev Hv]|[[Ev Hv]|[Ev Hv]]];
  destruct (sgn_cases (dl a)) as [[Ea Ha]|[[Ea Ha]|[Ea Ha]]];
  destruct (sgn_cases (dl b)) as [[Eb Hb]|[[Eb Hb]|[Eb Hb]]];
  rewrite Eu, Ev, Ea, Eb; unfold lt_by_signs; cbn [orientation_is negb];
  try (split; reflexivity);
  try (exfalso; tauto);
  try (destruct (I8 u v LtZ Hu Hv) as (F1 & F2 & F3));
  try (destruct (I8 a b LtY Ha Hb) as (F1 & F2 & F3));
  try (exfalso; rewrite F3 in *; qlra);
  try (rewrite Tl, Tl', F1, F2 by (rewrite F1, F2; discriminate); auto; fail);
  try (exfalso; destruct (I6 Hu); qlra);
  try (exfalso; destruct (I7 Ha); qlra);
  try (exfalso; pose proof (I5 Hb Ha); qlra);
  try (exfalso; pose proof (I5' Hv Hu); qlra).
Qed.

Lemma line_key_irrefl o Y : wf c o -> left_of o Y -> line_key_lt o Y Y = false.
Proof.
  intros W L. unfold line_key_lt. rewrite orient_start, orient_end by auto.
  assert (Z : forall t, d o Y Y t = 0) by (intros; unfold dd; ring). rewrite !Z.
  change (sgn 0) with COLLINEAR. cbn [orientation_is negb]. rewrite Bool.eqb_reflx. cbn [negb].
  assert (Q : forall x, qeqb x x = true) by (intros x; destruct (qeqb_spec x x); auto).
  assert (R : forall x, qltb x x = false) by (intros x; destruct (qltb_spec x x); auto; exfalso; qlra).
  rewrite !Q, !R. reflexivity.
Qed.

(** ** Lookup *)
Lemma search_spec root o e : forall fuel l1 mid l2,
  (length (l1 ++ mid ++ l2) <= fuel)%nat -> (mid = [] \/ mid = [e]) -> line_key_lt o e e = false ->
  (forall x, In x l1 -> line_key_lt o x e = true /\ line_key_lt o e x = false) ->
  (forall x, In x l2 -> line_key_lt o e x = true) ->
  search fuel root o e (l1 ++ mid ++ l2) = (l1, hd_error mid, l2).
Proof.
  intros fuel; induction fuel as [|fuel IH]; intros l1 mid l2 Lf Hm He H1 H2.
  - assert (E : l1 ++ mid ++ l2 = []) by (destruct (l1 ++ mid ++ l2); auto; cbn in Lf; lia).
    apply app_eq_nil in E. destruct E as [-> E]. apply app_eq_nil in E. destruct E as [-> ->].
    reflexivity.
  - cbn [search].
    set (entries := l1 ++ mid ++ l2) in *.
    destruct (nth_error entries (root entries mod length entries)) as [x|] eqn:N.
    2: { (* impossible for non-empty entries; still fine for empty ones *)
      apply nth_error_None in N. assert (Le : length entries = O).
      { destruct (length entries) eqn:Q; auto. exfalso.
        pose proof (Nat.mod_upper_bound (root entries) (S n)). lia. }
      apply length_zero_iff_nil in Le. apply app_eq_nil in Le. destruct Le as [-> E].
      apply app_eq_nil in E. destruct E as [-> ->]. reflexivity. }
    pose proof (nth_error_split _ _ N) as (p & q & Ep & Lp).
    set (i := (root entries mod length entries)%nat) in *.
    assert (F1 : firstn i entries = p).
    { rewrite Ep, firstn_app, <- Lp, firstn_all, Nat.sub_diag. cbn. apply app_nil_r. }
    assert (F2 : skipn (S i) entries = q).
    { rewrite Ep. change (p ++ x :: q) with (p ++ [x] ++ q). rewrite app_assoc, skipn_app.
      rewrite skipn_all2 by (rewrite app_length; cbn; lia). rewrite app_length. cbn [length].
      replace (S i - (length p + 1))%nat with O by lia. reflexivity. }
    rewrite F1, F2. assert (Le : length entries = (length p + S (length q))%nat) by (rewrite Ep, app_length; reflexivity).
    (* where does x fall *)
    assert (Pos : (exists r, l1 = p ++ x :: r /\ q = r ++ mid ++ l2)
                  \/ (mid = [x] /\ l1 = p /\ l2 = q)
                  \/ (exists r, l2 = r ++ x :: q /\ p = l1 ++ mid ++ r)).
    { unfold entries in Ep. apply app_eq_app in Ep. destruct Ep as (r & [[E1 E2]|[E1 E2]]).
      - destruct r as [|y r].
        + cbn in E2. rewrite app_nil_r in E1. subst l1. destruct Hm as [->| ->]; cbn in E2.
          * right; right. exists []. split; [symmetry; auto|]. cbn. rewrite app_nil_r; auto.
          * right; left. injection E2 as -> ->. auto.
        + injection E2 as -> E2. left. exists r. split; auto.
      - destruct Hm as [->| ->]; cbn in E2.
        + right; right. exists r. split; auto.
        + destruct r as [|y r]; cbn in E2.
          * rewrite app_nil_r in E1. right; left. injection E2 as -> ->. auto.
          * injection E2 as -> E2. right; right. exists r. split; auto. }
    destruct Pos as [(r & -> & ->)|[(-> & -> & ->)|(r & -> & ->)]].
    + destruct (H1 x) as [A B]; [apply in_or_app; right; left; auto|]. rewrite B, A.
      rewrite IH; auto.
      * cbn in Lf. lia.
      * intros y I. apply H1. apply in_or_app; right; right; auto.
    + destruct Hm as [Hm|Hm]; [discriminate|]. injection Hm as ->. rewrite He. reflexivity.
    + rewrite (H2 x); [|apply in_or_app; right; left; auto].
      rewrite IH; auto.
      * cbn in Lf. lia.
      * intros y I. apply H2. apply in_or_app; auto.
Qed.
End Order.
