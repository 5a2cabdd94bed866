(** The plane sweep, part 10: advancing the sweep line to the next event. *)
From Coq Require Import QArith Qcanon Bool List Arith Lia.
From Verif Require Import QcTac Model_Base Model_Utils Model_Linear Spec_Base Spec_Sweep
  Proof_Base Proof_Line Proof_Sweep Proof_Sweep2 Proof_Sweep3 Proof_Sweep5 Proof_Sweep7
  Proof_Sweep8 Proof_Sweep9.
Import ListNotations.
Local Open Scope Qc_scope.

Definition nobody (x : event) : Prop := False.

(** An affine function without a root in an open interval. *)
Lemma aff_no_root (d : Qc -> Qc) s t t' : (forall x y, d x - d y = s * (x - y)) ->
  t < t' -> 0 <= d t -> (d t = 0 -> 0 < s) -> (forall u, t < u -> u < t' -> d u <> 0) ->
  (forall u, t < u -> u < t' -> 0 < d u) /\ 0 <= d t'.
Proof.
  intros A Lt D0 D1 Nr. destruct (Qcle_lt_or_eq _ _ D0) as [P|Z].
  - assert (Q : forall v, t < v -> v <= t' -> d v < 0 -> False).
    { intros v V1 V2 V3. set (w := d t - d v).
      assert (Hw : 0 < w) by (unfold w; qlra).
      set (r := t + (v - t) * (d t / w)).
      assert (Hr : d r = 0).
      { pose proof (A r t) as A1. pose proof (A v t) as A2.
        assert (E1 : r - t = (v - t) * (d t / w)) by (unfold r; ring).
        rewrite E1 in A1.
        assert (E2 : s * ((v - t) * (d t / w)) = (s * (v - t)) * (d t / w)) by ring.
        rewrite E2, <- A2 in A1.
        assert (E3 : (d v - d t) * (d t / w) = - d t).
        { replace (d v - d t) with (- w) by (unfold w; ring). field. intro Q; rewrite Q in Hw; qlra. }
        rewrite E3 in A1. qlra. }
      assert (F1 : 0 < d t / w).
      { assert (E4 : d t = (d t / w) * w) by (field; intro Q; rewrite Q in Hw; qlra).
        clearbody w. set (g := d t / w) in *. clearbody g.
        destruct (Qclt_le_dec 0 g) as [|Le]; auto. exfalso.
        assert (g * w <= 0) by qnra. qlra. }
      assert (F2 : d t / w < 1).
      { assert (E4 : d t = (d t / w) * w) by (field; intro Q; rewrite Q in Hw; qlra).
        assert (E5 : d t < w) by (unfold w; qlra). clearbody w. set (g := d t / w) in *. clearbody g.
        destruct (Qclt_le_dec g 1) as [|Ge]; auto. exfalso.
        assert (0 <= (g - 1) * w) by qnra. qlra. }
      apply (Nr r).
      - unfold r. clearbody w. set (g := d t / w) in *. clearbody g. assert (0 < (v - t) * g) by qnra. qlra.
      - unfold r. clearbody w. set (g := d t / w) in *. clearbody g.
        assert (0 < (v - t) * (1 - g)) by qnra. qlra.
      - exact Hr. }
    split.
    + intros u U1 U2. destruct (Qclt_le_dec 0 (d u)) as [|Le]; auto. exfalso.
      destruct (Qcle_lt_or_eq _ _ Le) as [Lu|Eu].
      * apply (Q u U1); auto. qlra.
      * apply (Nr u U1 U2 Eu).
    + destruct (Qclt_le_dec (d t') 0) as [Ln|]; auto. exfalso. apply (Q t' Lt (Qcle_refl _) Ln).
  - symmetry in Z. specialize (D1 Z). split.
    + intros u U1 U2. pose proof (aff_up d s A t u D1 U1). qlra.
    + pose proof (aff_up d s A t t' D1 Lt). qlra.
Qed.

Section Advance.
Variable c : ctx.
Hypothesis G : good c.
Hypothesis N : nc c.
Notation S' := (SX c). Notation E' := (EX c). Notation h := (hh c). Notation k := (kk c).
Notation EV := (EVX c). Notation col := (col c). Notation below := (below c).
Notation d := (dd c).
Notation core := (core c). Notation th := (th c). Notation mates := (mates c).
Notation dpair := (dpair c). Notation through := (through c).

Lemma below_asym o t Y Z : below o t Y Z -> below o t Z Y -> False.
Proof.
  intros [A1 A2 A3] [B1 B2 B3]. rewrite (d_swap c o Y Z) in B1, B2, B3. rewrite (d_swap c o Y Z) in B3.
  assert (Em : mx (S' o Z) (S' o Y) = mx (S' o Y) (S' o Z)).
  { destruct (mx_cases (S' o Z) (S' o Y)) as [[-> ?]|[-> ?]];
    destruct (mx_cases (S' o Y) (S' o Z)) as [[-> ?]|[-> ?]]; qlra. }
  rewrite Em in *. unfold ds in *.
  assert (Z1 : d o Y Z (mx (S' o Y) (S' o Z)) = 0) by qlra.
  assert (Z2 : d o Y Z t = 0) by qlra.
  destruct (A3 Z1 Z2) as [[_ A4]|[A4 [A5 A6]]]; destruct B3 as [[_ B4]|[B4 [B5 B6]]]; try qlra; congruence.
Qed.
Lemma line_irrefl o t Y : core o t -> before (op_line o) Y Y -> False.
Proof. intros C B. pose proof (i_ord _ _ _ C Y Y B) as Q. apply (below_asym o t Y Y Q Q). Qed.
Lemma line_asym o t Y Z : core o t -> before (op_line o) Y Z -> before (op_line o) Z Y -> False.
Proof. intros C B B'. apply (below_asym o t Y Z); apply (i_ord _ _ _ C); auto. Qed.

Lemma mates_d o Y Z t : mates o Y Z -> d o Y Z t = 0.
Proof. intros [[_ M] _]. unfold dd. rewrite M. ring. Qed.
Lemma mates_trans o Y Z U : mates o Y Z -> mates o Z U -> mates o Y U.
Proof. intros [A1 A2] [B1 B2]. split; [apply (col_trans c o Y Z U); auto|congruence]. Qed.
Lemma d_sum o Y Z U t : d o Y U t = d o Y Z t + d o Z U t.
Proof. unfold dd. ring. Qed.
Lemma d_zero o Y Z t : d o Y Z t = 0 <-> h o Y t = h o Z t.
Proof. unfold dd. split; intros; qlra. Qed.

Lemma active_not_done o Y : active o Y -> ~ done o Y.
Proof. intros (A & B & Q) [A' B']. auto. Qed.
Lemma beyond_active o t Y : core o t -> popped o Y -> t < E' o Y -> active o Y.
Proof.
  intros C P Q. destruct (popped_cases c o t Y C P) as [|Dn]; auto.
  apply (i_E _ _ _ C) in Dn. exfalso; qlra.
Qed.

Section Next.
Variables (o : operation) (t t' : Qc).
Hypothesis C : core o t.
Hypothesis Dl : dline c o (op_line o).
Hypothesis T : th o t nobody.
Hypothesis Lt : t < t'.
Hypothesis Qu : forall e, In e (op_queue o) -> t' <= EV o e.

Lemma active_E' Y : active o Y -> t' <= E' o Y.
Proof. intros (L & _ & I). apply Qu in I. exact I. Qed.

(** Nothing starts at [t] any more. *)
Lemma th_now Y Z : popped o Y -> popped o Z -> Y <> Z -> through o t Y ->
  S' o Z <= t -> t <= E' o Z -> h o Y t = h o Z t -> mates o Y Z /\ t < E' o Z.
Proof.
  intros [LY IY] [LZ IZ] NE Ty A1 A2 Eh.
  destruct (T Y Z LY LZ) as [Q|(_ & x & Lx & [Ix|[]] & Sx & _)]; auto.
  - intros [I|[]]; auto.
  - intros [I|[]]; auto.
  - exfalso. apply Qu in Ix. unfold EVX in Ix. unfold SX in Sx. rewrite Sx in Ix. qlra.
Qed.

Lemma adj_step Y Z : adj (op_line o) Y Z ->
  (forall u, t < u -> u < t' -> 0 < d o Y Z u \/ mates o Y Z) /\ 0 <= d o Y Z t'.
Proof.
  intros A. pose proof (adj_In _ _ _ A) as [IY IZ].
  apply (i_line _ _ _ C) in IY. apply (i_line _ _ _ C) in IZ.
  destruct (Dl Y Z A) as [Ap|[M _]].
  2: { split; [auto|]. rewrite (mates_d o Y Z t' M). apply Qcle_refl. }
  pose proof (i_ord _ _ _ C Y Z (adj_before _ _ _ A)) as [B1 B2 B3].
  pose proof (active_S _ _ _ _ C IY) as SY. pose proof (active_S _ _ _ _ C IZ) as SZ.
  pose proof (active_E' Y IY) as EY. pose proof (active_E' Z IZ) as EZ.
  assert (Nr : forall u, t < u -> u < t' -> d o Y Z u <> 0).
  { intros u U1 U2 Z0. destruct (Ap u) as [[Q|Q] _]; try qlra. apply d_zero; auto. }
  destruct (aff_no_root (d o Y Z) (ds c o Y Z) t t' (d_affine c o Y Z) Lt B2) as [P1 P2]; auto.
  intros Z0. assert (S1 : S' o Y = t /\ S' o Z = t).
  { destruct (Ap t) as [[Q1|Q1] [Q2|Q2]]; try qlra; [apply d_zero; auto|split; auto]. }
  destruct S1 as [S1 S2]. rewrite S1, S2, (mx_eq_l t t (Qcle_refl _)) in B3.
  destruct (B3 Z0 Z0) as [[_ Q]|[Q _]]; auto.
  exfalso. destruct (middle t t' Lt) as (u & U1 & U2). apply (Nr u U1 U2).
  pose proof (d_affine c o Y Z u t) as A1. rewrite Q in A1. qlra.
Qed.

Lemma chain_open u Y Z : t < u -> u < t' -> before (op_line o) Y Z -> 0 < d o Y Z u \/ mates o Y Z.
Proof.
  intros U1 U2 B. revert Y Z B. apply adj_chain.
  - intros x y z [A|A] [B|B].
    + left. rewrite (d_sum o x y z). qlra.
    + left. rewrite (d_sum o x y z), (mates_d o y z u B). qlra.
    + left. rewrite (d_sum o x y z), (mates_d o x y u A). qlra.
    + right. apply (mates_trans o x y z A B).
  - intros x y A. destruct (adj_step x y A) as [Q _]. apply (Q u U1 U2).
Qed.
Lemma chain_end Y Z : before (op_line o) Y Z -> 0 <= d o Y Z t'.
Proof.
  revert Y Z. apply adj_chain.
  - intros x y z A B. rewrite (d_sum o x y z). qlra.
  - intros x y A. apply (adj_step x y A).
Qed.

Lemma next_below Y Z : before (op_line o) Y Z -> below o t' Y Z.
Proof.
  intros B. pose proof (before_In _ _ _ B) as [IY IZ].
  apply (i_line _ _ _ C) in IY. apply (i_line _ _ _ C) in IZ.
  pose proof (active_S _ _ _ _ C IY) as SY. pose proof (active_S _ _ _ _ C IZ) as SZ.
  pose proof (i_ord _ _ _ C Y Z B) as [B1 B2 B3].
  pose proof (mx_le _ _ _ SY SZ) as Mt.
  constructor; auto; [apply chain_end; auto|].
  intros Z1 Z2. set (m := mx (S' o Y) (S' o Z)) in *. clearbody m.
  assert (Mt' : m < t') by qlra.
  assert (Sl : ds c o Y Z = 0).
  { apply (aff_slope_zero (d o Y Z) (ds c o Y Z) (d_affine c o Y Z) m t' Mt'). congruence. }
  assert (Z3 : d o Y Z t = 0).
  { pose proof (d_affine c o Y Z t m) as A1. rewrite Sl in A1. qlra. }
  destruct (B3 Z1 Z3) as [[_ Q]|Q]; auto. exfalso; qlra.
Qed.

Lemma next_V : vprop c o t'.
Proof.
  intros Y Z u PY PZ NE Lu A1 A2 A3 A4 Eh.
  destruct (Qc_dec u t) as [[U|U]|U].
  - destruct (i_V _ _ _ C Y Z u PY PZ NE U A1 A2 A3 A4 Eh) as [Q|[M Q]]; auto. right. split; auto.
    destruct Q as [Q|[Q1 Q2]]; auto.
    destruct (Qcle_lt_or_eq _ _ Q1) as [L1|L1]; destruct (Qcle_lt_or_eq _ _ Q2) as [L2|L2].
    + right. split; apply active_E'; apply (beyond_active o t); auto.
    + exfalso. destruct (th_now Y Z PY PZ NE) as [_ Q]; auto; try qlra.
      * split; auto. qlra.
      * destruct M as [[_ M] _]. apply M.
    + exfalso. destruct (th_now Z Y PZ PY) as [_ Q]; auto; try qlra.
      * split; auto. qlra.
      * destruct M as [[_ M] _]. symmetry; apply M.
    + left. congruence.
  - assert (AY : active o Y) by (apply (beyond_active o t); auto; qlra).
    assert (AZ : active o Z) by (apply (beyond_active o t); auto; qlra).
    assert (M : mates o Y Z).
    { destruct (before_total (op_line o) Y Z) as [B|B]; auto; try (apply (i_line _ _ _ C); auto).
      - destruct (chain_open u Y Z U Lu B) as [Q|Q]; auto. exfalso. apply d_zero in Eh. qlra.
      - destruct (chain_open u Z Y U Lu B) as [Q|Q]; [|apply mates_sym; auto]. exfalso.
        symmetry in Eh. apply d_zero in Eh. qlra. }
    right. split; auto. right. split; apply active_E'; auto.
  - subst u.
    assert (Both : mates o Y Z -> t < E' o Y -> t < E' o Z ->
      mates o Y Z /\ (E' o Y = E' o Z \/ t' <= E' o Y /\ t' <= E' o Z)).
    { intros M L1 L2. split; auto. right. split; apply active_E'; apply (beyond_active o t); auto. }
    destruct (Qcle_lt_or_eq _ _ A1) as [L1|L1]; [destruct (Qcle_lt_or_eq _ _ A2) as [L2|L2]|].
    + right. destruct (th_now Y Z PY PZ NE) as [M Q]; auto. split; auto.
    + destruct (Qcle_lt_or_eq _ _ A3) as [L3|L3]; [destruct (Qcle_lt_or_eq _ _ A4) as [L4|L4]|].
      * right. destruct (th_now Z Y PZ PY) as [M Q]; auto. { split; auto. } apply mates_sym in M. apply Both; auto.
      * left; split; auto.
      * left; split; auto.
    + destruct (Qcle_lt_or_eq _ _ A3) as [L3|L3]; [destruct (Qcle_lt_or_eq _ _ A4) as [L4|L4]|].
      * right. destruct (th_now Z Y PZ PY) as [M Q]; auto. { split; auto. } apply mates_sym in M. apply Both; auto.
      * left; split; auto.
      * left; split; auto.
Qed.

(** Neighbours tied at [t']. *)
Definition near (Y Z : event) : Prop := adj (op_line o) Y Z \/ adj (op_line o) Z Y.
Lemma near_neq Y Z : near Y Z -> Y <> Z.
Proof. intros [A|A] ->; apply (line_irrefl o t Z C), adj_before, A. Qed.
Lemma near_active Y Z : near Y Z -> active o Y /\ active o Z.
Proof. intros [A|A]; apply adj_In in A; rewrite !(i_line _ _ _ C) in A; tauto. Qed.
Lemma near_dpair Y Z : near Y Z -> dpair o Y Z.
Proof. intros [A|A]; [apply (Dl _ _ A)|apply dpair_sym, (Dl _ _ A)]. Qed.

Lemma tied_between Y W Z : before (op_line o) Y W -> before (op_line o) W Z ->
  h o Y t' = h o Z t' -> h o Y t' = h o W t'.
Proof.
  intros A B Eh. apply chain_end in A. apply chain_end in B. unfold dd in *. qlra.
Qed.

Lemma neighbours Y Z : active o Y -> active o Z -> Y <> Z -> h o Y t' = h o Z t' ->
  exists W, near Y W /\ h o Y t' = h o W t' /\
    (W = Z \/ exists U, near W U /\ U <> Y /\ h o Y t' = h o U t').
Proof.
  intros AY AZ NE Eh. apply (i_line _ _ _ C) in AY. apply (i_line _ _ _ C) in AZ.
  destruct (before_total (op_line o) Y Z AY AZ NE) as [B|B].
  - destruct (before_next _ _ _ B) as (W & Ad & [->|BW]).
    + exists Z. split; [left; auto|]. auto.
    + exists W. split; [left; auto|]. assert (EW : h o Y t' = h o W t').
      { apply (tied_between Y W Z); auto. apply adj_before; auto. }
      split; auto. right. destruct (before_next _ _ _ BW) as (U & AdU & BU).
      exists U. split; [left; auto|]. split.
      * intros ->. apply (line_asym o t Y W C); apply adj_before; auto.
      * destruct BU as [->|BU]; auto. rewrite EW. apply (tied_between W U Z); auto.
        -- apply adj_before; auto.
        -- congruence.
  - destruct (before_prev _ _ _ B) as (W & Ad & [->|BW]).
    + exists Z. split; [right; auto|]. auto.
    + exists W. split; [right; auto|]. assert (EW : h o Y t' = h o W t').
      { transitivity (h o Z t'); auto. apply (tied_between Z W Y); auto. apply adj_before; auto. }
      split; auto. right. destruct (before_prev _ _ _ BW) as (U & AdU & BU).
      exists U. split; [right; auto|]. split.
      * intros ->. apply (line_asym o t W Y C); apply adj_before; auto.
      * destruct BU as [->|BU]; auto. transitivity (h o Z t'); auto. apply (tied_between Z U W); auto.
        -- apply adj_before; auto.
        -- congruence.
Qed.

Lemma next_th : th o t' nobody.
Proof.
  intros Y Z LY LZ PY PZ NE [T1 T2] A3 A4 Eh.
  assert (W0 := i_wf _ _ _ C).
  assert (AY : active o Y).
  { apply (beyond_active o t); auto; [split; auto; intros I; apply PY; left; auto|qlra]. }
  assert (AZ : active o Z).
  { apply (beyond_active o t); auto; [split; auto; intros I; apply PZ; left; auto|qlra]. }
  pose proof (active_S _ _ _ _ C AZ) as SZ.
  destruct (neighbours Y Z AY AZ NE Eh) as (W & Nr & EW & Case).
  destruct (near_active Y W Nr) as [_ AW].
  assert (NYW := near_neq Y W Nr).
  assert (LW : left_of o W) by apply AW.
  pose proof (active_S _ _ _ _ C AW) as SW. pose proof (active_E' W AW) as EW'.
  assert (MW : mates o Y W /\ (E' o Y = E' o W \/ exists x, left_of o x /\ In x (op_queue o) /\
       ((sid o x = sid o Y /\ S' o x = E' o Y /\ E' o Y < E' o W)
        \/ (sid o x = sid o W /\ S' o x = E' o W /\ E' o W < E' o Y)))).
  { destruct (near_dpair Y W Nr) as [Ap|Q]; auto. exfalso.
    destruct (Ap t') as [[Q|Q] _]; auto; qlra. }
  destruct MW as [M Wit].
  destruct (Qcle_lt_or_eq _ _ EW') as [LW'|LW'].
  - destruct Case as [->|(U & NrU & NUY & EU)]; [left; auto|]. exfalso.
    destruct (near_active W U NrU) as [_ AU].
    assert (LU : left_of o U) by apply AU.
    assert (MU : mates o W U).
    { destruct (near_dpair W U NrU) as [Ap|[Q _]]; auto. exfalso.
      pose proof (active_S _ _ _ _ C AU). pose proof (active_E' U AU).
      destruct (Ap t') as [[Q|Q] _]; auto; try qlra; congruence. }
    assert (NWU := near_neq W U NrU).
    pose proof (active_E' U AU). pose proof (active_E' Y AY).
    pose proof (active_S _ _ _ _ C AU). pose proof (active_S _ _ _ _ C AY).
    apply (col_three c N o Y W U W0 LY LW LU); auto; try qlra.
    + apply M.
    + apply (col_trans c o Y W U); [apply M|apply MU].
  - destruct Wit as [Q|(x & Lx & Ix & [(_ & _ & Q)|(X1 & X2 & X3)])]; [exfalso; qlra|exfalso; qlra|].
    right.
    assert (Cx : col o x Y).
    { destruct M as [[M1 M2] _]. unfold Proof_Sweep8.col, kk, hh in *. rewrite X1. split; [congruence|].
      intros u. symmetry. apply M2. }
    split.
    + intros [Z1 Z2]. destruct Case as [->|_]; [qlra|].
      assert (Sm : S' o Y = S' o W) by apply M.
      assert (Op : firstop o Y <> firstop o W).
      { apply (col_overlap c N o Y W W0 LY LW NYW); try qlra; apply M. }
      destruct (Bool.bool_dec (firstop o Z) (firstop o Y)) as [Q|Q].
      * apply (no_through c N o Z Y t' W0 LZ LY); auto.
      * assert (Q' : firstop o Z = firstop o W)
          by (destruct (firstop o Z), (firstop o Y), (firstop o W); congruence).
        destruct (Nat.eq_dec (sid o Z) (sid o W)) as [Es|Ns].
        -- destruct (w_disj c o W0 Z W) as [Dj|Dj]; auto; try qlra.
           intros ->. qlra.
        -- destruct (w_in c o W0 Z LZ) as [I1 I2]. destruct (w_in c o W0 W LW) as [I3 _].
           destruct (w_in c o W0 x Lx) as [_ I4]. rewrite X1 in I4.
           pose proof (w_lt c o W0 x Lx) as Lx'. pose proof (w_lt c o W0 W LW) as LtW.
           apply (N (sid o Z) (sid o W) t'); auto; try (apply (w_sid c o W0); auto); try qlra.
           ++ unfold is_left_event_from_first_operand in Q'. rewrite (w_first c o W0) in Q'. exact Q'.
           ++ unfold hh in *. congruence.
    + exists x. split; auto. split; auto. split; auto. congruence.
Qed.

Lemma next_core : core o t'.
Proof.
  constructor; try apply C; auto.
  - intros l P. pose proof (i_S _ _ _ C l P). qlra.
  - intros l P. pose proof (i_E _ _ _ C l P). qlra.
  - apply next_below.
  - apply next_V.
Qed.
End Next.
End Advance.
