(** Sweeps that stop at an abscissa: nothing is selected beyond it. *)
From Coq Require Import QArith Qcanon Bool List Arith Lia Permutation.
From Verif Require Import QcTac Model_Base Model_Utils Model_Linear Model_Mixed Model_Shaped Spec_Base
  Spec_Sweep Proof_Base Proof_Line Proof_Sweep Proof_Sweep2 Proof_Sweep3 Proof_Sweep4 Proof_Sweep5 Proof_Sweep6 Proof_Sweep7
  Proof_Sweep8 Proof_Sweep9 Proof_Sweep10 Proof_Sweep11 Proof_Sweep12 Proof_Sweep13 Proof_Sweep14 Proof_Mesh Proof_Parity
  Proof_Flags Proof_Flags2 Proof_Flags3 Proof_Flags4 Proof_Flags5 Proof_Flags6 Proof_Corner Proof_Region Proof_Select Proof_Nested.
Import ListNotations.
Local Open Scope Qc_scope.

Section Limit.
Variable c : ctx.
Hypothesis G : good c.
Hypothesis N : nc c.
Variable int : list bool.
Variable sel : bool -> bool -> overlap_kind -> bool.
Variable op2 : bool -> bool -> bool.
Hypothesis Se : selects op2 sel.
Hypothesis Ee : evn c.
Hypothesis Or : ori c int.
Notation S' := (SX c). Notation E' := (EX c). Notation h := (hh c).
Notation core := (core c). Notation mates := (mates c).
Variable limit : option Qc.
Variables (s : shaped_operation) (T : Qc) (ev : list event).
Hypothesis Fn : finished c int sel limit s T ev.
Notation o := (so s).
Notation v := (view_of s).
Let V : inv c o T := fn_inv _ _ _ _ _ _ _ Fn.
Let C : core o T := v_core c o T V.
Let W : wf c o := i_wf _ _ _ C.
Let Fl : flags c int sel o nobody v := fn_flags _ _ _ _ _ _ _ Fn.

Lemma mates_one x y : popped o x -> popped o y -> x <> y -> mates o x y -> vr v x = true -> vr v y = true -> False.
Proof.
  intros Pi Pj Ne M Ri Rj.
  pose proof (w_lt c o W x (proj1 Pi)) as Li. pose proof (w_lt c o W y (proj1 Pj)) as Lj.
  assert (Q : firstop o x <> firstop o y).
  { destruct M as [M1 M2]. apply (col_overlap c N o x y W); auto; try (apply Pi); try (apply Pj); qlra. }
  assert (M' : mates o y x) by (destruct M as [[M1 M2] M3]; split; [split; [auto|intros z; symmetry; auto]|auto]).
  assert (K : forall x y, popped o x -> popped o y -> x <> y -> mates o x y -> firstop o x = true -> vr v x = true -> False).
  { clear - Fl Se. intros x y Px Py Nxy Mxy Fx Rx. rewrite (fl_result _ _ _ _ _ _ Fl x Px), Fx in Rx.
    rewrite (se_once _ _ Se) in Rx; [discriminate|]. rewrite (fl_kind1 _ _ _ _ _ _ Fl x y) by auto. unfold kind_at.
    destruct (Bool.eqb _ _); discriminate. }
  destruct (firstop o x) eqn:Fi.
  - apply (K x y); auto.
  - destruct (firstop o y) eqn:Fj; [apply (K y x); auto|congruence].
Qed.
Lemma chosen_none t : generic c t -> t < T -> (forall y, op2 (inp c t true y) (inp c t false y) = false) ->
  forall l, left_of o l -> sp c o l t = true -> vr v l = true -> False.
Proof.
  intros Gt Lt Z l Ll Sl Rl. set (z := h o l t).
  destruct (gap_round (map (fun m => h o m t) (lefts o)) z) as (d & Pd & Gp).
  assert (Gp' : forall m, left_of o m -> h o m t < z + d -> h o m t <= z).
  { intros m Lm Q. destruct (Qc_eq_dec (h o m t) z) as [E|Ne]; [rewrite E; apply Qcle_refl|].
    destruct (Gp (h o m t)) as [B|B]; auto; try qlra. apply in_map_iff. exists m. split; auto. apply lefts_In; auto. }
  pose proof (chosen_region c G N int sel op2 Se Ee Or o T v V Fl t Gt Lt) as Ch.
  assert (Lz : z < z + d) by qlra.
  pose proof (low_split c o T t Lt (vr v) (z + d) z Lz (fun m Lm _ Q => Gp' m Lm Q)) as Sp.
  pose proof (Ch (z + d)) as C1. pose proof (Ch z) as C2. rewrite Z in C1, C2. unfold chosen in C1, C2. rewrite C1, C2, xorb_false_l in Sp.
  rewrite (xsum_one _ (lefts o) l) in Sp.
  - rewrite Sl, Rl in Sp. cbn [andb] in Sp. rewrite andb_true_r in Sp. assert (E : qeqb (h o l t) z = true) by (apply qeqb_true; auto). congruence.
  - apply lefts_NoDup.
  - apply lefts_In; auto.
  - intros m Im Nm. apply lefts_In in Im. destruct (sp c o m t) eqn:Sm; auto. destruct (qeqb_spec (h o m t) z) as [Q|Q]; auto. cbn [andb].
    destruct (vr v m) eqn:Rm; auto. exfalso.
    destruct (sp_same c N o T V t Lt l m Ll Im (fun q => Nm (eq_sym q)) Sl Sm (eq_sym Q)) as [M _].
    apply sp_true in Sl. apply sp_true in Sm. apply (mates_one l m); auto; apply (sp_popped c o T V t Lt); auto; qlra.
Qed.

(** One of the operands is not beyond the limit, and nothing is selected outside it. *)
Hypothesis Lim : match limit with None => True | Some m => exists f : bool,
  (forall a : bool, (if f then op2 false a else op2 a false) = false)
  /\ forall i, In i (idx c f) -> px (snd (input c i)) <= m end.

Lemma idx_lt f i : In i (idx c f) -> (i < length (c_ins c))%nat.
Proof. intros I. apply idx_In in I. apply I. Qed.
Lemma limit_none t p : ~ lim limit p -> In p (c_pts c) ->
  (forall q, In q (c_pts c) -> X c q < X c p -> X c q < t) -> forall y, op2 (inp c t true y) (inp c t false y) = false.
Proof.
  destruct limit as [m|]; [|cbn; tauto]. cbn [lim]. intros Nl Ip Hi y. destruct Lim as (f & Ab & Ed).
  assert (Z : inp c t f y = false).
  { apply xsum_false. intros i I. unfold bel. rewrite spans_false; auto. right. pose proof (Ed i I) as L.
    destruct (g_ins c G i (idx_lt f i I)) as (_ & _ & I2). apply Qclt_le_weak, Hi; auto. apply (X_lt c G); auto. left. qlra. }
  destruct f; rewrite Z; apply Ab.
Qed.
Lemma lim_lt p q : In p (c_pts c) -> In q (c_pts c) -> lim limit p -> ~ lim limit q -> X c p < X c q.
Proof.
  clear - G. intros Ip Iq. unfold lim. destruct limit as [x|]; [|tauto]. intros P Q. apply (X_lt c G); auto. left.
  apply Qcnot_le_lt in Q. qlra.
Qed.
Lemma lim_dec' p : {lim limit p} + {~ lim limit p}.
Proof. clear. unfold lim. destruct limit as [x|]; [|left; exact I]. destruct (Qclt_le_dec x (px p)) as [Q|Q]; [right; intros R; qlra|left; auto]. Qed.
Lemma cross_none l : popped o l -> vr v l = true -> lim limit (pt o l) -> ~ In (opp o l) (op_queue o) /\ lim limit (pt o (opp o l)).
Proof.
  intros P R Li. assert (Ll : left_of o l) by apply P.
  destruct (lim_dec' (pt o (opp o l))) as [D|D].
  - split; auto. intros I. pose proof (fn_queue _ _ _ _ _ _ _ Fn) as Q. destruct limit as [m|].
    + apply Q in I. cbn in D. qlra.
    + rewrite Q in I. destruct I.
  - exfalso. set (e := pt o (opp o l)) in *.
    assert (Ie : In e (c_pts c)) by (apply (w_ptE c o W); auto). assert (Is : In (pt o l) (c_pts c)) by (apply (w_ptS c o W); auto).
    assert (Ex : exists p, In p (c_pts c) /\ ~ lim limit p /\ X c p <= X c e /\ X c p <= T).
    { destruct (fn_last _ _ _ _ _ _ _ Fn) as [Q|(p & Ip & Xp & Np)].
      - exists e. split; auto. split; auto. split; [apply Qcle_refl|]. apply (i_E _ _ _ C). split; auto. rewrite Q. auto.
      - destruct (Qclt_le_dec (X c e) (X c p)) as [Q|Q].
        + exists e. split; auto. split; auto. split; [apply Qcle_refl|qlra].
        + exists p. split; auto. split; auto. split; auto. rewrite Xp. apply Qcle_refl. }
    destruct Ex as (p & Ip & Np & L1 & L2).
    destruct (gap_below c (X c p)) as (u & Lu & Gu). destruct (qmid u (X c p) Lu) as (t & T1 & T2).
    assert (Gt : generic c t).
    { intros q Iq Q. destruct (Qclt_le_dec (X c q) (X c p)) as [Q'|Q']; [pose proof (Gu q Iq Q')|]; qlra. }
    apply (chosen_none t Gt ltac:(qlra)) with (l := l); auto.
    + apply (limit_none t p); auto. intros q Iq Q. pose proof (Gu q Iq Q). qlra.
    + apply sp_true. unfold SX, EX. split; [|fold e; qlra].
      assert (X c (pt o l) < X c p) by (apply lim_lt; auto). pose proof (Gu _ Is H). qlra.
Qed.

Hypothesis Top : forall t, generic c t -> t < T ->
  op2 (xsum (fun i => spans c i t) (idx c true)) (xsum (fun i => spans c i t) (idx c false)) = false.
Theorem inside_all t y : generic c t -> inside_L c s ev t y = op2 (inp c t true y) (inp c t false y).
Proof.
  intros Gt. destruct (beyond_dec c int sel limit s T ev Fn cross_none t) as [B|B].
  - rewrite (inside_beyond c G int sel limit s T ev Fn cross_none t y B). symmetry.
    destruct B as [B|(l & P & Sl & Nl)].
    + destruct (fn_last _ _ _ _ _ _ _ Fn) as [Q|(p & Ip & Xp & Np)].
      * assert (Z : forall f, inp c t f y = false).
        { intros f. apply xsum_false. intros i I. unfold bel. destruct (spans c i t) eqn:Si; auto. exfalso. apply spans_true in Si.
          destruct (w_cover c o W i t (idx_lt f i I)) as (l & Ll & Es & L1 & L2); try qlra.
          assert (L3 : E' o l <= T) by (apply (i_E _ _ _ C); split; auto; rewrite Q; auto).
          apply (Gt _ (w_ptE c o W l Ll)). unfold EX in *. qlra. }
        rewrite !Z. apply Se.
      * apply (limit_none t p); auto. intros q Iq Q. qlra.
    + apply sp_true in Sl. unfold SX in Sl. apply (limit_none t (pt o l)); auto.
      * apply (w_ptS c o W). apply P.
      * intros q Iq Q. qlra.
  - apply (inside_region c G N int sel op2 Se Ee Or limit s T ev Fn cross_none); auto.
Qed.
End Limit.
