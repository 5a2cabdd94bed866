(** The sweep over two shaped operands, part 9: the selected pieces make an even drawing without
    crossings. *)
From Coq Require Import QArith Qcanon Bool List Arith Lia Permutation.
From Verif Require Import QcTac Model_Base Model_Utils Model_Linear Model_Mixed Model_Shaped Spec_Base
  Spec_Sweep Proof_Base Proof_Line Proof_Sweep Proof_Sweep2 Proof_Sweep3 Proof_Sweep5 Proof_Sweep7
  Proof_Sweep8 Proof_Sweep9 Proof_Sweep10 Proof_Sweep11 Proof_Sweep12 Proof_Sweep13 Proof_Parity
  Proof_Flags Proof_Flags2 Proof_Flags3 Proof_Flags6 Proof_Ring Proof_Corner Proof_Region.
Import ListNotations.
Local Open Scope Qc_scope.

Lemma sid_opp_left e : is_event_right e = true -> is_event_left e = false.
Proof. unfold is_event_left, is_event_right. rewrite <- Nat.negb_even. destruct (Nat.even e); auto; discriminate. Qed.

Section Select.
Variable c : ctx.
Hypothesis G : good c.
Hypothesis N : nc c.
Variable int : list bool.
Variable sel : bool -> bool -> overlap_kind -> bool.
Variable op2 : bool -> bool -> bool.
Hypothesis Se : selects op2 sel.
Hypothesis Ee : evn c.
Hypothesis Or : ori c int.
Notation S' := (SX c). Notation E' := (EX c). Notation h := (hh c). Notation k := (kk c).
Notation EV := (EVX c). Notation core := (core c). Notation mates := (mates c).
Variable limit : option Qc.
Variables (s : shaped_operation) (T : Qc) (ev : list event).
Hypothesis Fn : finished c int sel limit s T ev.
Notation o := (so s).
Notation v := (view_of s).
Let V : inv c o T := fn_inv _ _ _ _ _ _ _ Fn.
Let C : core o T := v_core c o T V.
Let W : wf c o := i_wf _ _ _ C.
Let Fl : flags c int sel o nobody v := fn_flags _ _ _ _ _ _ _ Fn.
Definition generic (t : Qc) : Prop := forall p, In p (c_pts c) -> X c p <> t.
Hypothesis Top : forall t, generic t -> t < T ->
  op2 (xsum (fun i => spans c i t) (idx c true)) (xsum (fun i => spans c i t) (idx c false)) = false.
Hypothesis Cross : forall l, popped o l -> vr v l = true -> lim limit (pt o l) ->
  ~ In (opp o l) (op_queue o) /\ lim limit (pt o (opp o l)).

Definition L : list event := filter (fun l => vr v l && mem ev l) (lefts o).
Lemma L_In l : In l L <-> popped o l /\ vr v l = true /\ lim limit (pt o l).
Proof.
  unfold L. rewrite filter_In, lefts_In, andb_true_iff, mem_In. rewrite (fn_ev _ _ _ _ _ _ _ Fn).
  unfold popped. split; [tauto|]. intros ((Ll & Q) & R & P). split; auto. split; auto. split; [apply Ll|auto].
Qed.
Lemma L_NoDup : NoDup L.
Proof. apply NoDup_filter, lefts_NoDup. Qed.
Lemma L_left l : In l L -> left_of o l. Proof. intros I. apply L_In in I. apply I. Qed.
Lemma L_done l : In l L -> ~ In (opp o l) (op_queue o) /\ lim limit (pt o (opp o l)).
Proof. intros I. apply L_In in I. destruct I as (P & R & Q). auto. Qed.
Lemma L_E l : In l L -> E' o l <= T.
Proof. intros I. apply (i_E _ _ _ C). split; [apply L_left; auto|apply L_done; auto]. Qed.
Lemma L_opp l : In l L -> is_event_left l = true /\ is_event_left (opp o l) = false /\ opp o (opp o l) = l.
Proof.
  intros I. apply L_left in I. destruct I as [Q B]. destruct (k_opp o (w_linked c o W) l B) as (A1 & A2 & A3).
  split; auto. rewrite Q in A3. split; auto.
Qed.
Lemma lim_X p q : In p (c_pts c) -> In q (c_pts c) -> lim limit p -> ~ lim limit q -> X c p < X c q.
Proof.
  intros Ip Iq. unfold lim. destruct limit as [x|]; [|tauto]. intros P Q. apply (X_lt c G); auto. left. 
  apply Qcnot_le_lt in Q. qlra.
Qed.

(** The events of the result. *)
Lemma selected_In x : In x (filter (is_event_from_result s) ev) <-> exists l, In l L /\ (x = l \/ x = opp o l).
Proof.
  rewrite filter_In. unfold is_event_from_result. rewrite (fn_ev _ _ _ _ _ _ _ Fn). split.
  - intros ((B & Q & P) & R). pose proof (to_left_left c o x W B) as Lx. exists (to_left_event o x).
    unfold to_left_event in *. destruct (is_event_left x) eqn:Ex.
    + split; auto. apply L_In. split; [split; auto|]. split; auto.
    + destruct (k_opp o (w_linked c o W) x B) as (A1 & A2 & A3). split; [|auto]. apply L_In. split; [split; auto|].
      * intros I. apply (i_q2 _ _ _ C) in I; auto. rewrite A2 in I. auto.
      * split; [auto|]. unfold lim in *. destruct limit as [z|]; auto.
        assert (Lt := w_lt c o W _ Lx). unfold SX, EX in Lt. rewrite A2 in Lt.
        destruct (Qclt_le_dec z (px (pt o (opp o x)))) as [Q'|Q']; auto. exfalso.
        assert (X c (pt o x) < X c (pt o (opp o x))); [|qlra]. apply (X_lt c G).
        -- rewrite <- A2 at 1. apply (w_ptE c o W); auto.
        -- apply (w_ptS c o W); auto.
        -- left. qlra.
  - intros (l & I & [-> | ->]).
    + destruct (L_opp l I) as (A1 & A2 & A3). apply L_In in I. destruct I as ((Ll & Q) & R & P).
      unfold to_left_event. rewrite A1. split; auto. split; auto. apply Ll.
    + destruct (L_opp l I) as (A1 & A2 & A3). destruct (L_done l I) as (D1 & D2). apply L_In in I. destruct I as ((Ll & Q) & R & P).
      unfold to_left_event. rewrite A2, A3. split; auto. split; auto.
      destruct (k_opp o (w_linked c o W) l (proj2 Ll)) as (B & _). auto.
Qed.

(** The selected pieces meet at their ends only. *)
Lemma L_mates i j : In i L -> In j L -> i <> j -> ~ mates o i j.
Proof.
  intros Ii Ij Ne M. apply L_In in Ii. apply L_In in Ij. destruct Ii as (Pi & Ri & _). destruct Ij as (Pj & Rj & _).
  pose proof (w_lt c o W i (proj1 Pi)) as Li. pose proof (w_lt c o W j (proj1 Pj)) as Lj.
  assert (Q : firstop o i <> firstop o j).
  { destruct M as [M1 M2]. apply (col_overlap c N o i j W); auto; try (apply Pi); try (apply Pj); qlra. }
  assert (M' : mates o j i) by (destruct M as [[M1 M2] M3]; split; [split; [auto|intros z; symmetry; auto]|auto]).
  assert (K : forall x y, popped o x -> popped o y -> x <> y -> mates o x y -> firstop o x = true -> vr v x = true -> False).
  { intros x y Px Py Nxy Mxy Fx Rx. rewrite (fl_result _ _ _ _ _ _ Fl x Px), Fx in Rx.
    rewrite (se_once _ _ Se) in Rx; [discriminate|]. rewrite (fl_kind1 _ _ _ _ _ _ Fl x y) by auto. unfold kind_at.
    destruct (Bool.eqb _ _); discriminate. }
  destruct (firstop o i) eqn:Fi.
  - apply (K i j); auto.
  - destruct (firstop o j) eqn:Fj; [apply (K j i); auto|congruence].
Qed.
Lemma L_meet i j u : In i L -> In j L -> i <> j -> S' o i <= u -> u <= E' o i -> S' o j <= u -> u <= E' o j ->
  h o i u = h o j u -> (u = S' o i \/ u = E' o i) /\ (u = S' o j \/ u = E' o j).
Proof.
  intros Ii Ij Ne A1 A2 B1 B2 Q. pose proof (L_E i Ii) as Ei. pose proof (L_E j Ij) as Ej.
  destruct (Qclt_le_dec u T) as [Lt|Ge].
  - destruct (i_V _ _ _ C i j u) as [D|[M _]]; auto.
    + apply L_In in Ii; apply Ii.
    + apply L_In in Ij; apply Ij.
    + exfalso. apply (L_mates i j); auto.
  - split; right; qlra.
Qed.
Lemma L_slopes i j : In i L -> In j L -> i <> j -> S' o i = S' o j -> E' o i = E' o j -> h o i (S' o i) = h o j (S' o j) ->
  h o i (E' o i) = h o j (E' o j) -> False.
Proof.
  intros Ii Ij Ne Q1 Q2 Q3 Q4. pose proof (w_lt c o W i (L_left i Ii)) as Li. rewrite <- Q1 in Q3. rewrite <- Q2 in Q4.
  destruct (qmid _ _ Li) as (m & M1 & M2).
  assert (Hm : h o i m = h o j m).
  { pose proof (H_affine c (sid o i) m (S' o i)) as A1. pose proof (H_affine c (sid o j) m (S' o i)) as A2.
    pose proof (H_affine c (sid o i) (E' o i) (S' o i)) as B1. pose proof (H_affine c (sid o j) (E' o i) (S' o i)) as B2.
    unfold hh in *. set (k1 := K c (sid o i)) in *. set (k2 := K c (sid o j)) in *.
    assert (Z : (k1 - k2) * (E' o i - S' o i) = 0).
    { replace ((k1 - k2) * (E' o i - S' o i)) with (k1 * (E' o i - S' o i) - k2 * (E' o i - S' o i)) by ring. qlra. }
    apply Qcmult_integral in Z. destruct Z as [Z|Z]; [|qlra]. assert (k1 = k2) as Ek by qlra. rewrite Ek in A1. qlra. }
  destruct (L_meet i j m) as [[D|D] _]; auto; try qlra.
Qed.

(** ** The parity of the selected pieces *)
Definition inside_L (t y : Qc) : bool := xsum (fun l => sp c o l t && qltb (h o l t) y) L.
Definition over_L (t : Qc) : bool := xsum (fun l => sp c o l t) L.
Lemma inside_lefts t y : inside_L t y = xsum (fun l => sp c o l t && qltb (h o l t) y && (vr v l && mem ev l)) (lefts o).
Proof.
  unfold inside_L, L. rewrite xsum_filter. apply xsum_ext. intros l _. destruct (vr v l && mem ev l), (sp c o l t && qltb (h o l t) y); reflexivity.
Qed.
Definition beyond (t : Qc) : Prop := T <= t \/ exists l, popped o l /\ sp c o l t = true /\ ~ lim limit (pt o l).
Lemma lim_dec p : {lim limit p} + {~ lim limit p}.
Proof. unfold lim. destruct limit as [x|]; [|left; exact I]. destruct (Qclt_le_dec x (px p)) as [Q|Q]; [right; qlra|left; auto]. Qed.
Lemma popped_dec l : {popped o l} + {~ popped o l}.
Proof.
  unfold popped, left_of. destruct (is_event_left l); [|right; intros [[Q _] _]; discriminate].
  destruct (lt_dec l (size o)); [|right; intros [[_ Q] _]; contradiction].
  destruct (in_dec Nat.eq_dec l (op_queue o)); [right; tauto|left; auto].
Qed.
Lemma beyond_dec t : {beyond t} + {~ beyond t}.
Proof.
  destruct (Qclt_le_dec t T) as [Lt|Ge]; [|left; left; auto].
  destruct (existsb (fun l => if popped_dec l then sp c o l t && (if lim_dec (pt o l) then false else true) else false) (lefts o)) eqn:Q.
  - left. right. apply existsb_exists in Q. destruct Q as (l & _ & Q). exists l. destruct (popped_dec l); [|discriminate].
    apply andb_true_iff in Q. destruct Q as [Q1 Q2]. split; auto. split; auto. destruct (lim_dec (pt o l)); [discriminate|auto].
  - right. intros [D|(l & P & Sl & NL)]; [qlra|]. 
    assert (X : existsb (fun l => if popped_dec l then sp c o l t && (if lim_dec (pt o l) then false else true) else false) (lefts o) = true).
    { apply existsb_exists. exists l. split; [apply lefts_In, P|]. destruct (popped_dec l); [|contradiction]. rewrite Sl.
      destruct (lim_dec (pt o l)); [contradiction|auto]. }
    congruence.
Qed.
Lemma beyond_none t l : beyond t -> In l L -> sp c o l t = false.
Proof.
  intros B I. destruct (sp c o l t) eqn:Q; auto. exfalso. apply sp_true in Q. destruct B as [B|(m & P & Sm & Nm)].
  - pose proof (L_E l I). qlra.
  - apply sp_true in Sm. apply Nm. destruct (lim_dec (pt o m)) as [|Q']; auto. exfalso.
    assert (X c (pt o (opp o l)) < X c (pt o m)).
    { apply lim_X; auto; [apply (w_ptE c o W), L_left; auto|apply (w_ptS c o W), P|apply L_done; auto]. }
    unfold SX, EX in *. qlra.
Qed.
Lemma inside_beyond t y : beyond t -> inside_L t y = false.
Proof. intros B. apply xsum_false. intros l I. rewrite beyond_none; auto. Qed.
Lemma inside_region t y : generic t -> ~ beyond t -> inside_L t y = op2 (inp c t true y) (inp c t false y).
Proof.
  intros Gt B. assert (Lt : t < T) by (apply Qcnot_le_lt; intros Q; apply B; left; auto).
  rewrite <- (chosen_region c G N int sel op2 Se Ee Or o T v V Fl t Gt Lt y). rewrite inside_lefts. unfold chosen, low_of.
  apply xsum_ext. intros l Il. apply lefts_In in Il. destruct (sp c o l t) eqn:Sl; auto. destruct (qltb (h o l t) y); auto. cbn [andb].
  destruct (vr v l) eqn:R; auto. cbn [andb]. apply mem_In. apply (fn_ev _ _ _ _ _ _ _ Fn).
  assert (P : popped o l) by (apply (sp_popped c o T V t Lt); auto; apply sp_true in Sl; qlra).
  split; [apply P|]. split; [apply P|]. destruct (lim_dec (pt o l)) as [|Q]; auto. exfalso. apply B. right. eauto.
Qed.
Lemma high (t : Qc) : exists y, (forall l, left_of o l -> h o l t < y) /\ forall i, (i < length (c_ins c))%nat -> H c i t < y.
Proof.
  assert (M : forall (U : Type) (f : U -> Qc) (l : list U), exists y, forall x, In x l -> f x < y).
  { intros U f l. induction l as [|x l (y & IH)]; [exists 0; intros x []|].
    exists ((if qltb (f x) y then y else f x) + 1). intros z [<-|Iz]; [|specialize (IH z Iz)]; destruct (qltb_spec (f x) y); qlra. }
  destruct (M _ (fun i => H c i t) (seq 0 (length (c_ins c)))) as (y & Y). exists y.
  assert (Z : forall i, (i < length (c_ins c))%nat -> H c i t < y) by (intros i Q; apply Y, in_seq; lia).
  split; auto. intros l Ll. unfold hh. apply Z, (w_sid c o W); auto.
Qed.
Lemma over_even t : generic t -> over_L t = false.
Proof.
  intros Gt. destruct (beyond_dec t) as [B|B].
  - apply xsum_false. intros l I. apply beyond_none; auto.
  - destruct (high t) as (y & Y1 & Y2).
    assert (Q : over_L t = inside_L t y).
    { apply xsum_ext. intros l I. rewrite (proj2 (qltb_true _ _) (Y1 l (L_left l I))), andb_true_r. auto. }
    rewrite Q, inside_region by auto. etransitivity; [|apply (Top t Gt); apply Qcnot_le_lt; intros Q'; apply B; left; auto].
    unfold inp. f_equal; apply xsum_ext; intros i Ii; apply idx_In in Ii; unfold bel; rewrite (proj2 (qltb_true _ _) (Y2 i (proj1 Ii))), andb_true_r; auto.
Qed.

Lemma gap_below t : exists u, u < t /\ forall p, In p (c_pts c) -> X c p < t -> X c p < u.
Proof.
  induction (c_pts c) as [|p l (u & L' & B)].
  - exists (t - 1). split; [qlra|]. intros p [].
  - destruct (Qclt_le_dec (X c p) t) as [Lp|Lp].
    + destruct (qmid (if qltb u (X c p) then X c p else u) t) as (w & V1 & V2).
      { destruct (qltb u (X c p)); auto. }
      exists w. split; auto. intros q [<-|Iq] Lq; [|specialize (B q Iq Lq)]; destruct (qltb_spec u (X c p)); qlra.
    + exists u. split; auto. intros q [<-|Iq] Lq; [exfalso; qlra|auto].
Qed.
Lemma L_degree w : degree L (pt o) (fun l => pt o (opp o l)) (fun _ => true) w = false.
Proof.
  unfold degree. destruct (in_dec point_dec w (c_pts c)) as [Iw|Nw].
  2: { apply xsum_false. intros l I. apply L_left in I. rewrite !pointb_false; auto; intros Q; subst w; apply Nw;
       [apply (w_ptE c o W); auto|apply (w_ptS c o W); auto]. }
  destruct (gap_below (X c w)) as (t1 & A1 & B1). destruct (gap_exists c (X c w)) as (t2 & A2 & B2).
  assert (G1 : generic t1).
  { intros p Ip Q. destruct (Qclt_le_dec (X c p) (X c w)) as [D|D]; [specialize (B1 p Ip D)|]; qlra. }
  assert (G2 : generic t2).
  { intros p Ip Q. destruct (Qclt_le_dec (X c w) (X c p)) as [D|D]; [specialize (B2 p Ip D)|]; qlra. }
  rewrite (xsum_ext _ (fun l => xorb (sp c o l t1) (sp c o l t2))).
  { rewrite xsum_xor. fold (over_L t1) (over_L t2). rewrite !over_even by auto. reflexivity. }
  intros l I. cbn [andb]. apply L_left in I. pose proof (w_lt c o W l I) as Lt.
  pose proof (w_ptS c o W l I) as PS. pose proof (w_ptE c o W l I) as PE. unfold sp, SX, EX in *.
  set (a := pt o l) in *. set (b := pt o (opp o l)) in *.
  assert (D : forall p, In p (c_pts c) -> (X c p < t1 /\ X c p < t2 /\ p <> w) \/ (t1 < X c p /\ t2 < X c p /\ p <> w) \/ (p = w /\ t1 < X c p /\ X c p < t2)).
  { intros p Ip. destruct (Qc_dec (X c p) (X c w)) as [[D|D]|D].
    - left. specialize (B1 p Ip D). split; [|split]; try qlra. intros ->. qlra.
    - right. left. specialize (B2 p Ip D). split; [|split]; try qlra. intros ->. qlra.
    - right. right. split; [apply (X_inj c G); auto|]. split; qlra. }
  destruct (D a PS) as [(D1 & D2 & D3)|[(D1 & D2 & D3)|(D1 & D2 & D3)]], (D b PE) as [(D4 & D5 & D6)|[(D4 & D5 & D6)|(D4 & D5 & D6)]];
    rewrite ?(proj2 (pointb_true a w) D1), ?(proj2 (pointb_true b w) D4), ?(pointb_false a w D3), ?(pointb_false b w D6);
    repeat match goal with |- context [qltb ?x ?y] => first [rewrite (qltb_yes x y) by qlra | rewrite (qltb_not x y) by qlra] end; auto; exfalso; try qlra.
Qed.
End Select.
