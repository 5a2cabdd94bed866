(** The plane sweep, part 15: what a finished run has recorded, in terms of the
    segments only. *)
From Coq Require Import QArith Qcanon Bool List Arith Lia.
From Verif Require Import QcTac Model_Base Model_Utils Model_Linear Spec_Base Spec_Segment Spec_Clip
  Spec_Sweep Proof_Base Proof_Line Proof_SegRel Proof_SegOps Proof_Sweep Proof_Sweep2 Proof_Sweep3
  Proof_Sweep4 Proof_Sweep5 Proof_Sweep6 Proof_Sweep7 Proof_Sweep8 Proof_Sweep9 Proof_Sweep10
  Proof_Sweep11 Proof_Sweep12 Proof_Sweep13 Proof_Sweep14.
Import ListNotations.
Local Open Scope Qc_scope.

Lemma FOP_nth_error {A} (R : A -> A -> Prop) l : ForallOrdPairs R l -> forall i j x y, (i < j)%nat ->
  nth_error l i = Some x -> nth_error l j = Some y -> R x y.
Proof.
  induction 1 as [|a l F _ IH]; intros [|i] [|j] x y L; cbn; try discriminate; try lia.
  - intros [= ->] Q. rewrite Forall_forall in F. apply F. eapply nth_error_In; eauto.
  - apply IH. lia.
Qed.
Lemma non_crossing_nth l i j s t : non_crossing l -> i <> j -> nth_error l i = Some s ->
  nth_error l j = Some t -> touch_or_disjoint s t.
Proof.
  intros [_ F] N E1 E2. destruct (Nat.lt_total i j) as [L|[L|L]]; [|congruence|].
  - apply (FOP_nth_error _ l F i j); auto.
  - apply touch_or_disjoint_sym, (FOP_nth_error _ l F j i); auto.
Qed.
(** A segment of a sequence of operands. *)
Lemma nth_error_side {A} (l m : list A) i j x y : (i <? length l)%nat = (j <? length l)%nat -> i <> j ->
  nth_error (l ++ m) i = Some x -> nth_error (l ++ m) j = Some y ->
  exists r i' j', (r = l \/ r = m) /\ i' <> j' /\ nth_error r i' = Some x /\ nth_error r j' = Some y.
Proof.
  intros E N E1 E2. destruct (Nat.ltb_spec i (length l)) as [L|L].
  - symmetry in E. apply Nat.ltb_lt in E. rewrite nth_error_app1 in E1, E2 by auto. exists l, i, j. auto.
  - symmetry in E. apply Nat.ltb_ge in E. rewrite nth_error_app2 in E1, E2 by auto.
    exists m, (i - length l)%nat, (j - length l)%nat. split; auto. split; [lia|auto].
Qed.

Section Summary.
Variables (first second : list segment) (eps : Qc).
Notation c := (the_ctx first second eps).
Hypothesis G : good c.
Notation inputs := (first ++ second).
Notation S' := (SX c). Notation E' := (EX c). Notation h := (hh c). Notation k := (kk c).

Lemma ins_length : length (c_ins c) = length inputs.
Proof. cbn. apply map_length. Qed.

Lemma input_X_on i s : nth_error inputs i = Some s -> forall p, on_seg s p <->
  X c (fst (input c i)) <= X c p /\ X c p <= X c (snd (input c i)) /\ py p = H c i (X c p).
Proof.
  intros E p. assert (Li : (i < length (c_ins c))%nat).
  { rewrite ins_length. apply nth_error_Some. congruence. }
  rewrite <- sorted_pair_on, <- (input_the_ctx first second eps i s E).
  apply (between_X c _ _ i p).
  - symmetry. apply H_start.
  - symmetry. apply H_end; auto.
  - apply input_X; auto.
Qed.
Lemma input_X_end i s p : nth_error inputs i = Some s -> endpoint_of s p ->
  X c p = X c (fst (input c i)) \/ X c p = X c (snd (input c i)).
Proof.
  intros E Q. rewrite (input_the_ctx first second eps i s E). unfold sorted_pair, to_sorted_pair.
  destruct (point_lt _ _); cbn; destruct Q as [-> | ->]; auto.
Qed.

Lemma nc_holds : non_crossing first -> non_crossing second -> nc c.
Proof.
  intros N1 N2 i j t Li Lj Nij Op A1 A2 B1 B2 E.
  rewrite ins_length in Li, Lj. apply nth_error_Some in Li. apply nth_error_Some in Lj.
  destruct (nth_error inputs i) as [s|] eqn:Ei; [|congruence].
  destruct (nth_error inputs j) as [u|] eqn:Ej; [|congruence].
  set (p := Pt (t - eps * H c i t) (H c i t)).
  assert (Xp : X c p = t) by (unfold X, p; cbn; ring).
  assert (Os : on_seg s p).
  { apply (input_X_on i s Ei). rewrite Xp. split; [qlra|split; [qlra|reflexivity]]. }
  assert (Ou : on_seg u p).
  { apply (input_X_on j u Ej). rewrite Xp. split; [qlra|split; [qlra|exact E]]. }
  assert (T : touch_or_disjoint s u).
  { destruct (nth_error_side first second i j s u) as (r & i' & j' & [-> | ->] & N & F1 & F2); auto.
    - apply (non_crossing_nth first i' j'); auto.
    - apply (non_crossing_nth second i' j'); auto. }
  destruct T as [(q & (Q1 & Q2 & Q3) & En)|D].
  - assert (p = q) by (apply Q3; auto). subst q. destruct En as [En|En].
    + apply (input_X_end i s p Ei) in En. rewrite Xp in En. destruct En; qlra.
    + apply (input_X_end j u p Ej) in En. rewrite Xp in En. destruct En; qlra.
  - apply D. exists p; auto.
Qed.

(** Pieces in sheared coordinates. *)
Lemma piece_X o l p : wf c o -> left_of o l -> on_seg (piece o l) p <->
  S' o l <= X c p /\ X c p <= E' o l /\ py p = h o l (X c p).
Proof.
  intros W L. apply (between_X c (pt o l) (pt o (opp o l)) (sid o l) p).
  - apply (w_S c o W); auto.
  - apply (w_E c o W); auto.
  - apply (w_lt c o W); auto.
Qed.
Lemma same_X p q : X c p = X c q -> py p = py q -> p = q.
Proof. unfold X. destruct p as [a b], q as [a' b']; cbn. intros E ->. f_equal. qlra. Qed.
Lemma piece_end o l p : wf c o -> left_of o l -> py p = h o l (X c p) ->
  X c p = S' o l \/ X c p = E' o l -> endpoint_of (piece o l) p.
Proof.
  intros W L E [Q|Q]; [left|right]; cbn; unfold to_event_end; apply same_X; auto.
  - rewrite E, Q. symmetry. apply (w_S c o W); auto.
  - rewrite E, Q. symmetry. apply (w_E c o W); auto.
Qed.
Lemma piece_same o Y Z : wf c o -> left_of o Y -> left_of o Z ->
  S' o Y = S' o Z -> E' o Y = E' o Z -> piece o Y = piece o Z.
Proof.
  intros W LY LZ E1 E2. unfold piece, to_event_end. f_equal; apply (X_inj c G); auto.
  - apply (w_ptS c o W); auto.
  - apply (w_ptS c o W); auto.
  - apply (w_ptE c o W); auto.
  - apply (w_ptE c o W); auto.
Qed.

Hypothesis N : nc c.

(** The end of a run: nothing that is left can change what is recorded. *)
Definition settled (o : operation) (t : Qc) (ev : list event) : Prop :=
  inv c o t /\ recorded c o t ev /\ forall y, In y ev -> E' o y < t.

Lemma settle o t ev limit : inv c o t -> recorded c o t ev -> rest_beyond limit o ->
  (forall y, In y ev -> within limit o y) -> exists t', settled o t' ev.
Proof.
  intros V R B In0. assert (C := v_core _ _ _ V). assert (W := i_wf _ _ _ C).
  assert (Go : op_queue o = [] -> exists t', settled o t' ev).
  { intros Q0. exists (t + 1). assert (Lt : t < t + 1) by qlra.
    assert (Qu : forall e, In e (op_queue o) -> t + 1 <= EVX c o e) by (rewrite Q0; intros e []).
    split; [constructor|split].
    - apply (next_core c o t (t + 1) C (v_line _ _ _ V) (v_th _ _ _ V) Lt Qu).
    - apply V.
    - apply (next_th c N o t (t + 1) C (v_line _ _ _ V) Lt Qu).
    - apply (advance_recorded c o t (t + 1) ev V R Lt Qu).
    - intros y I. apply (r_done _ _ _ _ R) in I. pose proof (i_E _ _ _ C y I). qlra. }
  destruct (op_queue o) as [|q0 qs] eqn:Eq; [auto|]. clear Go.
  destruct limit as [x|]; cbn in B; [|congruence].
  assert (NQ : op_queue o <> []) by (rewrite Eq; discriminate).
  destruct (pop_spec c G N o W NQ (i_qnd _ _ _ C) (i_qsz _ _ _ C)) as (e & _ & I & Q).
  assert (L : least c o e) by (split; [exact I|exact Q]).
  destruct (advance c N o t e ev V R L) as [V' R'].
  exists (EVX c o e). split; auto. split; auto. intros y Iy.
  specialize (In0 y Iy). cbn in In0. specialize (B e I).
  apply (r_done _ _ _ _ R) in Iy. unfold EVX, EX. apply (X_lt c G).
  - apply (w_ptE c o W). apply Iy.
  - apply (event_pt c o e W). apply (i_qsz _ _ _ C); auto.
  - left. qlra.
Qed.

(** Whatever meets a recorded piece does it at endpoints or coincides with it. *)
Lemma recorded_meets o t ev Y Z p : settled o t ev -> In Y ev -> left_of o Z -> Z <> Y ->
  on_seg (piece o Y) p -> on_seg (piece o Z) p ->
  (endpoint_of (piece o Y) p /\ endpoint_of (piece o Z) p)
  \/ (piece o Z = piece o Y /\ In Z ev /\ (adj ev Y Z \/ adj ev Z Y)).
Proof.
  intros (V & R & T) I LZ NZ OY OZ. assert (C := v_core _ _ _ V). assert (W := i_wf _ _ _ C).
  assert (DY : done o Y) by (apply (r_done _ _ _ _ R); auto). assert (LY := proj1 DY).
  assert (PY := done_popped c o t Y C DY). pose proof (T Y I) as TY.
  apply (piece_X o Y p W LY) in OY. apply (piece_X o Z p W LZ) in OZ.
  destruct OY as (Y1 & Y2 & Y3), OZ as (Z1 & Z2 & Z3).
  assert (PZ : popped o Z).
  { split; auto. intros Q. apply (i_q1 _ _ _ C) in Q. change (EVX c o Z) with (S' o Z) in Q. qlra. }
  assert (Ut : X c p < t) by qlra. assert (Eh : h o Y (X c p) = h o Z (X c p)) by congruence.
  destruct (i_V _ _ _ C Y Z (X c p) PY PZ (fun e => NZ (eq_sym e)) Ut Y1 Y2 Z1 Z2 Eh)
    as [[A B]|[M [E|[E _]]]].
  - left. split; apply piece_end; auto.
  - right. assert (DZ : done o Z).
    { split; auto. intros Q. apply (i_q1 _ _ _ C) in Q. change (EVX c o (opp o Z)) with (E' o Z) in Q. qlra. }
    split; [apply (piece_same o Z Y W LZ LY (eq_sym (proj2 M)) (eq_sym E))|].
    split; [apply (r_done _ _ _ _ R); auto|]. apply (r_adj _ _ _ _ R); auto.
  - exfalso. qlra.
Qed.

(** What is not recorded goes beyond the limit. *)
Lemma not_recorded o t ev limit l : inv c o t -> recorded c o t ev -> rest_beyond limit o ->
  left_of o l -> ~ In l ev -> exists x, limit = Some x /\ x < px (pt o (opp o l)).
Proof.
  intros V R B L NI. destruct (in_dec Nat.eq_dec (opp o l) (op_queue o)) as [I|I].
  - destruct limit as [x|]; cbn in B; [exists x; auto|]. rewrite B in I. destruct I.
  - exfalso. apply NI, (r_done _ _ _ _ R). split; auto.
Qed.
End Summary.

(** ** The summary *)

(** The pieces recorded by a sweep, each with the position of its input segment:
    the statement of what the sweep computes that does not mention events. *)
Record arranged (first second : list segment) (limit : option Qc) (L : list (segment * nat)) : Prop := {
  a_part : forall s i, In (s, i) L -> exists u, nth_error (first ++ second) i = Some u
    /\ proper_seg s /\ seg_subset s u;
  a_nodup : NoDup L;
  a_whole : forall i u p, nth_error (first ++ second) i = Some u -> on_seg u p ->
    (exists s, In (s, i) L /\ on_seg s p)
    \/ exists x q, limit = Some x /\ on_seg u q /\ x < px q;
  a_match : forall s i j u p, In (s, i) L -> i <> j -> nth_error (first ++ second) j = Some u ->
    inside_seg s p -> on_seg u p -> In (s, j) L;
  a_meet : forall s i t j p, In (s, i) L -> In (t, j) L -> (s, i) <> (t, j) -> on_seg s p -> on_seg t p ->
    s = t \/ (endpoint_of s p /\ endpoint_of t p);
  a_next : forall s i j, In (s, i) L -> In (s, j) L -> i <> j ->
    adj L (s, i) (s, j) \/ adj L (s, j) (s, i) }.

Definition entries (o : operation) (ev : list event) : list (segment * nat) :=
  map (fun y => (piece o y, sid o y)) ev.

Lemma adj_map {A B} (f : A -> B) l x y : adj l x y -> adj (map f l) (f x) (f y).
Proof. intros (l1 & l2 & ->). exists (map f l1), (map f l2). rewrite map_app. reflexivity. Qed.

Lemma NoDup_map {A B} (f : A -> B) l : (forall x y, In x l -> In y l -> f x = f y -> x = y) ->
  NoDup l -> NoDup (map f l).
Proof.
  intros F ND. induction ND as [|a l NI ND IH]; cbn; constructor.
  - intros Q. apply in_map_iff in Q. destruct Q as (y & E & I).
    rewrite (F y a) in I; auto; [right; auto|left; auto].
  - apply IH. intros x y Ix Iy. apply F; right; auto.
Qed.

Section Arranged.
Variables (first second : list segment).
Notation inputs := (first ++ second).
Hypothesis N1 : non_crossing first.
Hypothesis N2 : non_crossing second.

Lemma inputs_proper : Forall proper_seg inputs.
Proof. apply Forall_app. split; [apply N1|apply N2]. Qed.

Lemma inside_on s p : inside_seg s p -> on_seg s p.
Proof. apply strictly_between_between. Qed.

Lemma arranged_settled e (G : good (the_ctx first second e)) o tb t ev limit :
  nc (the_ctx first second e) ->
  inv (the_ctx first second e) o tb -> recorded (the_ctx first second e) o tb ev ->
  rest_beyond limit o -> settled first second e o t ev ->
  arranged first second limit (entries o ev).
Proof.
  intros N V R B St. assert (C := v_core _ _ _ V). assert (W := i_wf _ _ _ C).
  set (c := the_ctx first second e) in *.
  assert (OP : operands_preserved inputs o).
  { apply (base_preserved first second e o G). split; auto. split; [apply (i_qsz _ _ _ C)|].
    intros l I. apply (i_line _ _ _ C) in I. apply I. }
  assert (Le : forall y, In y ev -> left_of o y) by (intros y I; apply (r_done _ _ _ _ R) in I; apply I).
  assert (Ex : forall s i, In (s, i) (entries o ev) <-> exists y, In y ev /\ piece o y = s /\ sid o y = i).
  { intros s i. unfold entries. rewrite in_map_iff. split.
    - intros (y & E & I). exists y. split; auto. split; congruence.
    - intros (y & I & <- & <-). exists y. auto. }
  assert (PP : forall y, left_of o y -> proper_seg (piece o y)).
  { intros y L. destruct (op_parts _ _ OP y L) as (u & _ & P & _). exact P. }
  constructor.
  - intros s i I. apply Ex in I. destruct I as (y & I & <- & <-).
    destruct (op_parts _ _ OP y (Le y I)) as (u & E & P). exists u. auto.
  - apply NoDup_map; [|apply (r_nd _ _ _ _ R)]. intros y z Iy Iz E.
    assert (E1 : piece o y = piece o z) by congruence. assert (E2 : sid o y = sid o z) by congruence.
    destruct (Nat.eq_dec y z) as [|D]; auto. exfalso.
    apply (op_separate _ _ OP y z (Le y Iy) (Le z Iz) D E2).
    rewrite E1. exists (seg_start (piece o z)), (seg_end (piece o z)).
    split; [apply PP; auto|].
    assert (Q1 : on_seg (piece o z) (seg_start (piece o z))) by (apply endpoint_on; left; auto).
    assert (Q2 : on_seg (piece o z) (seg_end (piece o z))) by (apply endpoint_on; right; auto). auto.
  - intros i u p E O. destruct (op_whole _ _ OP i u p E O) as (l & L & Es & Ol).
    destruct (in_dec Nat.eq_dec l ev) as [I|I].
    + left. exists (piece o l). split; auto. apply Ex. exists l. auto.
    + right. destruct (not_recorded first second e o tb ev limit l V R B L I) as (x & -> & Lx).
      exists x, (pt o (opp o l)). split; auto. split; auto.
      destruct (op_parts _ _ OP l L) as (u' & E' & _ & Sb). rewrite Es in E'.
      assert (u' = u) by congruence. subst u'. apply Sb. apply endpoint_on. right. reflexivity.
  - intros s i j u p I Nij E Is Ou. apply Ex in I. destruct I as (y & I & <- & <-).
    destruct (op_whole _ _ OP j u p E Ou) as (z & Lz & Ez & Oz).
    assert (Nz : z <> y) by (intros ->; auto).
    destruct (recorded_meets first second e G o t ev y z p St I Lz Nz) as [[A _]|(A & B' & _)]; auto.
    + apply inside_on; auto.
    + exfalso. apply (endpoint_not_inside (piece o y) p); auto.
    + apply Ex. exists z. auto.
  - intros s i s' j p I J Nij O O'. apply Ex in I. destruct I as (y & I & <- & <-).
    apply Ex in J. destruct J as (z & J & <- & <-).
    assert (Nz : z <> y) by (intros ->; auto).
    destruct (recorded_meets first second e G o t ev y z p St I (Le z J) Nz O O') as [A|[A _]]; auto.
  - intros s i j I J Nij. apply Ex in I. destruct I as (y & I & <- & <-).
    apply Ex in J. destruct J as (z & J & Ep & <-).
    assert (Nz : z <> y) by (intros ->; auto).
    set (m := lerp (seg_start (piece o y)) (seg_end (piece o y)) (/ (1 + 1))).
    assert (Im : inside_seg (piece o y) m).
    { exists (/ (1 + 1)). split; [reflexivity|split; reflexivity]. }
    assert (Om : on_seg (piece o z) m) by (rewrite Ep; apply inside_on; auto).
    destruct (recorded_meets first second e G o t ev y z m St I (Le z J) Nz) as [[A _]|(A & _ & Q)]; auto.
    + apply inside_on; auto.
    + exfalso. apply (endpoint_not_inside (piece o y) m); auto.
    + unfold entries. destruct Q as [Q|Q]; [left|right];
        apply (adj_map (fun y => (piece o y, sid o y))) in Q; rewrite Ep in Q; exact Q.
Qed.

(** The sweep ends, no assertion fails, and its record is an arrangement. *)
Lemma sweep_arranged fuel shape limit : (enough (length inputs) <= fuel)%nat ->
  exists o ev, sweep fuel shape limit (from_segments_iterables first second) [] = Sweeps o ev
    /\ arranged first second limit (entries o ev) /\ op_first_count o = length first
    /\ forall y, In y ev -> is_event_left y = true.
Proof.
  intros F. destruct (ctx_exists first second inputs_proper) as (e & _ & G).
  assert (N := nc_holds first second e G N1 N2).
  destruct (init_inv first second e G) as (t0 & V0 & R0).
  destruct (sweep_spec _ G N shape limit fuel _ _ _ V0 R0 (fun y (f : In y []) => False_ind _ f)) as [A B].
  pose proof (sweep_terminates first second inputs_proper fuel shape limit F) as T.
  destruct (sweep fuel shape limit (from_segments_iterables first second) []) as [o ev| |] eqn:Q;
    [|congruence|congruence].
  destruct (B o ev eq_refl) as (ob & tb & V & R & Rb & Fc & Kp & In0).
  exists o, ev. split; auto. destruct (settle first second e G N ob tb ev limit V R Rb In0) as (t' & St).
  split; [|split].
  - assert (E : entries o ev = entries ob ev).
    { unfold entries. apply map_ext_in. intros y I. destruct (Kp y I) as (_ & P1 & _ & P2 & P3).
      unfold piece, to_event_end. congruence. }
    rewrite E. eapply arranged_settled; eauto.
  - rewrite Fc. apply (w_first _ _ (i_wf _ _ _ (v_core _ _ _ V))).
  - intros y I. destruct (Kp y I) as (L & _). apply L.
Qed.
End Arranged.
