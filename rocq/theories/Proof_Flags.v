(** Flags of the sweep of shaped operands, part 1: the parity of the edges of the other
    operand below a piece, along the piece and from its neighbour. *)
From Coq Require Import QArith Qcanon Bool List Arith Lia Permutation.
From Verif Require Import QcTac Model_Base Model_Utils Model_Linear Spec_Base Spec_Sweep
  Proof_Base Proof_Line Proof_Sweep Proof_Sweep2 Proof_Sweep3 Proof_Sweep5 Proof_Sweep7
  Proof_Sweep8 Proof_Sweep9 Proof_Sweep10 Proof_Sweep11 Proof_Sweep12 Proof_Parity.
Import ListNotations.
Local Open Scope Qc_scope.

Section Flags.
Variable c : ctx.
Hypothesis G : good c.
Hypothesis N : nc c.
Notation S' := (SX c). Notation E' := (EX c). Notation h := (hh c). Notation k := (kk c).
Notation EV := (EVX c). Notation col := (col c). Notation below := (below c).
Notation core := (core c). Notation th := (th c). Notation mates := (mates c).
Notation through := (through c). Notation inv := (inv c). Notation least := (least c).

(** No point of the sweep has its abscissa in the half-open interval. *)
Definition gap (t u : Qc) : Prop := t < u /\ forall p, In p (c_pts c) -> t < X c p -> u < X c p.
Lemma gap_exists t : exists u, gap t u.
Proof.
  unfold gap. induction (c_pts c) as [|p l (u & L & B)].
  - exists (t + 1). split; [qlra|]. intros p [].
  - destruct (Qclt_le_dec t (X c p)) as [Lp|Lp].
    + destruct (middle t (if qltb u (X c p) then u else X c p)) as (v & V1 & V2).
      { destruct (qltb u (X c p)); auto. }
      exists v. split; auto. intros q [<-|I] Lq.
      * destruct (qltb_spec u (X c p)); qlra.
      * specialize (B q I Lq). destruct (qltb_spec u (X c p)); qlra.
    + exists u. split; auto. intros q [<-|I] Lq; auto. exfalso; qlra.
Qed.
Lemma gap_shrink t u v : gap t u -> t < v -> v <= u -> gap t v.
Proof. intros [A B] L1 L2. split; auto. intros p I Lp. specialize (B p I Lp). qlra. Qed.
Lemma gap_not t u p : gap t u -> In p (c_pts c) -> X c p <> u.
Proof. intros [A B] I E. destruct (Qclt_le_dec t (X c p)) as [L|L]; [specialize (B p I L); qlra|qlra]. Qed.

Definition opd (i : nat) : bool := (i <? c_first c)%nat.
Definition idx (f : bool) : list nat := filter (fun i => Bool.eqb (opd i) f) (seq 0 (length (c_ins c))).
Lemma idx_In f i : In i (idx f) <-> (i < length (c_ins c))%nat /\ opd i = f.
Proof.
  unfold idx. rewrite filter_In, in_seq, Bool.eqb_true_iff. intuition lia.
Qed.
Lemma idx_NoDup f : NoDup (idx f).
Proof. apply NoDup_filter, seq_NoDup. Qed.
Definition ends (f : bool) : list point := flat_map (fun i => [fst (input c i); snd (input c i)]) (idx f).
Definition term (t y : Qc) (tb : bool) (i : nat) : bool :=
  spans c i t && (qltb (H c i t) y || (qeqb (H c i t) y && tb)).
Definition cnt (f : bool) (t y : Qc) (tb : bool) : bool := xsum (term t y tb) (idx f).
(** The parity of the edges of the other operand below the edge [i], where an edge of the
    first operand is below one of the second that it overlaps. *)
Definition oth (i : nat) (t : Qc) : bool := cnt (negb (opd i)) t (H c i t) (negb (opd i)).

Lemma input_pts i : (i < length (c_ins c))%nat -> In (fst (input c i)) (c_pts c) /\ In (snd (input c i)) (c_pts c).
Proof. intros L. apply (g_ins c G i L). Qed.

Lemma term_true t y tb i : term t y tb i = true <->
  (X c (fst (input c i)) < t /\ t < X c (snd (input c i))) /\ (H c i t < y \/ (H c i t = y /\ tb = true)).
Proof.
  unfold term. rewrite andb_true_iff, spans_true, orb_true_iff, andb_true_iff.
  destruct (qltb_spec (H c i t) y), (qeqb_spec (H c i t) y); intuition discriminate.
Qed.
Lemma bool_iff (a b : bool) : (a = true <-> b = true) -> a = b.
Proof. destruct a, b; intuition congruence. Qed.

(** ** Along a line *)
Section Window.
Variables (f tb : bool) (t1 t2 : Qc) (y : Qc -> Qc) (s : Qc).
Hypothesis L12 : t1 < t2.
Hypothesis Aff : forall x z, y x - y z = s * (x - z).
Hypothesis Gen1 : forall p, In p (c_pts c) -> X c p <> t1.
Hypothesis Gen2 : forall p, In p (c_pts c) -> X c p <> t2.
Hypothesis Ev : forall v, t1 < X c v -> X c v < t2 -> Nat.even (count_occ point_dec (ends f) v) = true.
Hypothesis Meet : forall i, In i (idx f) ->
  (forall t, t1 <= t -> t <= t2 -> X c (fst (input c i)) <= t -> t <= X c (snd (input c i)) -> H c i t <> y t)
  \/ (t1 < X c (fst (input c i)) /\ X c (fst (input c i)) < t2 /\ H c i (X c (fst (input c i))) = y (X c (fst (input c i)))
      /\ s < K c i)
  \/ (X c (fst (input c i)) < t1 /\ t2 < X c (snd (input c i)) /\ forall t, H c i t = y t).

Lemma window : cnt f t1 (y t1) tb = cnt f t2 (y t2) tb.
Proof.
  assert (E : xorb (cnt f t1 (y t1) tb) (cnt f t2 (y t2) tb) = false).
  2: { destruct (cnt f t1 (y t1) tb), (cnt f t2 (y t2) tb); auto; discriminate. }
  unfold cnt. rewrite <- xsum_xor.
  rewrite (xsum_ext _ (fun i => xsum (under c t1 t2 y) [fst (input c i); snd (input c i)])).
  - rewrite <- xsum_flat. apply xsum_even. intros v U. apply under_true in U. apply Ev; apply U.
  - intros i I. assert (I' := I). apply idx_In in I'. destruct I' as [Li Fi].
    destruct (input_pts i Li) as [P1 P2]. cbn [xsum]. rewrite xorb_false_r.
    pose proof (input_X c G i Li) as Lt.
    destruct (Meet i I) as [M|[(M1 & M2 & M3 & M4)|(M1 & M2 & M3)]].
    + rewrite <- (bel_step c G i t1 t2 y s Li L12 Aff (Gen1 _ P1) (Gen2 _ P1) (Gen1 _ P2) (Gen2 _ P2) M).
      assert (Q : forall t, t1 <= t -> t <= t2 -> term t (y t) tb i = bel c i t (y t)).
      { intros t A B. apply bool_iff. rewrite term_true, bel_true. split; intros [[Q1 Q2] Q3]; split; auto.
        destruct Q3 as [Q3|[Q3 _]]; auto. exfalso. apply (M t A B); auto; qlra. }
      rewrite !Q; auto; try apply Qcle_refl; qlra.
    + assert (Up : forall t, X c (fst (input c i)) < t -> y t < H c i t).
      { intros t Lt'. pose proof (Aff t (X c (fst (input c i)))) as A1. pose proof (H_affine c i t (X c (fst (input c i)))) as A2.
        assert (0 < (K c i - s) * (t - X c (fst (input c i)))) by qnra.
        replace ((K c i - s) * (t - X c (fst (input c i)))) with (K c i * (t - X c (fst (input c i))) - s * (t - X c (fst (input c i)))) in H by ring. qlra. }
      assert (T1 : term t1 (y t1) tb i = false).
      { destruct (term t1 (y t1) tb i) eqn:E; auto. apply term_true in E. destruct E as [[E1 E2] _]. exfalso; qlra. }
      assert (T2 : term t2 (y t2) tb i = false).
      { destruct (term t2 (y t2) tb i) eqn:E; auto. apply term_true in E. destruct E as [_ E]. specialize (Up t2 M2). exfalso. destruct E as [E|[E _]]; qlra. }
      assert (U1 : under c t1 t2 y (fst (input c i)) = false).
      { destruct (under c t1 t2 y (fst (input c i))) eqn:E; auto. apply under_true in E. destruct E as [_ E].
        rewrite <- (H_start c i), M3 in E. exfalso; qlra. }
      assert (U2 : under c t1 t2 y (snd (input c i)) = false).
      { destruct (under c t1 t2 y (snd (input c i))) eqn:E; auto. apply under_true in E. destruct E as [_ E].
        specialize (Up _ Lt). rewrite <- (H_end c G i Li) in E. exfalso; qlra. }
      rewrite T1, T2, U1, U2. reflexivity.
    + rewrite !under_false by (try (left; qlra); right; qlra). rewrite xorb_nilpotent.
      assert (Q : forall t, t1 <= t -> t <= t2 -> term t (y t) tb i = tb).
      { intros t A B. apply bool_iff. rewrite term_true. split; [intros [_ [Q|[_ Q]]]; auto; rewrite M3 in Q; qlra|].
        intros Q. split; [split; qlra|]. right; auto. }
      rewrite !Q; try apply Qcle_refl; try qlra. apply xorb_nilpotent.
Qed.
End Window.

(** The endpoints of the other operand that an edge passes are even in number. *)
Definition evn : Prop := forall i v, (i < length (c_ins c))%nat ->
  X c (fst (input c i)) < X c v -> X c v < X c (snd (input c i)) ->
  Nat.even (count_occ point_dec (ends (negb (opd i))) v) = true.

Lemma firstop_opd o l : wf c o -> firstop o l = opd (sid o l).
Proof. intros W. unfold is_left_event_from_first_operand. rewrite (w_first c o W). reflexivity. Qed.

(** Two lines in order stay so. *)
Lemma gap_order t u i j : gap t u -> (i < length (c_ins c))%nat -> (j < length (c_ins c))%nat ->
  H c i t < H c j t -> H c i u < H c j u.
Proof.
  intros [Lt B] Li Lj L. apply Qcnot_le_lt. intros Q.
  destruct (Qc_eq_dec (K c i) (K c j)) as [Ek|Nk].
  - pose proof (H_affine c i u t). pose proof (H_affine c j u t). rewrite Ek in *. qlra.
  - pose proof (H_affine c i) as A1. pose proof (H_affine c j) as A2.
    pose (dd := fun x => H c j x - H c i x).
    assert (Ad : forall x z, dd x - dd z = (K c j - K c i) * (x - z)).
    { intros x z. unfold dd. specialize (A1 x z). specialize (A2 x z).
      replace ((K c j - K c i) * (x - z)) with (K c j * (x - z) - K c i * (x - z)) by ring. qlra. }
    pose proof (aff_const_sign dd _ t u Ad) as W. assert (W' : 0 < dd t <-> 0 < dd u).
    { apply W; [qlra|]. intros w W1 W2 Z. destruct (g_cross c G i j w Li Lj Nk) as (p & Ip & Xp & _).
      { unfold dd in Z. qlra. }
      destruct (Qcle_lt_or_eq _ _ W1) as [W3|W3].
      - rewrite <- Xp in W2, W3. specialize (B p Ip W3). qlra.
      - unfold dd in Z. rewrite <- W3 in Z. qlra. }
    unfold dd in W'. assert (0 < H c j t - H c i t) by qlra. apply W' in H. qlra.
Qed.
Lemma gap_slope t u i j : gap t u -> H c i t = H c j t -> K c i < K c j -> H c i u < H c j u.
Proof.
  intros [Lt _] E Lk. pose proof (H_affine c i u t). pose proof (H_affine c j u t).
  assert (0 < (K c j - K c i) * (u - t)) by qnra.
  replace ((K c j - K c i) * (u - t)) with (K c j * (u - t) - K c i * (u - t)) in H1 by ring. qlra.
Qed.

(** ** Along a piece *)
Section Carry.
Variables (o : operation) (t : Qc) (l : event) (t1 t2 : Qc).
Hypothesis Ee : forall v, X c (fst (input c (sid o l))) < X c v -> X c v < X c (snd (input c (sid o l))) ->
  Nat.even (count_occ point_dec (ends (negb (opd (sid o l)))) v) = true.
Hypothesis V : inv o t.
Hypothesis Al : active o l.
Hypothesis Sl : S' o l < t.
Hypothesis Bl : t < E' o l.
Hypothesis Act : forall x, active o x -> t < E' o x.
Hypothesis NW : forall x, left_of o x -> In x (op_queue o) -> S' o x = t -> h o x t = h o l t -> k o l < k o x.
Hypothesis G1 : gap (S' o l) t1.
Hypothesis G2 : gap t t2.
Hypothesis Pt : exists p, In p (c_pts c) /\ X c p = t.

Lemma carry_of : oth (sid o l) t1 = oth (sid o l) t2.
Proof.
  assert (C := v_core _ _ _ V). assert (W := i_wf _ _ _ C). assert (Ll : left_of o l) by apply Al.
  assert (T1t : t1 < t) by (destruct Pt as (p & Ip & <-); apply (proj2 G1); auto).
  assert (Beyond : forall m, left_of o m -> t < E' o m -> t2 < E' o m).
  { intros m Lm Lt. apply (proj2 G2); auto. apply (w_ptE c o W m Lm). }
  assert (T2 := Beyond l Ll Bl). destruct (w_in c o W l Ll) as [In1 In2].
  pose proof (proj1 G1) as G1'. pose proof (proj1 G2) as G2'.
  unfold oth. apply (window (negb (opd (sid o l))) _ t1 t2 (H c (sid o l)) (K c (sid o l))); auto; try qlra.
  - apply H_affine.
  - intros p Ip. apply (gap_not _ _ p G1 Ip).
  - intros p Ip. apply (gap_not _ _ p G2 Ip).
  - intros v V1 V2. apply Ee; qlra.
  - intros i Ii. apply idx_In in Ii. destruct Ii as [Li Oi].
    assert (Mate : forall m, left_of o m -> sid o m = i -> popped o m -> col o l m -> S' o m = S' o l -> t < E' o m ->
      X c (fst (input c i)) < t1 /\ t2 < X c (snd (input c i)) /\ (forall u, H c i u = H c (sid o l) u)).
    { intros m Lm Es Pm Cm Sm Em. destruct (w_in c o W m Lm) as [J1 J2]. rewrite Es in *.
      pose proof (Beyond m Lm Em) as Bm. split; [qlra|]. split; [qlra|]. intros u. destruct Cm as [_ Cm]. specialize (Cm u).
      unfold hh in Cm. rewrite Es in Cm. auto. }
    assert (Ne : forall m, sid o m = i -> m <> l).
    { intros m Es ->. rewrite Es in Oi. destruct (opd i); discriminate. }
    (* at [t] *)
    assert (At : X c (fst (input c i)) <= t -> t <= X c (snd (input c i)) -> H c i t = H c (sid o l) t ->
      (t1 < X c (fst (input c i)) /\ X c (fst (input c i)) < t2 /\ H c i (X c (fst (input c i))) = H c (sid o l) (X c (fst (input c i)))
       /\ K c (sid o l) < K c i)
      \/ (X c (fst (input c i)) < t1 /\ t2 < X c (snd (input c i)) /\ forall u, H c i u = H c (sid o l) u)).
    { intros A1 A2 A3. destruct (w_cover c o W i t Li A1 A2) as (m & Lm & Es & M1 & M2).
      assert (Pop : forall m, left_of o m -> sid o m = i -> S' o m <= t -> t <= E' o m -> ~ In m (op_queue o) ->
        X c (fst (input c i)) < t1 /\ t2 < X c (snd (input c i)) /\ (forall u, H c i u = H c (sid o l) u)).
      { clear m Lm Es M1 M2. intros m Lm Es M1 M2 Im.
        destruct (v_th c o t V l m Ll Lm) as [[[Cm Sm] Em]|(_ & x & Lx & [Ix|[]] & Sx & Cx)]; auto.
        - intros [I|[]]. apply Al; auto.
        - intros [I|[]]; auto.
        - intros E. apply (Ne m Es). auto.
        - split; auto.
        - unfold hh. rewrite Es. auto.
        - apply (Mate m); auto. split; auto.
        - exfalso. destruct Cx as [Ck Ch]. specialize (NW x Lx Ix Sx (Ch t)). rewrite Ck in NW. qlra. }
      destruct (in_dec Nat.eq_dec m (op_queue o)) as [Im|Im]; [|right; apply (Pop m); auto].
      assert (Sm : S' o m = t).
      { apply (i_q1 _ _ _ C) in Im. unfold EVX in Im. unfold SX in *. qlra. }
      destruct (Qcle_lt_or_eq _ _ A1) as [A1'|A1'].
      - (* an earlier piece *)
        right. destruct (middle _ _ A1') as (v & V1 & V2).
        destruct (Qclt_le_dec (X c (fst (input c i))) t) as [_|]; [|exfalso; qlra].
        (* the piece that covers a point just before [t] *)
        assert (Q : exists m', left_of o m' /\ sid o m' = i /\ S' o m' < t /\ t <= E' o m').
        { destruct (gap_exists (X c (fst (input c i)))) as (u0 & _).
          assert (Fin : forall ps, (forall p, In p ps -> In p (c_pts c)) -> exists u, u < t /\ X c (fst (input c i)) <= u /\ forall p, In p ps -> X c p < t -> X c p <= u).
          { induction ps as [|p ps IH]; intros Ps.
            - exists (X c (fst (input c i))). split; auto. split; [apply Qcle_refl|intros p []].
            - destruct IH as (u & U1 & U2 & U3); [intros; apply Ps; right; auto|].
              destruct (Qclt_le_dec (X c p) t) as [Lp|Lp].
              + exists (if qltb u (X c p) then X c p else u). destruct (qltb_spec u (X c p)).
                * split; auto. split; [qlra|]. intros p' [<-|Iq] Lq; [qlra|]. specialize (U3 p' Iq Lq). qlra.
                * split; auto. split; auto. intros p' [<-|Iq] Lq; [qlra|]. specialize (U3 p' Iq Lq). qlra.
              + exists u. split; auto. split; auto. intros q [<-|Iq] Lq; [qlra|]. apply U3; auto. }
          destruct (Fin (c_pts c)) as (u & U1 & U2 & U3); [auto|]. destruct (middle u t U1) as (w & W1 & W2).
          destruct (w_cover c o W i w Li) as (m' & Lm' & Es' & M1' & M2'); [qlra|qlra|].
          exists m'. split; auto. split; auto. split; [qlra|].
          apply Qcnot_lt_le. intros Le. specialize (U3 _ (w_ptE c o W m' Lm') Le). unfold EX in M2'. qlra. }
        destruct Q as (m' & Lm' & Es' & M1' & M2'). apply (Pop m'); auto; [qlra|].
        intros I. apply (i_q1 _ _ _ C) in I. unfold EVX in I. unfold SX in M1'. qlra.
      - left. assert (Nh : k o l < k o m).
        { apply NW; auto. unfold hh. rewrite Es. auto. }
        unfold kk in Nh. rewrite Es in Nh. rewrite A1'. split; auto. }
    destruct (Qclt_le_dec (X c (snd (input c i))) t1) as [B1|B1].
    { left. intros u U1 U2 U3 U4. exfalso; qlra. }
    destruct (Qclt_le_dec t2 (X c (fst (input c i)))) as [B2|B2].
    { left. intros u U1 U2 U3 U4. exfalso; qlra. }
    (* does it meet at all? *)
    assert (Dec : (exists u, t1 <= u /\ u <= t2 /\ X c (fst (input c i)) <= u /\ u <= X c (snd (input c i)) /\ H c i u = H c (sid o l) u)
      \/ (forall u, t1 <= u -> u <= t2 -> X c (fst (input c i)) <= u -> u <= X c (snd (input c i)) -> H c i u <> H c (sid o l) u)).
    { set (a := mx t1 (X c (fst (input c i)))). set (b := if qltb t2 (X c (snd (input c i))) then t2 else X c (snd (input c i))).
      assert (Ra : forall u, a <= u <-> t1 <= u /\ X c (fst (input c i)) <= u).
      { intros u. unfold a. destruct (mx_ge t1 (X c (fst (input c i)))). split; [intros; split; qlra|]. intros [? ?]. apply mx_le; auto. }
      assert (Rb : forall u, u <= b <-> u <= t2 /\ u <= X c (snd (input c i))).
      { intros u. unfold b. destruct (qltb_spec t2 (X c (snd (input c i)))); split; intros; try split; qlra. }
      clearbody a b.
      destruct (Qc_eq_dec (K c i) (K c (sid o l))) as [Ek|Nk].
      - destruct (Qc_eq_dec (H c i t1) (H c (sid o l) t1)) as [Eh|Nh].
        + left. pose proof (input_X c G i Li) as Lx.
          assert (All : forall u, H c i u = H c (sid o l) u).
          { intros u. pose proof (H_affine c i u t1) as Q1. pose proof (H_affine c (sid o l) u t1) as Q2. rewrite Ek in Q1. qlra. }
          destruct (Qclt_le_dec t1 (X c (fst (input c i)))).
          * exists (X c (fst (input c i))). repeat split; auto; try qlra; apply Qcle_refl.
          * exists t1. repeat split; auto; try qlra; apply Qcle_refl.
        + right. intros u _ _ _ _ E. apply Nh. pose proof (H_affine c i u t1) as Q1. pose proof (H_affine c (sid o l) u t1) as Q2. rewrite Ek in Q1. qlra.
      - set (r := t1 - (H c i t1 - H c (sid o l) t1) / (K c i - K c (sid o l))).
        assert (Nz : K c i - K c (sid o l) <> 0) by (intros Q; apply Nk; qlra).
        assert (Er : forall u, H c i u = H c (sid o l) u <-> u = r).
        { intros u. pose proof (H_affine c i u t1) as Q1. pose proof (H_affine c (sid o l) u t1) as Q2.
          assert (Q3 : (K c i - K c (sid o l)) * (u - r) = H c i u - H c (sid o l) u).
          { unfold r. transitivity (K c i * (u - t1) - K c (sid o l) * (u - t1) + (H c i t1 - H c (sid o l) t1)); [field; auto|]. rewrite <- Q1, <- Q2. ring. }
          split; intros Q.
          - rewrite Q in Q3. assert (Q4 : (K c i - K c (sid o l)) * (u - r) = 0) by (rewrite Q3; ring).
            apply Qcmult_integral in Q4. destruct Q4; [contradiction|qlra].
          - rewrite Q in *. assert (Q4 : (K c i - K c (sid o l)) * (r - r) = 0) by ring. qlra. }
        clearbody r. destruct (Qclt_le_dec r a) as [R1|R1].
        { right. intros u U1 U2 U3 U4 E. apply Er in E. subst u. pose proof (proj2 (Ra r) (conj U1 U3)). qlra. }
        destruct (Qclt_le_dec b r) as [R2|R2].
        { right. intros u U1 U2 U3 U4 E. apply Er in E. subst u. pose proof (proj2 (Rb r) (conj U2 U4)). qlra. }
        left. exists r. apply Ra in R1. apply Rb in R2. split; [apply R1|]. split; [apply R2|]. split; [apply R1|]. split; [apply R2|].
        apply Er. auto. }
    destruct Dec as [(u & U1 & U2 & U3 & U4 & Eu)|Dec]; [right|left; auto].
    destruct (Qc_dec u t) as [[Lu|Lu]|Eq].
    + (* before [t] *)
      destruct (w_cover c o W i u Li U3 U4) as (m & Lm & Es & M1 & M2).
      assert (Pm : popped o m).
      { split; auto. intros I. apply (i_q1 _ _ _ C) in I. unfold EVX in I. unfold SX in M1. qlra. }
      destruct (i_V _ _ _ C l m u) as [[[Q|Q] _]|[[Cm Sm] Q]]; auto; try qlra.
      * apply active_popped; auto.
      * intros E. apply (Ne m Es). auto.
      * unfold hh. rewrite Es. auto.
      * assert (Em : t <= E' o m) by (destruct Q as [Q|[_ Q]]; [rewrite <- Q; qlra|auto]).
        destruct (w_in c o W m Lm) as [J1 J2]. rewrite Es in *.
        assert (Ch : forall v, H c i v = H c (sid o l) v).
        { intros v. destruct Cm as [_ Cm]. specialize (Cm v). unfold hh in Cm. rewrite Es in Cm. auto. }
        apply At; auto; qlra.
    + (* after *)
      destruct (Qc_eq_dec (K c i) (K c (sid o l))) as [Ek|Nk].
      * assert (Et : H c i t = H c (sid o l) t).
        { pose proof (H_affine c i u t) as Q1. pose proof (H_affine c (sid o l) u t) as Q2. rewrite Ek in Q1. qlra. }
        apply At; auto; [|qlra].
        apply Qcnot_lt_le. intros Q. pose proof (proj2 G2 _ (proj1 (input_pts i Li)) Q). qlra.
      * exfalso. destruct (g_cross c G i (sid o l) u Li (w_sid c o W l Ll) Nk Eu) as (p & Ip & Xp & _).
        rewrite <- Xp in Lu, U2. pose proof (proj2 G2 p Ip Lu). qlra.
    + subst u. apply At; auto.
Qed.
End Carry.
Lemma carry (Ee : evn) o t l t1 t2 : inv o t -> active o l -> S' o l < t -> t < E' o l ->
  (forall x, active o x -> t < E' o x) ->
  (forall x, left_of o x -> In x (op_queue o) -> S' o x = t -> h o x t = h o l t -> k o l < k o x) ->
  gap (S' o l) t1 -> gap t t2 -> (exists p, In p (c_pts c) /\ X c p = t) -> oth (sid o l) t1 = oth (sid o l) t2.
Proof.
  intros V A. apply carry_of; auto. intros v. apply Ee. apply (w_sid c o (i_wf _ _ _ (v_core _ _ _ V)) l), A.
Qed.

(** ** From the neighbour *)
Lemma xsum_single (a : nat) l : NoDup l -> In a l -> xsum (fun i => (i =? a)%nat) l = true.
Proof.
  induction l as [|x l IH]; intros ND I; [destruct I|]. inversion ND as [|? ? N1 N2]; subst. cbn [xsum].
  destruct (Nat.eqb_spec x a) as [->|NE].
  - rewrite xsum_false; auto. intros y Iy. apply Nat.eqb_neq. intros ->. auto.
  - destruct I as [|I]; [contradiction|]. rewrite IH; auto.
Qed.

Section Neighbour.
Variables (o : operation) (t : Qc) (t2 : Qc).
Hypothesis C : core o t.
Hypothesis Act : forall x, active o x -> t < E' o x.
Hypothesis Tied : forall x y, before (op_line o) x y -> h o x t = h o y t ->
  k o x < k o y \/ (k o x = k o y /\ firstop o x = true /\ firstop o y = false).
Hypothesis G2 : gap t t2.

Let W := i_wf _ _ _ C.

Lemma nb_cover i : (i < length (c_ins c))%nat -> spans c i t2 = true -> exists m, left_of o m /\ sid o m = i
  /\ (active o m \/ (In m (op_queue o) /\ S' o m = t)).
Proof.
  intros Li Sp. apply spans_true in Sp. destruct (w_cover c o W i t2 Li) as (m & Lm & Es & M1 & M2); [qlra|qlra|].
  assert (Sm : S' o m <= t).
  { apply Qcnot_lt_le. intros Q. pose proof (proj2 G2 _ (w_ptS c o W m Lm) Q). unfold SX in M1. qlra. }
  pose proof (proj1 G2) as Gt.
  exists m. split; auto. split; auto. destruct (in_dec Nat.eq_dec m (op_queue o)) as [I|I].
  - right. split; auto. apply (i_q1 _ _ _ C) in I. unfold EVX in I. unfold SX in *. qlra.
  - left. apply (beyond_active c o t m C); [split; auto|qlra].
Qed.
Lemma nb_order x y : before (op_line o) x y ->
  h o x t2 < h o y t2 \/ (h o x t2 = h o y t2 /\ firstop o x = true /\ firstop o y = false).
Proof.
  intros B. pose proof (before_In _ _ _ B) as [Ix Iy]. apply (i_line _ _ _ C) in Ix. apply (i_line _ _ _ C) in Iy.
  pose proof (be_t _ _ _ _ _ (i_ord _ _ _ C x y B)) as Bt. unfold dd in Bt.
  assert (Lx := w_sid c o W x (proj1 Ix)). assert (Ly := w_sid c o W y (proj1 Iy)).
  destruct (Qclt_le_dec (h o x t) (h o y t)) as [L|L].
  - left. apply (gap_order t t2 _ _ G2 Lx Ly L).
  - assert (E : h o x t = h o y t) by qlra. destruct (Tied x y B E) as [Q|(Q & F1 & F2)].
    + left. apply (gap_slope t t2 _ _ G2 E Q).
    + right. split; auto. apply (col_slope c o x y t Q E).
Qed.
Lemma nb_same_point z y : left_of o z -> left_of o y -> S' o z = t -> S' o y = t -> h o z t = h o y t.
Proof.
  intros Lz Ly Sz Sy. rewrite <- Sz at 1. rewrite <- Sy at 1. rewrite <- (w_S c o W z Lz), <- (w_S c o W y Ly).
  f_equal. apply (X_inj c G); try apply (w_ptS c o W); auto. unfold SX in *. congruence.
Qed.

(** The terms of the edges of the other operand. *)
Definition over (z : event) : Prop := forall w, left_of o w -> In w (op_queue o) -> S' o w = t -> h o z t2 < h o w t2.
Lemma nb_term z m : active o z -> over z -> left_of o m -> opd (sid o m) = negb (opd (sid o z)) ->
  spans c (sid o m) t2 = true ->
  (active o m \/ (In m (op_queue o) /\ S' o m = t)) ->
  (term t2 (h o z t2) (negb (opd (sid o z))) (sid o m) = true <-> active o m /\ before (op_line o) m z).
Proof.
  intros Az Oz Lm Om Sp D. apply spans_true in Sp. rewrite term_true. change (H c (sid o m) t2) with (h o m t2).
  assert (Nm : m <> z) by (intros ->; destruct (opd (sid o z)); discriminate).
  split.
  - intros [_ Q]. destruct D as [Am|[Im Sm]].
    + split; auto. destruct (before_total (op_line o) m z) as [|B]; auto; try (apply (i_line _ _ _ C); auto).
      exfalso. destruct (nb_order z m B) as [L|(L & F1 & F2)]; [destruct Q as [Q|[Q _]]; qlra|].
      rewrite (firstop_opd o z W) in F1. rewrite F1 in Q. cbn in Q. destruct Q as [Q|[_ Q]]; [qlra|discriminate].
    + exfalso. specialize (Oz m Lm Im Sm). destruct Q as [Q|[Q _]]; qlra.
  - intros [Am B]. split; auto. destruct (nb_order m z B) as [L|(L & F1 & F2)]; auto.
    right. split; auto. rewrite (firstop_opd o z W) in F2. rewrite F2. reflexivity.
Qed.

Section Of.
Variable y : event.
Hypothesis Ay : active o y.
Hypothesis Sy : S' o y = t.
Hypothesis QH : forall z, left_of o z -> In z (op_queue o) -> S' o z = t -> k o y < k o z.

Lemma nb_over_y : over y.
Proof.
  intros w Lw Iw Sw. apply (gap_slope t t2 _ _ G2); [|apply (QH w); auto].
  symmetry. apply nb_same_point; auto. apply Ay.
Qed.
Lemma nb_over_before x : before (op_line o) x y -> over x.
Proof.
  intros B w Lw Iw Sw. pose proof (nb_over_y w Lw Iw Sw). destruct (nb_order x y B) as [L|[L _]]; qlra.
Qed.

Lemma nb_none : (forall x, ~ before (op_line o) x y) -> oth (sid o y) t2 = false.
Proof.
  intros No. unfold oth, cnt. apply xsum_false. intros i I. apply idx_In in I. destruct I as [Li Oi].
  match goal with |- ?a = false => destruct a eqn:E; auto end. exfalso.
  assert (Sp : spans c i t2 = true) by (unfold term in E; apply andb_true_iff in E; apply E).
  destruct (nb_cover i Li Sp) as (m & Lm & Es & D). subst i.
  apply (nb_term y m) in E; auto using nb_over_y. apply (No m), E.
Qed.

Section Below.
Variable x : event.
Hypothesis Ad : adj (op_line o) x y.

Lemma nb_bxy : before (op_line o) x y.
Proof. apply adj_before, Ad. Qed.
Lemma nb_ax : active o x.
Proof. apply (i_line _ _ _ C), (before_In _ _ _ nb_bxy). Qed.
Lemma nb_iff m : m <> x -> (before (op_line o) m y <-> before (op_line o) m x).
Proof.
  intros NE. destruct Ad as (l1 & l2 & E). split.
  - intros B. pose proof (before_In _ _ _ B) as [Im Iy]. assert (Ix := nb_ax). apply (i_line _ _ _ C) in Ix.
    destruct (before_total (op_line o) m x) as [|B2]; auto. exfalso.
    rewrite E in Im. apply in_app_or in Im. destruct Im as [Im|[Im|[Im|Im]]]; try congruence.
    + apply in_split in Im. destruct Im as (u & v & ->). apply (line_asym c o t x m C B2).
      rewrite E. exists u, v, (y :: l2). rewrite <- app_assoc. reflexivity.
    + subst m. apply (line_irrefl c o t y C B).
    + apply in_split in Im. destruct Im as (u & v & ->). apply (line_asym c o t m y C B).
      rewrite E. exists (l1 ++ [x]), u, v. rewrite <- app_assoc. reflexivity.
  - intros (u & v & w & E2). pose proof nb_bxy as B. pose proof (before_In _ _ _ B) as [_ Iy].
    destruct (before_total (op_line o) m y) as [|B2]; auto.
    + rewrite E2. apply in_or_app; right; left; auto.
    + intros ->. apply (line_asym c o t x y C B). exists u, v, w. auto.
    + exfalso. (* y before m before x *)
      pose proof (i_ord _ _ _ C) as Od.
      destruct (nb_order y m B2) as [L1|(L1 & F1 & F2)];
      destruct (nb_order m x (ex_intro _ u (ex_intro _ v (ex_intro _ w E2)))) as [L2|(L2 & F3 & F4)];
      destruct (nb_order x y B) as [L3|(L3 & F5 & F6)]; try qlra; congruence.
Qed.

Lemma nb_same : firstop o x = firstop o y -> oth (sid o y) t2 = oth (sid o x) t2.
Proof.
  intros F. rewrite !(firstop_opd o _ W) in F. unfold oth. rewrite F. unfold cnt. apply xsum_ext. intros i I. apply idx_In in I. destruct I as [Li Oi].
  destruct (spans c i t2) eqn:Sp; [|unfold term; rewrite Sp; reflexivity].
  destruct (nb_cover i Li Sp) as (m & Lm & Es & D). subst i. apply bool_iff.
  rewrite <- F at 2. change (H c (sid o y) t2) with (h o y t2). change (H c (sid o x) t2) with (h o x t2).
  rewrite (nb_term y m), (nb_term x m); auto using nb_over_y, nb_ax, nb_over_before, nb_bxy; [|congruence].
  assert (m <> x) by (intros ->; rewrite F in Oi; destruct (opd (sid o y)); discriminate).
  rewrite (nb_iff m); auto. tauto.
Qed.
Lemma nb_diff : firstop o x <> firstop o y ->
  oth (sid o y) t2 = negb (xsum (fun i => bel c i t2 (H c (sid o x) t2)) (idx (opd (sid o x)))).
Proof.
  intros F. rewrite !(firstop_opd o _ W) in F.
  assert (F' : negb (opd (sid o y)) = opd (sid o x)) by (destruct (opd (sid o x)), (opd (sid o y)); try reflexivity; exfalso; apply F; reflexivity).
  unfold oth, cnt. rewrite F'.
  rewrite (xsum_ext _ (fun i => xorb (i =? sid o x)%nat (bel c i t2 (H c (sid o x) t2)))).
  - rewrite xsum_xor, xsum_single; [destruct (xsum _ _); reflexivity|apply idx_NoDup|].
    apply idx_In. split; auto. apply (w_sid c o W), nb_ax.
  - intros i I. apply idx_In in I. destruct I as [Li Oi].
    destruct (spans c i t2) eqn:Sp.
    2: { unfold term, bel. rewrite Sp. cbn [andb]. destruct (Nat.eqb_spec i (sid o x)) as [->|]; auto. exfalso.
         assert (Q : spans c (sid o x) t2 = true); [|congruence]. apply spans_true.
         assert (Lx : left_of o x) by apply nb_ax. destruct (w_in c o W x Lx).
         pose proof (active_S _ _ _ _ C nb_ax). pose proof (Act x nb_ax) as Q. pose proof (proj2 G2 _ (w_ptE c o W x Lx) Q) as Q'.
         pose proof (proj1 G2). unfold EX in *. split; qlra. }
    destruct (Nat.eqb_spec i (sid o x)) as [->|NE].
    + assert (B0 : bel c (sid o x) t2 (H c (sid o x) t2) = false).
      { destruct (bel c (sid o x) t2 (H c (sid o x) t2)) eqn:E; auto. apply bel_true in E. destruct E as [_ E]. exfalso; qlra. }
      rewrite B0. change (xorb true false) with true. apply term_true. apply spans_true in Sp. split; auto.
      change (h o x t2 < h o y t2 \/ h o x t2 = h o y t2 /\ opd (sid o x) = true).
      destruct (nb_order x y nb_bxy) as [L|(L & F1 & F2)]; auto. right. split; auto. rewrite <- (firstop_opd o x W). auto.
    + destruct (nb_cover i Li Sp) as (m & Lm & Es & D). subst i. rewrite xorb_false_l.
      assert (Nm : m <> x) by (intros ->; auto). apply bool_iff.
      pose proof (nb_term y m Ay nb_over_y Lm) as T1. rewrite F' in T1. rewrite T1; auto. clear T1.
      rewrite (nb_iff m Nm). rewrite bel_true. apply spans_true in Sp. change (H c (sid o m) t2) with (h o m t2).
      change (H c (sid o x) t2) with (h o x t2). split.
      * intros [Am B]. split; auto. destruct (nb_order m x B) as [L|(L & F1 & F2)]; auto.
        rewrite !(firstop_opd o _ W) in *. congruence.
      * intros [_ L]. destruct D as [Am|[Im Sm]].
        -- split; auto. destruct (before_total (op_line o) m x) as [|B]; auto; try (apply (i_line _ _ _ C); auto using nb_ax).
           exfalso. destruct (nb_order x m B) as [L1|(L1 & _)]; qlra.
        -- exfalso. pose proof (nb_over_before x nb_bxy m Lm Im Sm). qlra.
Qed.
End Below.
End Of.
End Neighbour.
End Flags.
