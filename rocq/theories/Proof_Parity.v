(** Parities of counts, and how the number of edges below a moving point changes. *)
From Coq Require Import QArith Qcanon Bool List Arith Lia Permutation.
From Verif Require Import QcTac Model_Base Model_Utils Model_Linear Spec_Base Proof_Base
  Proof_Sweep Proof_Sweep2.
Import ListNotations.
Local Open Scope Qc_scope.

Fixpoint xsum {A : Type} (f : A -> bool) (l : list A) : bool :=
  match l with [] => false | x :: r => xorb (f x) (xsum f r) end.

Lemma xsum_app {A} (f : A -> bool) l r : xsum f (l ++ r) = xorb (xsum f l) (xsum f r).
Proof.
  induction l as [|x l IH]; cbn [xsum app].
  - destruct (xsum f r); reflexivity.
  - rewrite IH, xorb_assoc. reflexivity.
Qed.
Lemma xsum_ext {A} (f g : A -> bool) l : (forall x, In x l -> f x = g x) -> xsum f l = xsum g l.
Proof.
  induction l as [|x l IH]; intros E; cbn [xsum]; auto. rewrite IH by (intros; apply E; right; auto).
  rewrite E by (left; auto). reflexivity.
Qed.
Lemma xsum_false {A} (f : A -> bool) l : (forall x, In x l -> f x = false) -> xsum f l = false.
Proof.
  induction l as [|x l IH]; intros E; cbn [xsum]; auto. rewrite IH by (intros; apply E; right; auto).
  rewrite E by (left; auto). reflexivity.
Qed.
Lemma xsum_xor {A} (f g : A -> bool) l : xsum (fun x => xorb (f x) (g x)) l = xorb (xsum f l) (xsum g l).
Proof.
  induction l as [|x l IH]; cbn [xsum]; auto. rewrite IH.
  destruct (f x), (g x), (xsum f l), (xsum g l); reflexivity.
Qed.
Lemma xsum_map {A B} (f : B -> bool) (g : A -> B) l : xsum f (map g l) = xsum (fun x => f (g x)) l.
Proof. induction l as [|x l IH]; cbn [xsum map]; auto. rewrite IH. reflexivity. Qed.
Lemma xsum_flat {A B} (f : B -> bool) (g : A -> list B) l :
  xsum f (flat_map g l) = xsum (fun x => xsum f (g x)) l.
Proof. induction l as [|x l IH]; cbn [xsum flat_map]; auto. rewrite xsum_app, IH. reflexivity. Qed.
Lemma xsum_odd {A} (f : A -> bool) l : xsum f l = Nat.odd (length (filter f l)).
Proof.
  induction l as [|x l IH]; cbn [xsum filter]; auto. rewrite IH. destruct (f x).
  - cbn [length]. rewrite Nat.odd_succ, <- Nat.negb_odd. destruct (Nat.odd (length (filter f l))); reflexivity.
  - destruct (Nat.odd (length (filter f l))); reflexivity.
Qed.
Lemma xsum_filter {A} (f g : A -> bool) l : xsum f (filter g l) = xsum (fun x => g x && f x) l.
Proof.
  induction l as [|x l IH]; cbn [xsum filter]; auto.
  destruct (g x); cbn [xsum andb]; rewrite IH; auto. destruct (xsum (fun x => g x && f x) l); reflexivity.
Qed.
Lemma xsum_perm {A} (f : A -> bool) l r : Permutation l r -> xsum f l = xsum f r.
Proof.
  induction 1 as [|x l r P IH|x y l|l m r P1 IH1 P2 IH2]; cbn [xsum]; auto; try congruence.
  destruct (f x), (f y), (xsum f l); reflexivity.
Qed.
Lemma filter_perm {A} (f : A -> bool) l r : NoDup l -> NoDup r ->
  (forall x, f x = true -> (In x l <-> In x r)) -> Permutation (filter f l) (filter f r).
Proof.
  intros N1 N2 E. apply NoDup_Permutation; try (apply NoDup_filter; auto).
  intros x. rewrite !filter_In. split; intros [I F]; split; auto; apply E; auto.
Qed.
Lemma xsum_bij {A B} (f : A -> bool) (g : B -> bool) (phi : A -> B) l r : NoDup l -> NoDup r ->
  (forall x, In x l -> f x = true -> In (phi x) r /\ g (phi x) = true) ->
  (forall x y, In x l -> In y l -> f x = true -> f y = true -> phi x = phi y -> x = y) ->
  (forall z, In z r -> g z = true -> exists x, In x l /\ f x = true /\ phi x = z) ->
  xsum f l = xsum g r.
Proof.
  intros N1 N2 F I S. rewrite !xsum_odd. f_equal. rewrite <- (map_length phi). apply Permutation_length.
  apply NoDup_Permutation.
  - assert (H : forall m, NoDup m -> (forall x, In x m -> In x l /\ f x = true) -> NoDup (map phi m)).
    { induction m as [|x m IH]; cbn; intros ND J; [constructor|]. inversion ND; subst. constructor.
      - intros M. apply in_map_iff in M. destruct M as (y & E & My). destruct (J x (or_introl eq_refl)), (J y (or_intror My)).
        rewrite (I y x) in My; auto.
      - apply IH; auto. }
    apply H; [apply NoDup_filter; auto|]. intros x Hx. apply filter_In in Hx. auto.
  - apply NoDup_filter; auto.
  - intros z. rewrite in_map_iff, filter_In. split.
    + intros (x & <- & M). apply filter_In in M. destruct M. auto.
    + intros [Iz Gz]. destruct (S z Iz Gz) as (x & Ix & Fx & E). exists x. split; auto. apply filter_In. auto.
Qed.
(** Every value with the property occurs an even number of times. *)
Lemma count_remove (v w : point) L : v <> w -> count_occ point_dec (remove point_dec v L) w = count_occ point_dec L w.
Proof.
  intros N. induction L as [|x L IH]; cbn [remove count_occ]; auto.
  destruct (point_dec v x) as [->|]; cbn [count_occ]; destruct (point_dec x w); congruence.
Qed.
Lemma xsum_even (q : point -> bool) : forall L,
  (forall v, q v = true -> Nat.even (count_occ point_dec L v) = true) -> xsum q L = false.
Proof.
  intros L. remember (length L) as n eqn:E. revert L E. induction n as [n IH] using lt_wf_ind. intros L -> Ev.
  destruct L as [|v L]; auto. set (R := remove point_dec v (v :: L)).
  assert (X1 : forall M, xsum q M = xorb (q v && Nat.odd (count_occ point_dec M v)) (xsum q (remove point_dec v M))).
  { induction M as [|w M IM]; cbn [xsum remove count_occ]; [cbn; rewrite andb_false_r; auto|]. rewrite IM.
    destruct (point_dec v w) as [->|N].
    - destruct (point_dec w w) as [_|]; [|congruence]. rewrite Nat.odd_succ, <- Nat.negb_odd.
      destruct (q w), (Nat.odd (count_occ point_dec M w)), (xsum q (remove point_dec w M)); reflexivity.
    - destruct (point_dec w v) as [->|]; [congruence|]. cbn [xsum].
      destruct (q w), (q v && Nat.odd (count_occ point_dec M v)), (xsum q (remove point_dec v M)); reflexivity. }
  rewrite (X1 (v :: L)).
  assert (X2 : xsum q (remove point_dec v (v :: L)) = false).
  { apply (IH (length (remove point_dec v (v :: L)))); auto.
    - cbn. destruct (point_dec v v) as [_|]; [|congruence]. pose proof (remove_length_le point_dec L v). lia.
    - intros w Qw. destruct (point_dec v w) as [->|N].
      + rewrite (proj1 (count_occ_not_In point_dec _ w)); auto. apply remove_In.
      + rewrite count_remove by auto. auto. }
  rewrite X2. destruct (q v) eqn:Qv; auto. pose proof (Ev v Qv) as E1. rewrite <- Nat.negb_even, E1. auto.
Qed.

(** ** Edges below a point that moves along a line *)
Section Below.
Variable c : ctx.
Hypothesis G : good c.

Definition spans (i : nat) (t : Qc) : bool :=
  qltb (X c (fst (input c i))) t && qltb t (X c (snd (input c i))).
Definition bel (i : nat) (t y : Qc) : bool := spans i t && qltb (H c i t) y.
Lemma spans_true i t : spans i t = true <-> X c (fst (input c i)) < t /\ t < X c (snd (input c i)).
Proof. unfold spans. rewrite andb_true_iff. split; intros [A B]; split; destruct (qltb_spec (X c (fst (input c i))) t), (qltb_spec t (X c (snd (input c i)))); auto; discriminate. Qed.
Lemma spans_false i t : (t <= X c (fst (input c i)) \/ X c (snd (input c i)) <= t) -> spans i t = false.
Proof.
  intros D. destruct (spans i t) eqn:E; auto. apply spans_true in E. destruct E, D; exfalso; qlra.
Qed.
Lemma bel_true i t y : bel i t y = true <-> (X c (fst (input c i)) < t /\ t < X c (snd (input c i))) /\ H c i t < y.
Proof. unfold bel. rewrite andb_true_iff, spans_true. destruct (qltb_spec (H c i t) y); intuition discriminate. Qed.

(** The point [v] is strictly between the two times and below the path. *)
Definition under (t1 t2 : Qc) (y : Qc -> Qc) (v : point) : bool :=
  qltb t1 (X c v) && qltb (X c v) t2 && qltb (py v) (y (X c v)).
Lemma under_true t1 t2 y v : under t1 t2 y v = true <-> (t1 < X c v /\ X c v < t2) /\ py v < y (X c v).
Proof.
  unfold under. rewrite !andb_true_iff. destruct (qltb_spec t1 (X c v)), (qltb_spec (X c v) t2), (qltb_spec (py v) (y (X c v)));
    intuition discriminate.
Qed.
Lemma under_false t1 t2 y v : X c v <= t1 \/ t2 <= X c v -> under t1 t2 y v = false.
Proof. intros D. destruct (under t1 t2 y v) eqn:E; auto. apply under_true in E. destruct E as [[A B] _], D; exfalso; qlra. Qed.
Lemma qltb_eq a b x y : (a < b <-> x < y) -> qltb a b = qltb x y.
Proof. intros E. destruct (qltb_spec a b), (qltb_spec x y); auto; tauto. Qed.

Lemma aff_const_sign (d : Qc -> Qc) s u v : (forall x y, d x - d y = s * (x - y)) ->
  u <= v -> (forall w, u <= w -> w <= v -> d w <> 0) -> (0 < d u <-> 0 < d v).
Proof.
  intros A L Z. assert (Z1 := Z u (Qcle_refl u) L). assert (Z2 := Z v L (Qcle_refl v)).
  assert (K : ~ ((0 < d u /\ d v < 0) \/ (d u < 0 /\ 0 < d v))).
  { intros B. assert (Hs : s <> 0). { intros E. pose proof (A u v) as E1. rewrite E in E1. destruct B as [[P Q]|[P Q]]; qlra. }
    set (w := u - d u / s).
    assert (E : d w = 0). { pose proof (A w u) as E1. unfold w in *. replace (s * (u - d u / s - u)) with (- d u) in E1 by (field; auto). qlra. }
    assert (W : s * (w - u) = - d u) by (unfold w; field; auto). assert (W2 : s * (v - w) = d v) by (pose proof (A v w); qlra).
    clearbody w. apply (Z w); auto.
    - apply Qcnot_lt_le. intros C. destruct B as [[P Q]|[P Q]].
      + destruct (Qclt_le_dec 0 s) as [P3|P3]; [|qnra]. assert (0 < s * (v - w)) by (rewrite W2 in *; qnra). qlra.
      + destruct (Qclt_le_dec 0 s) as [P3|P3]; [qnra|]. assert (s * (v - w) <= 0) by qnra. qlra.
    - apply Qcnot_lt_le. intros C. destruct B as [[P Q]|[P Q]].
      + destruct (Qclt_le_dec 0 s) as [P3|P3]; [assert (0 <= s * (w - u)) by qnra; qlra|]. assert (0 <= s * (v - w)) by qnra. qlra.
      + destruct (Qclt_le_dec 0 s) as [P3|P3]; [assert (s * (v - w) <= 0) by qnra; qlra|]. assert (s * (w - u) <= 0) by qnra. qlra. }
  split; intros P; apply Qcnot_le_lt; intros Q; apply K.
  - left. split; auto. apply Qcle_lt_or_eq in Q. destruct Q; [auto|congruence].
  - right. split; auto. apply Qcle_lt_or_eq in Q. destruct Q; [auto|congruence].
Qed.

Lemma bel_step i t1 t2 (y : Qc -> Qc) s : (i < length (c_ins c))%nat -> t1 < t2 ->
  (forall x z, y x - y z = s * (x - z)) ->
  X c (fst (input c i)) <> t1 -> X c (fst (input c i)) <> t2 ->
  X c (snd (input c i)) <> t1 -> X c (snd (input c i)) <> t2 ->
  (forall t, t1 <= t -> t <= t2 -> X c (fst (input c i)) <= t -> t <= X c (snd (input c i)) -> H c i t <> y t) ->
  xorb (bel i t1 (y t1)) (bel i t2 (y t2))
  = xorb (under t1 t2 y (fst (input c i))) (under t1 t2 y (snd (input c i))).
Proof.
  intros Li L A F1 F2 S1 S2 Z. pose proof (input_X c G i Li) as Lt.
  pose proof (H_start c i) as Ha. pose proof (H_end c G i Li) as Hb.
  set (a := X c (fst (input c i))) in *. set (b := X c (snd (input c i))) in *.
  pose (d := fun t => y t - H c i t).
  assert (Ad : forall x z, d x - d z = (s - K c i) * (x - z)).
  { intros x z. unfold d. pose proof (A x z). pose proof (H_affine c i x z).
    replace ((s - K c i) * (x - z)) with (s * (x - z) - K c i * (x - z)) by ring. qlra. }
  assert (Sg : forall u v, t1 <= u -> a <= u -> u <= v -> v <= t2 -> v <= b -> (H c i u < y u <-> H c i v < y v)).
  { intros u v U1 U2 U3 U4 U5. pose proof (aff_const_sign d _ u v Ad U3) as W.
    assert (W1 : 0 < d u <-> 0 < d v).
    { apply W. intros w W1 W2 E. apply (Z w); [qlra|qlra|qlra|qlra|]. unfold d in E. qlra. }
    unfold d in W1. split; intros P; [assert (0 < y u - H c i u) by qlra; apply W1 in H; qlra|assert (0 < y v - H c i v) by qlra; apply W1 in H; qlra]. }
  assert (T1 : t1 < a \/ a < t1) by (destruct (Qc_dec t1 a) as [[?|?]|?]; auto; congruence).
  assert (T2 : t2 < a \/ a < t2) by (destruct (Qc_dec t2 a) as [[?|?]|?]; auto; congruence).
  assert (T3 : t1 < b \/ b < t1) by (destruct (Qc_dec t1 b) as [[?|?]|?]; auto; congruence).
  assert (T4 : t2 < b \/ b < t2) by (destruct (Qc_dec t2 b) as [[?|?]|?]; auto; congruence).
  assert (Q : forall u v w z, (u < v <-> w < z) -> qltb u v = qltb w z) by (intros; apply qltb_eq; auto).
  assert (Bel : forall t, bel i t (y t) = qltb a t && qltb t b && qltb (H c i t) (y t)) by reflexivity.
  assert (Ua : under t1 t2 y (fst (input c i)) = qltb t1 a && qltb a t2 && qltb (H c i a) (y a)) by (unfold under; fold a; rewrite <- Ha; auto).
  assert (Ub : under t1 t2 y (snd (input c i)) = qltb t1 b && qltb b t2 && qltb (H c i b) (y b)) by (unfold under; fold b; rewrite <- Hb; auto).
  rewrite !Bel, Ua, Ub. clear Bel Ua Ub.
  assert (D : forall u v, u < v -> qltb u v = true /\ qltb v u = false).
  { intros u v V. destruct (qltb_spec u v), (qltb_spec v u); auto; exfalso; try tauto; qlra. }
  assert (Eq : forall u v, t1 <= u -> a <= u -> u <= v -> v <= t2 -> v <= b -> qltb (Proof_Sweep.H c i u) (y u) = qltb (Proof_Sweep.H c i v) (y v)).
  { intros u v U1 U2 U3 U4 U5. apply Q. apply Sg; auto. }
  clear Q Sg Ad Ha Hb Z A. clearbody a b. clear d.
  assert (R1 := Qcle_refl t1). assert (R2 := Qcle_refl t2). assert (R3 := Qcle_refl a). assert (R4 := Qcle_refl b).
  assert (E12 : a < t1 -> t2 < b -> qltb (Proof_Sweep.H c i t1) (y t1) = qltb (Proof_Sweep.H c i t2) (y t2)) by (intros; apply Eq; qlra).
  assert (E1b : a < t1 -> t1 < b -> b < t2 -> qltb (Proof_Sweep.H c i t1) (y t1) = qltb (Proof_Sweep.H c i b) (y b)) by (intros; apply Eq; qlra).
  assert (Ea2 : t1 < a -> a < t2 -> t2 < b -> qltb (Proof_Sweep.H c i a) (y a) = qltb (Proof_Sweep.H c i t2) (y t2)) by (intros; apply Eq; qlra).
  assert (Eab : t1 < a -> b < t2 -> qltb (Proof_Sweep.H c i a) (y a) = qltb (Proof_Sweep.H c i b) (y b)) by (intros; apply Eq; qlra).
  clear Eq. destruct T1 as [T1|T1]; pose proof (D _ _ T1) as [P1 P1']; destruct T2 as [T2|T2]; pose proof (D _ _ T2) as [P2 P2'];
    destruct T3 as [T3|T3]; pose proof (D _ _ T3) as [P3 P3']; destruct T4 as [T4|T4]; pose proof (D _ _ T4) as [P4 P4'];
    rewrite ?P1, ?P1', ?P2, ?P2', ?P3, ?P3', ?P4, ?P4'; try (exfalso; qlra);
    rewrite ?(E12 T1 T4), ?(E1b T1 T3 T4), ?(Ea2 T1 T2 T4), ?(Eab T1 T4); cbn [andb];
    repeat match goal with |- context[qltb ?x ?y] => destruct (qltb x y) end; reflexivity.
Qed.
End Below.
