(** Contours: equality, orientation, hashing. *)
From Coq Require Import QArith Qcanon Bool List ZArith Lia Permutation.
From Verif Require Import QcTac Model_Base Model_Box Model_Geometry Model_Utils Model_Contour
  Spec_Base Spec_Segment Spec_Contour Proof_Base Proof_Utils.
Import ListNotations.
Local Open Scope Qc_scope.

Lemma points_eq_spec l r : reflect (l = r) (points_eq l r).
Proof.
  revert r; induction l as [|x l IH]; intros [|y r]; cbn; try (constructor; congruence).
  destruct (point_eq_spec x y) as [->|N]; cbn.
  - destruct (IH r) as [->|N]; constructor; congruence.
  - constructor; congruence.
Qed.
Lemma points_eq_true l r : points_eq l r = true <-> l = r.
Proof. destruct (points_eq_spec l r); split; congruence. Qed.

(** ** Rotations *)
Lemma rotation_refl {A} (l : list A) : rotation_of l l.
Proof. exists [], l. rewrite app_nil_r. auto. Qed.
Lemma rotation_sym {A} (l l' : list A) : rotation_of l l' -> rotation_of l' l.
Proof. intros (a & b & -> & ->). exists b, a. auto. Qed.
Lemma app_split {A} (a b c d : list A) : a ++ b = c ++ d ->
  exists e, (a = c ++ e /\ d = e ++ b) \/ (c = a ++ e /\ b = e ++ d).
Proof.
  revert c; induction a as [|x a IH]; intros c E; cbn in *.
  - exists c. right. auto.
  - destruct c as [|y c]; cbn in *.
    + exists (x :: a). left. auto.
    + injection E as -> E. destruct (IH c E) as (e & [[-> ->]|[-> ->]]); exists e; auto.
Qed.
Lemma rotation_trans {A} (l l' l'' : list A) :
  rotation_of l l' -> rotation_of l' l'' -> rotation_of l l''.
Proof.
  intros (a & b & -> & ->) (c & d & E & ->).
  destruct (app_split _ _ _ _ E) as (e & [[-> ->]|[-> ->]]).
  - exists (a ++ c), e. rewrite !app_assoc. auto.
  - exists e, (d ++ b). rewrite !app_assoc. auto.
Qed.
Lemma rotation_rev {A} (l l' : list A) : rotation_of l l' -> rotation_of (rev l) (rev l').
Proof. intros (a & b & -> & ->). exists (rev b), (rev a). rewrite !rev_app_distr. auto. Qed.
Lemma rotation_length {A} (l l' : list A) : rotation_of l l' -> length l = length l'.
Proof. intros (a & b & -> & ->). rewrite !app_length; lia. Qed.
Lemma rotation_permutation {A} (l l' : list A) : rotation_of l l' -> Permutation l l'.
Proof. intros (a & b & -> & ->). apply Permutation_app_comm. Qed.

Lemma same_cycle_refl {A} (l : list A) : same_cycle l l.
Proof. left. apply rotation_refl. Qed.
Lemma same_cycle_sym {A} (l l' : list A) : same_cycle l l' -> same_cycle l' l.
Proof.
  intros [R|R].
  - left. apply rotation_sym; auto.
  - right. apply rotation_rev in R. rewrite rev_involutive in R. apply rotation_sym; auto.
Qed.
Lemma same_cycle_trans {A} (l l' l'' : list A) :
  same_cycle l l' -> same_cycle l' l'' -> same_cycle l l''.
Proof.
  intros [R|R] [S|S].
  - left. eapply rotation_trans; eauto.
  - right. apply rotation_rev in R. eapply rotation_trans; eauto.
  - right. eapply rotation_trans; eauto.
  - left. apply rotation_rev in R. rewrite rev_involutive in R. eapply rotation_trans; eauto.
Qed.
Lemma same_cycle_length {A} (l l' : list A) : same_cycle l l' -> length l = length l'.
Proof. intros [R|R]; apply rotation_length in R; rewrite ?rev_length in R; auto. Qed.
Lemma same_cycle_permutation {A} (l l' : list A) : same_cycle l l' -> Permutation l l'.
Proof.
  intros [R|R]; apply rotation_permutation in R; auto.
  transitivity (rev l); auto. apply Permutation_rev.
Qed.
Lemma same_cycle_nodup {A} (l l' : list A) : same_cycle l l' -> NoDup l -> NoDup l'.
Proof. intros S. apply Permutation_NoDup. apply same_cycle_permutation; auto. Qed.

(** ** Equality *)
Lemma index_point r x k : sequence_index point_eq r x = Some k ->
  exists r1 r2, r = r1 ++ x :: r2 /\ length r1 = k.
Proof.
  intros H. apply index_spec in H. destruct H as [(y & E & Y) _].
  apply point_eq_true in Y. subst y. apply nth_error_split in E.
  destruct E as (r1 & r2 & -> & L). eauto.
Qed.
Lemma index_point_nodup r1 x r2 : ~ In x r1 ->
  sequence_index point_eq (r1 ++ x :: r2) x = Some (length r1).
Proof.
  intros N. apply index_spec. split.
  - exists x. split; [|apply point_eq_refl].
    rewrite nth_error_app2 by lia. rewrite Nat.sub_diag. reflexivity.
  - intros j y L E. rewrite nth_error_app1 in E by auto.
    apply nth_error_In in E. apply point_eq_false. intros ->; auto.
Qed.
Lemma skipn_len_app {A} (a b : list A) n : length a = n -> skipn n (a ++ b) = b.
Proof. intros <-. rewrite skipn_app, skipn_all, Nat.sub_diag. reflexivity. Qed.
Lemma firstn_len_app {A} (a b : list A) n : length a = n -> firstn n (a ++ b) = a.
Proof. intros <-. rewrite firstn_app, firstn_all, Nat.sub_diag, app_nil_r. reflexivity. Qed.
Lemma skipn_S_app {A} (a b : list A) x n : length a = n -> skipn (n + 1) (a ++ x :: b) = b.
Proof.
  intros E. replace (a ++ x :: b) with ((a ++ [x]) ++ b) by (rewrite <- app_assoc; auto).
  apply skipn_len_app. rewrite app_length; cbn; lia.
Qed.

(** The comparison once the position of the first left vertex is known. *)
Lemma contour_eq_at x l r1 r2 : length l = (length r1 + length r2)%nat -> ~ In x r1 ->
  contour_eq (x :: l) (r1 ++ x :: r2) = true <-> l = r2 ++ r1 \/ l = rev r1 ++ rev r2.
Proof.
  intros L N. unfold contour_eq. cbn [length].
  rewrite app_length. cbn [length].
  replace (S (length l) =? length r1 + S (length r2))%nat with true
    by (symmetry; apply Nat.eqb_eq; lia).
  cbn [negb]. rewrite index_point_nodup by auto.
  rewrite skipn_S_app by auto. rewrite firstn_len_app by auto.
  unfold sequence_slice.
  replace (S (length l) - length r1)%nat with (S (length r2)) by lia.
  replace (S (length r2) - 1)%nat with (length r2) by lia.
  replace (length r1 + 1 - 1)%nat with (length r1) by lia.
  replace (length r1 + 1)%nat with (S (length r1)) by lia. cbn [skipn].
  rewrite orb_true_iff, !andb_true_iff, !points_eq_true.
  assert (K : forall n (a b : list point), length a = n ->
     (firstn n l = a /\ skipn n l = b <-> l = a ++ b)).
  { intros n a b E. split.
    - intros [<- <-]. symmetry; apply firstn_skipn.
    - intros ->. split; [apply firstn_len_app|apply skipn_len_app]; auto. }
  rewrite !K by (rewrite ?rev_length; auto). tauto.
Qed.

Lemma in_split_first (x : point) r : In x r -> exists r1 r2, r = r1 ++ x :: r2 /\ ~ In x r1.
Proof.
  intros I. destruct (sequence_index point_eq r x) as [k|] eqn:E.
  - destruct (index_point r x k E) as (r1 & r2 & -> & L). exists r1, r2. split; auto.
    intros J. apply index_spec in E. destruct E as [_ M].
    destruct (In_nth_error _ _ J) as (j & Ej).
    assert (j < length r1)%nat by (apply nth_error_Some; congruence).
    specialize (M j x). rewrite point_eq_refl in M. discriminate M; [lia|].
    rewrite nth_error_app1; auto.
  - exfalso. apply (proj1 (index_none point_eq r x)) with (x := x) in E; auto.
    rewrite point_eq_refl in E. discriminate.
Qed.
Lemma cycle_at (x : point) (l r1 r2 : list point) : ~ In x l -> ~ In x r1 -> ~ In x r2 ->
  (same_cycle (x :: l) (r1 ++ x :: r2) <-> l = r2 ++ r1 \/ l = rev r1 ++ rev r2).
Proof.
  intros Nl N1 N2.
  assert (Rot : forall l, ~ In x l ->
     (rotation_of (x :: l) (r1 ++ x :: r2) <-> l = r2 ++ r1)).
  { clear l Nl. intros l Nl. split.
    - intros (a & b & E1 & E2). destruct a as [|y a]; cbn in *.
      + subst b. rewrite app_nil_r in E2. destruct r1 as [|z r1]; cbn in *.
        * injection E2 as ->. rewrite app_nil_r; auto.
        * apply (f_equal (hd x)) in E2; cbn in E2. subst z. exfalso; apply N1; auto.
      + injection E1 as <- ->.
        assert (b = r1 /\ a = r2) as [-> ->]; auto.
        assert (Nb : ~ In x b) by (intro; apply Nl, in_or_app; auto).
        clear Nl N2. revert b Nb E2. induction r1 as [|z r1 IH]; intros [|w b] Nb E2; cbn in *.
        * injection E2 as ->; auto.
        * exfalso. apply (f_equal (hd x)) in E2; cbn in E2. subst; auto.
        * exfalso. apply (f_equal (hd x)) in E2; cbn in E2. subst; auto.
        * assert (w = z) by (apply (f_equal (hd x)) in E2; auto). subst w.
          apply (f_equal (@tl point)) in E2; cbn in E2.
          destruct (IH ltac:(auto) b ltac:(auto) E2) as [-> ->]. auto.
    - intros ->. exists (x :: r2), r1. auto. }
  unfold same_cycle. rewrite Rot by auto.
  assert (R : rotation_of (@rev point (x :: l)) (r1 ++ x :: r2) <-> rotation_of (x :: rev l) (r1 ++ x :: r2)).
  { cbn [rev]. assert (Q : rotation_of (rev l ++ [x]) (x :: rev l)) by (exists (rev l), [x]; auto).
    split; intros K; [apply rotation_sym in Q|]; eapply rotation_trans; eauto. }
  rewrite R, Rot by (rewrite <- in_rev; auto).
  assert (V : rev l = r2 ++ r1 <-> l = rev r1 ++ rev r2).
  { rewrite <- rev_app_distr. split; intros E.
    - rewrite <- (rev_involutive l), E. auto.
    - rewrite E, rev_involutive. auto. }
  tauto.
Qed.

Lemma contour_eq_sound l r : contour_eq l r = true -> same_cycle l r.
Proof.
  intros H. destruct l as [|x l]; [discriminate|].
  assert (L : length (x :: l) = length r).
  { unfold contour_eq in H. destruct (Nat.eqb_spec (length (x :: l)) (length r)); auto. discriminate. }
  assert (I : In x r).
  { unfold contour_eq in H. rewrite L, Nat.eqb_refl in H. cbn [negb] in H.
    destruct (sequence_index point_eq r x) as [k|] eqn:E; [|discriminate].
    destruct (index_point r x k E) as (r1 & r2 & -> & _). apply in_or_app; cbn; auto. }
  destruct (in_split_first x r I) as (r1 & r2 & -> & N).
  rewrite app_length in L; cbn in L.
  apply contour_eq_at in H; [|lia|auto]. destruct H as [->| ->].
  - left. exists (x :: r2), r1. auto.
  - right. cbn [rev]. rewrite rev_app_distr, !rev_involutive.
    exists r2, (r1 ++ [x]). rewrite <- !app_assoc. auto.
Qed.
Lemma contour_eq_complete l r : l <> [] -> NoDup l -> same_cycle l r -> contour_eq l r = true.
Proof.
  intros NE D S. destruct l as [|x l]; [congruence|].
  assert (Dr := same_cycle_nodup _ _ S D).
  assert (I : In x r) by (apply (Permutation_in x (same_cycle_permutation _ _ S)); cbn; auto).
  assert (L := same_cycle_length _ _ S).
  destruct (in_split x r I) as (r1 & r2 & ->).
  apply NoDup_remove_2 in Dr. assert (~ In x r1 /\ ~ In x r2) as [N1 N2].
  { split; intro; apply Dr, in_or_app; auto. }
  inversion D; subst.
  rewrite app_length in L; cbn in L.
  apply contour_eq_at; [lia|auto|]. apply (proj1 (cycle_at x l r1 r2 ltac:(auto) N1 N2)); auto.
Qed.
Lemma contour_eq_spec l r : l <> [] -> NoDup l -> (contour_eq l r = true <-> same_cycle l r).
Proof. intros; split; [apply contour_eq_sound|apply contour_eq_complete; auto]. Qed.

(** ** Least vertex *)
Lemma arg_min_from_spec values : forall best bi i,
  (exists b, nth_error (values) b = Some (nth b values best) /\ arg_min_from best bi i values = (i + b)%nat
     /\ lex_lt (nth b values best) best
     /\ (forall v, In v (firstn b values) -> lex_lt (nth b values best) v)
     /\ (forall v, In v values -> lex_le (nth b values best) v))
  \/ (arg_min_from best bi i values = bi /\ forall v, In v values -> lex_le best v).
Proof.
  induction values as [|w values IH]; intros best bi i; cbn [arg_min_from].
  - right. split; auto. intros v [].
  - destruct (point_lt_spec w best) as [L|L].
    + left. destruct (IH w i (S i)) as [(b & E & A & Lw & F & M)|[A M]].
      * exists (S b). cbn [nth nth_error firstn].
        rewrite (nth_indep values best w) by (apply nth_error_Some; congruence).
        split; auto. split; [rewrite A; lia|]. split; [apply (lex_trans _ w); auto|].
        split; [intros v [<-|I]; auto|]. intros v [<-|I]; auto. apply lex_lt_le; auto.
      * exists 0%nat. cbn. split; auto. split; [rewrite A; lia|]. split; auto.
        split; [intros v []|]. intros v [<-|I]; auto. apply lex_le_refl.
    + apply lex_not_lt in L.
      destruct (IH best bi (S i)) as [(b & E & A & Lw & F & M)|[A M]].
      * left. exists (S b). cbn [nth nth_error firstn]. split; auto. split; [rewrite A; lia|].
        split; auto. split.
        -- intros v [<-|I]; auto. apply (lex_lt_le_trans _ best); auto.
        -- intros v [<-|I]; auto. apply lex_lt_le. apply (lex_lt_le_trans _ best); auto.
      * right. split; auto. intros v [<-|I]; auto.
Qed.
Lemma to_arg_min_spec vs : vs <> [] -> exists a x b, vs = a ++ x :: b
  /\ to_arg_min vs = length a /\ (forall v, In v a -> lex_lt x v) /\ (forall v, In v vs -> lex_le x v).
Proof.
  destruct vs as [|w vs]; [congruence|]. intros _. unfold to_arg_min.
  destruct (arg_min_from_spec vs w 0 1) as [(b & E & A & L & F & M)|[A M]].
  - apply nth_error_split in E. destruct E as (a & c & E & La).
    exists (w :: a), (nth b vs w), c. rewrite A. cbn [length]. rewrite La.
    split; [cbn; congruence|]. split; [lia|]. split.
    + intros v [<-|I]; auto. apply F. rewrite E, firstn_len_app; auto.
    + intros v [<-|I]; auto. apply lex_lt_le; auto.
  - exists [], w, vs. rewrite A. repeat split; auto; [intros v []|].
    intros v [<-|I]; auto. apply lex_le_refl.
Qed.

(** Canonical decomposition at the least vertex: [x] and what follows it. *)
Definition at_least (vs : list point) (x : point) (t : list point) : Prop :=
  (exists a b, vs = a ++ x :: b /\ t = b ++ a /\ to_arg_min vs = length a)
  /\ forall v, In v vs -> lex_le x v.
Lemma at_least_ex vs : vs <> [] -> exists x t, at_least vs x t.
Proof.
  intros N. destruct (to_arg_min_spec vs N) as (a & x & b & E & A & _ & M).
  exists x, (b ++ a). split; [|auto]. exists a, b. auto.
Qed.
Lemma at_least_rotation vs x t : at_least vs x t -> rotation_of vs (x :: t).
Proof. intros [(a & b & -> & -> & _) _]. exists a, (x :: b). auto. Qed.
Lemma at_least_nodup vs x t : at_least vs x t -> NoDup vs -> ~ In x t.
Proof.
  intros [(a & b & -> & -> & _) _] D. apply NoDup_remove_2 in D.
  rewrite in_app_iff in *. tauto.
Qed.

Lemma item_nat vs k v : nth_error vs k = Some v -> item vs (Z.of_nat k) = v.
Proof. intros E. unfold item. rewrite getitem_nat, E. auto. Qed.
Lemma item_neg vs k v : nth_error vs k = Some v ->
  item vs (Z.of_nat k - Z.of_nat (length vs)) = v.
Proof.
  intros E. unfold item.
  assert (H : sequence_getitem vs (Z.of_nat k - Z.of_nat (length vs)) = Some v)
    by (apply getitem_spec; eauto).
  rewrite H. auto.
Qed.

Lemma last_cons {A} (x : A) l d : last (x :: l) d = last l x.
Proof.
  revert x d; induction l as [|y l IH]; intros x d; auto.
  change (last (x :: y :: l) d) with (last (y :: l) d). rewrite !IH. auto.
Qed.
Lemma last_app_cons {A} (a : list A) x b d : last (a ++ x :: b) d = last (x :: b) d.
Proof. induction a as [|y a IH]; auto. cbn [app]. rewrite <- IH. destruct a; auto. Qed.

(** Orientation at the least vertex. *)
Lemma orientation_at a x b : b ++ a <> [] ->
  to_contour_orientation (a ++ x :: b) (length a) =
  orient (last (b ++ a) x) x (hd x (b ++ a)).
Proof.
  intros NE. unfold to_contour_orientation.
  assert (E2 : item (a ++ x :: b) (Z.of_nat (length a)) = x).
  { apply item_nat. rewrite nth_error_app2, Nat.sub_diag by lia. reflexivity. }
  assert (E1 : item (a ++ x :: b) (Z.of_nat (length a) - 1) = last (b ++ a) x).
  { destruct (exists_last (l := x :: a)) as (a' & l & Ea); [discriminate|].
    destruct a as [|y a].
    - rewrite app_nil_r. cbn [app length].
      destruct (exists_last (l := b)) as (b' & l' & Eb); [rewrite app_nil_r in NE; auto|].
      replace (Z.of_nat 0 - 1)%Z with
         (Z.of_nat (length b) - Z.of_nat (length (x :: b)))%Z by (cbn [length]; lia).
      rewrite (item_neg (x :: b) (length b) l').
      + subst b. rewrite last_last. auto.
      + subst b. change (x :: b' ++ [l']) with ((x :: b') ++ [l']).
        rewrite nth_error_app2 by (cbn; rewrite app_length; cbn; lia).
        rewrite app_length. cbn [length].
        replace (length b' + 1 - S (length b'))%nat with O by lia. reflexivity.
    - destruct (exists_last (l := y :: a)) as (a'' & l' & Ea'); [discriminate|].
      rewrite Ea', app_assoc, last_last.
      replace (Z.of_nat (length (a'' ++ [l'])) - 1)%Z with (Z.of_nat (length a''))
        by (rewrite app_length; cbn; lia).
      apply item_nat. rewrite <- app_assoc. rewrite nth_error_app2, Nat.sub_diag by lia. reflexivity. }
  assert (E3 : item (a ++ x :: b) (Z.of_nat ((length a + 1) mod length (a ++ x :: b))) = hd x (b ++ a)).
  { rewrite app_length. cbn [length]. destruct b as [|y b]; cbn [app hd].
    - replace (length a + 1)%nat with (1 * (length a + 1))%nat by lia.
      rewrite Nat.mod_mul by lia. destruct a as [|z a]; [cbn in NE; congruence|].
      apply item_nat. reflexivity.
    - rewrite Nat.mod_small by (cbn [length]; lia). apply item_nat.
      rewrite nth_error_app2 by lia. replace (length a + 1 - length a)%nat with 1%nat by lia.
      reflexivity. }
  rewrite E1, E2, E3. auto.
Qed.
Lemma contour_orientation_at vs x t : at_least vs x t -> t <> [] ->
  contour_orientation vs = orient (last t x) x (hd x t).
Proof.
  intros [(a & b & -> & -> & A) _] N. unfold contour_orientation. rewrite A.
  apply orientation_at; auto.
Qed.

Lemma hash_key_at vs x t : at_least vs x t -> t <> [] ->
  contour_hash_key vs = x :: (if orientation_is (contour_orientation vs) CLOCKWISE then rev t else t).
Proof.
  intros [(a & b & -> & -> & A) _] N. unfold contour_hash_key, contour_orientation. rewrite A.
  destruct (orientation_is _ _).
  - unfold sequence_slice. rewrite skipn_len_app by auto.
    replace (length a + 1 - length a)%nat with 1%nat by lia. cbn [firstn].
    rewrite firstn_len_app, skipn_S_app by auto. rewrite rev_app_distr. reflexivity.
  - rewrite skipn_len_app, firstn_len_app by auto. reflexivity.
Qed.

Lemma least_unique vs x y : (forall v, In v vs -> lex_le x v) -> (forall v, In v vs -> lex_le y v) ->
  In x vs -> In y vs -> x = y.
Proof. intros. apply lex_le_antisym; auto. Qed.

Lemma at_least_in vs x t : at_least vs x t -> In x vs.
Proof. intros [(a & b & -> & _) _]. apply in_or_app; cbn; auto. Qed.

Lemma at_least_same_cycle vs vs' x t x' t' : NoDup vs -> same_cycle vs vs' ->
  at_least vs x t -> at_least vs' x' t' -> x = x' /\ (rotation_of vs vs' -> t' = t)
  /\ (rotation_of (rev vs) vs' -> t' = rev t).
Proof.
  intros D S A A'. assert (P := same_cycle_permutation _ _ S).
  assert (E : x = x').
  { apply (least_unique vs).
    - apply A.
    - intros v I. apply A'. apply (Permutation_in v P); auto.
    - apply (at_least_in _ _ _ A).
    - apply (Permutation_in x' (Permutation_sym P)). apply (at_least_in _ _ _ A'). }
  subst x'. split; auto.
  assert (N := at_least_nodup _ _ _ A D).
  assert (N' := at_least_nodup _ _ _ A' (same_cycle_nodup _ _ S D)).
  apply at_least_rotation in A, A'.
  assert (C : forall u, ~ In x u -> rotation_of (x :: u) (x :: t') -> t' = u).
  { intros u Nu (a & b & E1 & E2). destruct a as [|y a]; cbn in *.
    - subst b. rewrite app_nil_r in E2. congruence.
    - injection E1 as <- ->. destruct b as [|z b]; cbn in *.
      + rewrite app_nil_r. congruence.
      + exfalso. apply Nu. apply (f_equal (hd x)) in E2; cbn in E2. subst z.
        apply in_or_app; cbn; auto. }
  split; intros R.
  - apply C; auto. apply (rotation_trans _ vs); [apply rotation_sym; auto|].
    apply (rotation_trans _ vs'); auto.
  - apply C; [rewrite <- in_rev; auto|].
    apply (rotation_trans _ (rev (x :: t))).
    { cbn [rev]. exists [x], (rev t). auto. }
    apply (rotation_trans _ (rev vs)); [apply rotation_rev, rotation_sym; auto|].
    apply (rotation_trans _ vs'); auto.
Qed.

Lemma flipped_opposite o : flipped o = opposite_orientation o.
Proof. destruct o; reflexivity. Qed.
Lemma hd_rev {A} (l : list A) d : hd d (rev l) = last l d.
Proof.
  destruct l as [|x l] using rev_ind; auto. rewrite rev_app_distr, last_last. reflexivity.
Qed.
Lemma last_rev {A} (l : list A) d : last (rev l) d = hd d l.
Proof. rewrite <- (rev_involutive l) at 2. rewrite hd_rev. auto. Qed.
Lemma orientation_rotation vs vs' : (2 <= length vs)%nat -> NoDup vs -> rotation_of vs vs' ->
  contour_orientation vs' = contour_orientation vs.
Proof.
  intros L D R. assert (L' := rotation_length _ _ R).
  destruct (at_least_ex vs) as (x & t & A); [destruct vs; cbn in *; [lia|congruence]|].
  destruct (at_least_ex vs') as (x' & t' & A'); [destruct vs', vs; cbn in *; try lia; congruence|].
  destruct (at_least_same_cycle vs vs' x t x' t' D (or_introl R) A A') as (<- & E & _).
  rewrite (E R) in *.
  assert (t <> []).
  { intros ->. apply at_least_rotation, rotation_length in A. cbn in A. lia. }
  rewrite (contour_orientation_at _ _ _ A'), (contour_orientation_at _ _ _ A); auto.
Qed.
Lemma orientation_reversal vs vs' : (2 <= length vs)%nat -> NoDup vs -> rotation_of (rev vs) vs' ->
  contour_orientation vs' = flipped (contour_orientation vs).
Proof.
  intros L D R. assert (L' := rotation_length _ _ R). rewrite rev_length in L'.
  destruct (at_least_ex vs) as (x & t & A); [destruct vs; cbn in *; [lia|congruence]|].
  destruct (at_least_ex vs') as (x' & t' & A'); [destruct vs', vs; cbn in *; try lia; congruence|].
  destruct (at_least_same_cycle vs vs' x t x' t' D (or_intror R) A A') as (<- & _ & E).
  rewrite (E R) in *.
  assert (t <> []).
  { intros ->. apply at_least_rotation, rotation_length in A. cbn in A. lia. }
  rewrite (contour_orientation_at _ _ _ A), (contour_orientation_at _ _ _ A'); auto.
  - rewrite hd_rev, last_rev, flipped_opposite.
    rewrite (orient_swap12 x (hd x t) (last t x)), orient_rot. auto.
  - intros Z. apply (f_equal (@rev point)) in Z. rewrite rev_involutive in Z. auto.
Qed.

Lemma hash_consistent vs vs' : (2 <= length vs)%nat -> NoDup vs ->
  contour_orientation vs <> COLLINEAR -> contour_eq vs vs' = true ->
  contour_hash_key vs = contour_hash_key vs'.
Proof.
  intros L D O H. apply contour_eq_sound in H.
  assert (L' := same_cycle_length _ _ H).
  destruct (at_least_ex vs) as (x & t & A); [destruct vs; cbn in *; [lia|congruence]|].
  destruct (at_least_ex vs') as (x' & t' & A'); [destruct vs', vs; cbn in *; try lia; congruence|].
  destruct (at_least_same_cycle vs vs' x t x' t' D H A A') as (<- & E1 & E2).
  assert (Nt : t <> []).
  { intros ->. apply at_least_rotation, rotation_length in A. cbn in A. lia. }
  assert (Nt' : t' <> []).
  { intros ->. apply at_least_rotation, rotation_length in A'. cbn in A'. lia. }
  rewrite (hash_key_at _ _ _ A), (hash_key_at _ _ _ A') by auto. f_equal.
  destruct H as [R|R].
  - rewrite (orientation_rotation vs vs'), (E1 R); auto.
  - rewrite (orientation_reversal vs vs'), (E2 R); auto.
    destruct (contour_orientation vs); cbn; try congruence. rewrite rev_involutive; auto.
Qed.
