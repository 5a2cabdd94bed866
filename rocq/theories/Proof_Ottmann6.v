(** The Bentley-Ottmann sweep, part 6: the classes of collinear segments. *)
From Coq Require Import QArith Qcanon Bool List Arith Lia.
From Verif Require Import QcTac Model_Base Model_Utils Model_Linear Model_BentleyOttmann Spec_Base
  Proof_Sweep.
Import ListNotations.
Local Open Scope nat_scope.

(** The list of minimal identifiers after a merge. *)
Definition merged (mins : list nat) (i j : nat) : list nat :=
  let m := Nat.min (nth i mins O) (nth j mins O) in
  set_nth (set_nth (set_nth (set_nth mins i m) j m) (nth i mins O) m) (nth j mins O) m.
Definition decreasing (n : nat) (mins : list nat) : Prop :=
  length mins = n /\ forall i, i < n -> nth i mins O <= i.

Lemma merged_length mins i j : length (merged mins i j) = length mins.
Proof. unfold merged. rewrite !set_nth_length. reflexivity. Qed.
Lemma merge_merged r x y : rg_min_collinear (merge_equal_segment_events r x y)
  = merged (rg_min_collinear r) (sid (rg_op r) x) (sid (rg_op r) y).
Proof. reflexivity. Qed.

Section Merge.
Variables (n : nat) (mins : list nat) (i j : nat).
Hypothesis D : decreasing n mins.
Hypothesis Li : i < n.
Hypothesis Lj : j < n.
Notation f := (fun x => nth x mins O).
Notation g := (fun x => nth x (merged mins i j) O).
Notation m := (Nat.min (f i) (f j)).
Definition written (x : nat) : Prop := x = i \/ x = j \/ x = f i \/ x = f j.

Lemma merged_nth x : x < n -> (written x /\ g x = m) \/ (~ written x /\ g x = f x).
Proof.
  intros L. destruct D as [Ln Dn]. pose proof (Dn i Li). pose proof (Dn j Lj).
  unfold written, merged. cbv zeta.
  rewrite !nth_set_nth, !set_nth_length.
  destruct (Nat.eq_dec x i) as [E|E]; [left|]; [|destruct (Nat.eq_dec x j) as [E2|E2]; [left|]; [|
    destruct (Nat.eq_dec x (f i)) as [E3|E3]; [left|]; [|destruct (Nat.eq_dec x (f j)) as [E4|E4]; [left|right]]]].
  all: split; [tauto|].
  all: repeat match goal with
         | |- context [?a =? ?b] => destruct (Nat.eqb_spec a b)
         | |- context [?a <? ?b] => destruct (Nat.ltb_spec a b) end; auto; try lia.
Qed.
Lemma merged_decreasing : decreasing n (merged mins i j).
Proof.
  destruct D as [Ln Dn]. split; [rewrite merged_length; auto|]. intros x Lx.
  pose proof (Dn i Li). pose proof (Dn j Lj). pose proof (Dn x Lx).
  destruct (merged_nth x Lx) as [[Wx ->]|[_ ->]]; auto.
  destruct Wx as [->|[->|[->| ->]]]; lia.
Qed.
Lemma merged_min : g m = m /\ m < n /\ written m.
Proof.
  destruct D as [Ln Dn]. pose proof (Dn i Li). pose proof (Dn j Lj).
  assert (Wm : written m) by (unfold written; destruct (Nat.min_spec (f i) (f j)) as [[_ ->]|[_ ->]]; auto).
  assert (Lm : m < n) by lia. destruct (merged_nth m Lm) as [[_ Q]|[Q _]]; tauto.
Qed.
Lemma merged_keeps : (exists x, x < n /\ f x <> x) -> exists x, x < n /\ g x <> x.
Proof.
  intros (x & Lx & Nx). destruct D as [Ln Dn].
  destruct (Nat.eq_dec (g x) x) as [E|]; [|exists x; auto].
  destruct (merged_nth x Lx) as [[Wx Q]|[_ Q]]; [|congruence].
  assert (Ex : x = m) by congruence. pose proof merged_min as (_ & Lm & _).
  assert (P : forall y, y < n -> written y -> y <> m -> exists x, x < n /\ g x <> x).
  { intros y Ly Wy Ny. exists y. split; auto. destruct (merged_nth y Ly) as [[_ ->]|[? _]]; [auto|tauto]. }
  destruct Wx as [W|[W|[W|W]]].
  - exfalso. pose proof (Dn i Li). rewrite W in Nx. assert (f i <= i) by auto. rewrite W in Ex. cbn in *. lia.
  - exfalso. pose proof (Dn j Lj). rewrite W in Nx. assert (f j <= j) by auto. rewrite W in Ex. cbn in *. lia.
  - apply (P i); auto; [left; auto|]. intros Q2. assert (Exi : x = i) by congruence. apply Nx. rewrite Exi. rewrite <- W. exact Exi.
  - apply (P j); auto; [right; left; auto|]. intros Q2. assert (Exi : x = j) by congruence. apply Nx. rewrite Exi. rewrite <- W. exact Exi.
Qed.
Lemma merged_new : i <> j -> exists x, x < n /\ g x <> x.
Proof.
  intros N. destruct (Nat.eq_dec i m) as [E|E].
  - exists j. split; auto. destruct (merged_nth j Lj) as [[_ ->]|[Q _]]; [congruence|]. destruct Q. right; left; auto.
  - exists i. split; auto. destruct (merged_nth i Li) as [[_ ->]|[Q _]]; [auto|]. destruct Q. left; auto.
Qed.
End Merge.

(** ** Roots *)
Fixpoint root_of (fuel : nat) (mins : list nat) (x : nat) : nat :=
  match fuel with
  | O => x
  | S fuel => if nth x mins O =? x then x else root_of fuel mins (nth x mins O)
  end.
Definition root (mins : list nat) (x : nat) : nat := root_of (S x) mins x.

Lemma root_fuel n mins : decreasing n mins -> forall a b x, x < n -> x < a -> x < b ->
  root_of a mins x = root_of b mins x.
Proof.
  intros [Ln Dn]. induction a as [|a IH]; intros b x Lx La Lb; [lia|]. destruct b as [|b]; [lia|].
  cbn [root_of]. destruct (Nat.eqb_spec (nth x mins O) x); auto. pose proof (Dn x Lx). apply IH; lia.
Qed.
Lemma root_step n mins x : decreasing n mins -> x < n -> root mins x = root mins (nth x mins O).
Proof.
  intros D L. unfold root at 1. cbn [root_of]. pose proof (proj2 D x L). destruct (Nat.eqb_spec (nth x mins O) x) as [E|E].
  - rewrite E. unfold root. cbn [root_of]. rewrite E, Nat.eqb_refl. reflexivity.
  - apply (root_fuel n); auto; lia.
Qed.
Lemma root_root mins x : nth x mins O = x -> root mins x = x.
Proof. intros E. unfold root. cbn [root_of]. rewrite E, Nat.eqb_refl. reflexivity. Qed.
Lemma root_lt n mins : decreasing n mins -> forall x, x < n -> root mins x <= x /\ nth (root mins x) mins O = root mins x.
Proof.
  intros D x. induction x as [x IH] using lt_wf_ind. intros L. pose proof (proj2 D x L).
  destruct (Nat.eq_dec (nth x mins O) x) as [E|E].
  - rewrite root_root by auto. auto.
  - rewrite (root_step n) by auto. destruct (IH (nth x mins O)) as [A B]; try lia.
Qed.
Lemma loop_root n mins : decreasing n mins -> forall fuel x k, x < n -> x < fuel ->
  exists k', min_collinear_loop fuel mins x k = (root mins x, k').
Proof.
  intros D. induction fuel as [|fuel IH]; intros x k L F; [lia|]. cbn [min_collinear_loop].
  pose proof (proj2 D x L).
  destruct (Nat.eqb_spec (nth x mins O) x) as [E|E].
  - rewrite root_root by auto. eauto.
  - rewrite (root_step n) by auto. apply IH; lia.
Qed.
Lemma collinear_root r n x y : decreasing n (rg_min_collinear r) -> x < n -> y < n ->
  root (rg_min_collinear r) x = root (rg_min_collinear r) y -> are_collinear r x y <> Some false.
Proof.
  intros D Lx Ly E. unfold are_collinear, to_min_collinear_segment_id.
  destruct (loop_root n _ D (S x) x O Lx) as (a & ->); [lia|].
  destruct (loop_root n _ D (S y) y O Ly) as (b & ->); [lia|].
  destruct (a <? 3); [|discriminate]. destruct (b <? 3); [|discriminate]. rewrite E, Nat.eqb_refl. discriminate.
Qed.

(** ** Classes survive merges *)
Section Survive.
Variable n : nat.
Variable U : nat -> Prop.
Definition knit (mins : list nat) : Prop := exists x y, x <> y /\ x < n /\ y < n /\ U x /\ U y /\ root mins x = root mins y.
(** Pointers join members of [U]. *)
Definition closed (mins : list nat) : Prop :=
  forall x, x < n -> nth x mins O <> x -> U x /\ U (nth x mins O).
(** Pointers to identifiers which are not roots join members of [U]. *)
Definition half_closed (mins : list nat) : Prop :=
  forall x, x < n -> nth x mins O <> x -> nth (nth x mins O) mins O <> nth x mins O -> U x /\ U (nth x mins O).

Lemma closed_half mins : closed mins -> half_closed mins.
Proof. intros C x L N _. auto. Qed.
Lemma closed_knit mins : decreasing n mins -> closed mins -> (exists x, x < n /\ nth x mins O <> x) -> knit mins.
Proof.
  intros D C (x & L & N). exists x, (nth x mins O). destruct (C x L N) as [A B]. pose proof (proj2 D x L).
  split; auto. split; auto. split; [lia|]. split; auto. split; auto. apply (root_step n); auto.
Qed.
Lemma closed_merged mins i j : decreasing n mins -> i < n -> j < n -> closed mins ->
  (i = j \/ U i /\ U j) -> closed (merged mins i j).
Proof.
  intros D Li Lj C H x Lx Nx. pose proof (proj2 D i Li). pose proof (proj2 D j Lj).
  destruct (merged_nth n mins i j D Li Lj x Lx) as [[Wx Q]|[Wx Q]]; rewrite Q in *; [|apply C; auto].
  clear Q. set (f := fun x => nth x mins O) in *.
  assert (P : forall y, y < n -> U y -> U (f y)).
  { intros y Ly Uy. destruct (Nat.eq_dec (f y) y) as [E|E]; [rewrite E; auto|]. apply C; auto. }
  destruct H as [<-|[Ui Uj]].
  - rewrite Nat.min_id in *. unfold written in Wx. fold (f i) in *.
    assert (x = i) by (destruct Wx as [?|[?|[?|?]]]; auto; congruence). subst x. apply C; auto.
  - split.
    + destruct Wx as [->|[->|[->| ->]]]; auto. apply (P i); auto. apply (P j); auto.
    + destruct (Nat.min_spec (f i) (f j)) as [[_ E]|[_ E]]; unfold f in E |- *; rewrite E; [apply (P i)|apply (P j)]; auto.
Qed.
Lemma closed_merged_half mins i j : decreasing n mins -> i < n -> j < n -> closed mins ->
  half_closed (merged mins i j).
Proof.
  intros D Li Lj C x Lx Nx Ny.
  destruct (merged_nth n mins i j D Li Lj x Lx) as [[Wx Q]|[Wx Q]]; rewrite Q in *; [|apply C; auto].
  destruct (merged_min n mins i j D Li Lj) as (Q2 & _). contradiction.
Qed.

Section OneMerge.
Variables (mins : list nat) (i j : nat).
Hypothesis D : decreasing n mins.
Hypothesis Li : i < n.
Hypothesis Lj : j < n.
Hypothesis HC : half_closed mins.
Notation m := (Nat.min (nth i mins O) (nth j mins O)).
Let D' : decreasing n (merged mins i j) := merged_decreasing n mins i j D Li Lj.

Lemma written_root x : x < n -> written mins i j x -> root (merged mins i j) x = m.
Proof.
  intros L Wx. rewrite (root_step n _ x D' L). destruct (merged_nth n mins i j D Li Lj x L) as [[_ ->]|[Q _]]; [|contradiction].
  apply root_root, (merged_min n mins i j D Li Lj).
Qed.
Lemma written_dec x : {written mins i j x} + {~ written mins i j x}.
Proof.
  unfold written. destruct (Nat.eq_dec x i), (Nat.eq_dec x j), (Nat.eq_dec x (nth i mins O)), (Nat.eq_dec x (nth j mins O));
    (left; tauto) || (right; tauto).
Defined.
(** From [x] the merge either changes nothing, or reaches [x], or knits two members. *)
Lemma chain_merged x : x < n -> (root (merged mins i j) x = root mins x /\ ~ written mins i j (root mins x))
  \/ root (merged mins i j) x = m /\ written mins i j (root mins x) \/ knit (merged mins i j).
Proof.
  induction x as [x IH] using lt_wf_ind. intros L. pose proof (proj2 D x L) as Le.
  destruct (Nat.eq_dec (nth x mins O) x) as [E|E].
  - rewrite (root_root mins x E). destruct (written_dec x) as [Wx|Wx].
    + right; left. split; auto. apply written_root; auto.
    + left. split; auto. apply root_root. destruct (merged_nth n mins i j D Li Lj x L) as [[? _]|[_ ->]]; [contradiction|auto].
  - rewrite (root_step n mins x D L). destruct (written_dec x) as [Wx|Wx].
    + set (y := nth x mins O) in *. assert (Ly : y < n) by lia.
      destruct (IH y) as [[Q1 Q2]|[[Q1 Q2]|Q]]; auto; try lia.
      * right; right.
        (* [x] is written, its root is not *)
        assert (P : forall a, a < n -> nth a mins O <> a -> nth (nth a mins O) mins O <> nth a mins O ->
          written mins i j a -> written mins i j (nth a mins O) -> knit (merged mins i j)).
        { intros a La Na Nb Wa Wb. destruct (HC a La Na Nb) as [Ua Ub]. exists a, (nth a mins O).
          pose proof (proj2 D a La). split; auto. split; auto. split; [lia|]. split; auto. split; auto.
          rewrite !written_root; auto. lia. }
        assert (Ny : written mins i j y -> nth y mins O <> y).
        { intros Wy Ey. apply Q2. rewrite root_root; auto. }
        assert (Wi : forall z, z = i \/ z = j -> written mins i j z /\ written mins i j (nth z mins O)).
        { unfold written. intros z [-> | ->]; tauto. }
        unfold written in Wx. destruct Wx as [W|[W|[W|W]]].
        -- destruct (Wi x (or_introl W)) as [W1 W2]. apply (P x L E (Ny W2) W1 W2).
        -- destruct (Wi x (or_intror W)) as [W1 W2]. apply (P x L E (Ny W2) W1 W2).
        -- destruct (Wi i (or_introl eq_refl)) as [W1 W2]. apply (P i Li); auto; rewrite <- W; auto.
           intros Q. apply E. unfold y. rewrite Q. congruence.
        -- destruct (Wi j (or_intror eq_refl)) as [W1 W2]. apply (P j Lj); auto; rewrite <- W; auto.
           intros Q. apply E. unfold y. rewrite Q. congruence.
      * right; left. split; auto. apply written_root; auto.
    + assert (Q0 : root (merged mins i j) x = root (merged mins i j) (nth x mins O)).
      { rewrite (root_step n _ x D' L). destruct (merged_nth n mins i j D Li Lj x L) as [[? _]|[_ ->]]; [contradiction|auto]. }
      rewrite Q0. apply IH; lia.
Qed.
Lemma knit_merged : knit mins -> knit (merged mins i j).
Proof.
  intros (x & y & N & Lx & Ly & Ux & Uy & E).
  destruct (chain_merged x Lx) as [[A1 A2]|[[A1 A2]|A]]; auto;
  destruct (chain_merged y Ly) as [[B1 B2]|[[B1 B2]|B]]; auto.
  - exists x, y. split; auto. split; auto. split; auto. split; auto. split; auto. congruence.
  - exfalso. rewrite E in A2. contradiction.
  - exfalso. rewrite E in A2. contradiction.
  - exists x, y. split; auto. split; auto. split; auto. split; auto. split; auto. congruence.
Qed.
End OneMerge.
End Survive.
