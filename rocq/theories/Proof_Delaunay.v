(** The divide-and-conquer triangulation, part 1: heights of edges between two
    separated sets of points, loops that settle. *)
From Coq Require Import QArith Qcanon Bool List Arith Lia.
From Verif Require Import QcTac Model_Base Model_Utils Model_Mesh Spec_Base Spec_Mesh Proof_Base Proof_Mesh Proof_Mesh2 Proof_Mesh3.
Import ListNotations.
Local Open Scope Qc_scope.

(** ** A shear that separates two finite sets in lexicographic order *)
Lemma shear_pair p q : lex_lt p q -> exists e0, 0 < e0 /\
  forall e, 0 < e -> e <= e0 -> px p + e * py p < px q + e * py q.
Proof.
  intros [L|(E & L)].
  - destruct (Qclt_le_dec (py q) (py p)) as [D|D].
    + assert (Hu : 0 < py p - py q) by qlra. assert (Hd : 0 < px q - px p) by qlra.
      remember (py p - py q) as u eqn:Eu. remember (px q - px p) as d eqn:Ed.
      exists (d / (u + 1)).
      assert (Nz : u + 1 <> 0) by (intros X; qlra).
      assert (Inv : (d / (u + 1)) * (u + 1) = d) by (field; exact Nz).
      assert (Hp : 0 < d / (u + 1)).
      { destruct (Qclt_le_dec 0 (d / (u + 1))) as [|N]; auto. exfalso.
        set (z := d / (u + 1)) in *. clearbody z. qnra. }
      split; auto. intros e He Hle. set (z := d / (u + 1)) in *. clearbody z.
      assert (X : e * u <= z * u) by qnra. assert (Y : z * u < d) by qlra. subst u d. qlra.
    + exists 1. split; [qlra|]. intros e He _. qnra.
  - exists 1. split; [qlra|]. intros e He _. rewrite E. qnra.
Qed.
Lemma shear_pairs (l : list (point * point)) : (forall p q, In (p, q) l -> lex_lt p q) ->
  exists e0, 0 < e0 /\ forall e, 0 < e -> e <= e0 -> forall p q, In (p, q) l -> px p + e * py p < px q + e * py q.
Proof.
  induction l as [|(p & q) l IH]; intros H.
  - exists 1. split; [qlra|]. intros e _ _ p q [].
  - destruct IH as (e1 & H1 & A1); [intros; apply H; right; auto|].
    destruct (shear_pair p q) as (e2 & H2 & A2); [apply H; left; auto|].
    assert (M : exists e0, 0 < e0 /\ e0 <= e1 /\ e0 <= e2).
    { destruct (Qclt_le_dec e1 e2) as [L|L]; [exists e1|exists e2]; repeat split; auto; qlra. }
    destruct M as (e0 & M0 & M1 & M2). exists e0. split; auto. intros e He Hle p' q' [X|I].
    + injection X as -> ->. apply A2; auto. qlra.
    + apply A1; auto. qlra.
Qed.
Lemma cut_above (l : list Qc) x : (forall a, In a l -> a < x) -> exists c, (forall a, In a l -> a < c) /\ c < x.
Proof.
  induction l as [|a l IH]; intros H.
  - exists (x - 1). split; [intros a []|qlra].
  - destruct IH as (c & H1 & H2); [intros; apply H; right; auto|].
    assert (A : a < x) by (apply H; left; auto).
    destruct (Qclt_le_dec a c) as [L|L].
    + exists c. split; auto. intros b [<-|I]; auto.
    + exists ((a + x) * Q2Qc (1 # 2)). split; [|qlra]. intros b [<-|I]; [qlra|]. pose proof (H1 b I). qlra.
Qed.
Lemma cut (l k : list Qc) : (forall a b, In a l -> In b k -> a < b) ->
  exists c, (forall a, In a l -> a < c) /\ (forall b, In b k -> c < b).
Proof.
  induction k as [|x k IH]; intros H.
  - destruct l as [|y l]; [exists 0; split; intros ? []|].
    assert (B : exists c, forall a, In a (y :: l) -> a < c).
    { clear H. generalize (y :: l). clear. induction l as [|a l (c & IH)]; [exists 0; intros ? []|].
      destruct (Qclt_le_dec a c) as [L|L]; [exists c|exists (a + 1)]; intros b [<-|I]; auto; [qlra|].
      pose proof (IH b I). qlra. }
    destruct B as (c & B). exists c. split; [auto|intros ? []].
  - destruct IH as (c & H1 & H2); [intros; apply H; auto; right; auto|].
    destruct (cut_above l x) as (d & D1 & D2); [intros; apply H; auto; left; auto|].
    destruct (Qclt_le_dec c x) as [L|L].
    + exists c. split; auto. intros b [<-|I]; auto.
    + exists d. split; auto. intros b [<-|I]; auto. pose proof (H2 b I). qlra.
Qed.

(** Heights of the segment from [l] to [r] over the cut. *)
Section Heights.
Variables (eps c : Qc).
Definition across (p : point) : Qc := px p + eps * py p.
Definition height (l r : point) : Qc := py l + (py r - py l) * (c - across l) / (across r - across l).
Lemma height_by_end l r : across l < c -> c < across r ->
  exists u, 0 < u /\ u * (across r - across l) = 1 /\ height l r = py r + (py l - py r) * (across r - c) * u
    /\ height l r = py l + (py r - py l) * (c - across l) * u.
Proof.
  intros L R. exists (/ (across r - across l)).
  assert (N : across r - across l <> 0) by (intros X; qlra).
  assert (I : / (across r - across l) * (across r - across l) = 1) by (field; auto).
  split; [|split; [exact I|]].
  - destruct (Qclt_le_dec 0 (/ (across r - across l))) as [|X]; auto. exfalso.
    set (z := / (across r - across l)) in *. clearbody z. qnra.
  - split; unfold height; [field; auto|unfold Qcdiv; ring].
Qed.
Lemma height_left l l' r : across l < c -> across l' < c -> c < across r ->
  0 < area2 l' r l -> height l' r < height l r.
Proof.
  intros L L' R A. destruct (height_by_end l r L R) as (u & U & I & -> & _).
  destruct (height_by_end l' r L' R) as (v & V & J & -> & _).
  assert (E : area2 l' r l = (py l - py r) * (across r - across l') - (py l' - py r) * (across r - across l)).
  { unfold area2, across. ring. }
  rewrite E in A. set (p := py l - py r) in *. set (q := py l' - py r) in *.
  assert (K : 0 < across r - c) by qlra.
  set (d := across r - across l) in *. set (d' := across r - across l') in *. set (k := across r - c) in *. clearbody p q d d' k.
  assert (X : 0 < u * v * (p * d' - q * d)) by (assert (0 < u * v) by qnra; qnra).
  assert (Y : u * v * (p * d' - q * d) = p * u - q * v).
  { replace (u * v * (p * d' - q * d)) with (p * u * (v * d') - q * v * (u * d)) by ring. rewrite I, J. ring. }
  rewrite Y in X. assert (Z : 0 < k * (p * u - q * v)) by qnra. qlra.
Qed.
Lemma height_right l r r' : across l < c -> c < across r -> c < across r' ->
  0 < area2 l r r' -> height l r < height l r'.
Proof.
  intros L R R' A. destruct (height_by_end l r L R) as (u & U & I & _ & ->).
  destruct (height_by_end l r' L R') as (v & V & J & _ & ->).
  assert (E : area2 l r r' = (across r - across l) * (py r' - py l) - (py r - py l) * (across r' - across l)).
  { unfold area2, across. ring. }
  rewrite E in A. set (p := py r - py l) in *. set (q := py r' - py l) in *.
  assert (K : 0 < c - across l) by qlra.
  set (d := across r - across l) in *. set (d' := across r' - across l) in *. set (k := c - across l) in *. clearbody p q d d' k.
  assert (X : 0 < u * v * (d * q - p * d')) by (assert (0 < u * v) by qnra; qnra).
  assert (Y : u * v * (d * q - p * d') = q * v - p * u).
  { replace (u * v * (d * q - p * d')) with (q * v * (u * d) - p * u * (v * d')) by ring. rewrite I, J. ring. }
  rewrite Y in X. assert (Z : 0 < k * (q * v - p * u)) by qnra. qlra.
Qed.
End Heights.

(** Counting. *)
Lemma filter_le {A} (f g : A -> bool) l : (forall x, In x l -> f x = true -> g x = true) ->
  (length (filter f l) <= length (filter g l))%nat.
Proof.
  induction l as [|x l IH]; intros H; cbn; auto.
  assert (IH' : (length (filter f l) <= length (filter g l))%nat) by (apply IH; intros; apply H; auto; right; auto).
  destruct (f x) eqn:E; [rewrite (H x) by (auto; left; auto); cbn; lia|]. destruct (g x); cbn; lia.
Qed.
Lemma filter_lt {A} (f g : A -> bool) l y : In y l -> f y = false -> g y = true ->
  (forall x, In x l -> f x = true -> g x = true) -> (length (filter f l) < length (filter g l))%nat.
Proof.
  induction l as [|x l IH]; intros I F G H; [destruct I|]. destruct I as [->|I].
  - cbn. rewrite F, G. cbn. apply le_n_S, filter_le. intros; apply H; auto; right; auto.
  - assert (IH' : (length (filter f l) < length (filter g l))%nat) by (apply IH; auto; intros; apply H; auto; right; auto).
    cbn. destruct (f x) eqn:E; [rewrite (H x) by (auto; left; auto); cbn; lia|]. destruct (g x); cbn; lia.
Qed.

(** Loops that settle: from some amount of fuel on the result is the same. *)
Local Open Scope nat_scope.
Definition settles {A} (F : nat -> res A) (R : A -> Prop) : Prop :=
  exists a, R a /\ exists N, forall n, N <= n -> F n = Ok a.
Lemma settles_ok {A} (a : A) (R : A -> Prop) : R a -> settles (fun _ => Ok a) R.
Proof. intros H. exists a. split; auto. exists 0. auto. Qed.
Lemma settles_bind {A B} (F : nat -> res A) (G : A -> nat -> res B) R S :
  settles F R -> (forall a, R a -> settles (G a) S) -> settles (fun n => let* x := F n in G x n) S.
Proof.
  intros (a & Ra & N & HN) H. destruct (H a Ra) as (b & Sb & M & HM). exists b. split; auto.
  exists (N + M). intros n L. rewrite HN by lia. cbn. apply HM. lia.
Qed.
Lemma settles_weaken {A} (F : nat -> res A) (R S : A -> Prop) : settles F R -> (forall a, R a -> S a) -> settles F S.
Proof. intros (a & Ra & N) H. exists a. auto. Qed.
Lemma settles_ext {A} (F G : nat -> res A) R : (forall n, F n = G n) -> settles F R -> settles G R.
Proof. intros E (a & Ra & N & H). exists a. split; auto. exists N. intros. rewrite <- E. auto. Qed.
Lemma settles_step {A} (F G : nat -> res A) R : (forall n, F (S n) = G n) -> settles G R -> settles F R.
Proof.
  intros E (a & Ra & N & H). exists a. split; auto. exists (S N). intros [|n] L; [lia|].
  rewrite E. apply H. lia.
Qed.
