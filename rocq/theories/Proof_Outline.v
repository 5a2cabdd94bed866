(** The edges of a simple contour as a closed chain. *)
From Coq Require Import QArith Qcanon Bool List ZArith Lia.
From Verif Require Import QcTac Model_Base Model_Geometry Model_Segment Model_Contour Model_Relate
  Spec_Base Spec_Segment Spec_Contour Spec_Relate Proof_Base Proof_Line Proof_SegRel Proof_SegOps Proof_Bounds
  Proof_Utils Proof_Contour Proof_Contour3 Proof_Edges Proof_Valid.
Import ListNotations.
Local Open Scope Qc_scope.

Lemma chain_triple K : forall l1 e f l2, chain K = l1 ++ e :: f :: l2 ->
  triple_in K (seg_start e) (seg_end e) (seg_end f) /\ seg_end e = seg_start f.
Proof.
  induction K as [|a K IH]; intros l1 e f l2 E; [destruct l1; discriminate|].
  destruct K as [|b K]; [destruct l1; discriminate|]. rewrite chain_cons2 in E.
  destruct l1 as [|g l1]; cbn [app] in E.
  - assert (E1 : e = Seg a b) by congruence. assert (E2 : chain (b :: K) = f :: l2) by congruence.
    destruct K as [|c K]; [discriminate|]. rewrite chain_cons2 in E2.
    assert (E3 : f = Seg b c) by congruence. subst e f. split; auto. exists [], K. auto.
  - assert (E2 : chain (b :: K) = l1 ++ e :: f :: l2) by congruence.
    destruct (IH _ _ _ _ E2) as ((k1 & k2 & T) & S). split; auto. exists (a :: k1), k2. cbn. congruence.
Qed.
Lemma chain_ends x l : map seg_end (chain (x :: l)) = l.
Proof. revert x. induction l as [|y l IH]; intros x; auto. rewrite chain_cons2. cbn [map]. rewrite IH. auto. Qed.

Lemma edges_last v l : exists es, edges (v :: l) = es ++ [Seg (last l v) v].
Proof.
  rewrite edges_chain. destruct (exists_last (l := v :: l)) as (k & u & E); [discriminate|].
  assert (U : last l v = u) by (rewrite <- (last_cons v l v), E; apply last_last).
  exists (chain (k ++ [u])). rewrite U.
  replace (v :: l ++ [v]) with ((v :: l) ++ [v]) by auto. rewrite E, <- app_assoc. apply chain_snoc2.
Qed.

Lemma NoDup_map_inj {A B} (f : A -> B) l x y : NoDup (map f l) -> In x l -> In y l -> f x = f y -> x = y.
Proof.
  induction l as [|z l IH]; [intros _ []|]. cbn. intros D. inversion D as [|? ? N D']; subst.
  intros [<-|I] [<-|J] E; auto.
  - exfalso. apply N. rewrite E. apply in_map; auto.
  - exfalso. apply N. rewrite <- E. apply in_map; auto.
Qed.

(** What the loop over the edges relies on. *)
Record outline (es : list segment) : Prop := {
  ou_length : (3 <= length es)%nat;
  ou_proper : Forall proper_seg es;
  ou_starts : forall e f, In e es -> In f es -> seg_start e = seg_start f -> e = f;
  ou_ends : forall e f, In e es -> In f es -> seg_end e = seg_end f -> e = f;
  ou_next : forall e, In e es -> exists f, In f es /\ seg_end e = seg_start f;
  ou_turn : forall e f, In e es -> In f es -> seg_end e = seg_start f ->
    area2 (seg_start e) (seg_end e) (seg_end f) <> 0;
  ou_link : forall l1 e f l2, es = l1 ++ e :: f :: l2 -> seg_end e = seg_start f;
  ou_close : forall f l e, es = f :: l -> last es e = last l f /\ seg_end (last es e) = seg_start f;
  ou_meet : forall s t p, In s es -> In t es -> s <> t -> on_seg s p -> on_seg t p ->
    endpoint_of s p /\ endpoint_of t p }.

Lemma edges_succession vs e f : NoDup vs -> In e (edges vs) -> In f (edges vs) -> seg_end e = seg_start f ->
  (exists l1 l2, edges vs = l1 ++ e :: f :: l2) \/
  (exists l1 l2, edges vs = l1 ++ [e] /\ edges vs = f :: l2).
Proof.
  intros D I J E. destruct vs as [|v l]; [destruct I|].
  destruct (in_split e (edges (v :: l)) I) as (l1 & l2 & S).
  assert (DS : NoDup (map seg_start (edges (v :: l)))) by (rewrite edges_starts; auto).
  destruct l2 as [|g l2].
  - right. exists l1. destruct (edges_last v l) as (es & S'). rewrite S' in S.
    apply app_inj_tail in S. destruct S as (S1 & S2).
    assert (Ev : seg_end e = v) by (rewrite <- S2; auto).
    assert (X : exists g l2, edges (v :: l) = g :: l2 /\ seg_start g = v).
    { unfold edges. destruct l; cbn; eauto. }
    destruct X as (g & l2 & X1 & X2). exists l2. split; [rewrite S', S1, S2; auto|].
    replace f with g; auto. apply (NoDup_map_inj seg_start (edges (v :: l))); auto; [|congruence].
    rewrite X1. cbn; auto.
  - left. exists l1, l2. replace f with g; auto.
    assert (L : seg_end e = seg_start g).
    { rewrite edges_chain in S. apply (proj2 (chain_triple _ _ _ _ _ S)). }
    apply (NoDup_map_inj seg_start (edges (v :: l))); auto; [|congruence].
    rewrite S, in_app_iff. cbn. auto.
Qed.

Lemma simple_outline vs : simple_contour vs -> outline (edges vs).
Proof.
  intros ((Len & D & T) & M). destruct vs as [|v [|w r]]; [cbn in Len; lia|cbn in Len; lia|].
  set (vs := v :: w :: r) in *.
  assert (Link : forall l1 e f l2, edges vs = l1 ++ e :: f :: l2 ->
    seg_end e = seg_start f /\ area2 (seg_start e) (seg_end e) (seg_end f) <> 0).
  { intros l1 e f l2 E. assert (C : chain (last r w :: vs ++ [v]) = (Seg (last r w) v :: l1) ++ e :: f :: l2).
    { unfold vs. cbn [app]. rewrite chain_cons2.
      change (v :: w :: r ++ [v]) with (v :: (w :: r) ++ [v]). rewrite <- (edges_chain v (w :: r)). fold vs. rewrite E. auto. }
    destruct (chain_triple _ _ _ _ _ C) as (T' & S). split; auto. apply T.
    apply consecutive_triple. auto. }
  assert (Close : forall f l, edges vs = f :: l -> (last l f = Seg (last r w) v /\ v = seg_start f)
     /\ area2 (seg_start (last l f)) (seg_end (last l f)) (seg_end f) <> 0).
  { intros f l E. destruct (edges_last v (w :: r)) as (es & S). fold vs in S.
    assert (Ef : f = Seg v w) by (unfold vs, edges in E; cbn in E; congruence).
    assert (EL : last l f = Seg (last r w) v).
    { rewrite <- (last_cons f l f), <- E, S, last_last, last_cons. auto. }
    split; [rewrite EL, Ef; auto|]. rewrite EL, Ef. cbn. apply T, consecutive_triple.
    exists [], (r ++ [v]). auto. }
  constructor.
  - rewrite edges_length. auto.
  - apply Forall_forall. intros e I.
    destruct (in_split e (edges vs) I) as (l1 & l2 & S). destruct l2 as [|g l2].
    + destruct l1 as [|f l1].
      * exfalso. assert (X : length (edges vs) = 1%nat) by (rewrite S; auto). rewrite edges_length in X. lia.
      * destruct (Close f (l1 ++ [e]) S) as (_ & K). rewrite last_last in K. intros Q. apply K. rewrite Q.
        unfold area2. ring.
    + destruct (Link _ _ _ _ S) as (_ & K). intros Q. apply K. rewrite Q. unfold area2. ring.
  - intros e f I J E. apply (NoDup_map_inj seg_start (edges vs)); auto. rewrite edges_starts. auto.
  - intros e f I J E. apply (NoDup_map_inj seg_end (edges vs)); auto. unfold vs.
    rewrite edges_chain, chain_ends. change (NoDup ((w :: r) ++ [v])). apply (Permutation.Permutation_NoDup (Permutation.Permutation_cons_append (w :: r) v)). exact D.
  - intros e I. destruct (in_split e (edges vs) I) as (l1 & l2 & S). destruct l2 as [|g l2].
    + destruct l1 as [|f l1].
      * exfalso. assert (X : length (edges vs) = 1%nat) by (rewrite S; auto). rewrite edges_length in X. lia.
      * exists f. split; [rewrite S; cbn; auto|]. destruct (Close f (l1 ++ [e]) S) as ((K1 & K2) & _).
        rewrite last_last in K1. rewrite K1. auto.
    + exists g. split; [rewrite S, in_app_iff; cbn; auto|]. apply (Link _ _ _ _ S).
  - intros e f I J E. destruct (edges_succession vs e f D I J E) as [(l1 & l2 & S)|(l1 & l2 & S1 & S2)].
    + apply (Link _ _ _ _ S).
    + destruct (Close f l2 S2) as (_ & K). replace e with (last l2 f); auto.
      rewrite <- (last_cons f l2 f), <- S2, S1, last_last. auto.
  - intros l1 e f l2 S. apply (Link _ _ _ _ S).
  - intros f l e S. destruct (Close f l S) as ((K1 & K2) & _). rewrite S, last_cons, K1. auto.
  - exact M.
Qed.

Lemma outline_adjacent es e f p : outline es -> In e es -> In f es -> e <> f ->
  endpoint_of e p -> endpoint_of f p ->
  (seg_end e = p /\ seg_start f = p) \/ (seg_end f = p /\ seg_start e = p).
Proof.
  intros O I J N [E|E] [F|F]; auto; exfalso; apply N.
  - apply (ou_starts es O); auto; congruence.
  - apply (ou_ends es O); auto; congruence.
Qed.
