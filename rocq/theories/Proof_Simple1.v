(** Removing collinear vertices of a simple outline leaves it simple. *)
From Coq Require Import QArith Qcanon List Bool Lia Permutation.
From Verif Require Import QcTac Model_Base Model_Box Model_Geometry Model_Segment Model_Utils Model_Contour
  Spec_Base Spec_Segment Spec_Contour Spec_Relate Proof_Base Proof_Line Proof_Bounds Proof_Contour Proof_Contour2 Proof_Edges Proof_Shrink.
Import ListNotations.
Local Open Scope Qc_scope.

Lemma walk_app ms : forall l v vs f, walk l (ms ++ v :: vs) f = walk l ms v ++ walk v vs f.
Proof. induction ms as [|m ms IH]; intros l v vs f; cbn [app walk]; [auto|]. rewrite IH. auto. Qed.
Lemma walk_starts ms : forall l f, map seg_start (walk l ms f) = l :: ms.
Proof. induction ms as [|m ms IH]; intros l f; cbn [walk map seg_start]; [auto|]. rewrite IH. auto. Qed.
Lemma walk_ends ms : forall l f g p, In g (walk l ms f) -> endpoint_of g p -> p = f \/ In p (l :: ms).
Proof.
  induction ms as [|m ms IH]; intros l f g p I E; cbn [walk] in I.
  - destruct I as [<-|[]]. destruct E as [E|E]; cbn [seg_start seg_end] in E; subst; cbn; auto.
  - destruct I as [<-|I].
    + destruct E as [E|E]; cbn [seg_start seg_end] in E; subst; cbn; auto.
    + destruct (IH m f g p I E) as [Q|Q]; auto. right. right. exact Q.
Qed.
Lemma walk_next ms : forall l f e, In e (walk l ms f) -> seg_end e = f \/ exists e', In e' (walk l ms f) /\ seg_start e' = seg_end e.
Proof.
  induction ms as [|m ms IH]; intros l f e I; cbn [walk] in *.
  - destruct I as [<-|[]]. auto.
  - destruct I as [<-|I].
    + right. destruct ms as [|m' ms]; cbn [walk]; eexists; (split; [right; left; reflexivity|reflexivity]).
    + destruct (IH m f e I) as [Q|(e' & Q & E)]; auto. right. exists e'. split; auto. right. auto.
Qed.
Lemma walk_first ms l f : exists e, In e (walk l ms f) /\ seg_start e = l.
Proof. destruct ms as [|m ms]; cbn [walk]; eexists; (split; [left; reflexivity|reflexivity]). Qed.
Lemma flat_map_apart {A B} (f : A -> list B) l c d x : NoDup (flat_map f l) -> In c l -> In d l -> In x (f c) -> In x (f d) -> c = d.
Proof.
  induction l as [|a l IH]; cbn [flat_map In]; intros N I J Fc Fd; [tauto|].
  assert (K : forall e, In e l -> In x (f e) -> In x (f a) -> False).
  { intros e Ie Fe Fa. clear - N Ie Fe Fa. induction (f a) as [|y r IHr]; [contradiction|]. cbn [app] in N. inversion N as [|? ? N1 N2]; subst.
    destruct Fa as [->|Fa]; [|auto]. apply N1, in_or_app. right. apply in_flat_map. exists e. auto. }
  destruct I as [<-|I], J as [<-|J]; auto; try (exfalso; eauto; fail).
  apply IH; auto. clear - N. induction (f a) as [|y r IHr]; auto. cbn [app] in N. inversion N; subst. auto.
Qed.

(** An edge that is left, with the vertices on it that were removed. *)
Definition chain (c : segment * list point) : list segment := walk (seg_start (fst c)) (snd c) (seg_end (fst c)).
Definition spanned (c : segment * list point) : Prop := forall p, on_seg (fst c) p <-> on_segs (chain c) p.
Lemma shrink_from_chains f vs : forall l prev ms,
  (prev = l \/ strictly_between l (hd f vs) prev) -> never_turns_back (prev :: vs ++ [f]) ->
  spanned (Seg l (hd f vs), ms) ->
  exists cs, map fst cs = walk l (shrink_from f l vs) f /\ Forall spanned cs /\ flat_map chain cs = walk l (ms ++ vs) f.
Proof.
  induction vs as [|v vs IH]; intros l prev ms P H Sp.
  { exists [(Seg l f, ms)]. split; [reflexivity|]. split; [constructor; auto|]. rewrite app_nil_r. cbn [flat_map]. rewrite app_nil_r. reflexivity. }
  assert (Hvs := never_turns_back_cons _ _ H).
  set (w := hd f vs).
  assert (Tr : prev <> v /\ v <> w /\ (area2 prev v w = 0 -> strictly_between prev w v)).
  { apply H. exists []. destruct vs as [|w' vs]; [exists []; reflexivity|exists (vs ++ [f]); reflexivity]. }
  destruct Tr as (D1 & D2 & B). cbn [hd] in P, Sp.
  assert (Step : (area2 l v w <> 0 /\ shrink_from f l (v :: vs) = v :: shrink_from f v vs)
                 \/ (area2 l v w = 0 /\ shrink_from f l (v :: vs) = shrink_from f l vs)).
  { destruct vs as [|w' vs]; unfold w; cbn [hd].
    - cbn [shrink_from]. destruct (not_collinear_spec l v f) as [K|K]; [left|right]; split; auto.
      destruct (Qc_eq_dec (area2 l v f) 0); [auto|contradiction].
    - change (shrink_from f l (v :: w' :: vs)) with
        (if negb (orientation_is (orient l v w') COLLINEAR)
         then v :: shrink_from f v (w' :: vs) else shrink_from f l (w' :: vs)).
      destruct (not_collinear_spec l v w') as [K|K]; [left|right]; split; auto.
      destruct (Qc_eq_dec (area2 l v w') 0); [auto|contradiction]. }
  destruct Step as [[K ->]|[K ->]].
  - destruct (IH v v [] (or_introl eq_refl) Hvs) as (cs & E1 & E2 & E3).
    { intros p. unfold chain. cbn [fst snd seg_start seg_end walk]. rewrite on_segs_cons. split; auto. intros [Q|(x & [] & _)]. auto. }
    exists ((Seg l v, ms) :: cs). cbn [map fst walk flat_map]. rewrite E1. split; auto. split; [constructor; auto|].
    rewrite E3, walk_app. reflexivity.
  - assert (SB : strictly_between l w v).
    { destruct P as [->|P]; [auto|].
      apply (strictly_between_extend l prev); auto. apply B.
      destruct P as (t & T0 & T1 & ->).
      replace (area2 (lerp l v t) v w) with ((1 - t) * area2 l v w)
        by (unfold area2, lerp; cbn [px py]; ring).
      rewrite K. ring. }
    destruct (IH l v (ms ++ [v])) as (cs & E1 & E2 & E3); auto.
    { intros p. unfold chain. cbn [fst snd seg_start seg_end]. fold w. rewrite (strictly_between_join l v w SB), walk_app.
      specialize (Sp p). unfold chain in Sp. cbn [fst snd seg_start seg_end] in Sp. rewrite Sp. cbn [walk]. split.
      - intros [(x & I & O)|O]; [exists x; split; auto; apply in_or_app; auto|exists (Seg v w); split; auto; apply in_or_app; right; left; auto].
      - intros (x & I & O). apply in_app_or in I. destruct I as [I|[<-|[]]]; auto. left. exists x. auto. }
    exists cs. split; auto. split; auto. rewrite E3, <- app_assoc. reflexivity.
Qed.

Lemma simple_shrink v vs : NoDup (v :: vs) -> never_turns_back (v :: vs ++ [v]) ->
  nondegenerate (shrink_collinear_vertices (v :: vs)) ->
  (forall s t p, In s (edges (v :: vs)) -> In t (edges (v :: vs)) -> s <> t -> on_seg s p -> on_seg t p ->
    endpoint_of s p /\ endpoint_of t p) ->
  simple_contour (shrink_collinear_vertices (v :: vs)).
Proof.
  intros N H Nd M. split; auto. cbn [shrink_collinear_vertices] in *. rewrite edges_walk in *.
  destruct (shrink_from_chains v vs v v [] (or_introl eq_refl) H) as (cs & E1 & E2 & E3).
  { intros p. unfold chain. cbn [fst snd seg_start seg_end walk]. rewrite on_segs_cons. split; auto. intros [Q|(x & [] & _)]. auto. }
  cbn [app] in E3. rewrite Forall_forall in E2.
  set (starts := fun c : segment * list point => seg_start (fst c) :: snd c).
  assert (Es : flat_map starts cs = v :: vs).
  { rewrite <- (walk_starts vs v v), <- E3. clear. induction cs as [|c cs IH]; auto. cbn [flat_map]. rewrite map_app, <- IH. f_equal.
    unfold chain. rewrite walk_starts. reflexivity. }
  assert (One : forall c d p, In c cs -> In d cs -> c <> d -> on_seg (fst c) p -> on_seg (fst d) p -> endpoint_of (fst c) p).
  { intros c d p Ic Id Ne Oc Od. apply (E2 c Ic) in Oc. apply (E2 d Id) in Od. destruct Oc as (g & Ig & Og), Od as (h & Ih & Oh).
    assert (Ng : NoDup (flat_map starts cs)) by (rewrite Es; auto).
    assert (St : forall c g, In g (chain c) -> In (seg_start g) (starts c)).
    { intros c0 g0 I0. unfold starts. rewrite <- (walk_starts (snd c0) (seg_start (fst c0)) (seg_end (fst c0))). apply in_map. exact I0. }
    assert (Dif : g <> h).
    { intros <-. apply Ne. apply (flat_map_apart starts cs c d (seg_start g)); auto. }
    assert (Wg : In g (walk v vs v)) by (rewrite <- E3; apply in_flat_map; exists c; auto).
    assert (Wh : In h (walk v vs v)) by (rewrite <- E3; apply in_flat_map; exists d; auto).
    destruct (M g h p Wg Wh Dif Og Oh) as [Eg Eh].
    destruct (walk_ends _ _ _ _ _ Ig Eg) as [Q|[Q|Q]]; [right; auto|left; auto|].
    assert (Pc : In p (starts c)) by (right; exact Q).
    destruct (walk_ends _ _ _ _ _ Ih Eh) as [R|R].
    - assert (Kd : In (fst d) (walk v (shrink_from v v vs) v)) by (rewrite <- E1; apply in_map; auto).
      assert (Nx : exists e', In e' (walk v (shrink_from v v vs) v) /\ seg_start e' = p).
      { destruct (walk_next _ _ _ _ Kd) as [W|(e' & W1 & W2)].
        - destruct (walk_first (shrink_from v v vs) v v) as (e' & W1 & W2). exists e'. split; auto. congruence.
        - exists e'. split; auto. congruence. }
      destruct Nx as (e' & J & Je). rewrite <- E1 in J. apply in_map_iff in J. destruct J as (c' & <- & Ic').
      assert (c = c'). { apply (flat_map_apart starts cs c c' p); auto. left. auto. }
      subst c'. left. auto.
    - exfalso. apply Ne. apply (flat_map_apart starts cs c d p); auto. }
  intros s t p Is It Ne Os Ot. rewrite <- E1 in Is, It. apply in_map_iff in Is, It. destruct Is as (c & <- & Ic), It as (d & <- & Id).
  assert (c <> d) by congruence. split; [apply (One c d)|apply (One d c)]; auto.
Qed.
