(** The walk that collects the events of a contour, with the parts between two visits of a vertex
    cut out. *)
From Coq Require Import QArith Qcanon Bool List Arith Lia Permutation.
From Verif Require Import Model_Base Model_Utils Model_Linear Model_Shaped Proof_Base Proof_Mesh Proof_Parity Proof_Ring.
Import ListNotations.
Local Close Scope Qc_scope.
Local Open Scope nat_scope.

Lemma index_of_spec e l : In e l -> exists i, index_of e l = Some i /\ i < length l /\ nth i l O = e.
Proof.
  induction l as [|x l IH]; cbn; [tauto|]. intros I. destruct (Nat.eqb_spec x e) as [->|Ne].
  - exists O. split; auto. split; auto. lia.
  - destruct IH as (i & -> & A & B); [tauto|]. exists (S i). split; auto. split; auto. lia.
Qed.
Lemma index_of_nth l i : NoDup l -> i < length l -> index_of (nth i l O) l = Some i.
Proof.
  revert i; induction l as [|x l IH]; intros i Nd L; cbn in *; [lia|]. inversion Nd; subst. destruct i as [|i].
  - rewrite Nat.eqb_refl. auto.
  - destruct (Nat.eqb_spec x (nth i l O)) as [Q|_].
    + exfalso. apply H1. rewrite Q. apply nth_In. lia.
    + rewrite IH by (auto; lia). auto.
Qed.

Section Loop.
Variable s : shaped_operation.
Variable events : list event.
Variable connectivity : list nat.
Variable processed : list bool.
Notation o := (so s). Notation op := (to_opposite_event o). Notation at_ := (to_event_start o).
Variable ring : point -> list nat.
Variable P : (nat -> bool) -> point -> bool.
Hypothesis Nd : NoDup events.
Hypothesis op_in : forall x, In x events -> In (op x) events.
Hypothesis op_op : forall x, In x events -> op (op x) = x.
Hypothesis ring_nd : forall v, NoDup (ring v).
Hypothesis ring_in : forall v x, In x (ring v) <-> In x events /\ at_ x = v.
Hypothesis side_op : forall C, closed events op C -> even ring C -> inside events C ->
  forall x, In x events -> side at_ ring P C (op x) = xorb (side at_ ring P C x) (C x).
Hypothesis ids : forall x, In x events -> exists i, start_id s x = Some i /\ i <= so_current_id s.
Hypothesis ids_same : forall x y, In x events -> In y events -> (start_id s x = start_id s y <-> at_ x = at_ y).
(** The events that are not processed. *)
Definition free (x : nat) : bool :=
  match index_of x events with None => false | Some i => negb (nth i processed false) end.
Notation U := free.
Hypothesis Uc : closed events op U.
Hypothesis Ue : even ring U.
Lemma Ui : inside events U.
Proof.
  intros x. unfold free. destruct (index_of x events) as [i|] eqn:Q; [|discriminate]. intros _.
  clear - Q. revert i Q; induction events as [|y l IH]; cbn; [discriminate|]. intros i. destruct (Nat.eqb_spec y x); auto.
  destruct (index_of x l) as [j|]; [|discriminate]. intros _. right. apply (IH j). auto.
Qed.
Hypothesis next_turn : forall x i, U x = true -> index_of x events = Some i ->
  exists j, next_event_id (S (length events)) processed connectivity i i = Some (Some j)
    /\ nth j events O = turn U (ring (at_ x)) x.
Variable x0 : event.
Hypothesis U0 : U x0 = true.
Notation walk := (walk op at_ ring U x0).
Notation v n := (at_ (walk n)).

Lemma stop_exists : exists M, M < length events /\ at_ (op (walk M)) = at_ x0
  /\ forall n, n < M -> at_ (op (walk n)) <> at_ x0.
Proof.
  destruct (walk_period events op at_ ring op_in op_op ring_nd ring_in U Uc Ui x0 U0) as (d & D1 & D2 & D3).
  destruct d as [|d]; [lia|].
  assert (Q : at_ (op (walk d)) = at_ x0).
  { rewrite <- (walk_next events op at_ ring op_in ring_nd ring_in U Uc Ui x0 U0), D3. auto. }
  assert (Ex : exists M, M <= d /\ at_ (op (walk M)) = at_ x0 /\ forall n, n < M -> at_ (op (walk n)) <> at_ x0).
  { clear - Q. induction d as [d IH] using lt_wf_ind.
    assert (D : forall k, (exists n, n < k /\ at_ (op (walk n)) = at_ x0) \/ forall n, n < k -> at_ (op (walk n)) <> at_ x0).
    { induction k as [|k [K|K]].
      - right. intros n L. lia.
      - left. destruct K as (n & A & B). exists n. split; auto.
      - destruct (point_dec (at_ (op (walk k))) (at_ x0)) as [E|E]; [left; exists k; auto|right].
        intros n L. destruct (Nat.eq_dec n k) as [->|]; auto. apply K. lia. }
    destruct (D d) as [(n & A & B)|K].
    - destruct (IH n A B) as (M & M1 & M2). exists M. split; [lia|auto].
    - exists d. auto. }
  destruct Ex as (M & M1 & M2 & M3). exists M. split; [apply Nat.lt_le_trans with (S d); [lia|exact D2]|auto].
Qed.

Section Stop.
Variable M : nat.
Hypothesis Ml : M < length events.
Hypothesis Ms : at_ (op (walk M)) = at_ x0.
Hypothesis Mf : forall n, n < M -> at_ (op (walk n)) <> at_ x0.
Lemma wE n : In (walk n) events. Proof. apply (walk_E events op at_ ring op_in ring_nd ring_in U Uc Ui x0 U0). Qed.
Lemma wU n : U (walk n) = true. Proof. apply (walk_U events op at_ ring op_in ring_nd ring_in U Uc Ui x0 U0). Qed.
Lemma wn n : v (S n) = at_ (op (walk n)). Proof. apply (walk_next events op at_ ring op_in ring_nd ring_in U Uc Ui x0 U0). Qed.
Lemma w_inj : injective_until op at_ ring U x0 (S M).
Proof.
  intros i j Lij Lj Q. replace j with (i + (j - i)) in Q by lia.
  apply (walk_back events op at_ ring op_in op_op ring_nd ring_in U Uc Ui x0 U0) in Q.
  destruct (j - i) as [|d] eqn:Ed; [lia|]. apply (Mf d); [lia|]. rewrite <- wn, <- Q. auto.
Qed.
Lemma w_start n : n < M -> v (S n) <> at_ x0.
Proof. intros L. rewrite wn. apply Mf; auto. Qed.

(** Vertices of parts that were cut out before the step [n]. *)
Definition stale (n : nat) (w : point) : Prop :=
  exists i k j, i < k /\ k < j /\ j <= n /\ v i = v j /\ v k = w /\ w <> v i.
Record path (n : nat) (visited : list (option nat)) (idxs : list nat) : Prop := {
  pa_len : length visited = S (so_current_id s);
  pa_ne : idxs <> [];
  pa_first : nth O idxs O = O;
  pa_last : nth (length idxs - 1) idxs O = n;
  pa_inc : forall a b, a < b -> b < length idxs -> nth a idxs O < nth b idxs O;
  pa_step : forall a, S a < length idxs -> v (nth (S a) idxs O) = v (S (nth a idxs O));
  pa_nd : forall a b, a < length idxs -> b < length idxs -> v (nth a idxs O) = v (nth b idxs O) -> a = b;
  pa_vis : forall a id, a < length idxs -> start_id s (walk (nth a idxs O)) = Some id -> nth id visited None = Some a;
  pa_old : forall x id a, In x events -> start_id s x = Some id -> nth id visited None = Some a ->
    (a < length idxs /\ v (nth a idxs O) = at_ x) \/ stale n (at_ x) }.

Lemma stale_mono n w : stale n w -> stale (S n) w.
Proof. intros (i & k & j & A & B & D & F). exists i, k, j. repeat split; try apply F; auto. Qed.
Lemma stale_gone n w : n < M -> stale (S n) w -> v (S n) <> w.
Proof.
  intros L (i & k & j & A & B & D & F1 & F2 & F3) Q.
  apply (no_return events op at_ ring op_in op_op ring_nd ring_in P side_op U Uc Ue Ui x0 U0 i k j (S n)); auto.
  - intros a b La Lb. apply w_inj; auto. lia.
  - rewrite F2. auto.
  - rewrite Q. auto.
Qed.

Lemma nth_snoc (l : list nat) x a : nth a (l ++ [x]) O = if a <? length l then nth a l O else if a =? length l then x else O.
Proof.
  destruct (Nat.ltb_spec a (length l)); [apply app_nth1; auto|]. rewrite app_nth2 by auto.
  destruct (Nat.eqb_spec a (length l)) as [->|Ne]; [rewrite Nat.sub_diag; auto|].
  destruct (a - length l) as [|q] eqn:Eq; [lia|]. cbn. destruct q; auto.
Qed.
Lemma nth_firstn (l : list nat) k a : nth a (firstn k l) O = if a <? k then nth a l O else O.
Proof.
  revert k a; induction l as [|x l IH]; intros k a; destruct k as [|k], a as [|a]; cbn; auto.
  - match goal with |- context [if ?b then _ else _] => destruct b end; reflexivity.
  - rewrite IH. reflexivity.
Qed.

Lemma path_extend n visited idxs id : n < M -> path n visited idxs -> start_id s (op (walk n)) = Some id ->
  nth id visited None = None ->
  path (S n) (set_nth visited id (Some (length idxs))) (idxs ++ [S n]).
Proof.
  intros L [Pl Pne Pf Pla Pi Ps Pn Pv Po] Si Nv.
  assert (Ie : id < length visited).
  { destruct (ids (op (walk n)) (op_in _ (wE n))) as (i & A & B). rewrite A in Si. injection Si as ->. rewrite Pl. lia. }
  assert (Len : 0 < length idxs) by (destruct idxs; [congruence|cbn; lia]).
  assert (Vn : forall x, In x events -> (start_id s x = Some id <-> at_ x = v (S n))).
  { intros x I. rewrite wn, <- Si. apply ids_same; auto. apply op_in, wE. }
  assert (New : forall a, a < length idxs -> v (nth a idxs O) <> v (S n)).
  { intros a La Q. apply Vn in Q; [|apply wE]. rewrite (Pv a id La Q) in Nv. discriminate. }
  constructor.
  - rewrite set_nth_len. auto.
  - destruct idxs; discriminate.
  - rewrite app_nth1 by auto. auto.
  - rewrite app_length. cbn [length]. replace (length idxs + 1 - 1) with (length idxs) by lia. rewrite nth_snoc, Nat.ltb_irrefl, Nat.eqb_refl. auto.
  - intros a b Lab Lb. rewrite app_length in Lb. cbn in Lb. rewrite !nth_snoc.
    destruct (Nat.ltb_spec b (length idxs)) as [Lb'|Lb'].
    + destruct (Nat.ltb_spec a (length idxs)); [apply Pi; auto|lia].
    + destruct (Nat.ltb_spec a (length idxs)); [|lia]. destruct (Nat.eqb_spec b (length idxs)); [|lia].
      destruct (Nat.eq_dec a (length idxs - 1)) as [->|Na]; [rewrite Pla; lia|].
      assert (nth a idxs O < nth (length idxs - 1) idxs O) by (apply Pi; lia). lia.
  - intros a La. rewrite app_length in La. cbn in La. rewrite !nth_snoc.
    destruct (Nat.ltb_spec (S a) (length idxs)) as [Lb'|Lb'].
    + destruct (Nat.ltb_spec a (length idxs)); [apply Ps; auto|lia].
    + destruct (Nat.ltb_spec a (length idxs)); [|lia]. destruct (Nat.eqb_spec (S a) (length idxs)); [|lia].
      replace a with (length idxs - 1) by lia. rewrite Pla. auto.
  - intros a b La Lb. rewrite app_length in La, Lb. cbn in La, Lb. rewrite !nth_snoc.
    destruct (Nat.ltb_spec a (length idxs)) as [La'|La'], (Nat.ltb_spec b (length idxs)) as [Lb'|Lb'].
    + apply Pn; auto.
    + destruct (Nat.eqb_spec b (length idxs)); [|lia]. intros Q. destruct (New a La' Q).
    + destruct (Nat.eqb_spec a (length idxs)); [|lia]. intros Q. destruct (New b Lb'); auto.
    + lia.
  - intros a i La. rewrite app_length in La. cbn in La. rewrite !nth_snoc, nth_set_nth.
    destruct (Nat.ltb_spec a (length idxs)) as [La'|La'].
    + intros Q. destruct (Nat.eqb_spec id i) as [<-|Ni]; [|apply Pv; auto]. exfalso. rewrite (Pv a id La' Q) in Nv. discriminate.
    + destruct (Nat.eqb_spec a (length idxs)) as [->|]; [|lia]. intros Q.
      assert (i = id). { assert (Q' : start_id s (walk (S n)) = Some id) by (apply Vn; auto; apply wE). rewrite Q in Q'. injection Q'; auto. }
      subst i. rewrite Nat.eqb_refl. apply Nat.ltb_lt in Ie. rewrite Ie. auto.
  - intros x i a I Q. rewrite nth_set_nth. destruct (Nat.eqb_spec id i) as [<-|Ni].
    + pose proof Ie as Ie'. apply Nat.ltb_lt in Ie'. rewrite Ie'. intros [= <-]. left. rewrite app_length. cbn. split; [lia|].
      rewrite nth_snoc, Nat.ltb_irrefl, Nat.eqb_refl. symmetry. apply Vn; auto.
    + intros Va. destruct (Po x i a I Q Va) as [[A B]|A].
      * left. rewrite app_length. split; [lia|]. rewrite nth_snoc. apply Nat.ltb_lt in A. rewrite A. auto.
      * right. apply stale_mono. auto.
Qed.
Lemma path_cut n visited idxs id k : n < M -> path n visited idxs -> start_id s (op (walk n)) = Some id ->
  nth id visited None = Some k -> k <> O /\ path (S n) visited (firstn k idxs ++ [S n]).
Proof.
  intros L [Pl Pne Pf Pla Pi Ps Pn Pv Po] Si Nv.
  assert (Len : 0 < length idxs) by (destruct idxs; [congruence|cbn; lia]).
  assert (Vn : forall x, In x events -> (start_id s x = Some id <-> at_ x = v (S n))).
  { intros x I. rewrite wn, <- Si. apply ids_same; auto. apply op_in, wE. }
  destruct (Po (op (walk n)) id k (op_in _ (wE n)) Si Nv) as [[Lk Vk]|St].
  2: { exfalso. apply (stale_gone n (at_ (op (walk n)))); auto; [apply stale_mono; auto|apply wn]. }
  rewrite <- wn in Vk.
  assert (Nk : k <> O). { intros ->. rewrite Pf in Vk. apply (w_start n L). auto. }
  split; auto.
  assert (Fl : length (firstn k idxs) = k) by (apply firstn_length_le; lia).
  assert (Nth : forall a, a < k -> nth a (firstn k idxs ++ [S n]) O = nth a idxs O).
  { intros a La. rewrite nth_snoc, Fl, nth_firstn. apply Nat.ltb_lt in La. rewrite La. auto. }
  assert (Ntk : nth k (firstn k idxs ++ [S n]) O = S n) by (rewrite nth_snoc, Fl, Nat.ltb_irrefl, Nat.eqb_refl; auto).
  assert (Le : forall a, a < length idxs -> nth a idxs O <= n).
  { intros a La. destruct (Nat.eq_dec a (length idxs - 1)) as [->|Na]; [lia|].
    assert (nth a idxs O < nth (length idxs - 1) idxs O) by (apply Pi; lia). lia. }
  assert (Lt : length (firstn k idxs ++ [S n]) = S k) by (rewrite app_length, Fl; cbn; lia).
  constructor; auto.
  - destruct (firstn k idxs); discriminate.
  - rewrite Nth by lia. auto.
  - rewrite Lt. replace (S k - 1) with k by lia. auto.
  - intros a b Lab Lb. rewrite Lt in Lb. rewrite (Nth a) by lia. destruct (Nat.eq_dec b k) as [->|Nb].
    + rewrite Ntk. specialize (Le a). lia.
    + rewrite Nth by lia. apply Pi; lia.
  - intros a La. rewrite Lt in La. rewrite (Nth a) by lia. destruct (Nat.eq_dec (S a) k) as [Ea|Na].
    + rewrite Ea, Ntk, <- Vk, <- Ea. apply Ps. lia.
    + rewrite Nth by lia. apply Ps. lia.
  - intros a b La Lb. rewrite Lt in La, Lb.
    destruct (Nat.eq_dec a k) as [->|Na], (Nat.eq_dec b k) as [->|Nb]; rewrite ?Ntk, ?Nth by lia; auto.
    + intros Q. rewrite <- Vk in Q. apply Pn; auto. lia.
    + intros Q. rewrite <- Vk in Q. apply Pn; auto. lia.
    + apply Pn; lia.
  - intros a i La. rewrite Lt in La. destruct (Nat.eq_dec a k) as [->|Na].
    + rewrite Ntk. intros Q. assert (i = id).
      { assert (Q' : start_id s (walk (S n)) = Some id) by (apply Vn; auto; apply wE). rewrite Q in Q'. injection Q'; auto. }
      subst i. auto.
    + rewrite Nth by lia. apply Pv. lia.
  - intros x i a I Q Va. destruct (Po x i a I Q Va) as [[A B]|A]; [|right; apply stale_mono; auto]. rewrite Lt.
    destruct (Nat.lt_trichotomy a k) as [La|[->|La]].
    + left. split; [lia|]. rewrite Nth by auto. auto.
    + left. split; [lia|]. rewrite Ntk, <- Vk. auto.
    + right. exists (nth k idxs O), (nth a idxs O), (S n). split; [apply Pi; auto|]. split; [specialize (Le a A); lia|].
      split; auto. split; auto. split; auto. rewrite <- B. intros Q'. apply Pn in Q'; auto. lia.
Qed.

(** What the loop returns. *)
Record contour_like (l : list event) : Prop := {
  cl_ne : l <> [];
  cl_hd : nth O l O = x0;
  cl_U : forall x, In x l -> U x = true;
  cl_step : forall a, S a < length l -> at_ (nth (S a) l O) = at_ (op (nth a l O));
  cl_close : at_ (op (nth (length l - 1) l O)) = at_ x0;
  cl_nd : forall a b, a < length l -> b < length l -> at_ (nth a l O) = at_ (nth b l O) -> a = b;
  cl_one_way : forall x y, In x l -> In y l -> x <> op y }.

Lemma nth_map_walk idxs a : a < length idxs -> nth a (map walk idxs) O = walk (nth a idxs O).
Proof. intros L. rewrite (nth_indep _ O (walk O)) by (rewrite map_length; auto). apply map_nth. Qed.

(** All of it is on the same side of what is even among the events that are not processed. *)
Definition one_sided (l : list event) : Prop := forall C, closed events op C -> even ring C -> inside events C ->
  (forall z, C z = true -> U z = true) -> forall x y, In x l -> In y l -> side at_ ring P C x = side at_ ring P C y.
Lemma path_one_sided idxs : one_sided (map walk idxs).
Proof.
  intros C C1 C2 C3 C4 x y Ix Iy. apply in_map_iff in Ix. apply in_map_iff in Iy. destruct Ix as (n & <- & _). destruct Iy as (m & <- & _).
  apply (walk_side events op at_ ring op_in ring_nd ring_in P side_op U Uc Ui x0 U0); auto.
Qed.
Lemma path_contour visited idxs : path M visited idxs -> contour_like (map walk idxs).
Proof.
  intros [Pl Pne Pf Pla Pi Ps Pn Pv Po].
  assert (Len : 0 < length idxs) by (destruct idxs; [congruence|cbn; lia]). constructor.
  - intros Q. apply map_eq_nil in Q. auto.
  - rewrite nth_map_walk, Pf; auto.
  - intros x I. apply in_map_iff in I. destruct I as (n & <- & _). apply wU.
  - intros a La. rewrite map_length in La. rewrite !nth_map_walk by lia. rewrite Ps, wn by auto. auto.
  - rewrite map_length, nth_map_walk, Pla by lia. auto.
  - intros a b La Lb. rewrite map_length in La, Lb. rewrite !nth_map_walk by auto. apply Pn; auto.
  - intros x y Ix Iy. apply in_map_iff in Ix. apply in_map_iff in Iy. destruct Ix as (n & <- & _). destruct Iy as (m & <- & _).
    apply (walk_one_way events op at_ ring op_in ring_nd ring_in P side_op U Uc Ue Ui x0 U0).
Qed.

Lemma loop_spec : forall fuel n visited idxs opposite_id, n <= M -> M - n <= fuel -> path n visited idxs ->
  index_of (op (walk n)) events = Some opposite_id ->
  exists l, contour_events_loop s events connectivity fuel processed (at_ x0) (walk n) opposite_id visited (map walk idxs) = Some l
    /\ contour_like l /\ one_sided l.
Proof.
  induction fuel as [|fuel IH]; intros n visited idxs opp_id Ln Lf Pa Io; cbn [contour_events_loop].
  - assert (n = M) by lia. subst n. change (to_event_end o (walk M)) with (at_ (op (walk M))).
    rewrite Ms, (proj2 (point_eq_true _ _) eq_refl). exists (map walk idxs). split; auto. split; [apply (path_contour visited); auto|apply path_one_sided].
  - change (to_event_end o (walk n)) with (at_ (op (walk n))).
    destruct (point_eq (at_ (op (walk n))) (at_ x0)) eqn:B.
    + apply point_eq_true in B. assert (n = M). { destruct (Nat.eq_dec n M); auto. exfalso. apply (Mf n); auto. lia. }
      subst n. exists (map walk idxs). split; auto. split; [apply (path_contour visited); auto|apply path_one_sided].
    + assert (L : n < M).
      { destruct (Nat.eq_dec n M) as [->|]; [|lia]. exfalso. rewrite Ms, (proj2 (point_eq_true _ _) eq_refl) in B. discriminate. }
      destruct (ids (op (walk n)) (op_in _ (wE n))) as (id & Si & Lid). rewrite Si.
      assert (Uo : U (op (walk n)) = true) by (rewrite Uc; [apply wU|apply wE]).
      destruct (next_turn (op (walk n)) opp_id Uo Io) as (j & Nx & Nj).
      assert (Cur : nth j events O = walk (S n)) by (rewrite Nj; reflexivity).
      destruct (index_of_spec (op (walk (S n))) events (op_in _ (wE (S n)))) as (oi & Oi & _).
      destruct (nth id visited None) as [k|] eqn:Vk.
      * destruct (path_cut n visited idxs id k L Pa Si Vk) as [Nk Pa']. destruct k as [|k]; [congruence|].
        rewrite Nx, Cur, Oi. rewrite firstn_map. change (map walk (firstn (S k) idxs) ++ [walk (S n)]) with (map walk (firstn (S k) idxs) ++ map walk [S n]).
        rewrite <- map_app. apply IH; auto. lia.
      * pose proof (path_extend n visited idxs id L Pa Si Vk) as Pa'. rewrite map_length, Nx, Cur, Oi.
        change (map walk idxs ++ [walk (S n)]) with (map walk idxs ++ map walk [S n]).
        rewrite <- map_app. apply IH; auto. lia.
Qed.
End Stop.

Lemma contour_found : exists l, to_contour_events s events connectivity processed x0 = Some l /\ contour_like l /\ one_sided l.
Proof.
  destruct stop_exists as (M & M1 & M2 & M3). assert (I0 := Ui x0 U0). unfold to_contour_events.
  destruct (ids x0 I0) as (id & Si & Li). rewrite Si.
  destruct (index_of_spec (op x0) events (op_in _ I0)) as (oi & Oi & _). rewrite Oi.
  change [x0] with (map walk [0]). change x0 with (walk 0) at 2.
  apply (loop_spec M M1 M2 M3 (S (length events)) 0); auto; try lia.
  set (vs := repeat (@None nat) (S (so_current_id s))).
  assert (Lv : length vs = S (so_current_id s)) by apply repeat_length.
  assert (Nv : forall i, nth i vs None = None) by (intros i; apply nth_repeat).
  assert (Lt : (id <? length vs) = true) by (apply Nat.ltb_lt; lia).
  constructor; auto.
  - rewrite set_nth_len. auto.
  - discriminate.
  - cbn. intros a b A B. lia.
  - cbn. intros a A. lia.
  - cbn. intros a b A B. lia.
  - intros a i A. assert (a = 0) by (cbn in A; lia). subst a. change (Proof_Ring.walk op at_ ring free x0 (nth 0 [0] 0)) with x0. rewrite Si. intros [= <-]. rewrite nth_set_nth, Nat.eqb_refl, Lt. auto.
  - intros x i a I Q. rewrite nth_set_nth. destruct (Nat.eqb_spec id i) as [<-|Ni]; [|rewrite Nv; discriminate].
    rewrite Lt. intros [= <-]. left. cbn. split; auto. symmetry. apply ids_same; auto. congruence.
Qed.

(** What is left is even again. *)
Lemma contour_list_nd l : contour_like l -> NoDup (flat_map (fun x => [x; op x]) l).
Proof.
  intros [Cn Ch CU Cs Cc Cd Cw].
  assert (Nl : NoDup l).
  { apply (NoDup_nth l O). intros a b La Lb Q. apply Cd; auto; congruence. }
  assert (Q : forall m, NoDup m -> (forall x, In x m -> In x l) -> NoDup (flat_map (fun x => [x; op x]) m)).
  { induction m as [|x m IH]; cbn [flat_map app]; intros Nm Im; [constructor|]. inversion Nm; subst.
    assert (Fr : forall y, In y (flat_map (fun x => [x; op x]) m) -> exists z, In z m /\ (y = z \/ y = op z)).
    { intros y I. apply in_flat_map in I. destruct I as (z & I & [A|[A|[]]]); exists z; auto. }
    assert (Ix : In x l) by (apply Im; left; auto).
    constructor; [|constructor; [|apply IH; auto; intros; apply Im; right; auto]].
    - intros [I|I]; [apply (Cw x x); auto|]. destruct (Fr _ I) as (z & Iz & [-> | A]); [contradiction|].
      apply (Cw x z); auto. apply Im. right; auto.
    - intros I. destruct (Fr _ I) as (z & Iz & [A|A]).
      + apply (Cw z x); auto. apply Im. right; auto.
      + assert (x = z). { rewrite <- (op_op x), <- (op_op z), A; auto; apply Ui, CU; auto. apply Im; right; auto. }
        subst. contradiction. }
  apply Q; auto.
Qed.
Lemma contour_even l : contour_like l -> even ring (mem (flat_map (fun x => [x; op x]) l)).
Proof.
  intros Cl w. rewrite (list_even events at_ ring ring_nd ring_in).
  2: { apply contour_list_nd; auto. }
  2: { intros x I. apply in_flat_map in I. destruct I as (z & I & [<-|[<-|[]]]); [|apply op_in]; apply Ui, (cl_U _ Cl); auto. }
  rewrite xsum_flat. set (q := fun p => if point_dec p w then true else false). destruct Cl as [Cn Ch CU Cs Cc Cd Cw].
  assert (Q : forall m x, (forall a, S a < length (x :: m) -> at_ (nth (S a) (x :: m) O) = at_ (op (nth a (x :: m) O))) ->
    xsum (fun y => xsum (fun x => if point_dec (at_ x) w then true else false) [y; op y]) (x :: m)
    = xorb (q (at_ x)) (q (at_ (op (nth (length (x :: m) - 1) (x :: m) O))))).
  { induction m as [|y m IH]; intros x St.
    - cbn [xsum length nth Nat.sub]. fold (q (at_ x)). fold (q (at_ (op x))). rewrite !xorb_false_r. auto.
    - pose proof (IH y) as IH'. cbn [xsum] in IH' |- *. rewrite IH'.
      + pose proof (St O ltac:(cbn; lia)) as S0. cbn [nth] in S0. fold (q (at_ x)). fold (q (at_ (op x))). rewrite <- S0.
        replace (length (x :: y :: m) - 1) with (S (length (y :: m) - 1)) by (cbn; lia). cbn [nth].
        rewrite xorb_false_r. destruct (q (at_ x)), (q (at_ y)); cbn; auto; destruct (q _); auto.
      + intros a La. apply (St (S a)). cbn in *. lia. }
  destruct l as [|x m]; [congruence|]. cbn in Ch. etransitivity; [exact (Q m x Cs)|]. etransitivity; [apply (f_equal (fun z => xorb (q (at_ x)) (q z)) Cc)|]. rewrite Ch. apply xorb_nilpotent.
Qed.
End Loop.
