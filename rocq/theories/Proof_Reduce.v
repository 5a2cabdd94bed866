(** The reduction of the events of a drawing to contours: the loop of [reduce_events] of
    rene/_clipping/shaped.py. *)
From Coq Require Import QArith Qcanon Bool List Arith Lia Permutation Sorted.
From Verif Require Import QcTac Model_Base Model_Utils Model_Linear Model_Geometry Model_Contour Model_Shaped Spec_Base Spec_Contour Proof_Base Proof_Mesh Proof_Parity
  Proof_Ring Proof_Loop Proof_Corner Proof_Corner2 Proof_Connect Proof_Draw Proof_Shrink.
Import ListNotations.
Local Close Scope Qc_scope.
Local Open Scope nat_scope.

Section Reduce.
Variables (eps : Qc) (hg : event -> Qc -> Qc) (sl : event -> Qc).
Variable s : shaped_operation.
Variables (L events : list event).
Hypothesis D : drawing eps hg sl s L events.
Notation o := (so s). Notation op := (to_opposite_event o). Notation at_ := (to_event_start o).
Notation lft := is_event_left. Notation X := (Xe eps). Notation n := (length events).
Notation ring := (ring s events). Notation earlier := (earlier eps sl s).
Notation conn := (conn s events).

Definition pairs (l : list event) : list event := flat_map (fun x => [x; op x]) l.
Lemma pairs_In l x : In x (pairs l) <-> exists y, In y l /\ (x = y \/ x = op y).
Proof.
  unfold pairs. rewrite in_flat_map. split.
  - intros (y & I & [Q|[Q|[]]]); exists y; auto.
  - intros (y & I & [-> | ->]); exists y; cbn; auto.
Qed.

(** A contour of the drawing. *)
Record cycle (l : list event) : Prop := {
  cy_ne : l <> [];
  cy_in : forall x, In x l -> In x events;
  cy_step : forall a, S a < length l -> at_ (nth (S a) l O) = at_ (op (nth a l O));
  cy_close : at_ (op (nth (length l - 1) l O)) = at_ (nth O l O);
  cy_nd : NoDup (map at_ l);
  cy_one_way : forall x y, In x l -> In y l -> x <> op y;
  cy_pairs : NoDup (pairs l);
  cy_even : even ring (mem (pairs l));
  cy_least : forall x, In x l -> (X (at_ (nth O l O)) <= X (at_ x))%Qc }.

(** ** The positions *)
Notation pos := (index_in events).
Lemma pos_spec x : In x events -> index_of x events = Some (pos x) /\ pos x < n /\ nth (pos x) events O = x.
Proof. intros I. unfold index_in. destruct (index_of_spec x events I) as (i & -> & A & B). auto. Qed.
Lemma pos_inj x y : In x events -> In y events -> pos x = pos y -> x = y.
Proof. intros I J E. destruct (pos_spec x I) as (_ & _ & A), (pos_spec y J) as (_ & _ & B). congruence. Qed.
Lemma pos_eqb x y : In x events -> In y events -> (pos x =? pos y) = (x =? y).
Proof.
  intros I J. destruct (Nat.eqb_spec (pos x) (pos y)) as [E|E], (Nat.eqb_spec x y) as [F|F]; try reflexivity; exfalso; [apply F, pos_inj; auto|apply E; rewrite F; reflexivity].
Qed.
Definition proc (r : reduction) (x : event) : bool := nth (pos x) (are_processed r) false.
Definition cid (r : reduction) (x : event) : option nat := nth (pos x) (contour_ids r) None.
Definition back (r : reduction) (x : event) : bool := nth (pos x) (from_in_to_out r) false.
Record sized (r : reduction) : Prop := {
  sz_p : length (are_processed r) = n; sz_c : length (contour_ids r) = n; sz_b : length (from_in_to_out r) = n }.
Lemma free_proc r x : free events (are_processed r) x = mem events x && negb (proc r x).
Proof.
  unfold free. destruct (mem events x) eqn:M.
  - apply mem_In in M. destruct (pos_spec x M) as (-> & _). reflexivity.
  - destruct (index_of x events) as [i|] eqn:E; auto. exfalso. assert (In x events); [|apply mem_In in H; congruence].
    clear - E. revert i E. induction events as [|y l IH]; cbn; [discriminate|]. intros i. destruct (Nat.eqb_spec y x); auto.
    destruct (index_of x l) as [j|]; [|discriminate]. intros _. right. eapply IH; eauto.
Qed.
Lemma nth_set {T} (l : list T) i v d j : i < length l -> nth j (set_nth l i v) d = if i =? j then v else nth j l d.
Proof.
  intros Q. rewrite nth_set_nth. destruct (Nat.eqb_spec i j) as [<-|]; auto. destruct (Nat.ltb_spec i (length l)); auto. lia.
Qed.

(** Processing the events of a contour. *)
Definition left_one (x : event) : event := if lft x then x else op x.
Lemma process_one k r e : sized r -> In e events -> let r' := process_contour_event s events k r e in
  sized r' /\ (forall y, In y events -> proc r' y = proc r y || (y =? e) || (y =? op e))
  /\ (forall y, In y events -> cid r' y = if y =? left_one e then Some k else cid r y)
  /\ (forall y, In y events -> back r' y = if y =? left_one e then negb (lft e) else back r y)
  /\ are_internal r' = are_internal r /\ depths r' = depths r /\ hole_ids r' = hole_ids r /\ parents r' = parents r /\ contours r' = contours r.
Proof.
  intros [Zp Zc Zb] I r'. pose proof (ev_op eps hg sl s L events D e I) as J.
  destruct (pos_spec e I) as (_ & B1 & _). destruct (pos_spec _ J) as (_ & B2 & _).
  assert (Il : In (left_one e) events) by (unfold left_one; destruct (lft e); auto).
  destruct (pos_spec _ Il) as (_ & B3 & _).
  split; [constructor; unfold r', process_contour_event; cbn [are_processed contour_ids from_in_to_out];
    [rewrite !set_nth_len; auto|rewrite set_nth_len; auto|destruct (lft e); rewrite set_nth_len; auto]|].
  split; [|split; [|split; [|repeat split]]]; intros y Iy.
  - unfold proc, r', process_contour_event. cbn [are_processed].
    rewrite nth_set by (rewrite set_nth_len, Zp; auto). rewrite nth_set by (rewrite Zp; auto).
    rewrite !pos_eqb by auto. rewrite (Nat.eqb_sym e y), (Nat.eqb_sym (op e) y).
    destruct (y =? e), (y =? op e); rewrite ?orb_true_r, ?orb_false_r; auto.
  - unfold cid, r', process_contour_event. cbn [contour_ids]. fold (left_one e). rewrite nth_set by (rewrite Zc; auto).
    rewrite pos_eqb by auto. rewrite (Nat.eqb_sym _ y). auto.
  - unfold back, r', process_contour_event. cbn [from_in_to_out]. unfold left_one in *.
    destruct (lft e); rewrite nth_set by (rewrite Zb; auto); rewrite pos_eqb by auto; rewrite (Nat.eqb_sym _ y); auto.
Qed.
Lemma mem_cons l x y : mem (x :: l) y = (y =? x) || mem l y.
Proof. reflexivity. Qed.
Lemma mem_app a b y : mem (a ++ b) y = mem a y || mem b y.
Proof. unfold mem. apply existsb_app. Qed.
Lemma mem_false l x : mem l x = false <-> ~ In x l.
Proof. rewrite <- mem_In. destruct (mem l x); split; congruence. Qed.
Lemma process_all k : forall l r, sized r -> (forall x, In x l -> In x events) -> NoDup (pairs l) ->
  (forall x y, In x l -> In y l -> x <> op y) ->
  let r' := fold_left (process_contour_event s events k) l r in
  sized r' /\ (forall y, In y events -> proc r' y = proc r y || mem (pairs l) y)
  /\ (forall y, In y events -> cid r' y = if lft y && mem (pairs l) y then Some k else cid r y)
  /\ (forall y, In y events -> back r' y = if lft y && mem (pairs l) y then mem l (op y) else back r y)
  /\ are_internal r' = are_internal r /\ depths r' = depths r /\ hole_ids r' = hole_ids r /\ parents r' = parents r /\ contours r' = contours r.
Proof.
  induction l as [|e l IH]; intros r Z In_ Nd Ow r'.
  - subst r'. cbn [fold_left pairs flat_map]. repeat split; try apply Z; intros y Iy; cbn [mem existsb]; rewrite ?orb_false_r, ?andb_false_r; auto.
  - assert (Ie : In e events) by (apply In_; left; auto). pose proof (ev_op eps hg sl s L events D e Ie) as Je.
    pose proof (ev_op_op eps hg sl s L events D e Ie) as Oe.
    destruct (process_one k r e Z Ie) as (Z1 & P1 & C1 & B1 & F1 & F2 & F3 & F4 & F5).
    assert (Nl : ~ In e (pairs l) /\ ~ In (op e) (pairs l)).
    { cbn [pairs flat_map app] in Nd. inversion Nd as [|? ? A1 A2]; subst. inversion A2 as [|? ? A3 A4]; subst. split; auto.
      intros Q. apply A1. right. auto. }
    assert (Nd' : NoDup (pairs l)).
    { cbn [pairs flat_map app] in Nd. inversion Nd as [|? ? A1 A2]; subst. inversion A2 as [|? ? A3 A4]; subst. auto. }
    destruct (IH (process_contour_event s events k r e) Z1) as (Z2 & P2 & C2 & B2 & E1 & E2 & E3 & E4 & E5); auto.
    { intros x I. apply In_. right. auto. }
    { intros x y I J. apply Ow; right; auto. }
    cbn [fold_left] in r'. fold r' in Z2, P2, C2, B2, E1, E2, E3, E4, E5.
    assert (Lo : left_one e = e /\ lft e = true \/ left_one e = op e /\ lft e = false /\ lft (op e) = true).
    { unfold left_one. destruct (lft e) eqn:Q; auto. right. split; auto. split; auto.
      apply (dr_op _ _ _ _ _ _ D). apply (ev_right eps hg sl s L events D); auto. }
    assert (Ro : lft e = true -> lft (op e) = false).
    { intros Q. apply (dr_op _ _ _ _ _ _ D). apply (ev_left eps hg sl s L events D); auto. }
    assert (Pc : forall y, mem (pairs (e :: l)) y = (y =? e) || (y =? op e) || mem (pairs l) y).
    { intros y. change (pairs (e :: l)) with (e :: op e :: pairs l). rewrite !mem_cons, orb_assoc. auto. }
    assert (M1 : mem (pairs l) e = false) by (apply mem_false, Nl). assert (M2 : mem (pairs l) (op e) = false) by (apply mem_false, Nl).
    assert (Ml : forall y, mem (pairs l) y = false -> mem l y = false).
    { intros y Q. apply mem_false. apply mem_false in Q. intros I. apply Q, pairs_In. exists y. auto. }
    assert (Ml' : forall y, In y events -> mem (pairs l) y = false -> mem l (op y) = false).
    { intros y Iy Q. apply mem_false. apply mem_false in Q. intros I. apply Q, pairs_In. exists (op y). split; auto. right.
      rewrite (ev_op_op eps hg sl s L events D y Iy). auto. }
    split; auto. split; [|split; [|split; [|repeat split; congruence]]]; intros y Iy.
    + rewrite P2, P1, Pc by auto. destruct (proc r y), (y =? e), (y =? op e); auto.
    + rewrite C2, C1, Pc by auto. destruct Lo as [[-> Le]|(-> & Le & Lo)].
      * specialize (Ro Le). destruct (Nat.eqb_spec y e) as [->|N1]; [rewrite M1, Le; auto|].
        destruct (Nat.eqb_spec y (op e)) as [->|N2]; [rewrite M2, Ro; auto|]. cbn [orb]. auto.
      * destruct (Nat.eqb_spec y (op e)) as [->|N2]; [rewrite M2, Lo, orb_true_r; auto|].
        destruct (Nat.eqb_spec y e) as [->|N1]; [rewrite M1, Le; auto|]. cbn [orb]. auto.
    + rewrite B2, B1, Pc by auto. rewrite mem_cons. destruct Lo as [[-> Le]|(-> & Le & Lo)].
      * specialize (Ro Le). destruct (Nat.eqb_spec y e) as [->|N1].
        -- rewrite M1, Le. cbn [orb andb negb]. rewrite (Ml' e Ie M1), orb_false_r. symmetry. apply Nat.eqb_neq.
           intros Q. apply (Ow e e); auto; [left; auto|left; auto].
        -- destruct (Nat.eqb_spec y (op e)) as [->|N2]; [rewrite M2, Ro; auto|]. cbn [orb].
           destruct (Nat.eqb_spec (op y) e) as [Q|Q]; cbn [orb]; auto. exfalso. apply N2. rewrite <- Q. symmetry. apply (ev_op_op eps hg sl s L events D); auto.
      * destruct (Nat.eqb_spec y (op e)) as [->|N2].
        -- rewrite M2, Lo, Le, Oe. cbn [orb andb negb]. rewrite orb_true_r, Nat.eqb_refl. auto.
        -- destruct (Nat.eqb_spec y e) as [->|N1]; [rewrite M1, Le; auto|]. cbn [orb].
           destruct (Nat.eqb_spec (op y) e) as [Q|Q]; cbn [orb]; auto. exfalso. apply N2. rewrite <- Q. symmetry. apply (ev_op_op eps hg sl s L events D); auto.
Qed.

(** ** Borders and holes *)
Record forest (r : reduction) (m : nat) : Prop := {
  fo_li : length (are_internal r) = m; fo_ld : length (depths r) = m; fo_lh : length (hole_ids r) = m; fo_lp : length (parents r) = m;
  fo_top : forall k, k < m -> nth k (are_internal r) false = false -> nth k (parents r) None = None /\ nth k (depths r) O = O;
  fo_inner : forall k, k < m -> nth k (are_internal r) false = true ->
    exists p, p < k /\ nth k (parents r) None = Some p /\ nth p (are_internal r) false = false /\ nth k (depths r) O = 1;
  fo_holes : forall p, p < m -> NoDup (nth p (hole_ids r) []) /\
    forall k, In k (nth p (hole_ids r) []) <-> k < m /\ nth k (parents r) None = Some p }.

Definition same_rest (r r' : reduction) : Prop :=
  are_processed r' = are_processed r /\ from_in_to_out r' = from_in_to_out r /\ contour_ids r' = contour_ids r /\ contours r' = contours r.
Definition with_top (r : reduction) : reduction :=
  Reduction (are_processed r) (from_in_to_out r) (contour_ids r) (are_internal r ++ [false]) (depths r ++ [O]) (hole_ids r ++ [[]]) (parents r ++ [None]) (contours r).
Definition with_hole (r : reduction) (p : nat) (k d : nat) : reduction :=
  Reduction (are_processed r) (from_in_to_out r) (contour_ids r) (are_internal r ++ [true]) (depths r ++ [d])
    (set_nth (hole_ids r) p (nth p (hole_ids r) [] ++ [k]) ++ [[]]) (parents r ++ [Some p]) (contours r).
Lemma nth_snoc_gen {T} (l : list T) x d k : nth k (l ++ [x]) d = if k <? length l then nth k l d else if k =? length l then x else d.
Proof.
  destruct (Nat.ltb_spec k (length l)); [apply app_nth1; auto|]. rewrite app_nth2 by auto. destruct (Nat.eqb_spec k (length l)) as [->|Ne].
  - rewrite Nat.sub_diag. auto.
  - destruct (k - length l) as [|j] eqn:E; [lia|]. cbn. destruct j; auto.
Qed.
Lemma forest_top r m : forest r m -> forest (with_top r) (S m).
Proof.
  intros [Li Ld Lh Lp Ft Fi Fh].
  assert (NI : forall k, k < m -> nth k (are_internal (with_top r)) false = nth k (are_internal r) false).
  { intros k Q. cbn. rewrite app_nth1 by lia. auto. }
  constructor; cbn [with_top are_internal depths hole_ids parents]; try (rewrite app_length; cbn; lia).
  - intros k Lk I. rewrite !nth_snoc_gen, ?Lp, ?Ld, ?Li in *. destruct (Nat.ltb_spec k m).
    + apply Ft; auto.
    + destruct (k =? m); auto.
  - intros k Lk I. rewrite nth_snoc_gen, Li in I. destruct (Nat.ltb_spec k m); [|destruct (k =? m); discriminate].
    destruct (Fi k H I) as (p & A & B & C & E). exists p. split; auto. rewrite !nth_snoc_gen, Lp, Ld, Li.
    destruct (Nat.ltb_spec k m), (Nat.ltb_spec p m); try lia. auto.
  - intros p Q. rewrite nth_snoc_gen, Lh. destruct (Nat.ltb_spec p m).
    + destruct (Fh p H) as [F1 F2]. split; auto. intros k. rewrite F2. rewrite nth_snoc_gen, Lp. destruct (Nat.ltb_spec k m).
      * split; intros [A B]; split; auto; lia.
      * split; [lia|]. destruct (k =? m); intros [_ B]; discriminate.
    + assert (E : (if p =? m then [] else []) = @nil nat) by (destruct (p =? m); auto). rewrite E. split; [constructor|].
      intros k. split; [intros []|]. rewrite nth_snoc_gen, Lp. intros [A B]. destruct (Nat.ltb_spec k m).
      * exfalso. destruct (nth k (are_internal r) false) eqn:I.
        -- destruct (Fi k H0 I) as (p' & A1 & A2 & _). rewrite A2 in B. injection B as ->. lia.
        -- destruct (Ft k H0 I) as [A2 _]. congruence.
      * destruct (k =? m); discriminate.
Qed.
Lemma forest_hole r m p : forest r m -> p < m -> nth p (are_internal r) false = false -> forest (with_hole r p m 1) (S m).
Proof.
  intros [Li Ld Lh Lp Ft Fi Fh] Pm Ip.
  assert (Par : forall k p', k < m -> nth k (parents r) None = Some p' -> p' < k).
  { intros k p' Lk B. destruct (nth k (are_internal r) false) eqn:I.
    - destruct (Fi k Lk I) as (p'' & A1 & A2 & _). congruence.
    - destruct (Ft k Lk I) as [A2 _]. congruence. }
  constructor; cbn [with_hole are_internal depths hole_ids parents]; try (rewrite app_length, ?set_nth_len; cbn; lia).
  - intros k Lk I. rewrite !nth_snoc_gen, ?Lp, ?Ld, ?Li in *. destruct (Nat.ltb_spec k m).
    + apply Ft; auto.
    + destruct (Nat.eqb_spec k m); [discriminate|auto].
  - intros k Lk I. rewrite nth_snoc_gen, Li in I. destruct (Nat.ltb_spec k m).
    + destruct (Fi k H I) as (p' & A & B & C & E). exists p'. split; auto. rewrite !nth_snoc_gen, Lp, Ld, Li.
      destruct (Nat.ltb_spec k m), (Nat.ltb_spec p' m); try lia. auto.
    + assert (k = m) by lia. subst k. exists p. split; auto. rewrite !nth_snoc_gen, Lp, Ld, Li.
      destruct (Nat.ltb_spec m m), (Nat.ltb_spec p m); try lia. rewrite Nat.eqb_refl. auto.
  - intros q Q. rewrite nth_snoc_gen, set_nth_len, Lh. destruct (Nat.ltb_spec q m).
    + rewrite nth_set by lia. destruct (Fh q H) as [F1 F2]. destruct (Nat.eqb_spec p q) as [<-|Ne].
      * split.
        -- apply (NoDup_app_intro (nth p (hole_ids r) []) [m]); auto; [constructor; [intros []|constructor]|].
           intros x Ix [<-|[]]. apply F2 in Ix. lia.
        -- intros k. rewrite in_app_iff, F2, nth_snoc_gen, Lp. cbn [In]. destruct (Nat.ltb_spec k m).
           ++ split; [intros [[A B]|[A|[]]]; [split; auto|lia]|intros [A B]; auto].
           ++ destruct (Nat.eqb_spec k m) as [->|Nk]; [split; auto; intros _; auto|].
              split; [intros [[A _]|[A|[]]]; lia|intros [A B]; lia].
      * split; auto. intros k. rewrite F2, nth_snoc_gen, Lp. destruct (Nat.ltb_spec k m).
        -- split; intros [A B]; split; auto; lia.
        -- destruct (Nat.eqb_spec k m) as [->|Nk]; split; intros [A B]; try lia. congruence.
    + assert (E : (if q =? m then [] else []) = @nil nat) by (destruct (q =? m); auto). rewrite E. split; [constructor|].
      intros k. split; [intros []|]. rewrite nth_snoc_gen, Lp. intros [A B]. destruct (Nat.ltb_spec k m).
      * apply Par in B; auto. lia.
      * destruct (k =? m); [injection B as ->; lia|discriminate].
Qed.
Lemma relations r e m : forest r m -> length (contours r) = m ->
  (forall b, below_result s e = Some b -> In b events /\ exists k, cid r b = Some k /\ k < m) ->
  exists r', compute_relations s events r e m = Some r'
    /\ forest r' (S m) /\ same_rest r r'
    /\ (forall k, k < m -> nth k (are_internal r') false = nth k (are_internal r) false).
Proof.
  intros F Lm B. unfold compute_relations.
  assert (Tp : exists r', Some (with_top r) = Some r' /\ forest r' (S m) /\ same_rest r r' /\ (forall k, k < m -> nth k (are_internal r') false = nth k (are_internal r) false)).
  { exists (with_top r). split; auto. split; [apply forest_top; auto|]. split; [repeat split|]. intros k Q. cbn. rewrite app_nth1 by (rewrite (fo_li _ _ F); auto). auto. }
  assert (Hl : forall p, p < m -> nth p (are_internal r) false = false -> exists r', Some (with_hole r p m 1) = Some r' /\ forest r' (S m) /\ same_rest r r' /\ (forall k, k < m -> nth k (are_internal r') false = nth k (are_internal r) false)).
  { intros p P I. exists (with_hole r p m 1). split; auto. split; [apply forest_hole; auto|]. split; [repeat split|]. intros k Q. cbn. rewrite app_nth1 by (rewrite (fo_li _ _ F); auto). auto. }
  destruct (below_result s e) as [b|]; [|exact Tp].
  destruct (B b eq_refl) as (Ib & k & Ck & Lk). destruct (pos_spec b Ib) as (-> & _). fold (cid r b). rewrite Ck. fold (back r b).
  destruct (nth k (are_internal r) false) eqn:I.
  - destruct (fo_inner _ _ F k Lk I) as (p & P1 & P2 & P3 & P4). destruct (back r b); cbn [negb].
    + rewrite P2, P4. apply Hl; auto. lia.
    + exact Tp.
  - destruct (fo_top _ _ F k Lk I) as (T1 & T2). destruct (back r b); cbn [negb].
    + exact Tp.
    + rewrite T2. apply Hl; auto.
Qed.
End Reduce.
