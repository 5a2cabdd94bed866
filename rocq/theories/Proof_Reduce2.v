(** The reduction of the events of a drawing, part 2: the loop over the events and the polygons. *)
From Coq Require Import QArith Qcanon Bool List Arith Lia Permutation Sorted.
From Verif Require Import QcTac Model_Base Model_Utils Model_Linear Model_Geometry Model_Contour Model_Shaped Spec_Base Spec_Contour Proof_Base Proof_Mesh Proof_Parity
  Proof_Ring Proof_Loop Proof_Corner Proof_Corner2 Proof_Connect Proof_Draw Proof_Shrink Proof_Reduce.
Import ListNotations.
Local Close Scope Qc_scope.
Local Open Scope nat_scope.

Section Reduce.
Variables (eps : Qc) (hg : event -> Qc -> Qc) (sl : event -> Qc).
Variable s : shaped_operation.
Variables (L events : list event).
Hypothesis D : drawing eps hg sl s L events.
Notation o := (so s). Notation op := (to_opposite_event o). Notation at_ := (to_event_start o).
Notation lft := is_event_left. Notation X := (Xe eps). Notation n := (length events).
Notation ring := (ring s events). Notation earlier := (earlier eps sl s).
Notation conn := (conn s events). Notation pairs := (pairs s). Notation cycle := (cycle eps s events).
Notation pos := (index_in events). Notation proc := (proc events). Notation cid := (cid events). Notation back := (back events).
Notation sized := (sized events).
Let eop := ev_op eps hg sl s L events D.
Let eopop := ev_op_op eps hg sl s L events D.

Lemma earlier_irrefl x : ~ earlier x x.
Proof. intros [Q|[_ [[A B]|[_ Q]]]]; [qlra|congruence|destruct (lft x); qlra]. Qed.
Lemma earlier_asym x y : earlier x y -> earlier y x -> False.
Proof.
  intros [Q|[Q [[A B]|[A Q']]]] [P|[P [[A' B']|[A' P']]]]; try qlra; try congruence.
  rewrite <- A in P'. destruct (lft x); qlra.
Qed.
Lemma earlier_le x y : earlier x y -> (X (at_ x) <= X (at_ y))%Qc.
Proof. intros [Q|[Q _]]; [qlra|rewrite Q; apply Qcle_refl]. Qed.

(** ** One contour *)
Definition outline_of (l : list event) : list point := map at_ l.
Lemma vertices_of l : cycle l -> at_ (hd O l) :: map (to_event_end o) (removelast l) = outline_of l.
Proof.
  intros C. pose proof (cy_step _ _ _ _ C) as St. destruct l as [|x l]; [destruct (cy_ne _ _ _ _ C); auto|].
  unfold outline_of. cbn [hd map]. f_equal. clear C. revert x St. induction l as [|y l IH]; intros x St; auto.
  change (removelast (x :: y :: l)) with (x :: removelast (y :: l)). cbn [map]. f_equal.
  - symmetry. apply (St 0). cbn; lia.
  - apply IH. intros a La. apply (St (S a)). cbn in *. lia.
Qed.
Lemma cycle_three l : cycle l -> 3 <= length l.
Proof.
  intros C. pose proof (cy_ne _ _ _ _ C) as Ne. pose proof (cy_close _ _ _ _ C) as Cl. pose proof (cy_step _ _ _ _ C) as St.
  pose proof (cy_in _ _ _ _ C) as In_. pose proof (cy_one_way _ _ _ _ C) as Ow. pose proof (cy_pairs _ _ _ _ C) as Nd.
  destruct l as [|x [|y [|z l]]]; [congruence| | |cbn; lia]; exfalso.
  - cbn in Cl. apply (ev_apart eps hg sl s L events D x); [apply In_; left; auto|]. auto.
  - cbn in Cl. specialize (St 0 ltac:(cbn; lia)). cbn in St.
    assert (Ix : In x events) by (apply In_; left; auto). assert (Iy : In y events) by (apply In_; right; left; auto).
    set (a := left_one s x). set (b := left_one s y).
    assert (Ia : In a L /\ (at_ a = at_ x /\ at_ (op a) = at_ y \/ at_ a = at_ y /\ at_ (op a) = at_ x)).
    { unfold a, left_one. destruct (lft x) eqn:Q.
      - split; [apply (ev_left eps hg sl s L events D); auto|]. left. auto.
      - split; [apply (ev_right eps hg sl s L events D); auto|]. right. rewrite eopop by auto. auto. }
    assert (Ib : In b L /\ (at_ b = at_ x /\ at_ (op b) = at_ y \/ at_ b = at_ y /\ at_ (op b) = at_ x)).
    { unfold b, left_one. destruct (lft y) eqn:Q.
      - split; [apply (ev_left eps hg sl s L events D); auto|]. right. auto.
      - split; [apply (ev_right eps hg sl s L events D); auto|]. left. rewrite eopop by auto. auto. }
    destruct Ia as [Ia Ea], Ib as [Ib Eb].
    assert (Nab : a <> b).
    { intros Q. cbn [Proof_Reduce.pairs flat_map app] in Nd. inversion Nd as [|? ? N1 N2]. inversion N2 as [|? ? N3 N4].
      unfold a, b, left_one in Q. destruct (lft x), (lft y).
      - apply N1. right. left. auto.
      - apply N1. right. right. left. auto.
      - apply N3. left. auto.
      - apply N3. right. left. auto. }
    pose proof (dr_lt _ _ _ _ _ _ D a Ia) as La. pose proof (dr_lt _ _ _ _ _ _ D b Ib) as Lb.
    assert (Eq : at_ a = at_ b /\ at_ (op a) = at_ (op b)).
    { destruct Ea as [[A1 A2]|[A1 A2]], Eb as [[B1 B2]|[B1 B2]]; rewrite A1, A2, B1, B2 in *; auto; exfalso; qlra. }
    destruct Eq as [E1 E2]. destruct (qmid _ _ La) as (m & M1 & M2).
    assert (Sl : sl a = sl b -> False).
    { intros Q. destruct (dr_meet _ _ _ _ _ _ D a b m) as [[W|W] _]; auto; try (rewrite <- ?E1, <- ?E2; qlra); try (rewrite W in *; qlra); try qlra.
      pose proof (dr_aff _ _ _ _ _ _ D a m (X (at_ a))) as P1. pose proof (dr_aff _ _ _ _ _ _ D b m (X (at_ a))) as P2.
      rewrite (dr_A _ _ _ _ _ _ D a Ia) in P1. rewrite E1 in P2 at 1. rewrite (dr_A _ _ _ _ _ _ D b Ib) in P2. rewrite <- E1, <- Q in P2. qlra. }
    apply Sl.
    pose proof (dr_aff _ _ _ _ _ _ D a (X (at_ (op a))) (X (at_ a))) as P1. pose proof (dr_aff _ _ _ _ _ _ D b (X (at_ (op b))) (X (at_ b))) as P2.
    rewrite (dr_A _ _ _ _ _ _ D a Ia), (dr_B _ _ _ _ _ _ D a Ia) in P1. rewrite (dr_A _ _ _ _ _ _ D b Ib), (dr_B _ _ _ _ _ _ D b Ib) in P2.
    rewrite <- E1, <- E2 in P2.
    assert (Z : ((sl a - sl b) * (X (at_ (op a)) - X (at_ a)) = 0)%Qc).
    { replace ((sl a - sl b) * (X (at_ (op a)) - X (at_ a)))%Qc with (sl a * (X (at_ (op a)) - X (at_ a)) - sl b * (X (at_ (op a)) - X (at_ a)))%Qc by ring. qlra. }
    apply Qcmult_integral in Z. destruct Z; qlra.
Qed.
(** The corner at the first vertex. *)
Lemma cycle_corner l : cycle l -> area2 (at_ (nth (length l - 1) l O)) (at_ (nth O l O)) (at_ (nth 1 l O)) <> 0%Qc.
Proof.
  intros C Z. pose proof (cycle_three l C) as L3. pose proof (cy_close _ _ _ _ C) as Cl. pose proof (cy_step _ _ _ _ C 0 ltac:(lia)) as St.
  pose proof (cy_in _ _ _ _ C) as In_. pose proof (cy_least _ _ _ _ C) as Le.
  set (x := nth O l O) in *. set (y := nth (length l - 1) l O) in *. set (w := nth 1 l O) in *.
  assert (Ix : In x l) by (apply nth_In; lia). assert (Iy : In y l) by (apply nth_In; lia). assert (Iw : In w l) by (apply nth_In; lia).
  assert (Lx : lft x = true).
  { destruct (lft x) eqn:Q; auto. pose proof (ev_right eps hg sl s L events D x (In_ x Ix) Q) as I. pose proof (dr_lt _ _ _ _ _ _ D _ I) as Q2.
    rewrite eopop in Q2 by auto. rewrite <- St in Q2. specialize (Le w Iw). qlra. }
  assert (Ly : lft y = false).
  { destruct (lft y) eqn:Q; auto. pose proof (ev_left eps hg sl s L events D y (In_ y Iy) Q) as I. pose proof (dr_lt _ _ _ _ _ _ D _ I) as Q2.
    rewrite Cl in Q2. specialize (Le y Iy). qlra. }
  pose proof (ev_left eps hg sl s L events D x (In_ x Ix) Lx) as Jx. pose proof (ev_right eps hg sl s L events D y (In_ y Iy) Ly) as Jy.
  assert (Ne : x <> op y) by (apply (cy_one_way _ _ _ _ C); auto).
  pose proof (eopop y (In_ y Iy)) as Oy.
  apply (slopes_start L at_ (fun l => at_ (op l)) X hg sl (dr_lt _ _ _ _ _ _ D) (dr_aff _ _ _ _ _ _ D) (dr_A _ _ _ _ _ _ D) (dr_meet _ _ _ _ _ _ D) x (op y) Jx Jy Ne); [congruence|].
  pose proof (dr_lt _ _ _ _ _ _ D x Jx) as Lt1. pose proof (dr_lt _ _ _ _ _ _ D (op y) Jy) as Lt2.
  pose proof (dr_aff _ _ _ _ _ _ D x (X (at_ (op x))) (X (at_ x))) as P1. pose proof (dr_aff _ _ _ _ _ _ D (op y) (X (at_ (op (op y)))) (X (at_ (op y)))) as P2.
  rewrite (dr_A _ _ _ _ _ _ D x Jx), (dr_B _ _ _ _ _ _ D x Jx) in P1. rewrite (dr_A _ _ _ _ _ _ D _ Jy), (dr_B _ _ _ _ _ _ D _ Jy) in P2.
  rewrite Oy in *. rewrite Cl in *. rewrite <- St in *.
  set (a := at_ y) in *. set (b := at_ x) in *. set (c := at_ w) in *. clearbody a b c.
  assert (Sh : area2 a b c = ((X b - X a) * (py c - py a) - (py b - py a) * (X c - X a))%Qc) by (unfold area2, Xe; ring).
  rewrite Sh in Z. clear Sh.
  set (u := (X c - X b)%Qc) in *. set (v := (X a - X b)%Qc) in *.
  assert (Z2 : ((sl x - sl (op y)) * (u * v) = 0)%Qc).
  { replace ((sl x - sl (op y)) * (u * v))%Qc with ((sl x * u) * v - (sl (op y) * v) * u)%Qc by ring. rewrite <- P1, <- P2. unfold u, v.
    replace ((py c - py b) * (X a - X b) - (py a - py b) * (X c - X b))%Qc
      with (- ((X b - X a) * (py c - py a) - (py b - py a) * (X c - X a)))%Qc by ring. rewrite Z. ring. }
  apply Qcmult_integral in Z2. destruct Z2 as [Z2|Z2]; [qlra|]. apply Qcmult_integral in Z2. unfold u, v in Z2. destruct Z2; qlra.
Qed.
Lemma last_map_nth l y : last (map at_ l) (at_ y) = at_ (nth (length l) (y :: l) O).
Proof.
  revert y. induction l as [|z l IH]; intros y; auto. cbn [map length]. change (nth (S (length l)) (y :: z :: l) O) with (nth (length l) (z :: l) O).
  rewrite <- IH. destruct l as [|w l]; auto. cbn [map]. cbn [last].
  assert (Q : forall (m : list point) a b c, last (c :: m) a = last (c :: m) b).
  { induction m as [|d m IHm]; intros a b c; auto. cbn [last] in *. destruct m; auto. }
  apply (Q (map at_ l)).
Qed.
Lemma cycle_nondegenerate l : cycle l -> nondegenerate (shrink_collinear_vertices (outline_of l)).
Proof.
  intros C. pose proof (cycle_three l C) as L3. pose proof (cycle_corner l C) as Co. pose proof (cy_nd _ _ _ _ C) as Nd.
  destruct l as [|x [|y l]]; [cbn in L3; lia|cbn in L3; lia|]. unfold outline_of. cbn [map].
  apply shrink_nondegenerate; auto. cbn [nth] in Co. replace (length (x :: y :: l) - 1) with (S (length l)) in Co by (cbn; lia). cbn [nth] in Co.
  rewrite last_map_nth. exact Co.
Qed.

(** ** The loop *)
Definition final (b : bool) (l : list event) : list point :=
  let vs := shrink_collinear_vertices (outline_of l) in if b then rotate_sequence vs else vs.
Notation sd := (side at_ ring (lev eps hg s L)).
Record state (r : reduction) (done : list event) (cs : list (list event)) : Prop := {
  st_sized : sized r;
  st_forest : forest r (length cs);
  st_len : length (contours r) = length cs;
  st_proc : forall y, In y events -> proc r y = mem (flat_map pairs cs) y;
  st_done : forall y, In y done -> proc r y = true;
  st_cycles : forall l, In l cs -> cycle l;
  st_nd : NoDup (flat_map pairs cs);
  st_cid : forall y, In y events -> lft y = true -> proc r y = true ->
    exists k l, nth_error cs k = Some l /\ In y (pairs l) /\ cid r y = Some k /\ back r y = mem l (op y);
  st_contours : forall k l, nth_error cs k = Some l -> nth k (contours r) [] = final (nth k (are_internal r) false) l;
  (** A contour is on one side of what is left when it is found, in particular of the later ones. *)
  st_sides : forall l C, In l cs -> closed events op C -> even ring C -> inside events C ->
    (forall z, C z = true -> In z events /\ proc r z = false) -> forall x y, In x l -> In y l -> sd C x = sd C y;
  st_apart : forall i j l1 l2, i < j -> nth_error cs i = Some l1 -> nth_error cs j = Some l2 ->
    forall x y, In x l1 -> In y l1 -> sd (mem (pairs l2)) x = sd (mem (pairs l2)) y }.

Lemma xsum_mem_app a b (l : list event) : NoDup (a ++ b) -> xsum (mem (a ++ b)) l = xorb (xsum (mem a) l) (xsum (mem b) l).
Proof.
  intros Nd. rewrite <- xsum_xor. apply xsum_ext. intros x _. rewrite mem_app. destruct (mem a x) eqn:Ma, (mem b x) eqn:Mb; auto.
  exfalso. apply mem_In in Ma. apply mem_In in Mb. clear - Nd Ma Mb. induction a as [|y a IH]; [destruct Ma|].
  cbn in Nd. inversion Nd; subst. destruct Ma as [->|Ma]; auto. apply H1, in_or_app; auto.
Qed.
Lemma cycles_even cs : (forall l, In l cs -> cycle l) -> NoDup (flat_map pairs cs) -> even ring (mem (flat_map pairs cs)).
Proof.
  intros Cy Nd w. induction cs as [|l cs IH]; [apply xsum_false; auto|]. cbn [flat_map] in *.
  rewrite xsum_mem_app by auto. rewrite (cy_even _ _ _ _ (Cy l (or_introl eq_refl))), IH; auto.
  - intros; apply Cy; right; auto.
  - apply NoDup_app_tail in Nd. auto.
Qed.
Lemma pairs_events l x : (forall y, In y l -> In y events) -> In x (pairs l) -> In x events.
Proof. intros A I. apply pairs_In in I. destruct I as (y & I & [-> | ->]); auto. Qed.
Lemma flat_events cs x : (forall l, In l cs -> cycle l) -> In x (flat_map pairs cs) -> In x events.
Proof.
  intros Cy I. apply in_flat_map in I. destruct I as (l & I & J). apply (pairs_events l); auto. apply (cy_in _ _ _ _ (Cy l I)).
Qed.
Lemma pairs_op l x : (forall y, In y l -> In y events) -> In x (pairs l) -> In (op x) (pairs l).
Proof.
  intros A I. apply pairs_In in I. destruct I as (y & I & [-> | ->]); apply pairs_In; exists y; split; auto.
Qed.
Lemma pairs_closed l : (forall y, In y l -> In y events) -> closed events op (mem (pairs l)).
Proof.
  intros A x I. assert (Q : forall y, In y events -> mem (pairs l) y = true -> mem (pairs l) (op y) = true).
  { intros y Iy M. apply mem_In in M. apply mem_In. apply pairs_op; auto. }
  destruct (mem (pairs l) x) eqn:M1; [apply Q; auto|]. destruct (mem (pairs l) (op x)) eqn:M2; auto.
  apply Q in M2; auto. rewrite eopop in M2 by auto. congruence.
Qed.
Lemma free_state r done cs x : state r done cs -> free events (are_processed r) x = mem events x && negb (mem (flat_map pairs cs) x).
Proof.
  intros St. rewrite free_proc. destruct (mem events x) eqn:M; auto. cbn [andb]. apply mem_In in M. rewrite (st_proc _ _ _ St) by auto. auto.
Qed.
Lemma free_closed r done cs : state r done cs -> closed events op (free events (are_processed r)).
Proof.
  intros St x I. rewrite !(free_state _ _ _ _ St). rewrite (proj2 (mem_In events x) I), (proj2 (mem_In events (op x)) (eop x I)). cbn [andb]. f_equal.
  assert (Q : forall y, In y events -> mem (flat_map pairs cs) y = true -> mem (flat_map pairs cs) (op y) = true).
  { intros y Iy M. apply mem_In in M. apply mem_In. apply in_flat_map in M. destruct M as (l & Il & J). apply in_flat_map. exists l. split; auto.
    apply pairs_op; auto. apply (cy_in _ _ _ _ (st_cycles _ _ _ St l Il)). }
  destruct (mem (flat_map pairs cs) x) eqn:M1; [apply Q; auto|]. destruct (mem (flat_map pairs cs) (op x)) eqn:M2; auto.
  apply Q in M2; auto. rewrite eopop in M2 by auto. congruence.
Qed.
Lemma free_even r done cs : state r done cs -> even ring (free events (are_processed r)).
Proof.
  intros St w. rewrite (xsum_ext _ (fun x => xorb (mem events x) (mem (flat_map pairs cs) x))).
  - rewrite xsum_xor. etransitivity; [apply f_equal2; [exact (all_even eps hg sl s L events D w)|exact (cycles_even cs (st_cycles _ _ _ St) (st_nd _ _ _ St) w)]|reflexivity].
  - intros x I. apply ring_in in I. rewrite (free_state _ _ _ _ St). rewrite (proj2 (mem_In events x)) by apply I. destruct (mem (flat_map pairs cs) x); auto.
Qed.

Lemma loop_step r done e rest cs : events = done ++ e :: rest -> state r done cs ->
  exists r' cs', reduce_event s events conn r (length done) e = Some r' /\ state r' (done ++ [e]) cs'.
Proof.
  intros Ee St. pose proof (dr_Nd _ _ _ _ _ _ D) as NdE. pose proof (dr_sorted _ _ _ _ _ _ D) as So.
  assert (Ie : In e events) by (rewrite Ee; apply in_or_app; right; left; auto).
  assert (Pe : pos e = length done).
  { destruct (pos_spec events e Ie) as (_ & A & B). rewrite NoDup_nth in NdE. apply (NdE (pos e) (length done)); auto.
    - rewrite Ee, app_length. cbn. lia.
    - rewrite B. rewrite Ee, app_nth2, Nat.sub_diag by lia. auto. }
  unfold reduce_event. rewrite <- Pe. change (nth (pos e) (are_processed r) false) with (proc r e).
  destruct (proc r e) eqn:Pr.
  { exists r, cs. split; auto. destruct St. constructor; auto. intros y I. apply in_app_or in I. destruct I as [I|[<-|[]]]; auto. }
  set (U := free events (are_processed r)).
  assert (U0 : U e = true).
  { unfold U. rewrite free_proc, Pr. rewrite (proj2 (mem_In events e) Ie). auto. }
  assert (Late : forall x, U x = true -> x = e \/ earlier e x).
  { intros x Ux. unfold U in Ux. rewrite free_proc in Ux. apply andb_true_iff in Ux. destruct Ux as [Ux1 Ux2]. apply mem_In in Ux1. apply negb_true_iff in Ux2.
    rewrite Ee in Ux1. apply in_app_or in Ux1. destruct Ux1 as [Q|[Q|Q]]; auto.
    - rewrite (st_done _ _ _ St x Q) in Ux2. discriminate.
    - right. rewrite Ee in So. apply StronglySorted_split in So. apply So; auto. }
  assert (LateX : forall x, U x = true -> (X (at_ e) <= X (at_ x))%Qc).
  { intros x Ux. destruct (Late x Ux) as [->|Q]; [apply Qcle_refl|apply earlier_le; auto]. }
  assert (Lfe : lft e = true).
  { destruct (lft e) eqn:Q; auto. pose proof (ev_right eps hg sl s L events D e Ie Q) as I. pose proof (dr_lt _ _ _ _ _ _ D _ I) as Q2.
    rewrite eopop in Q2 by auto. assert (U (op e) = true) by (unfold U; rewrite (free_closed _ _ _ St e Ie); auto).
    specialize (LateX (op e) H). qlra. }
  pose proof (ev_left eps hg sl s L events D e Ie Lfe) as Le.
  rewrite (st_len _ _ _ St).
  destruct (relations s events r e (length cs)) as (r1 & R1 & F1 & (S1 & S2 & S3 & S4) & I1); [apply St|apply St| |].
  { intros b Bb. destruct (dr_below _ _ _ _ _ _ D e b Le Bb) as [Ib Eb].
    assert (Jb : In b events) by (apply (dr_events _ _ _ _ _ _ D); exists b; auto). split; auto.
    assert (Db : In b done).
    { rewrite Ee in Jb. apply in_app_or in Jb. destruct Jb as [|[<-|J]]; auto.
      - destruct (earlier_irrefl _ Eb).
      - exfalso. rewrite Ee in So. apply StronglySorted_split in So. apply (earlier_asym e b); auto. apply So; auto. }
    destruct (st_cid _ _ _ St b Jb) as (k & l & K1 & K2 & K3 & K4).
    - apply (dr_op _ _ _ _ _ _ D); auto.
    - apply (st_done _ _ _ St); auto.
    - exists k. split; auto. apply nth_error_Some. congruence. }
  rewrite R1, S1.
  destruct (contour_found s events conn (are_processed r) ring (lev eps hg s L)
    eop eopop (ring_nd eps hg sl s L events D) (ring_in s events)
    (side_op eps hg sl s L events D) (dr_ids _ _ _ _ _ _ D) (dr_same _ _ _ _ _ _ D)
    (free_closed _ _ _ St) (free_even _ _ _ St) (next_turn eps hg sl s L events D (are_processed r)) e U0)
    as (l & El & Cl & Os).
  rewrite El.
  assert (Hd : nth O l O = e) by apply Cl.
  assert (UI : forall x, U x = true -> In x events).
  { intros x Ux. unfold U in Ux. rewrite free_proc in Ux. apply andb_true_iff in Ux. apply mem_In, Ux. }
  assert (Cy : cycle l).
  { constructor.
    - apply Cl.
    - intros x I. apply UI, Cl. auto.
    - apply Cl.
    - rewrite Hd. apply Cl.
    - apply (NoDup_nth (map at_ l) (at_ O)). rewrite map_length. intros i j Li Lj Q. rewrite !map_nth in Q. apply Cl; auto.
    - apply Cl.
    - apply (contour_list_nd s events (are_processed r) eopop e U0 l Cl).
    - apply (contour_even s events (are_processed r) ring eop eopop (ring_nd eps hg sl s L events D) (ring_in s events) e U0 l Cl).
    - intros x I. rewrite Hd. apply LateX, Cl. auto. }
  assert (Dj : forall x, In x (pairs l) -> proc r x = false /\ In x events).
  { intros x I. apply pairs_In in I. destruct I as (y & I & Q).
    assert (Uy : U y = true) by (apply Cl; auto). pose proof (UI y Uy) as Iy.
    assert (Ux : U x = true).
    { destruct Q as [-> | ->]; auto. unfold U. rewrite (free_closed _ _ _ St y Iy). auto. }
    split; [|apply UI; auto]. unfold U in Ux. rewrite free_proc in Ux. apply andb_true_iff in Ux. destruct Ux as [_ Ux]. apply negb_true_iff in Ux. auto. }
  assert (Z1 : sized r1) by (destruct (st_sized _ _ _ St); constructor; congruence).
  destruct (process_all eps hg sl s L events D (length cs) l r1 Z1 (cy_in _ _ _ _ Cy) (cy_pairs _ _ _ _ Cy) (cy_one_way _ _ _ _ Cy))
    as (Z2 & P2 & C2 & B2 & E1 & E2 & E3 & E4 & E5).
  set (r2 := fold_left (process_contour_event s events (length cs)) l r1) in *.
  unfold contour_events_to_vertices. rewrite (vertices_of l Cy).
  assert (Len : length (outline_of l) = length l) by apply map_length. pose proof (cycle_three l Cy) as L3.
  destruct (Nat.ltb_spec (length (outline_of l)) 3) as [Q|_]; [lia|].
  assert (Dep : Nat.odd (nth (length cs) (depths r2) O) = nth (length cs) (are_internal r2) false).
  { rewrite E2, E1. destruct (nth (length cs) (are_internal r1) false) eqn:Q.
    - destruct (fo_inner _ _ F1 (length cs) ltac:(lia) Q) as (p & _ & _ & _ & ->). auto.
    - destruct (fo_top _ _ F1 (length cs) ltac:(lia) Q) as (_ & ->). auto. }
  rewrite Dep. fold (final (nth (length cs) (are_internal r2) false) l).
  eexists. exists (cs ++ [l]). split; [reflexivity|].
  assert (Fl : flat_map pairs (cs ++ [l]) = flat_map pairs cs ++ pairs l) by (rewrite flat_map_app; cbn [flat_map]; rewrite app_nil_r; auto).
  assert (PR : forall y, proc r1 y = proc r y) by (intros y; unfold Proof_Reduce.proc; rewrite S1; auto).
  assert (CR : forall y, cid r1 y = cid r y) by (intros y; unfold Proof_Reduce.cid; rewrite S3; auto).
  assert (BR : forall y, back r1 y = back r y) by (intros y; unfold Proof_Reduce.back; rewrite S2; auto).
  assert (Pn : forall y, In y events -> proc r2 y = mem (flat_map pairs (cs ++ [l])) y).
  { intros y I. rewrite P2, Fl, mem_app, PR by auto. rewrite (st_proc _ _ _ St) by auto. auto. }
  constructor; cbn [are_processed from_in_to_out contour_ids are_internal depths hole_ids parents contours].
  - destruct Z2. constructor; auto.
  - rewrite app_length. cbn [length]. rewrite Nat.add_1_r. destruct F1. constructor; cbn [are_internal depths hole_ids parents]; rewrite ?E1, ?E2, ?E3, ?E4; auto.
  - rewrite !app_length, E5, S4, (st_len _ _ _ St). auto.
  - intros y I. exact (Pn y I).
  - intros y I. assert (Iy : In y events) by (rewrite Ee; rewrite !in_app_iff in *; cbn in *; tauto). change (proc r2 y = true). rewrite P2, PR by auto.
    apply in_app_or in I. destruct I as [I|[<-|[]]]; [rewrite (st_done _ _ _ St); auto|].
    apply orb_true_iff. right. apply mem_In, pairs_In. exists e. split; auto. rewrite <- Hd at 1. apply nth_In. lia.
  - intros m I. apply in_app_or in I. destruct I as [I|[<-|[]]]; auto. apply (st_cycles _ _ _ St); auto.
  - rewrite Fl. apply NoDup_app_intro; [apply St|apply Cy|]. intros x I J. destruct (Dj x J) as [Q Ix]. rewrite (st_proc _ _ _ St) in Q by auto.
    apply mem_In in I. congruence.
  - intros y I Ly Py. change (proc r2 y = true) in Py. change (exists k l0, nth_error (cs ++ [l]) k = Some l0 /\ In y (pairs l0) /\ cid r2 y = Some k /\ back r2 y = mem l0 (op y)).
    rewrite C2, B2, Ly by auto. cbn [andb]. destruct (mem (pairs l) y) eqn:M.
    + exists (length cs), l. split; [rewrite nth_error_app2, Nat.sub_diag by lia; auto|]. split; [apply mem_In; auto|auto].
    + rewrite P2, M, orb_false_r, PR in Py by auto. destruct (st_cid _ _ _ St y I Ly Py) as (k & l0 & K1 & K2 & K3 & K4).
      exists k, l0. rewrite CR, BR. split; auto. rewrite nth_error_app1; auto. apply nth_error_Some. congruence.
  - intros k m Q. rewrite E5, S4, E1. rewrite nth_snoc_gen, (st_len _ _ _ St). destruct (Nat.ltb_spec k (length cs)) as [Lk|Lk].
    + rewrite nth_error_app1 in Q by auto. rewrite (st_contours _ _ _ St k m Q), I1 by auto. auto.
    + assert (Lk2 : k < length (cs ++ [l])) by (apply nth_error_Some; congruence). rewrite app_length in Lk2. cbn in Lk2. assert (k = length cs) by lia. subst k.
      rewrite Nat.eqb_refl. rewrite nth_error_app2, Nat.sub_diag in Q by auto. cbn in Q. injection Q as <-. auto.
  - intros l0 C I0 K1 K2 K3 K4. change (forall z, C z = true -> In z events /\ proc r2 z = false) in K4.
    assert (K5 : forall z, C z = true -> In z events /\ proc r z = false).
    { intros z Cz. destruct (K4 z Cz) as [Iz Pz]. split; auto. rewrite P2 in Pz by auto. apply orb_false_iff in Pz. rewrite <- PR. apply Pz. }
    apply in_app_or in I0. destruct I0 as [I0|[<-|[]]]; [apply (st_sides _ _ _ St); auto|].
    apply Os; auto. intros z Cz. destruct (K5 z Cz) as [Iz Pz]. rewrite free_proc, Pz. rewrite (proj2 (mem_In events z) Iz). auto.
  - intros i j l1 l2 Lij E1' E2' x y Ix Iy.
    assert (Li : i < length (cs ++ [l])) by (apply nth_error_Some; congruence). assert (Lj : j < length (cs ++ [l])) by (apply nth_error_Some; congruence).
    rewrite app_length in Li, Lj. cbn [length] in Li, Lj. rewrite nth_error_app1 in E1' by lia.
    destruct (Nat.lt_ge_cases j (length cs)) as [Lj'|Lj'].
    + rewrite nth_error_app1 in E2' by auto. apply (st_apart _ _ _ St i j l1 l2); auto.
    + assert (j = length cs) by lia. subst j. rewrite nth_error_app2, Nat.sub_diag in E2' by auto. cbn in E2'. injection E2' as <-.
      apply (st_sides _ _ _ St l1); auto.
      * apply (nth_error_In _ _ E1').
      * apply pairs_closed; auto. apply (cy_in _ _ _ _ Cy).
      * apply Cy.
      * intros z M. apply mem_In in M. apply Dj in M. apply M.
      * intros z M. apply mem_In in M. apply Dj in M. tauto.
Qed.
Lemma loop_all : forall rest r done cs, events = done ++ rest -> state r done cs ->
  exists r' cs', reduce_loop s events conn r (length done) rest = Some r' /\ state r' events cs'.
Proof.
  induction rest as [|e rest IH]; intros r done cs Ee St; cbn [reduce_loop].
  - rewrite app_nil_r in Ee. exists r, cs. split; auto. rewrite Ee. auto.
  - destruct (loop_step r done e rest cs Ee St) as (r' & cs' & -> & St').
    replace (S (length done)) with (length (done ++ [e])) by (rewrite app_length; cbn; lia). apply (IH r' _ cs'); auto. rewrite <- app_assoc. auto.
Qed.
Definition start_state : reduction := Reduction (repeat false n) (repeat false n) (repeat None n) [] [] [] [] [].
Lemma nth_repeat_same {T} (x : T) m k : nth k (repeat x m) x = x.
Proof. revert k. induction m as [|m IH]; intros [|k]; cbn; auto. Qed.
Lemma loop_spec : exists r cs, reduce_loop s events conn start_state O events = Some r /\ state r events cs.
Proof.
  destruct (loop_all events start_state [] []) as (r & cs & A & B); auto; [|exists r, cs; auto].
  constructor; cbn; auto; try (intros; contradiction); try (intros; lia).
  - constructor; cbn; apply repeat_length.
  - constructor; cbn; auto; intros; lia.
  - intros y _. apply nth_repeat_same.
  - constructor.
  - intros y _ _ Q. unfold Proof_Reduce.proc in Q. cbn in Q. rewrite nth_repeat_same in Q. discriminate.
  - intros [|k] l Q; discriminate.
  - intros [|i] j l1 l2 _ Q; discriminate.
Qed.

(** ** The polygons *)
Lemma final_length b l : cycle l -> 3 <= length (final b l).
Proof.
  intros C. destruct (cycle_nondegenerate l C) as [Q _]. unfold final. destruct b; auto. set (vs := shrink_collinear_vertices _) in *.
  unfold rotate_sequence. destruct vs; auto. cbn in *. rewrite rev_length. auto.
Qed.
Lemma all_some_map {T U} (f : T -> option U) (g : T -> U) l : (forall x, In x l -> f x = Some (g x)) -> all_some (map f l) = Some (map g l).
Proof.
  induction l as [|x l IH]; intros A; auto. cbn. rewrite A by (left; auto). rewrite IH; auto. intros; apply A; right; auto.
Qed.
Definition poly_at (r : reduction) (k : nat) : polygon :=
  Poly (nth k (contours r) []) (map (fun i => nth i (contours r) []) (nth k (hole_ids r) [])).
Definition tops (r : reduction) : list nat := filter (fun k => negb (nth k (are_internal r) false)) (seq 0 (length (contours r))).
Lemma polygons_spec r cs : state r events cs ->
  polygons_of r = Some (map (poly_at r) (tops r))
  /\ Permutation (flat_map (fun k => k :: nth k (hole_ids r) []) (tops r)) (seq 0 (length cs)).
Proof.
  intros St. pose proof (st_forest _ _ _ St) as F. pose proof (st_len _ _ _ St) as Ln.
  assert (Co : forall k, k < length cs -> contour_of r k = Some (nth k (contours r) [])).
  { intros k Lk. unfold contour_of, new_contour. destruct (nth_error cs k) as [l|] eqn:E; [|apply nth_error_None in E; lia].
    rewrite (st_contours _ _ _ St k l E). pose proof (final_length (nth k (are_internal r) false) l) as Q.
    destruct (Nat.ltb_spec (length (final (nth k (are_internal r) false) l)) 3) as [W|W]; auto. exfalso.
    assert (cycle l) by (apply (st_cycles _ _ _ St); apply nth_error_In in E; auto). specialize (Q H). lia. }
  assert (Par : forall k p, k < length cs -> nth k (parents r) None = Some p -> nth k (are_internal r) false = true /\ p < k /\ nth p (are_internal r) false = false).
  { intros k p Lk Q. destruct (nth k (are_internal r) false) eqn:I.
    - destruct (fo_inner _ _ F k Lk I) as (p' & A1 & A2 & A3 & _). rewrite A2 in Q. injection Q as ->. auto.
    - destruct (fo_top _ _ F k Lk I) as [A _]. congruence. }
  assert (Hl : forall p k, p < length cs -> In k (nth p (hole_ids r) []) -> k < length cs /\ nth k (parents r) None = Some p).
  { intros p k Lp I. apply (fo_holes _ _ F p Lp). auto. }
  assert (Po : forall k, k < length cs -> polygon_of r k = Some (poly_at r k)).
  { intros k Lk. unfold polygon_of. rewrite Co by auto. rewrite (all_some_map _ (fun i => nth i (contours r) [])); auto.
    intros x I. apply Co. apply (Hl k); auto. }
  assert (T0 : forall k, In k (tops r) <-> k < length cs /\ nth k (are_internal r) false = false).
  { intros k. unfold tops. rewrite filter_In, in_seq, negb_true_iff, Ln. intuition lia. }
  split.
  - unfold polygons_of.
    assert (E : flat_map (fun id => if nth id (are_internal r) false then map (polygon_of r) (nth id (hole_ids r) []) else [polygon_of r id]) (seq 0 (length (contours r)))
      = map (fun k => Some (poly_at r k)) (tops r)).
    { unfold tops. assert (B : forall k, In k (seq 0 (length (contours r))) -> k < length cs) by (intros k I; apply in_seq in I; lia).
      induction (seq 0 (length (contours r))) as [|k q IH]; auto. cbn [flat_map filter].
      assert (Lk : k < length cs) by (apply B; left; auto). rewrite IH by (intros; apply B; right; auto).
      destruct (nth k (are_internal r) false) eqn:I; cbn [negb].
      - destruct (nth k (hole_ids r) []) as [|j js] eqn:Eh; auto. exfalso.
        assert (Ij : In j (nth k (hole_ids r) [])) by (rewrite Eh; left; auto). destruct (Hl k j Lk Ij) as [Lj Pj]. destruct (Par j k Lj Pj) as (_ & _ & Q). congruence.
      - cbn [app map]. rewrite Po by auto. auto. }
    rewrite E. apply all_some_map. auto.
  - apply NoDup_Permutation; [|apply seq_NoDup|].
    + assert (A : forall q, NoDup q -> (forall k, In k q -> k < length cs /\ nth k (are_internal r) false = false) -> NoDup (flat_map (fun k => k :: nth k (hole_ids r) []) q)).
      { induction q as [|k q IH]; intros Nq Q; cbn [flat_map app]; [constructor|]. inversion Nq; subst.
        destruct (Q k (or_introl eq_refl)) as [Lk Ik].
        assert (Fr : forall x, In x (flat_map (fun k => k :: nth k (hole_ids r) []) q) -> In x q \/ exists p, In p q /\ In x (nth p (hole_ids r) [])).
        { intros x I. apply in_flat_map in I. destruct I as (p & Ip & [<-|J]); eauto. }
        constructor.
        - rewrite in_app_iff. intros [I|I].
          + destruct (Hl k k Lk I) as [_ P]. apply Par in P; auto. lia.
          + destruct (Fr _ I) as [|(p & Ip & J)]; [contradiction|]. destruct (Q p (or_intror Ip)) as [Lp _].
            destruct (Hl p k Lp J) as [_ P]. apply Par in P; auto. destruct P; congruence.
        - apply NoDup_app_intro; [apply (fo_holes _ _ F k Lk)|apply IH; auto; intros; apply Q; right; auto|].
          intros x I J. destruct (Hl k x Lk I) as [Lx Px]. destruct (Fr _ J) as [Ix|(p & Ip & J')].
          + destruct (Par x k Lx Px) as (A1 & _). destruct (Q x (or_intror Ix)) as [_ A2]. congruence.
          + destruct (Q p (or_intror Ip)) as [Lp _]. destruct (Hl p x Lp J') as [_ P]. rewrite Px in P. injection P as ->. contradiction. }
      apply A; [apply NoDup_filter, seq_NoDup|intros k; apply T0].
    + intros x. rewrite in_flat_map, in_seq. split.
      * intros (k & Ik & [<-|J]); apply T0 in Ik; [lia|]. destruct (Hl k x (proj1 Ik) J). lia.
      * intros [_ Lx]. destruct (nth x (are_internal r) false) eqn:I.
        -- destruct (fo_inner _ _ F x Lx I) as (p & A1 & A2 & A3 & _). exists p. split; [apply T0; split; auto; cbn in Lx; lia|]. right.
           apply (fo_holes _ _ F p); [cbn in Lx; lia|]. auto.
        -- exists x. split; [apply T0; auto|left; auto].
Qed.
End Reduce.
