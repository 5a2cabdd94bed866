(** The trapezoidation, part 4: the four functions that put an edge into a trapezoid. *)
From Coq Require Import QArith Qcanon Bool List Arith Lia.
From Verif Require Import QcTac Model_Base Model_Utils Model_Seidel Proof_Seidel3.
Import ListNotations.

Definition mk (edges : list edge) (l r b a : nat) : core :=
  Core (interior_to_left (edge_at edges b) && negb (interior_to_left (edge_at edges a))) l r b a.
Definition or_else (o : option nat) (v : option nat) : option nat := match o with Some i => Some i | None => v end.

(** What adding the edge [e] to the trapezoid [T] does; [cont] tells that the edge comes
    from another trapezoid, whose halves are [Q]; [mg] tells which halves are prolonged. *)
Record after (edges : list edge) (e pl pr rpt : nat) (s s' : store) (T : nat) (c0 : core) (cont : bool)
  (mg : bool -> bool) (Q N : bool -> nat) (sl sr : option nat) : Prop := {
  a_T : s_c s' T = None;
  a_N : forall up, if mg up then N up = Q up /\ exists q, s_c s (Q up) = Some q /\ side up q = side up c0 /\
                     s_c s' (N up) = Some (Core (k_in q) (k_l q) rpt (k_b q) (k_a q))
        else s_c s (N up) = None /\ s_c s' (N up) = Some (mk edges (if cont then k_l c0 else pl) rpt
                            (if up then e else k_b c0) (if up then k_a c0 else e));
  a_mg : forall up, mg up = true -> cont = true;
  a_un : forall up q, cont = true -> s_c s (Q up) = Some q -> side up q = side up c0 -> mg up = true;
  a_sl : forall l, sl = Some l -> s_c s l = None /\ s_c s' l = Some (mk edges (k_l c0) pl (k_b c0) (k_a c0));
  a_sr : forall r, sr = Some r -> s_c s r = None /\ s_c s' r = Some (mk edges pr (k_r c0) (k_b c0) (k_a c0));
  a_c : forall j, j <> T -> (forall up, j <> N up) -> sl <> Some j -> sr <> Some j -> s_c s' j = s_c s j;
  a_NT : forall up, N up <> T;
  a_NN : N true <> N false;
  a_Nl : forall up, sl <> Some (N up);
  a_Nr : forall up, sr <> Some (N up);
  a_lr : forall i, sl = Some i -> sr <> Some i;
  a_R : forall up j, s_r s' up j =
    if (j =? T)%nat then None
    else if (j =? N up)%nat then or_else sr (s_r s up T)
    else if oeq sr j then s_r s up T
    else if oeq sl j then Some (N up)
    else if cont && negb (mg (negb up)) && (j =? Q (negb up))%nat then Some (N (negb up))
    else if negb (mg up) && oeq (s_l s up T) j then or_else sl (Some (N up))
    else s_r s up j;
  a_L : forall up j, s_l s' up j =
    if (j =? T)%nat then None
    else if (j =? N up)%nat then (if mg up then s_l s up j else or_else sl (s_l s up T))
    else if oeq sr j then Some (N up)
    else if oeq sl j then s_l s up T
    else if (j =? N (negb up))%nat then (if cont && negb (mg (negb up)) then Some (Q (negb up)) else s_l s up j)
    else if oeq (s_r s up T) j then or_else sr (Some (N up))
    else s_l s up j;
  a_inner : forall j nd, s_i s j = Some nd -> s_i s' j = Some nd;
  a_dag : exists x y, s_i s' y = Some (YNode e (N false) (N true)) /\
    match sr with None => x = y | Some r => s_i s' x = Some (XNode pr y r) end /\
    match sl with None => T = x | Some l => s_i s' T = Some (XNode pl l x) end }.

(** The store after [attach_right] and [attach_left]. *)
Definition s_attach_right (same : bool) (pr : nat) (c0 : core) (lk : bool -> option nat) (A B y : nat)
  (edges : list edge) (s : store) : store :=
  if same then s_joinr false B (lk false) (s_joinr true A (lk true) s)
  else s_node (XNode pr y (s_n s))
    (s_joinl true (s_n s) (Some A) (s_joinl false (s_n s) (Some B)
      (s_joinr true (s_n s) (lk true) (s_joinr false (s_n s) (lk false)
        (s_new (mk edges pr (k_r c0) (k_b c0) (k_a c0)) s))))).
Definition s_attach_left (same : bool) (pl : nat) (c0 : core) (lk : bool -> option nat) (A B y : nat)
  (edges : list edge) (s : store) : store :=
  if same then s_joinl false B (lk false) (s_joinl true A (lk true) s)
  else s_node (XNode pl (s_n s) y)
    (s_joinr true (s_n s) (Some A) (s_joinr false (s_n s) (Some B)
      (s_joinl true (s_n s) (lk true) (s_joinl false (s_n s) (lk false)
        (s_new (mk edges (k_l c0) pl (k_b c0) (k_a c0)) s))))).

Ltac live := cbn [s_n s_c s_new s_joinl s_joinr s_node]; unfold upd;
  repeat match goal with |- context[(?a =? ?b)%nat] => destruct (Nat.eqb_spec a b) end;
  try discriminate; try congruence; auto; try lia.

Lemma attach_right_rep nodes s e t A B y edges endpoints : rep nodes s -> s_c s A <> None -> s_c s B <> None ->
  (forall up b, link_r up t = Some b -> s_c s b <> None) ->
  let same := point_eq (endpoint_at endpoints (right_point_index e)) (endpoint_at endpoints (right_point t)) in
  exists nodes', attach_right e t A B y edges endpoints nodes =
      Some (nodes', if same then y else S (s_n s))
    /\ rep nodes' (s_attach_right same (right_point_index e) (core_of t) (fun up => link_r up t) A B y edges s).
Proof.
  intros R HA HB HL same. unfold attach_right. fold same. destruct same; cbn [s_attach_right].
  - change maybe_set_as_upper_right with (join_r true). change maybe_set_as_lower_right with (join_r false).
    destruct (joinr_rep nodes s true A (upper_right t) R HA) as (n1 & E1 & R1); [intros b Eb; apply (HL true b Eb)|].
    rewrite E1.
    destruct (joinr_rep n1 _ false B (lower_right t) R1) as (n2 & E2 & R2); [exact HB|intros b Eb; apply (HL false b Eb)|].
    rewrite E2. exists n2. split; auto.
  - pose proof (new_rep nodes s (right_point_index e) (right_point t) (below_edge t) (above_edge t) edges R) as [R0 I0].
    destruct (create_trapezoid (right_point_index e) (right_point t) (below_edge t) (above_edge t) edges nodes)
      as [n0 i0] eqn:E0. cbn [fst snd] in R0, I0. subst i0.
    change maybe_set_as_upper_right with (join_r true). change maybe_set_as_lower_right with (join_r false).
    destruct (joinr_rep n0 _ false (s_n s) (lower_right t) R0) as (n1 & E1 & R1);
      [live|intros b Eb; pose proof (HL false b Eb); live|].
    rewrite E1.
    destruct (joinr_rep n1 _ true (s_n s) (upper_right t) R1) as (n2 & E2 & R2);
      [live|intros b Eb; pose proof (HL true b Eb); live|].
    rewrite E2.
    pose proof (set_joinl_rep n2 _ false (s_n s) B R2) as R3. cbv zeta in R3.
    assert (R3' := R3 ltac:(live) ltac:(live)). clear R3.
    pose proof (set_joinl_rep _ _ true (s_n s) A R3' ltac:(live) ltac:(live)) as R4.
    pose proof (node_rep _ _ (XNode (right_point_index e) y (s_n s)) R4 ltac:(discriminate)) as R5.
    eexists. split; [|exact R5]. unfold create_x_node. f_equal. f_equal. rewrite (r_n _ _ R4). reflexivity.
Qed.
Lemma attach_left_rep nodes s e t A B y edges endpoints : rep nodes s -> s_c s A <> None -> s_c s B <> None ->
  (forall up b, link_l up t = Some b -> s_c s b <> None) ->
  let same := point_eq (endpoint_at endpoints (left_point_index e)) (endpoint_at endpoints (left_point t)) in
  exists nodes', attach_left e t A B y edges endpoints nodes =
      Some (nodes', if same then y else S (s_n s))
    /\ rep nodes' (s_attach_left same (left_point_index e) (core_of t) (fun up => link_l up t) A B y edges s).
Proof.
  intros R HA HB HL same. unfold attach_left. fold same. destruct same; cbn [s_attach_left].
  - change maybe_set_as_upper_left with (join_l true). change maybe_set_as_lower_left with (join_l false).
    destruct (joinl_rep nodes s true A (upper_left t) R HA) as (n1 & E1 & R1); [intros b Eb; apply (HL true b Eb)|].
    rewrite E1.
    destruct (joinl_rep n1 _ false B (lower_left t) R1) as (n2 & E2 & R2); [exact HB|intros b Eb; apply (HL false b Eb)|].
    rewrite E2. exists n2. split; auto.
  - pose proof (new_rep nodes s (left_point t) (left_point_index e) (below_edge t) (above_edge t) edges R) as [R0 I0].
    destruct (create_trapezoid (left_point t) (left_point_index e) (below_edge t) (above_edge t) edges nodes)
      as [n0 i0] eqn:E0. cbn [fst snd] in R0, I0. subst i0.
    change maybe_set_as_upper_left with (join_l true). change maybe_set_as_lower_left with (join_l false).
    destruct (joinl_rep n0 _ false (s_n s) (lower_left t) R0) as (n1 & E1 & R1);
      [live|intros b Eb; pose proof (HL false b Eb); live|].
    rewrite E1.
    destruct (joinl_rep n1 _ true (s_n s) (upper_left t) R1) as (n2 & E2 & R2);
      [live|intros b Eb; pose proof (HL true b Eb); live|].
    rewrite E2.
    pose proof (set_joinr_rep n2 _ false (s_n s) B R2) as R3. cbv zeta in R3.
    assert (R3' := R3 ltac:(live) ltac:(live)). clear R3.
    pose proof (set_joinr_rep _ _ true (s_n s) A R3' ltac:(live) ltac:(live)) as R4.
    pose proof (node_rep _ _ (XNode (left_point_index e) (s_n s) y) R4 ltac:(discriminate)) as R5.
    eexists. split; [|exact R5]. unfold create_x_node. f_equal. f_equal. rewrite (r_n _ _ R4). reflexivity.
Qed.

Definition continue_side (up : bool) := if up then continue_above else continue_below.
Definition s_continue (up : bool) (e Q rpt : nat) (c0 : core) (merged : bool) (lT : option nat) (edges : list edge)
  (s : store) : store :=
  if merged then s_right Q rpt s
  else s_joinl up (s_n s) lT (s_joinl (negb up) (s_n s) (Some Q)
    (s_new (mk edges (k_l c0) rpt (if up then e else k_b c0) (if up then k_a c0 else e)) s)).
Lemma continue_rep nodes s up e Q rpt t edges q : rep nodes s -> s_c s Q = Some q ->
  (forall b, link_l up t = Some b -> s_c s b <> None) ->
  let merged := (side up q =? side up (core_of t))%nat in
  exists nodes', continue_side up e Q rpt t edges nodes = Some (nodes', if merged then Q else s_n s)
    /\ rep nodes' (s_continue up e Q rpt (core_of t) merged (link_l up t) edges s).
Proof.
  intros R HQ HL merged. destruct (rep_leaf _ _ _ _ R HQ) as (t0 & _ & G & C & _).
  assert (EQ : forall A (x y : A), (if (if up then (above_edge t0 =? above_edge t)%nat else (below_edge t0 =? below_edge t)%nat) then x else y) = if merged then x else y).
  { intros. unfold merged. rewrite <- C. destruct up; reflexivity. }
  assert (F : continue_side up e Q rpt t edges nodes =
    if merged then Some (update_trapezoid Q (fun t => with_right_point t rpt) nodes, Q)
    else match join_l up (s_n s) (link_l up t)
             ((if negb up then set_as_upper_left else set_as_lower_left) (s_n s) Q
               (fst (create_trapezoid (left_point t) rpt (if up then e else below_edge t) (if up then above_edge t else e) edges nodes)))
         with Some nodes => Some (nodes, s_n s) | None => None end).
  { rewrite <- EQ. rewrite <- (r_n _ _ R). destruct up; cbn [continue_side]; [unfold continue_above|unfold continue_below];
      rewrite G; reflexivity. }
  rewrite F. clear F EQ. destruct merged; cbn [s_continue].
  - eexists. split; [reflexivity|]. apply set_right_rep with (c := q); auto.
  - pose proof (new_rep nodes s (left_point t) rpt (if up then e else below_edge t) (if up then above_edge t else e) edges R) as [R0 I0].
    pose proof (set_joinl_rep _ _ (negb up) (s_n s) Q R0 ltac:(live) ltac:(live)) as R1.
    destruct (joinl_rep _ _ up (s_n s) (link_l up t) R1) as (n2 & E2 & R2); [live|intros b Eb; pose proof (HL b Eb); live|].
    rewrite E2. exists n2. split; [reflexivity|exact R2].
Qed.

Ltac cut := repeat match goal with
  | |- context[(?a =? ?b)%nat] => destruct (Nat.eqb_spec a b); subst; try lia; try congruence
  end.
Ltac opts := repeat match goal with
  | |- context[oeq ?o ?j] => let E := fresh "E" in destruct (oeq o j) eqn:E
  end.

Section Functions.
Variables (edges : list edge) (endpoints : list point).
Variables (nodes : list node) (s : store) (T e : nat) (c0 : core).
Hypothesis R : rep nodes s.
Hypothesis CT : s_c s T = Some c0.
Hypothesis LL : forall up b, s_l s up T = Some b -> s_c s b <> None /\ b <> T.
Hypothesis LR : forall up b, s_r s up T = Some b -> s_c s b <> None /\ b <> T.
Notation E := (edge_at edges e).
Notation pl := (left_point_index E).
Notation pr := (right_point_index E).
Notation n := (s_n s).

Let Tn : (T < n)%nat.
Proof. apply (rep_lt _ _ _ _ R CT). Qed.
Let Bound : forall j, (n <= j)%nat -> s_c s j = None /\ (forall up, s_l s up j = None) /\ (forall up, s_r s up j = None).
Proof. intros j L. destruct (rep_bound _ _ j R L) as (_ & Q). exact Q. Qed.
Let Leaf_lt : forall b, s_c s b <> None -> (b < n)%nat.
Proof. intros b Q. destruct (s_c s b) eqn:X; [|congruence]. apply (rep_lt _ _ _ _ R X). Qed.

Lemma inner_lt j nd : s_i s j = Some nd -> (j < n)%nat /\ j <> T.
Proof.
  intros I. split.
  - destruct (Nat.lt_ge_cases j n) as [L|L]; auto. destruct (rep_bound _ _ j R L) as (Q & _). congruence.
  - intros ->. destruct (rep_leaf _ _ _ _ R CT) as (t & X & _). pose proof (r_i _ _ R T) as Y. unfold inner in Y.
    rewrite X in Y. congruence.
Qed.

Lemma oeq_true o j : oeq o j = true -> o = Some j.
Proof. destruct o as [k|]; cbn; [intros Q; apply Nat.eqb_eq in Q; congruence|discriminate]. Qed.
Lemma oeq_false o j : o <> Some j -> oeq o j = false.
Proof. destruct o as [k|]; cbn; auto. intros Q. apply Nat.eqb_neq. congruence. Qed.
Lemma oeq_l_n up j : (n <= j)%nat -> oeq (s_l s up T) j = false.
Proof. intros L. apply oeq_false. intros Q. apply LL in Q as [Q _]. apply Leaf_lt in Q. lia. Qed.
Lemma oeq_r_n up j : (n <= j)%nat -> oeq (s_r s up T) j = false.
Proof. intros L. apply oeq_false. intros Q. apply LR in Q as [Q _]. apply Leaf_lt in Q. lia. Qed.

Ltac oq := repeat match goal with
  | |- context[oeq (s_l s ?u T) ?j] => rewrite (oeq_l_n u j) by lia
  | |- context[oeq (s_r s ?u T) ?j] => rewrite (oeq_r_n u j) by lia
  end.
Lemma single_after :
  let same_l := point_eq (endpoint_at endpoints pl) (endpoint_at endpoints (k_l c0)) in
  let same_r := point_eq (endpoint_at endpoints pr) (endpoint_at endpoints (k_r c0)) in
  exists nodes' s' N sl sr, add_edge_to_single_trapezoid e T edges endpoints nodes = Some nodes' /\ rep nodes' s' /\
    after edges e pl pr pr s s' T c0 false (fun _ => false) N N sl sr /\
    (sl = None <-> same_l = true) /\ (sr = None <-> same_r = true).
Proof.
  intros same_l same_r. unfold add_edge_to_single_trapezoid.
  destruct (rep_leaf _ _ _ _ R CT) as (t & _ & G & C & L1 & L2). rewrite G.
  pose proof (new_rep nodes s pl pr e (above_edge t) edges R) as [R0 I0].
  destruct (create_trapezoid pl pr e (above_edge t) edges nodes) as [n0 A] eqn:E0. cbn [fst snd] in R0, I0. subst A.
  pose proof (new_rep n0 _ pl pr (below_edge t) e edges R0) as [R1 I1].
  destruct (create_trapezoid pl pr (below_edge t) e edges n0) as [n1 B] eqn:E1. cbn [fst snd] in R1, I1. cbn in I1. subst B.
  unfold create_y_node.
  pose proof (node_rep n1 _ (YNode e (S n) n) R1 ltac:(discriminate)) as R2.
  replace (length n1) with (S (S n)) by (rewrite (r_n _ _ R1); reflexivity).
  destruct (attach_right_rep _ _ E t n (S n) (S (S n)) edges endpoints R2) as (n3 & E3 & R3);
    [live|live|intros up b Eb; rewrite L2 in Eb; pose proof (proj1 (LR _ _ Eb)); live|].
  assert (SR : right_point t = k_r c0) by (rewrite <- C; auto). assert (SL : left_point t = k_l c0) by (rewrite <- C; auto).
  rewrite SR in E3, R3. fold same_r in E3, R3. rewrite E3. cbn [fst snd]. clearbody same_r.
  destruct (attach_left_rep _ _ E t n (S n) (if same_r then S (S n) else S (S (S (S n)))) edges endpoints R3) as (n4 & E4 & R4).
  { unfold s_attach_right. destruct same_r; live. }
  { unfold s_attach_right. destruct same_r; live. }
  { intros up b Eb. rewrite L1 in Eb. pose proof (proj1 (LL _ _ Eb)). unfold s_attach_right. destruct same_r; live. }
  cbn [s_n s_node s_new] in E4 |- *. rewrite SL in E4, R4. fold same_l in E4, R4. rewrite E4. cbn [fst snd]. clearbody same_l.
  rewrite C in R4.
  match type of R4 with rep _ ?s0 => set (s4 := s0) in R4 end.
  assert (Top : (if same_l then if same_r then S (S n) else S (S (S (S n)))
     else S (s_n (s_attach_right same_r pr c0 (fun up => link_r up t) n (S n) (S (S n)) edges
        (s_node (YNode e (S n) n) (s_new (mk edges pl pr (below_edge t) e) (s_new (mk edges pl pr e (above_edge t)) s)))))) = (s_n s4 - 1)%nat).
  { unfold s4. unfold s_attach_left, s_attach_right. destruct same_l, same_r; cbn; lia. }
  unfold mk in Top. rewrite C, Top.
  assert (Chg : (T < s_n s4)%nat /\ s_c s4 T = Some c0 /\ s_i s4 (s_n s4 - 1) <> None).
  { unfold s4. unfold s_attach_left, s_attach_right. destruct same_l, same_r; cbn; unfold upd; cut; repeat split; try lia; auto; try discriminate. }
  destruct Chg as (X1 & X2 & X3).
  destruct (replace_rep _ _ T c0 R4 X2 X3 ltac:(lia)) as (n5 & E5 & R5).
  exists n5, (s_replace T s4), (fun up : bool => if up then n else S n),
    (if same_l then None else Some (if same_r then S (S (S n)) else S (S (S (S (S n)))))),
    (if same_r then None else Some (S (S (S n)))).
  split; [exact E5|]. split; [exact R5|].
  split; [|destruct same_l, same_r; split; split; auto; discriminate].
  destruct (Bound n ltac:(lia)) as (F1 & F2 & F3). destruct (Bound (S n) ltac:(lia)) as (F4 & F5 & F6).
  pose proof (L1 true : upper_left t = _) as FL1. pose proof (L1 false : lower_left t = _) as FL2.
  pose proof (L2 true : upper_right t = _) as FR1. pose proof (L2 false : lower_right t = _) as FR2.
  assert (Ka : above_edge t = k_a c0) by (rewrite <- C; auto). assert (Kb : below_edge t = k_b c0) by (rewrite <- C; auto). clear C.
  constructor.
  - cbn. unfold upd. cut.
  - intros up. split; [destruct up; auto|]. destruct same_l, same_r; destruct up; cbn; unfold upd; cut; unfold mk; rewrite ?Ka, ?Kb; auto.
  - discriminate.
  - discriminate.
  - destruct same_l; [discriminate|]. intros l [= <-]. split; [destruct same_r; apply Bound; lia|].
    destruct same_r; cbn; unfold upd; cut; auto.
  - destruct same_r; [discriminate|]. intros l [= <-]. split; [apply Bound; lia|].
    destruct same_l; cbn; unfold upd; cut; auto.
  - intros j J1 J2 J3 J4. pose proof (J2 true). pose proof (J2 false).
    destruct same_l, same_r; cbn; unfold upd; cut; auto.
  - intros []; lia.
  - lia.
  - destruct same_l; [discriminate|]. intros [] [= Q]; destruct same_r; lia.
  - destruct same_r; [discriminate|]. intros [] [= Q]; lia.
  - destruct same_r; [discriminate|]. destruct same_l; [discriminate|]. intros i [= <-] [= Q]; lia.
  - intros up j. unfold s4, s_attach_left, s_attach_right.
    destruct up, same_l, same_r; cbn; unfold upd, upd2; cbn; rewrite ?FL1, ?FL2, ?FR1, ?FR2; cut; oq; auto.
  - intros up j. unfold s4, s_attach_left, s_attach_right.
    destruct up, same_l, same_r; cbn; unfold upd, upd2; cbn; rewrite ?FL1, ?FL2, ?FR1, ?FR2; cut; oq; auto.
  - intros j nd I. destruct (inner_lt _ _ I). destruct same_l, same_r; cbn; unfold upd; cut; auto.
  - exists (if same_l then T else if same_r then S (S n) else S (S (S (S n)))),
      (if same_l && same_r then T else S (S n)).
    unfold s4, s_attach_left, s_attach_right. destruct same_l, same_r; cbn -[Nat.eqb Nat.sub]; rewrite ?Nat.sub_0_r, ?Nat.sub_succ; unfold upd; cut; repeat split; auto.
Qed.

Lemma first_after :
  let same_l := point_eq (endpoint_at endpoints pl) (endpoint_at endpoints (k_l c0)) in
  exists nodes' s' N sl, add_edge_to_first_trapezoid e T edges endpoints nodes = Some (nodes', N true, N false) /\ rep nodes' s' /\
    after edges e pl pr (k_r c0) s s' T c0 false (fun _ => false) N N sl None /\
    (sl = None <-> same_l = true).
Proof.
  intros same_l. unfold add_edge_to_first_trapezoid.
  destruct (rep_leaf _ _ _ _ R CT) as (t & _ & G & C & L1 & L2). rewrite G.
  assert (SR : right_point t = k_r c0) by (rewrite <- C; auto). assert (SL : left_point t = k_l c0) by (rewrite <- C; auto).
  rewrite SR.
  pose proof (new_rep nodes s pl (k_r c0) e (above_edge t) edges R) as [R0 I0].
  destruct (create_trapezoid pl (k_r c0) e (above_edge t) edges nodes) as [n0 A] eqn:E0. cbn [fst snd] in R0, I0. subst A.
  pose proof (new_rep n0 _ pl (k_r c0) (below_edge t) e edges R0) as [R1 I1].
  destruct (create_trapezoid pl (k_r c0) (below_edge t) e edges n0) as [n1 B] eqn:E1. cbn [fst snd] in R1, I1. cbn in I1. subst B.
  unfold create_y_node.
  pose proof (node_rep n1 _ (YNode e (S n) n) R1 ltac:(discriminate)) as R2.
  replace (length n1) with (S (S n)) by (rewrite (r_n _ _ R1); reflexivity).
  destruct (attach_left_rep _ _ E t n (S n) (S (S n)) edges endpoints R2) as (n4 & E4 & R4).
  { live. } { live. }
  { intros up b Eb. rewrite L1 in Eb. pose proof (proj1 (LL _ _ Eb)). live. }
  cbn [s_n s_node s_new] in E4. rewrite SL in E4, R4. fold same_l in E4, R4. rewrite E4. cbn [fst snd]. clearbody same_l.
  change maybe_set_as_upper_right with (join_r true). change maybe_set_as_lower_right with (join_r false).
  destruct (joinr_rep _ _ true n (upper_right t) R4) as (n5 & E5 & R5).
  { unfold s_attach_left. destruct same_l; live. }
  { intros b Eb. pose proof (proj1 (LR true b ltac:(rewrite <- L2; exact Eb))). unfold s_attach_left. destruct same_l; live. }
  rewrite E5.
  destruct (joinr_rep _ _ false (S n) (lower_right t) R5) as (n6 & E6 & R6).
  { unfold s_attach_left. destruct same_l; live. }
  { intros b Eb. pose proof (proj1 (LR false b ltac:(rewrite <- L2; exact Eb))). unfold s_attach_left. destruct same_l; live. }
  rewrite E6. rewrite C in R6.
  match type of R6 with rep _ ?s0 => set (s4 := s0) in R6 end.
  assert (Top : (if same_l then S (S n) else S (S (S (S n)))) = (s_n s4 - 1)%nat).
  { unfold s4. unfold s_attach_left. destruct same_l; cbn; lia. }
  rewrite Top.
  assert (Chg : (T < s_n s4)%nat /\ s_c s4 T = Some c0 /\ s_i s4 (s_n s4 - 1) <> None).
  { unfold s4. unfold s_attach_left. destruct same_l; cbn; unfold upd; cut; repeat split; try lia; auto; try discriminate. }
  destruct Chg as (X1 & X2 & X3).
  destruct (replace_rep _ _ T c0 R6 X2 X3 ltac:(lia)) as (n7 & E7 & R7). rewrite E7.
  exists n7, (s_replace T s4), (fun up : bool => if up then n else S n), (if same_l then None else Some (S (S (S n)))).
  split; [reflexivity|]. split; [exact R7|].
  split; [|destruct same_l; split; auto; discriminate].
  destruct (Bound n ltac:(lia)) as (F1 & F2 & F3). destruct (Bound (S n) ltac:(lia)) as (F4 & F5 & F6).
  pose proof (L1 true : upper_left t = _) as FL1. pose proof (L1 false : lower_left t = _) as FL2.
  pose proof (L2 true : upper_right t = _) as FR1. pose proof (L2 false : lower_right t = _) as FR2.
  assert (Ka : above_edge t = k_a c0) by (rewrite <- C; auto). assert (Kb : below_edge t = k_b c0) by (rewrite <- C; auto). clear C.
  constructor.
  - cbn. unfold upd. cut.
  - intros up. split; [destruct up; auto|]. destruct same_l; destruct up; cbn; unfold upd; cut; unfold mk; rewrite ?Ka, ?Kb; auto.
  - discriminate.
  - discriminate.
  - destruct same_l; [discriminate|]. intros l [= <-]. split; [apply Bound; lia|].
    cbn; unfold upd; cut; auto.
  - discriminate.
  - intros j J1 J2 J3 J4. pose proof (J2 true). pose proof (J2 false).
    destruct same_l; cbn; unfold upd; cut; auto.
  - intros []; lia.
  - lia.
  - destruct same_l; [discriminate|]. intros [] [= Q]; lia.
  - discriminate.
  - discriminate.
  - intros up j. unfold s4, s_attach_left.
    destruct up, same_l; cbn; unfold upd, upd2; cbn; rewrite ?FL1, ?FL2, ?FR1, ?FR2; cut; oq; auto.
  - intros up j. unfold s4, s_attach_left.
    destruct up, same_l; cbn; unfold upd, upd2; cbn; rewrite ?FL1, ?FL2, ?FR1, ?FR2; cut; oq; auto.
  - intros j nd I. destruct (inner_lt _ _ I). destruct same_l; cbn; unfold upd; cut; auto.
  - exists (if same_l then T else S (S n)), (if same_l then T else S (S n)).
    unfold s4, s_attach_left. destruct same_l; cbn -[Nat.eqb Nat.sub]; rewrite ?Nat.sub_0_r, ?Nat.sub_succ; unfold upd; cut; repeat split; auto.
Qed.

Section Continue.
Variables (Q : bool -> nat) (q : bool -> core).
Hypothesis CQ : forall up, s_c s (Q up) = Some (q up).
Hypothesis QQ : Q true <> Q false.
Hypothesis QT : forall up, Q up <> T.
Hypothesis RQ : forall up u, s_r s up T <> Some (Q u).
Variable mg : bool -> bool.
Hypothesis MG : forall up, (side up (q up) =? side up c0)%nat = mg up.
Hypothesis LQ : forall up u, mg up = false -> s_l s up T <> Some (Q u).
Let Qn : forall up, (Q up < n)%nat.
Proof. intros up. apply (rep_lt _ _ _ _ R (CQ up)). Qed.
Let N (up : bool) : nat := if mg up then Q up else if up then n else if mg true then n else S n.

Ltac oqq := repeat match goal with
  | |- context[oeq (s_l s ?u T) ?j] => rewrite (oeq_l_n u j) by lia
  | |- context[oeq (s_r s ?u T) ?j] => rewrite (oeq_r_n u j) by lia
  | |- context[oeq (s_r s ?u T) (Q ?v)] => rewrite (oeq_false _ _ (RQ u v))
  | H : forall v : bool, s_l s ?u T <> Some (Q v) |- context[oeq (s_l s ?u T) (Q ?w)] => rewrite (oeq_false _ _ (H w))
  end.

Lemma middle_after : exists nodes' s',
    add_edge_to_middle_trapezoid e T (Q true) (Q false) edges nodes = Some (nodes', N true, N false) /\ rep nodes' s' /\
    after edges e pl pr (k_r c0) s s' T c0 true mg Q N None None.
Proof.
  unfold add_edge_to_middle_trapezoid.
  destruct (rep_leaf _ _ _ _ R CT) as (t & _ & G & C & L1 & L2). rewrite G.
  assert (SR : right_point t = k_r c0) by (rewrite <- C; auto). assert (SL : left_point t = k_l c0) by (rewrite <- C; auto).
  rewrite SR.
  change continue_above with (continue_side true). change continue_below with (continue_side false).
  destruct (continue_rep nodes s true e (Q true) (k_r c0) t edges (q true) R (CQ true)) as (n1 & E1 & R1).
  { intros b Eb. apply (LL true b). rewrite <- L1. auto. }
  rewrite C in E1, R1. rewrite (MG true) in E1, R1. rewrite E1.
  assert (C2 : s_c (s_continue true e (Q true) (k_r c0) c0 (mg true) (link_l true t) edges s) (Q false) = Some (q false)).
  { unfold s_continue. pose proof (Qn false). destruct (mg true); cbn; unfold upd; cut; auto. }
  destruct (continue_rep n1 _ false e (Q false) (k_r c0) t edges (q false) R1 C2) as (n2 & E2 & R2).
  { intros b Eb. rewrite L1 in Eb. pose proof (proj1 (LL false b Eb)). pose proof (CQ true). unfold s_continue. destruct (mg true); cbn; unfold upd; cut; auto.
    rewrite (CQ true). discriminate. }
  rewrite C in E2, R2. rewrite (MG false) in E2, R2. rewrite E2.
  assert (SN : s_n (s_continue true e (Q true) (k_r c0) c0 (mg true) (link_l true t) edges s) = if mg true then n else S n).
  { unfold s_continue. destruct (mg true); auto. }
  rewrite SN. fold (N true). fold (N false).
  change maybe_set_as_upper_right with (join_r true). change maybe_set_as_lower_right with (join_r false).
  pose proof (CQ true) as CQt. pose proof (CQ false) as CQf. pose proof (Qn true). pose proof (Qn false).
  pose proof (QT true). pose proof (QT false).
  destruct (joinr_rep _ _ true (N true) (upper_right t) R2) as (n5 & E5 & R5).
  { unfold N, s_continue. destruct (mg true), (mg false); cbn; unfold upd; cut; try rewrite CQt; try rewrite CQf; try discriminate. }
  { intros b Eb. pose proof (proj1 (LR true b ltac:(rewrite <- L2; exact Eb))). unfold s_continue. destruct (mg true), (mg false); cbn; unfold upd; cut; try rewrite CQt; try rewrite CQf; auto; try discriminate. }
  rewrite E5.
  destruct (joinr_rep _ _ false (N false) (lower_right t) R5) as (n6 & E6 & R6).
  { unfold N, s_continue. destruct (mg true), (mg false); cbn; unfold upd; cut; try rewrite CQt; try rewrite CQf; try discriminate. }
  { intros b Eb. pose proof (proj1 (LR false b ltac:(rewrite <- L2; exact Eb))). unfold s_continue. destruct (mg true), (mg false); cbn; unfold upd; cut; try rewrite CQt; try rewrite CQf; auto; try discriminate. }
  rewrite E6. unfold create_y_node.
  pose proof (node_rep n6 _ (YNode e (N false) (N true)) R6 ltac:(discriminate)) as R7.
  match type of R7 with rep _ ?s0 => set (s4 := s0) in R7 end.
  assert (Top : length n6 = (s_n s4 - 1)%nat).
  { rewrite (r_n _ _ R6). cbn. lia. }
  rewrite Top.
  assert (Chg : (T < s_n s4)%nat /\ s_c s4 T = Some c0 /\ s_i s4 (s_n s4 - 1) <> None).
  { unfold s4. unfold s_continue. destruct (mg true), (mg false); cbn; unfold upd; cut; repeat split; try lia; auto; try discriminate. }
  destruct Chg as (X1 & X2 & X3).
  destruct (replace_rep _ _ T c0 R7 X2 X3 ltac:(lia)) as (n7 & E7 & R8). rewrite E7.
  exists n7, (s_replace T s4). split; [reflexivity|]. split; [exact R8|].
  destruct (Bound n ltac:(lia)) as (F1 & F2 & F3). destruct (Bound (S n) ltac:(lia)) as (F4 & F5 & F6).
  pose proof (L1 true : upper_left t = _) as FL1. pose proof (L1 false : lower_left t = _) as FL2.
  pose proof (L2 true : upper_right t = _) as FR1. pose proof (L2 false : lower_right t = _) as FR2.
  assert (Ka : above_edge t = k_a c0) by (rewrite <- C; auto). assert (Kb : below_edge t = k_b c0) by (rewrite <- C; auto). clear C.
  constructor.
  - cbn. unfold upd. cut.
  - intros up. destruct (mg up) eqn:Mu.
    + split; [unfold N; rewrite Mu; auto|]. exists (q up). split; [apply CQ|].
      split; [apply Nat.eqb_eq; rewrite MG; exact Mu|].
      unfold N at 1, s4, s_continue. rewrite Mu.
      destruct up; rewrite Mu; [destruct (mg false)|destruct (mg true)]; cbn; unfold upd; cut; rewrite ?CQt, ?CQf; auto.
    + unfold N at 1 2, s4, s_continue. rewrite Mu.
      destruct up; rewrite Mu; [destruct (mg false)|destruct (mg true)]; cbn; unfold upd; split; auto; cut; auto.
  - auto.
  - intros up q' _ C' Eq. rewrite CQ in C'. injection C' as <-. rewrite <- MG, Eq. apply Nat.eqb_refl.
  - discriminate.
  - discriminate.
  - intros j J1 J2 J3 J4. pose proof (J2 true) as J5. pose proof (J2 false) as J6. unfold N in J5, J6. unfold s4, s_continue.
    destruct (mg true), (mg false); cbn; unfold upd; cut; auto.
  - intros up. unfold N. pose proof (QT up). destruct (mg up), up, (mg true); auto; lia.
  - unfold N. destruct (mg true), (mg false); auto; lia.
  - discriminate.
  - discriminate.
  - discriminate.
  - intros up j.
    assert (LQt : mg true = false -> forall v, s_l s true T <> Some (Q v)) by (intros M v; apply LQ; exact M).
    assert (LQf : mg false = false -> forall v, s_l s false T <> Some (Q v)) by (intros M v; apply LQ; exact M).
    unfold s4, s_continue, N. revert LQt LQf.
    destruct up; cbn [negb];
    destruct (mg true), (mg false); intros LQt LQf; try specialize (LQt eq_refl); try specialize (LQf eq_refl); cbn; unfold upd, upd2; cbn; rewrite ?FL1, ?FL2, ?FR1, ?FR2; cut; oqq; auto.
  - intros up j. unfold s4, s_continue, N. destruct up; cbn [negb]; destruct (mg true), (mg false);
    cbn; unfold upd, upd2; cbn; rewrite ?FL1, ?FL2, ?FR1, ?FR2; cut; oqq; auto.
  - intros j nd I. destruct (inner_lt _ _ I). unfold s4, s_continue. destruct (mg true), (mg false); cbn; unfold upd; cut; auto.
  - exists T, T. unfold s4, s_continue. destruct (mg true), (mg false); cbn -[Nat.eqb Nat.sub]; rewrite ?Nat.sub_0_r, ?Nat.sub_succ; unfold upd; cut; repeat split; auto.
Qed.

Lemma last_after :
  let same_r := point_eq (endpoint_at endpoints pr) (endpoint_at endpoints (k_r c0)) in
  exists nodes' s' sr,
    add_edge_to_last_trapezoid e T (Q true) (Q false) edges endpoints nodes = Some nodes' /\ rep nodes' s' /\
    after edges e pl pr pr s s' T c0 true mg Q N None sr /\ (sr = None <-> same_r = true).
Proof.
  intros same_r. unfold add_edge_to_last_trapezoid.
  destruct (rep_leaf _ _ _ _ R CT) as (t & _ & G & C & L1 & L2). rewrite G.
  assert (SR : right_point t = k_r c0) by (rewrite <- C; auto). assert (SL : left_point t = k_l c0) by (rewrite <- C; auto).
  change continue_above with (continue_side true). change continue_below with (continue_side false).
  destruct (continue_rep nodes s true e (Q true) pr t edges (q true) R (CQ true)) as (n1 & E1 & R1).
  { intros b Eb. apply (LL true b). rewrite <- L1. auto. }
  rewrite C in E1, R1. rewrite (MG true) in E1, R1. rewrite E1.
  assert (C2 : s_c (s_continue true e (Q true) pr c0 (mg true) (link_l true t) edges s) (Q false) = Some (q false)).
  { unfold s_continue. pose proof (Qn false). destruct (mg true); cbn; unfold upd; cut; auto. }
  destruct (continue_rep n1 _ false e (Q false) pr t edges (q false) R1 C2) as (n2 & E2 & R2).
  { intros b Eb. rewrite L1 in Eb. pose proof (proj1 (LL false b Eb)). pose proof (CQ true). unfold s_continue. destruct (mg true); cbn; unfold upd; cut; auto.
    rewrite (CQ true). discriminate. }
  rewrite C in E2, R2. rewrite (MG false) in E2, R2. rewrite E2.
  assert (SN : s_n (s_continue true e (Q true) pr c0 (mg true) (link_l true t) edges s) = if mg true then n else S n).
  { unfold s_continue. destruct (mg true); auto. }
  rewrite SN. fold (N true). fold (N false).
  pose proof (CQ true) as CQt. pose proof (CQ false) as CQf. pose proof (Qn true). pose proof (Qn false).
  pose proof (QT true). pose proof (QT false).
  unfold create_y_node.
  pose proof (node_rep n2 _ (YNode e (N false) (N true)) R2 ltac:(discriminate)) as R3.
  set (m := s_n (s_continue false e (Q false) pr c0 (mg false) (link_l false t) edges
                  (s_continue true e (Q true) pr c0 (mg true) (link_l true t) edges s))) in *.
  replace (length n2) with m by (rewrite (r_n _ _ R2); reflexivity).
  destruct (attach_right_rep _ _ E t (N true) (N false) m edges endpoints R3) as (n3 & E3 & R4).
  { unfold N, s_continue. destruct (mg true), (mg false); cbn; unfold upd; cut; try rewrite CQt; try rewrite CQf; try discriminate. }
  { unfold N, s_continue. destruct (mg true), (mg false); cbn; unfold upd; cut; try rewrite CQt; try rewrite CQf; try discriminate. }
  { intros up b Eb. pose proof (proj1 (LR up b ltac:(rewrite <- L2; exact Eb))). unfold s_continue. destruct (mg true), (mg false); cbn; unfold upd; cut; try rewrite CQt; try rewrite CQf; auto; try discriminate. }
  rewrite SR in E3, R4. fold same_r in E3, R4. rewrite E3. cbn [fst snd]. clearbody same_r. rewrite C in R4.
  match type of R4 with rep _ ?s0 => set (s4 := s0) in R4 end.
  assert (Mv : m = if mg true then if mg false then n else S n else if mg false then S n else S (S n)).
  { unfold m, s_continue. destruct (mg true), (mg false); reflexivity. }
  change (s_n (s_node (YNode e (N false) (N true)) (s_continue false e (Q false) pr c0 (mg false) (link_l false t) edges
                  (s_continue true e (Q true) pr c0 (mg true) (link_l true t) edges s)))) with (S m).
  assert (Top : (if same_r then m else S (S m)) = (s_n s4 - 1)%nat).
  { unfold s4, s_attach_right, m. destruct same_r; cbn [s_n s_node s_joinr s_joinl s_new]; lia. }
  rewrite Top.
  assert (Chg : (T < s_n s4)%nat /\ s_c s4 T = Some c0 /\ s_i s4 (s_n s4 - 1) <> None).
  { unfold s4. unfold s_attach_right, s_continue. destruct same_r, (mg true), (mg false); cbn; unfold upd; cut; repeat split; try lia; auto; try discriminate. }
  destruct Chg as (X1 & X2 & X3).
  destruct (replace_rep _ _ T c0 R4 X2 X3 ltac:(lia)) as (n7 & E7 & R8).
  exists n7, (s_replace T s4), (if same_r then None else Some (S m)). split; [exact E7|]. split; [exact R8|].
  split; [|destruct same_r; split; auto; discriminate].
  destruct (Bound n ltac:(lia)) as (F1 & F2 & F3). destruct (Bound (S n) ltac:(lia)) as (F4 & F5 & F6).
  pose proof (L1 true : upper_left t = _) as FL1. pose proof (L1 false : lower_left t = _) as FL2.
  pose proof (L2 true : upper_right t = _) as FR1. pose proof (L2 false : lower_right t = _) as FR2.
  assert (Ka : above_edge t = k_a c0) by (rewrite <- C; auto). assert (Kb : below_edge t = k_b c0) by (rewrite <- C; auto). clear C.
  clear X1 X2 X3 Top E3 R4 R8 E7 R3 R2 E2 R1 E1 SN C2.
  assert (Nm : forall up, (N up < m)%nat).
  { intros up. pose proof (Qn up). unfold N. rewrite Mv. destruct up, (mg true), (mg false); auto; lia. }
  assert (Mn : (n <= m)%nat) by (rewrite Mv; destruct (mg true), (mg false); lia).
  constructor.
  - cbn. unfold upd. cut.
  - intros up. destruct (mg up) eqn:Mu.
    + split; [unfold N; rewrite Mu; auto|]. exists (q up). split; [apply CQ|].
      split; [apply Nat.eqb_eq; rewrite MG; exact Mu|].
      unfold N, s4, s_attach_right, s_continue. rewrite Mu.
      destruct up; rewrite Mu; [destruct (mg false), same_r|destruct (mg true), same_r]; cbn; unfold upd; cut; rewrite ?CQt, ?CQf; auto.
    + unfold N, s4, s_attach_right, s_continue. rewrite Mu.
      destruct up; rewrite Mu; [destruct (mg false), same_r|destruct (mg true), same_r]; cbn; unfold upd; split; auto; cut; auto.
  - auto.
  - intros up q' _ C' Eq. rewrite CQ in C'. injection C' as <-. rewrite <- MG, Eq. apply Nat.eqb_refl.
  - discriminate.
  - destruct same_r; [discriminate|]. intros r [= <-]. split; [apply Bound; lia|].
    pose proof (Nm true). pose proof (Nm false). unfold s4, s_attach_right.
    cbn [s_c s_replace s_node s_joinl s_joinr s_new s_n]. fold m. unfold upd. cut.
  - intros j J1 J2 J3 J4. pose proof (J2 true) as J5. pose proof (J2 false) as J6. unfold N in J5, J6.
    assert (J7 : same_r = false -> j <> S m) by (intros ->; congruence).
    rewrite Mv in J7. unfold s4, s_attach_right, s_continue. destruct same_r, (mg true), (mg false); cbn; unfold upd; try specialize (J7 eq_refl); cut; auto.
  - intros up. unfold N. pose proof (QT up). destruct (mg up), up, (mg true); auto; lia.
  - unfold N. destruct (mg true), (mg false); auto; lia.
  - discriminate.
  - intros up. pose proof (Nm up). destruct same_r; [discriminate|]. intros [= Q']. lia.
  - discriminate.
  - intros up j.
    assert (LQt : mg true = false -> forall v, s_l s true T <> Some (Q v)) by (intros M v; apply LQ; exact M).
    assert (LQf : mg false = false -> forall v, s_l s false T <> Some (Q v)) by (intros M v; apply LQ; exact M).
    rewrite Mv. unfold s4. rewrite Mv. unfold s_attach_right, s_continue, N. revert LQt LQf.
    destruct up; cbn [negb];
    destruct (mg true), (mg false); intros LQt LQf; try specialize (LQt eq_refl); try specialize (LQf eq_refl);
    destruct same_r; cbn; unfold upd, upd2; cbn; rewrite ?FL1, ?FL2, ?FR1, ?FR2; cut; oqq; auto.
  - intros up j. rewrite Mv. unfold s4. rewrite Mv. unfold s_attach_right, s_continue, N. destruct up; cbn [negb]; destruct (mg true), (mg false), same_r;
    cbn; unfold upd, upd2; cbn; rewrite ?FL1, ?FL2, ?FR1, ?FR2; cut; oqq; auto.
  - intros j nd I. destruct (inner_lt _ _ I). unfold s4, s_attach_right, s_continue. destruct same_r, (mg true), (mg false); cbn; unfold upd; cut; auto.
  - exists T, (if same_r then T else m). unfold s4, s_attach_right. rewrite Mv. unfold s_continue.
    destruct same_r, (mg true), (mg false); cbn -[Nat.eqb Nat.sub]; rewrite ?Nat.sub_0_r, ?Nat.sub_succ; unfold upd; cut; repeat split; auto.
Qed.
End Continue.
End Functions.
