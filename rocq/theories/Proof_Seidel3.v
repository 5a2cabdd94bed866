(** The trapezoidation, part 3: what the functions that add an edge do to the nodes. *)
From Coq Require Import QArith Qcanon Bool List Arith Lia.
From Verif Require Import QcTac Model_Base Model_Utils Model_Seidel.
Import ListNotations.

Record core := Core { k_in : bool; k_l : nat; k_r : nat; k_b : nat; k_a : nat }.
Definition core_of (t : trapezoid) : core :=
  Core (is_component t) (left_point t) (right_point t) (below_edge t) (above_edge t).
Definition side (up : bool) (c : core) : nat := if up then k_a c else k_b c.
Definition link_l (up : bool) (t : trapezoid) := if up then upper_left t else lower_left t.
Definition link_r (up : bool) (t : trapezoid) := if up then upper_right t else lower_right t.

Record store := Store {
  s_n : nat; s_i : nat -> option node; s_c : nat -> option core;
  s_l : bool -> nat -> option nat; s_r : bool -> nat -> option nat }.
Definition inner (nodes : list node) (j : nat) : option node :=
  match nth_error nodes j with Some (Leaf _) => None | x => x end.
Definition of_trapezoid {A} (f : trapezoid -> option A) (nodes : list node) (j : nat) : option A :=
  match get_trapezoid j nodes with Some t => f t | None => None end.
Record rep (nodes : list node) (s : store) : Prop := {
  r_n : length nodes = s_n s;
  r_i : forall j, inner nodes j = s_i s j;
  r_c : forall j, of_trapezoid (fun t => Some (core_of t)) nodes j = s_c s j;
  r_l : forall up j, of_trapezoid (link_l up) nodes j = s_l s up j;
  r_r : forall up j, of_trapezoid (link_r up) nodes j = s_r s up j }.

Definition upd {A} (f : nat -> A) (i : nat) (v : A) (j : nat) : A := if (j =? i)%nat then v else f j.
Definition upd2 {A} (f : bool -> nat -> A) (up : bool) (i : nat) (v : A) (u : bool) (j : nat) : A :=
  if Bool.eqb u up && (j =? i)%nat then v else f u j.
Definition s_new (c : core) (s : store) : store :=
  Store (S (s_n s)) (s_i s) (upd (s_c s) (s_n s) (Some c)) (s_l s) (s_r s).
Definition s_node (nd : node) (s : store) : store :=
  Store (S (s_n s)) (upd (s_i s) (s_n s) (Some nd)) (s_c s) (s_l s) (s_r s).
Definition s_setl (up : bool) (a : nat) (v : option nat) (s : store) : store :=
  Store (s_n s) (s_i s) (s_c s) (upd2 (s_l s) up a v) (s_r s).
Definition s_setr (up : bool) (a : nat) (v : option nat) (s : store) : store :=
  Store (s_n s) (s_i s) (s_c s) (s_l s) (upd2 (s_r s) up a v).
Definition s_right (a p : nat) (s : store) : store :=
  Store (s_n s) (s_i s)
    (upd (s_c s) a (match s_c s a with Some c => Some (Core (k_in c) (k_l c) p (k_b c) (k_a c)) | None => None end))
    (s_l s) (s_r s).
Definition oeq (o : option nat) (j : nat) : bool := match o with Some k => (j =? k)%nat | None => false end.
Definition s_joinr (up : bool) (a : nat) (o : option nat) (s : store) : store :=
  Store (s_n s) (s_i s) (s_c s) (fun u j => if Bool.eqb u up && oeq o j then Some a else s_l s u j)
    (upd2 (s_r s) up a o).
Definition s_joinl (up : bool) (a : nat) (o : option nat) (s : store) : store :=
  Store (s_n s) (s_i s) (s_c s) (upd2 (s_l s) up a o)
    (fun u j => if Bool.eqb u up && oeq o j then Some a else s_r s u j).
Definition s_replace (T : nat) (s : store) : store :=
  Store (s_n s - 1) (fun j => if (j =? T)%nat then s_i s (s_n s - 1) else if (j =? s_n s - 1)%nat then None else s_i s j)
    (upd (s_c s) T None) (fun up => upd (s_l s up) T None) (fun up => upd (s_r s up) T None).

Definition store_of (nodes : list node) : store :=
  Store (length nodes) (inner nodes) (of_trapezoid (fun t => Some (core_of t)) nodes)
    (fun up => of_trapezoid (link_l up) nodes) (fun up => of_trapezoid (link_r up) nodes).
Lemma rep_store nodes : rep nodes (store_of nodes).
Proof. constructor; reflexivity. Qed.

(** ** Facts about the nodes *)
Lemma rep_leaf nodes s j c : rep nodes s -> s_c s j = Some c ->
  exists t, nth_error nodes j = Some (Leaf t) /\ get_trapezoid j nodes = Some t /\ core_of t = c /\
  (forall up, link_l up t = s_l s up j) /\ (forall up, link_r up t = s_r s up j).
Proof.
  intros R E. pose proof (r_c _ _ R j) as Q. unfold of_trapezoid in Q.
  destruct (get_trapezoid j nodes) as [t|] eqn:G; [|congruence]. exists t.
  assert (N : nth_error nodes j = Some (Leaf t)).
  { unfold get_trapezoid in G. destruct (nth_error nodes j) as [[| |]|]; congruence. }
  rewrite E in Q. injection Q as Q. repeat split; auto; intros up.
  - rewrite <- (r_l _ _ R up j). unfold of_trapezoid. rewrite G. auto.
  - rewrite <- (r_r _ _ R up j). unfold of_trapezoid. rewrite G. auto.
Qed.
Lemma rep_bound nodes s j : rep nodes s -> (s_n s <= j)%nat ->
  s_i s j = None /\ s_c s j = None /\ (forall up, s_l s up j = None) /\ (forall up, s_r s up j = None).
Proof.
  intros R L. rewrite <- (r_n _ _ R) in L. apply nth_error_None in L.
  rewrite <- (r_i _ _ R j), <- (r_c _ _ R j). unfold inner, of_trapezoid, get_trapezoid. rewrite L.
  repeat split; auto; intros up; [rewrite <- (r_l _ _ R up j)|rewrite <- (r_r _ _ R up j)];
    unfold of_trapezoid, get_trapezoid; rewrite L; auto.
Qed.
Lemma rep_lt nodes s j c : rep nodes s -> s_c s j = Some c -> (j < s_n s)%nat.
Proof.
  intros R E. destruct (Nat.lt_ge_cases j (s_n s)) as [L|L]; auto.
  destruct (rep_bound _ _ j R L) as (_ & Q & _). congruence.
Qed.
Lemma rep_no_link nodes s j : rep nodes s -> s_c s j = None ->
  (forall up, s_l s up j = None) /\ (forall up, s_r s up j = None).
Proof.
  intros R E. pose proof (r_c _ _ R j) as Q. unfold of_trapezoid in Q.
  destruct (get_trapezoid j nodes) as [t|] eqn:G; [congruence|].
  split; intros up; [rewrite <- (r_l _ _ R up j)|rewrite <- (r_r _ _ R up j)]; unfold of_trapezoid; rewrite G; auto.
Qed.

Lemma set_nth_error {A} (l : list A) i v j : (i < length l)%nat ->
  nth_error (set_nth l i v) j = if (j =? i)%nat then Some v else nth_error l j.
Proof.
  revert i j. induction l as [|x l IH]; intros i j L; [cbn in L; lia|]. destruct i as [|i], j as [|j]; cbn; auto.
  apply IH. cbn in L. lia.
Qed.
Lemma set_nth_len {A} (l : list A) i v : length (set_nth l i v) = length l.
Proof. revert i. induction l as [|x l IH]; intros [|i]; cbn; auto. Qed.

Lemma update_rep nodes s i f c :
  rep nodes s -> s_c s i = Some c ->
  exists t, get_trapezoid i nodes = Some t /\ core_of t = c /\
  (forall up, link_l up t = s_l s up i) /\ (forall up, link_r up t = s_r s up i) /\
  rep (update_trapezoid i f nodes)
    (Store (s_n s) (s_i s) (upd (s_c s) i (Some (core_of (f t))))
       (fun up => upd (s_l s up) i (link_l up (f t))) (fun up => upd (s_r s up) i (link_r up (f t)))).
Proof.
  intros R E. destruct (rep_leaf _ _ _ _ R E) as (t & N & G & C & L1 & L2). exists t.
  do 4 (split; [assumption|]). unfold update_trapezoid. rewrite G.
  assert (I : (i < length nodes)%nat) by (apply nth_error_Some; congruence).
  assert (Q : forall j, get_trapezoid j (set_nth nodes i (Leaf (f t))) = if (j =? i)%nat then Some (f t) else get_trapezoid j nodes).
  { intros j. unfold get_trapezoid. rewrite set_nth_error by auto. destruct (j =? i)%nat; auto. }
  constructor; cbn.
  - rewrite set_nth_len. apply R.
  - intros j. unfold inner. rewrite set_nth_error by auto. destruct (Nat.eqb_spec j i) as [->|]; [|apply R].
    rewrite <- (r_i _ _ R i). unfold inner. rewrite N. auto.
  - intros j. unfold of_trapezoid, upd. rewrite Q. destruct (j =? i)%nat; auto. apply R.
  - intros up j. unfold of_trapezoid, upd. rewrite Q. destruct (j =? i)%nat; auto. apply R.
  - intros up j. unfold of_trapezoid, upd. rewrite Q. destruct (j =? i)%nat; auto. apply R.
Qed.
Lemma rep_ext nodes s s' : rep nodes s -> s_n s = s_n s' -> (forall j, s_i s j = s_i s' j) -> (forall j, s_c s j = s_c s' j) ->
  (forall up j, s_l s up j = s_l s' up j) -> (forall up j, s_r s up j = s_r s' up j) -> rep nodes s'.
Proof. intros [A B C D E] H1 H2 H3 H4 H5. constructor; intros; rewrite <- ?H1, <- ?H2, <- ?H3, <- ?H4, <- ?H5; auto. Qed.

Definition with_l (up : bool) := if up then with_upper_left else with_lower_left.
Definition with_r (up : bool) := if up then with_upper_right else with_lower_right.
Ltac eqbs := unfold upd, upd2 in *; repeat match goal with
  | |- context[(?a =? ?b)%nat] => destruct (Nat.eqb_spec a b)
  end; subst; cbn [andb Bool.eqb negb] in *; auto; try congruence; try lia.

Lemma set_l_rep nodes s i up v c : rep nodes s -> s_c s i = Some c ->
  rep (update_trapezoid i (fun t : trapezoid => with_l up t v) nodes) (s_setl up i v s).
Proof.
  intros R E. destruct (update_rep nodes s i (fun t : trapezoid => with_l up t v) c R E) as (t & G & C & L1 & L2 & R').
  eapply rep_ext; [exact R'|..]; cbn; auto.
  - intros j. eqbs. rewrite E. destruct up; auto.
  - intros u j. eqbs; rewrite ?andb_false_r, ?andb_true_r; auto.
    destruct u, up; cbn; auto; rewrite <- L1; auto.
  - intros u j. eqbs. rewrite <- L2. destruct u, up; auto.
Qed.
Lemma set_r_rep nodes s i up v c : rep nodes s -> s_c s i = Some c ->
  rep (update_trapezoid i (fun t : trapezoid => with_r up t v) nodes) (s_setr up i v s).
Proof.
  intros R E. destruct (update_rep nodes s i (fun t : trapezoid => with_r up t v) c R E) as (t & G & C & L1 & L2 & R').
  eapply rep_ext; [exact R'|..]; cbn; auto.
  - intros j. eqbs. rewrite E. destruct up; auto.
  - intros u j. eqbs. rewrite <- L1. destruct u, up; auto.
  - intros u j. eqbs; rewrite ?andb_false_r, ?andb_true_r; auto.
    destruct u, up; cbn; auto; rewrite <- L2; auto.
Qed.
Lemma set_right_rep nodes s i p c : rep nodes s -> s_c s i = Some c ->
  rep (update_trapezoid i (fun t => with_right_point t p) nodes) (s_right i p s).
Proof.
  intros R E. destruct (update_rep nodes s i (fun t => with_right_point t p) c R E) as (t & G & C & L1 & L2 & R').
  eapply rep_ext; [exact R'|..]; cbn; auto.
  - intros j. eqbs. rewrite E. auto.
  - intros u j. eqbs. rewrite <- L1. destruct u; auto.
  - intros u j. eqbs. rewrite <- L2. destruct u; auto.
Qed.

Lemma app_nth_error {A} (l : list A) v j :
  nth_error (l ++ [v]) j = if (j =? length l)%nat then Some v else nth_error l j.
Proof.
  destruct (Nat.eqb_spec j (length l)) as [->|N].
  - rewrite nth_error_app2, Nat.sub_diag by lia. auto.
  - destruct (Nat.lt_ge_cases j (length l)) as [L|L]; [rewrite nth_error_app1; auto|].
    rewrite (proj2 (nth_error_None (l ++ [v]) j)), (proj2 (nth_error_None l j)); auto. rewrite app_length; cbn; lia.
Qed.
Lemma new_rep nodes s l r b a edges : rep nodes s ->
  rep (fst (create_trapezoid l r b a edges nodes))
    (s_new (Core (interior_to_left (edge_at edges b) && negb (interior_to_left (edge_at edges a))) l r b a) s)
  /\ snd (create_trapezoid l r b a edges nodes) = s_n s.
Proof.
  intros R. unfold create_trapezoid. cbn [fst snd]. split; [|apply R].
  set (t := Trapezoid _ _ _ _ _ _ _ _ _).
  assert (Q : forall j, get_trapezoid j (nodes ++ [Leaf t]) = if (j =? length nodes)%nat then Some t else get_trapezoid j nodes).
  { intros j. unfold get_trapezoid. rewrite app_nth_error. destruct (j =? length nodes)%nat; auto. }
  destruct (rep_bound _ _ (s_n s) R (le_n _)) as (B1 & B2 & B3 & B4).
  constructor; cbn.
  - rewrite app_length. cbn. rewrite (r_n _ _ R). lia.
  - intros j. unfold inner. rewrite app_nth_error. destruct (Nat.eqb_spec j (length nodes)) as [->|]; [|apply R].
    rewrite (r_n _ _ R), B1. auto.
  - intros j. unfold of_trapezoid, upd. rewrite Q, (r_n _ _ R). destruct (j =? s_n s)%nat; auto. apply R.
  - intros up j. unfold of_trapezoid, upd. rewrite Q, (r_n _ _ R). destruct (Nat.eqb_spec j (s_n s)) as [->|]; [|apply R].
    rewrite B3. destruct up; auto.
  - intros up j. unfold of_trapezoid, upd. rewrite Q, (r_n _ _ R). destruct (Nat.eqb_spec j (s_n s)) as [->|]; [|apply R].
    rewrite B4. destruct up; auto.
Qed.
Lemma node_rep nodes s nd : rep nodes s -> (forall t, nd <> Leaf t) -> rep (nodes ++ [nd]) (s_node nd s).
Proof.
  intros R NL.
  destruct (rep_bound _ _ (s_n s) R (le_n _)) as (B1 & B2 & B3 & B4).
  assert (Q : forall j, get_trapezoid j (nodes ++ [nd]) = get_trapezoid j nodes).
  { intros j. unfold get_trapezoid. rewrite app_nth_error. destruct (Nat.eqb_spec j (length nodes)) as [->|]; auto.
    rewrite (proj2 (nth_error_None nodes _)) by lia. destruct nd; auto. destruct (NL t eq_refl). }
  constructor; cbn.
  - rewrite app_length. cbn. rewrite (r_n _ _ R). lia.
  - intros j. unfold inner, upd. rewrite app_nth_error, (r_n _ _ R). destruct (Nat.eqb_spec j (s_n s)) as [->|]; [|apply R].
    destruct nd; auto. destruct (NL t eq_refl).
  - intros j. unfold of_trapezoid. rewrite Q. apply R.
  - intros up j. unfold of_trapezoid. rewrite Q. apply R.
  - intros up j. unfold of_trapezoid. rewrite Q. apply R.
Qed.
Lemma firstn_nth_error {A} (m : list A) n j : (j < n)%nat -> nth_error (firstn n m) j = nth_error m j.
Proof. revert n j. induction m as [|y m IH]; intros [|n] [|j] L; cbn; auto; try lia. apply IH. lia. Qed.
Lemma removelast_nth_error {A} (l : list A) j : nth_error (removelast l) j = if (j <? length l - 1)%nat then nth_error l j else None.
Proof.
  destruct l as [|x l]; [destruct j; auto|]. rewrite (removelast_firstn_len (x :: l)).
  replace (Nat.pred (length (x :: l))) with (length (x :: l) - 1)%nat by (cbn; lia).
  destruct (Nat.ltb_spec j (length (x :: l) - 1)) as [L|L].
  - apply firstn_nth_error. auto.
  - apply nth_error_None. rewrite firstn_length. lia.
Qed.
Lemma replace_rep nodes s T c : rep nodes s -> s_c s T = Some c -> s_i s (s_n s - 1) <> None -> (0 < s_n s)%nat ->
  exists nodes', replace_node T (s_n s - 1) nodes = Some nodes' /\ rep nodes' (s_replace T s).
Proof.
  intros R E L P. unfold replace_node. rewrite (r_n _ _ R).
  pose proof (r_i _ _ R (s_n s - 1)) as Q. unfold inner in Q.
  destruct (nth_error nodes (s_n s - 1)) as [nd|] eqn:N; [|congruence]. rewrite Nat.eqb_refl.
  eexists. split; [reflexivity|].
  pose proof (rep_lt _ _ _ _ R E) as LT.
  assert (NT : T <> (s_n s - 1)%nat).
  { intros ->. destruct (rep_leaf _ _ _ _ R E) as (t & N' & _). rewrite N' in N. injection N as <-. congruence. }
  assert (NL : nd = match nd with Leaf _ => nd | _ => nd end /\ forall t, nd <> Leaf t).
  { split; [destruct nd; auto|]. intros t ->. congruence. }
  destruct NL as [_ NL].
  assert (LR : length (removelast nodes) = (s_n s - 1)%nat).
  { rewrite removelast_firstn_len, firstn_length, (r_n _ _ R). lia. }
  assert (NE : forall j, nth_error (set_nth (removelast nodes) T nd) j =
    if (j =? T)%nat then Some nd else if (j =? s_n s - 1)%nat then None else nth_error nodes j).
  { intros j. rewrite set_nth_error by lia. destruct (j =? T)%nat; auto. rewrite removelast_nth_error, (r_n _ _ R).
    destruct (Nat.eqb_spec j (s_n s - 1)) as [->|]; [rewrite Nat.ltb_irrefl; auto|].
    destruct (Nat.ltb_spec j (s_n s - 1)); auto. symmetry. apply nth_error_None. rewrite (r_n _ _ R). lia. }
  assert (GT : forall j, get_trapezoid j (set_nth (removelast nodes) T nd) = if (j =? T)%nat then None else get_trapezoid j nodes).
  { intros j. unfold get_trapezoid. rewrite NE. destruct (j =? T)%nat.
    - destruct nd; auto. destruct (NL t eq_refl).
    - destruct (Nat.eqb_spec j (s_n s - 1)) as [->|]; auto. rewrite N. destruct nd; auto. destruct (NL t eq_refl). }
  constructor; cbn.
  - rewrite set_nth_len. auto.
  - intros j. unfold inner. rewrite NE. destruct (j =? T)%nat; [rewrite <- Q; destruct nd; auto|].
    destruct (j =? s_n s - 1)%nat; auto. apply R.
  - intros j. unfold of_trapezoid, upd. rewrite GT. destruct (j =? T)%nat; auto. apply R.
  - intros up j. unfold of_trapezoid, upd. rewrite GT. destruct (j =? T)%nat; auto. apply R.
  - intros up j. unfold of_trapezoid, upd. rewrite GT. destruct (j =? T)%nat; auto. apply R.
Qed.

Definition join_r (up : bool) := if up then maybe_set_as_upper_right else maybe_set_as_lower_right.
Definition join_l (up : bool) := if up then maybe_set_as_upper_left else maybe_set_as_lower_left.
Lemma joinr_rep nodes s up a o : rep nodes s -> s_c s a <> None -> (forall b, o = Some b -> s_c s b <> None) ->
  exists nodes', join_r up a o nodes = Some nodes' /\ rep nodes' (s_joinr up a o s).
Proof.
  intros R A O. destruct (s_c s a) as [c|] eqn:Ca; [|congruence].
  destruct o as [b|].
  - specialize (O b eq_refl). destruct (s_c s b) as [d|] eqn:Cb; [|congruence].
    destruct (rep_leaf _ _ _ _ R Cb) as (t & _ & G & _).
    exists (update_trapezoid b (fun t : trapezoid => with_l up t (Some a)) (update_trapezoid a (fun t : trapezoid => with_r up t (Some b)) nodes)).
    split; [destruct up; cbn [join_r maybe_set_as_upper_right maybe_set_as_lower_right]; rewrite G; reflexivity|].
    apply (rep_ext _ (s_setl up b (Some a) (s_setr up a (Some b) s))); auto.
    apply set_l_rep with (c := d); auto. apply set_r_rep with (c := c); auto.
  - exists (update_trapezoid a (fun t : trapezoid => with_r up t None) nodes). split; [destruct up; reflexivity|].
    apply (rep_ext _ (s_setr up a None s)); auto; [apply set_r_rep with (c := c); auto|].
    intros u j. cbn. rewrite andb_false_r. auto.
Qed.
Lemma joinl_rep nodes s up a o : rep nodes s -> s_c s a <> None -> (forall b, o = Some b -> s_c s b <> None) ->
  exists nodes', join_l up a o nodes = Some nodes' /\ rep nodes' (s_joinl up a o s).
Proof.
  intros R A O. destruct (s_c s a) as [c|] eqn:Ca; [|congruence].
  destruct o as [b|].
  - specialize (O b eq_refl). destruct (s_c s b) as [d|] eqn:Cb; [|congruence].
    destruct (rep_leaf _ _ _ _ R Cb) as (t & _ & G & _).
    exists (update_trapezoid b (fun t : trapezoid => with_r up t (Some a)) (update_trapezoid a (fun t : trapezoid => with_l up t (Some b)) nodes)).
    split; [destruct up; cbn [join_l maybe_set_as_upper_left maybe_set_as_lower_left]; rewrite G; reflexivity|].
    apply (rep_ext _ (s_setr up b (Some a) (s_setl up a (Some b) s))); auto.
    apply set_r_rep with (c := d); auto. apply set_l_rep with (c := c); auto.
  - exists (update_trapezoid a (fun t : trapezoid => with_l up t None) nodes). split; [destruct up; reflexivity|].
    apply (rep_ext _ (s_setl up a None s)); auto; [apply set_l_rep with (c := c); auto|].
    intros u j. cbn. rewrite andb_false_r. auto.
Qed.
(** The unconditional variants. *)
Lemma set_joinl_rep nodes s (up : bool) a b : rep nodes s -> s_c s a <> None -> s_c s b <> None ->
  rep ((if up then set_as_upper_left else set_as_lower_left) a b nodes) (s_joinl up a (Some b) s).
Proof.
  intros R A B. destruct (joinl_rep nodes s up a (Some b) R A) as (n & E & Q); [congruence|].
  destruct (s_c s b) as [d|] eqn:Cb; [|congruence]. destruct (rep_leaf _ _ _ _ R Cb) as (t & _ & G & _).
  destruct up; cbn [join_l maybe_set_as_upper_left maybe_set_as_lower_left] in E; rewrite G in E; injection E as <-; exact Q.
Qed.
Lemma set_joinr_rep nodes s (up : bool) a b : rep nodes s -> s_c s a <> None -> s_c s b <> None ->
  rep ((if up then set_as_upper_right else set_as_lower_right) a b nodes) (s_joinr up a (Some b) s).
Proof.
  intros R A B. destruct (joinr_rep nodes s up a (Some b) R A) as (n & E & Q); [congruence|].
  destruct (s_c s b) as [d|] eqn:Cb; [|congruence]. destruct (rep_leaf _ _ _ _ R Cb) as (t & _ & G & _).
  destruct up; cbn [join_r maybe_set_as_upper_right maybe_set_as_lower_right] in E; rewrite G in E; injection E as <-; exact Q.
Qed.
