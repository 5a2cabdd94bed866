(** The quad-edge structure, part 2: connecting, deleting, swapping, histories. *)
From Coq Require Import QArith Qcanon Bool List Arith Lia.
From Verif Require Import QcTac Model_Base Model_Utils Model_Mesh Spec_Base Spec_Mesh Proof_Base Proof_Mesh.
Import ListNotations.
Local Open Scope nat_scope.

Lemma neq_eqb x y : x <> y -> (x =? y) = false.
Proof. apply Nat.eqb_neq. Qed.

(** ** Taking an edge out of its ring *)
Section Removal.
Variable m : mesh.
Hypothesis Q : quad_structure m.
Variable a : nat.
Hypothesis Ea : edge m a.
Definition removed : mesh := spliced m a (oprev m a).
Lemma removed_ok : splice_edges m a (oprev m a) = Ok removed.
Proof. apply splice_ok; auto. apply edge_oprev; auto. Qed.
Lemma removed_structure : quad_structure removed.
Proof. apply spliced_structure; auto; [apply edge_oprev; auto|]. rewrite start_oprev by auto. reflexivity. Qed.
Lemma removed_size : size removed = size m.
Proof. apply spliced_size. Qed.
Lemma removed_edge e : edge removed e <-> edge m e.
Proof. unfold edge. rewrite removed_size. reflexivity. Qed.
Lemma removed_start e : start removed e = start m e.
Proof. reflexivity. Qed.
Lemma removed_self : onext removed a = a.
Proof.
  unfold removed. rewrite spliced_edges by (auto; apply edge_oprev; auto). rewrite Nat.eqb_refl.
  apply onext_oprev; auto. apply Ea.
Qed.
Lemma removed_onext e : edge m e -> e <> a ->
  onext removed e = if onext m e =? a then onext m a else onext m e.
Proof.
  intros E N. unfold removed. rewrite spliced_edges by (auto; apply edge_oprev; auto).
  rewrite (neq_eqb e a N). destruct (Nat.eqb_spec e (oprev m a)) as [->|D].
  - rewrite onext_oprev, Nat.eqb_refl by (auto; apply Ea). reflexivity.
  - destruct (Nat.eqb_spec (onext m e) a) as [X|]; auto. exfalso. apply D. rewrite <- X.
    rewrite oprev_onext; auto. apply E.
Qed.
Lemma removed_oprev e : edge m e -> e <> a ->
  oprev removed e = if oprev m e =? a then oprev m a else oprev m e.
Proof.
  intros E N.
  assert (I : forall x, edge m x -> onext removed x = e -> oprev removed e = x).
  { intros x Ex X. rewrite <- X. apply oprev_onext; [apply removed_structure|]. rewrite removed_size. apply Ex. }
  destruct (Nat.eqb_spec (oprev m e) a) as [X|D].
  - apply I; [apply edge_oprev; auto|].
    assert (Oa : onext m a = e) by (rewrite <- X; apply onext_oprev; auto; apply E).
    rewrite removed_onext; [|apply edge_oprev; auto|].
    + rewrite onext_oprev by (auto; apply Ea). rewrite Nat.eqb_refl. auto.
    + intros Y. apply N. rewrite <- Oa, <- Y at 1. apply onext_oprev; auto. apply Ea.
  - apply I; [apply edge_oprev; auto|]. rewrite removed_onext by (auto; apply edge_oprev; auto).
    rewrite onext_oprev by (auto; apply E). rewrite (neq_eqb e a N). reflexivity.
Qed.
End Removal.

(** ** Deleting *)
Section Delete.
Variable m : mesh.
Hypothesis Q : quad_structure m.
Variable a : nat.
Hypothesis Ea : edge m a.
Definition deleted : mesh := removed (removed m a) (sym a).
Lemma edge_sym_removed : edge (removed m a) (sym a).
Proof. apply removed_edge. apply edge_sym; auto. Qed.
Lemma delete_ok : delete_edge m a = Ok deleted.
Proof.
  unfold delete_edge. rewrite get_right by (auto; apply Ea). cbn [bind].
  rewrite removed_ok by auto. cbn [bind]. rewrite opposite_sym.
  pose proof (removed_structure m Q a Ea) as Q1. pose proof edge_sym_removed as E1.
  rewrite get_right by (auto; apply E1). cbn [bind]. apply removed_ok; auto.
Qed.
Lemma deleted_structure : quad_structure deleted.
Proof. apply removed_structure; [apply removed_structure; auto|apply edge_sym_removed]. Qed.
Lemma deleted_size : size deleted = size m.
Proof. unfold deleted. rewrite !removed_size. reflexivity. Qed.
Lemma deleted_edge e : edge deleted e <-> edge m e.
Proof. unfold edge. rewrite deleted_size. reflexivity. Qed.
Lemma deleted_start e : start deleted e = start m e.
Proof. reflexivity. Qed.
Lemma deleted_self : onext deleted a = a /\ onext deleted (sym a) = sym a.
Proof.
  pose proof (removed_structure m Q a Ea) as Q1. pose proof edge_sym_removed as E1. split.
  - unfold deleted. rewrite removed_onext; auto.
    + rewrite removed_self by auto. rewrite neq_eqb; auto. apply not_eq_sym, sym_neq.
    + apply removed_edge; auto.
    + apply not_eq_sym, sym_neq.
  - apply removed_self; auto.
Qed.
(** The neighbour of any other edge is the next one that is not taken out. *)
Lemma deleted_onext e : edge m e -> e <> a -> e <> sym a ->
  onext deleted e <> a /\ onext deleted e <> sym a /\
  (onext deleted e = onext m e \/ onext deleted e = onext m (onext m e) \/ onext deleted e = onext m (onext m (onext m e))).
Proof.
  intros E N1 N2. pose proof deleted_structure as Qd. destruct deleted_self as (S1 & S2).
  assert (Ed : e < size deleted) by (rewrite deleted_size; apply E).
  assert (Ad : a < size deleted) by (rewrite deleted_size; apply Ea).
  assert (Sd : sym a < size deleted) by (rewrite deleted_size; apply (edge_sym m Q a Ea)).
  split; [|split].
  - intros X. apply N1. apply (onext_inj deleted Qd); auto. congruence.
  - intros X. apply N2. apply (onext_inj deleted Qd); auto. congruence.
  - pose proof (removed_structure m Q a Ea) as Q1. pose proof edge_sym_removed as E1.
    unfold deleted. rewrite removed_onext; auto; [|apply removed_edge; auto].
    rewrite (removed_onext m Q a Ea e) by auto. rewrite (removed_onext m Q a Ea (sym a)); [|apply edge_sym; auto|apply sym_neq].
    destruct (Nat.eqb_spec (onext m e) a) as [X|X].
    + destruct (Nat.eqb_spec (onext m a) (sym a)) as [Y|Y].
      * rewrite X, Y. destruct (Nat.eqb_spec (onext m (sym a)) a); auto.
      * rewrite X. auto.
    + destruct (Nat.eqb_spec (onext m e) (sym a)) as [Y|Y]; auto. rewrite Y.
      destruct (Nat.eqb_spec (onext m (sym a)) a); auto.
Qed.
End Delete.

(** ** Connecting *)
Section Connect.
Variable m : mesh.
Hypothesis Q : quad_structure m.
Variables (a b : nat).
Hypothesis Ea : edge m a.
Hypothesis Eb : edge m b.
Notation n := (size m).
Notation x := (oprev m (sym a)).
Notation m1 := (fst (create_edge m (end_of m a) (start m b))).
Definition connected : mesh := spliced (spliced m1 n x) (sym n) b.
Let Hi : end_of m a < length (m_endpoints m).
Proof. apply start_point; auto. apply edge_sym; auto. Qed.
Let Hj : start m b < length (m_endpoints m).
Proof. apply start_point; auto. Qed.
Lemma connect_create : quad_structure m1.
Proof. apply create_structure; auto. Qed.
Lemma edge_old e : edge m e -> edge m1 e.
Proof. unfold edge. rewrite create_size. intros (? & ?). split; auto. lia. Qed.
Lemma edge_x : edge m x.
Proof. apply edge_oprev; auto. apply edge_sym; auto. Qed.
Lemma start_x : start m x = end_of m a.
Proof. apply start_oprev; auto. apply edge_sym; auto. Qed.
Lemma connect_first : quad_structure (spliced m1 n x).
Proof.
  destruct (create_new_edge m Q (end_of m a) (start m b)) as (E1 & E2 & _).
  apply spliced_structure; auto; [apply connect_create|apply edge_old, edge_x|].
  destruct (create_start_new m Q (end_of m a) (start m b)) as (-> & _).
  rewrite create_start_old by (auto; apply edge_x). symmetry. apply start_x.
Qed.
Lemma connect_edge_1 e : edge m1 e <-> edge (spliced m1 n x) e.
Proof. unfold edge. rewrite spliced_size. reflexivity. Qed.
Lemma connected_structure : quad_structure connected.
Proof.
  destruct (create_new_edge m Q (end_of m a) (start m b)) as (E1 & E2 & _).
  apply spliced_structure; auto; [apply connect_first|apply connect_edge_1; auto|apply connect_edge_1, edge_old; auto|].
  rewrite !spliced_start. destruct (create_start_new m Q (end_of m a) (start m b)) as (_ & ->).
  rewrite create_start_old by (auto; apply Eb). reflexivity.
Qed.
Lemma connect_ok : connect_edges m a b = Ok (connected, n).
Proof.
  destruct (create_new_edge m Q (end_of m a) (start m b)) as (E1 & E2 & _).
  unfold connect_edges. rewrite get_end_index, get_start_index by auto. cbn [bind].
  change (create_edge m (end_of m a) (start m b)) with (m1, n). cbn [fst snd]. cbv iota beta.
  pose proof connect_create as Q1. pose proof (edge_old _ Ea) as Ea1.
  rewrite (get_left_end m1 Q1 a) by apply Ea1. cbn [bind].
  assert (X : oprev m1 (sym a) = x).
  { unfold oprev. rewrite create_onext_old; auto. apply size_rot; auto. apply (edge_sym m Q a Ea). }
  rewrite X. rewrite splice_ok; auto; [|apply edge_old, edge_x]. cbn [bind]. rewrite opposite_sym.
  rewrite splice_ok; [reflexivity|apply connect_first|apply connect_edge_1; auto|apply connect_edge_1, edge_old; auto].
Qed.
Lemma connected_size : size connected = n + 4.
Proof. unfold connected. rewrite !spliced_size. apply create_size. Qed.
Lemma connected_edge e : edge connected e <-> edge m e \/ e = n \/ e = sym n.
Proof.
  destruct (create_new_edge m Q (end_of m a) (start m b)) as (E1 & E2 & S).
  assert (W : edge connected e <-> edge m1 e) by (unfold edge; rewrite connected_size, create_size; reflexivity).
  rewrite W. split.
  - intros (He & L). rewrite create_size in L. destruct (Nat.lt_ge_cases e n); [left; split; auto|right].
    apply (create_new_even m Q (end_of m a) (start m b)); auto.
  - intros [E|[->| ->]]; auto. apply edge_old; auto.
Qed.
Lemma connected_start_old e : edge m e -> start connected e = start m e.
Proof.
  intros E. unfold connected. rewrite !spliced_start. apply create_start_old; auto. apply E.
Qed.
Lemma connected_start_new : start connected n = end_of m a /\ start connected (sym n) = start m b.
Proof. unfold connected. rewrite !spliced_start. apply create_start_new; auto. Qed.
Lemma old_new e : edge m e -> e <> n /\ e <> sym n.
Proof.
  intros (_ & L). destruct (create_new_edge m Q (end_of m a) (start m b)) as (_ & _ & ->).
  lia.
Qed.
(** The rings: [n] comes before [sym a]'s and [sym n] after [b]. *)
Lemma connected_onext e : edge connected e -> onext connected e =
  if e =? sym n then (if b =? x then n else onext m b)
  else if e =? b then sym n else if e =? n then sym a else if e =? x then n else onext m e.
Proof.
  intros E. destruct (create_new_edge m Q (end_of m a) (start m b)) as (E1 & E2 & S).
  pose proof connect_create as Q1. pose proof connect_first as Q2.
  pose proof (edge_old _ edge_x) as Ex. pose proof (edge_old _ Eb) as Eb1.
  assert (Ee : edge m1 e) by (revert E; unfold edge; rewrite connected_size, create_size; auto).
  destruct (old_new x edge_x) as (X1 & X2). destruct (old_new b Eb) as (B1 & B2).
  assert (On : onext m1 n = n) by (apply create_new_loop; auto; [rewrite <- (create_size m (end_of m a) (start m b)); apply E1|apply E1]).
  assert (Os : onext m1 (sym n) = sym n) by (apply create_new_loop; auto; [lia|rewrite <- (create_size m (end_of m a) (start m b)); apply E2|apply E2]).
  assert (Ox : onext m1 x = sym a).
  { rewrite create_onext_old by apply edge_x. apply onext_oprev; auto. apply (edge_sym m Q a Ea). }
  assert (Fst : forall f, edge m1 f -> onext (spliced m1 n x) f = if f =? n then sym a else if f =? x then n else onext m1 f).
  { intros f Ef. rewrite spliced_edges by auto. rewrite On, Ox. reflexivity. }
  unfold connected. rewrite spliced_edges; auto; try (apply connect_edge_1; auto).
  rewrite !Fst by auto.
  rewrite (neq_eqb (sym n) n) by apply sym_neq. rewrite (neq_eqb (sym n) x), (neq_eqb b n) by auto. rewrite Os.
  rewrite (create_onext_old m _ _ b) by apply Eb.
  destruct (Nat.eqb_spec e (sym n)) as [|D1]; auto. destruct (Nat.eqb_spec e b) as [|D2]; auto. destruct (Nat.eqb_spec e n) as [|D3]; auto.
  destruct (Nat.eqb_spec e x) as [|D4]; auto. apply create_onext_old.
  apply connected_edge in E. destruct E as [E|[E|E]]; [apply E|congruence|congruence].
Qed.
End Connect.

(** ** Swapping *)
Lemma restarted_structure m (Q : quad_structure m) a i : edge m a -> onext m a = a -> i < length (m_endpoints m) ->
  quad_structure (Mesh (m_endpoints m) (m_left_from_start m) (set_nth (m_starts_indices m) (a / 2) i)).
Proof.
  intros Ea Lp Hi. constructor.
  - destruct (qs_groups m Q) as (k & S1 & S2). exists k. cbn. rewrite set_nth_len. auto.
  - apply (qs_range m Q).
  - apply (qs_turn m Q).
  - intros e E. change (edge m e) in E. unfold start. cbn. change (onext {| m_endpoints := m_endpoints m; m_left_from_start := m_left_from_start m; m_starts_indices := set_nth (m_starts_indices m) (a / 2) i |} e) with (onext m e).
    rewrite !nth_set_nth.
    pose proof (edge_onext m Q e E) as En.
    destruct (Nat.eqb_spec (a / 2) (e / 2)) as [H|H].
    + apply half_inj in H; [|apply Ea|apply E]. subst e. rewrite Lp, Nat.eqb_refl. reflexivity.
    + destruct (Nat.eqb_spec (a / 2) (onext m e / 2)) as [H'|H'].
      * exfalso. apply half_inj in H'; [|apply Ea|apply En]. apply H.
        assert (X : a = e) by (apply (onext_inj m Q); [apply Ea|apply E|congruence]). rewrite X. reflexivity.
      * apply (qs_start m Q); auto.
  - cbn. intros j I. apply In_nth with (d := 0) in I. destruct I as (p & L & <-). rewrite set_nth_len in L.
    rewrite nth_set_nth. destruct (a / 2 =? p); [destruct (p <? length (m_starts_indices m)); auto; lia|].
    apply (qs_points m Q), nth_In; auto.
Qed.

Section Swap.
Variable m : mesh.
Hypothesis Q : quad_structure m.
Variable a : nat.
Hypothesis Ea : edge m a.
Notation s := (oprev m a). Notation t := (oprev m (sym a)).
Hypothesis Ds : s / 4 <> a / 4.
Hypothesis Dt : t / 4 <> a / 4.
Notation d := (deleted m a).
Definition restarted : mesh :=
  Mesh (m_endpoints m) (m_left_from_start d)
    (set_nth (set_nth (m_starts_indices m) (a / 2) (end_of m s)) (sym a / 2) (end_of m t)).
Definition half_swapped : mesh := spliced restarted a (oprev d (sym s)).
Definition swapped : mesh := spliced half_swapped (sym a) (oprev half_swapped (sym t)).
Let Es : edge m s. Proof. apply edge_oprev; auto. Qed.
Let Et : edge m t. Proof. apply edge_oprev; auto. apply edge_sym; auto. Qed.
Let Ea' : edge m (sym a). Proof. apply edge_sym; auto. Qed.
Lemma other_group e f : e / 4 <> f / 4 -> e <> f /\ e <> sym f /\ sym e <> f /\ sym e <> sym f.
Proof.
  intros N. repeat split; intros E; apply N; rewrite <- ?(sym_div e), <- ?(sym_div f), ?E, ?sym_div; auto;
  apply (f_equal (fun z => z / 4)) in E; rewrite ?sym_div in E; auto.
Qed.
Lemma restarted_ok : quad_structure restarted.
Proof.
  pose proof (deleted_structure m Q a Ea) as Qd. destruct (deleted_self m Q a Ea) as (S1 & S2).
  assert (Q1 : quad_structure (Mesh (m_endpoints d) (m_left_from_start d) (set_nth (m_starts_indices d) (a / 2) (end_of m s)))).
  { apply restarted_structure; auto; [apply deleted_edge; auto|apply (start_point m Q), edge_sym; auto]. }
  apply (restarted_structure _ Q1 (sym a)); auto.
  - apply (deleted_edge m a); auto.
  - apply (start_point m Q), edge_sym; auto.
Qed.
Lemma restarted_edge e : edge restarted e <-> edge m e.
Proof. unfold edge. change (size restarted) with (size d). rewrite deleted_size. reflexivity. Qed.
Lemma starts_len e : edge m e -> e / 2 < length (m_starts_indices m).
Proof. intros (He & L). destruct (qs_groups m Q) as (k & S1 & S2). rewrite S2. apply Nat.div_lt_upper_bound; lia. Qed.
Lemma restarted_start e : edge m e -> start restarted e =
  if e =? a then end_of m s else if e =? sym a then end_of m t else start m e.
Proof.
  intros E. unfold start. cbn. rewrite !nth_set_nth, !set_nth_len.
  rewrite (proj2 (Nat.ltb_lt _ _) (starts_len e E)).
  destruct (Nat.eqb_spec e a) as [->|N1].
  - rewrite neq_eqb by (apply half_sym; apply Ea). rewrite Nat.eqb_refl. reflexivity.
  - destruct (Nat.eqb_spec e (sym a)) as [->|N2]; [rewrite Nat.eqb_refl; reflexivity|].
    rewrite neq_eqb; [|intros X; apply half_inj in X; [congruence|apply Ea'|apply E]].
    rewrite neq_eqb; [|intros X; apply half_inj in X; [congruence|apply Ea|apply E]]. reflexivity.
Qed.
Lemma half_swapped_ok : splice_edges restarted a (oprev d (sym s)) = Ok half_swapped /\ quad_structure half_swapped.
Proof.
  pose proof restarted_ok as Qr. pose proof (deleted_structure m Q a Ea) as Qd.
  assert (Ex : edge restarted (oprev d (sym s))).
  { apply restarted_edge. apply (deleted_edge m a). apply edge_oprev; auto. apply deleted_edge. apply edge_sym; auto. }
  assert (E1 : edge restarted a) by (apply restarted_edge; auto).
  split; [apply splice_ok; auto|]. apply spliced_structure; auto.
  rewrite restarted_start by auto. rewrite Nat.eqb_refl.
  change (oprev d (sym s)) with (oprev restarted (sym s)).
  rewrite start_oprev by (auto; apply restarted_edge, edge_sym; auto).
  rewrite restarted_start by (apply edge_sym; auto).
  destruct (other_group s a Ds) as (_ & _ & N1 & N2). rewrite !neq_eqb by auto. reflexivity.
Qed.
Lemma half_swapped_edge e : edge half_swapped e <-> edge m e.
Proof. unfold edge. unfold half_swapped. rewrite spliced_size. apply restarted_edge. Qed.
Lemma swapped_ok' : splice_edges half_swapped (sym a) (oprev half_swapped (sym t)) = Ok swapped /\ quad_structure swapped.
Proof.
  pose proof half_swapped_ok as (_ & Qh).
  assert (Ex : edge half_swapped (oprev half_swapped (sym t))).
  { apply edge_oprev; auto. apply half_swapped_edge. apply edge_sym; auto. }
  assert (E1 : edge half_swapped (sym a)) by (apply half_swapped_edge; auto).
  split; [apply splice_ok; auto|]. apply spliced_structure; auto.
  rewrite start_oprev by (auto; apply half_swapped_edge, edge_sym; auto).
  unfold half_swapped. rewrite !spliced_start. rewrite !restarted_start by (auto; apply edge_sym; auto).
  destruct (other_group t a Dt) as (_ & _ & N1 & N2).
  rewrite (neq_eqb (sym t) a), (neq_eqb (sym t) (sym a)), (neq_eqb (sym a) a) by (auto; apply sym_neq).
  rewrite Nat.eqb_refl. reflexivity.
Qed.
Lemma swapped_start e : edge m e -> start swapped e =
  if e =? a then end_of m s else if e =? sym a then end_of m t else start m e.
Proof. intros E. unfold swapped, half_swapped. rewrite !spliced_start. apply restarted_start; auto. Qed.

(** The same splices in a mesh with other starts. *)
Lemma splice_starts m0 st x y : splice_edges (Mesh (m_endpoints m0) (m_left_from_start m0) st) x y =
  match splice_edges m0 x y with
  | Ok m' => Ok (Mesh (m_endpoints m') (m_left_from_start m') st) | Fails => Fails | Spins => Spins end.
Proof.
  unfold splice_edges, to_left_from_start. cbn.
  repeat (match goal with |- context [bind ?z _] => destruct z; cbn; auto end).
Qed.
Lemma left_end_starts m0 st x : to_left_from_end (Mesh (m_endpoints m0) (m_left_from_start m0) st) x = to_left_from_end m0 x.
Proof. reflexivity. Qed.
Lemma swap_ok : swap_diagonal m a = Ok swapped.
Proof.
  unfold swap_diagonal. rewrite get_right by (auto; apply Ea). cbn [bind]. rewrite opposite_sym.
  rewrite get_right by (auto; apply Ea'). cbn [bind].
  rewrite (removed_ok m Q a Ea). cbn [bind].
  pose proof (removed_structure m Q a Ea) as Q1. pose proof (edge_sym_removed m Q a Ea) as E1.
  assert (T : t = oprev (removed m a) (sym a)).
  { rewrite removed_oprev by (auto; apply sym_neq). rewrite neq_eqb; auto. }
  rewrite T at 1. rewrite (removed_ok (removed m a) Q1 (sym a) E1). fold d. cbn [bind].
  pose proof (deleted_structure m Q a Ea) as Qd. pose proof restarted_ok as Qr.
  destruct half_swapped_ok as (H1 & Qh). destruct swapped_ok' as (H2 & Qs).
  assert (Lsd : s < size d) by (rewrite deleted_size; apply Es).
  assert (Lt : t < size half_swapped) by (apply half_swapped_edge in Et; apply Et).
  rewrite (get_left_end d Qd s Lsd). cbn [bind].
  pose proof (splice_starts d (m_starts_indices restarted) a (oprev d (sym s))) as P1.
  change (Mesh (m_endpoints d) (m_left_from_start d) (m_starts_indices restarted)) with restarted in P1.
  rewrite H1 in P1. destruct (splice_edges d a (oprev d (sym s))) as [h| |] eqn:Eh; try discriminate. cbn [bind].
  assert (Sh : m_starts_indices h = m_starts_indices d /\ m_endpoints h = m_endpoints d).
  { rewrite splice_ok in Eh; auto; [|apply deleted_edge; auto|apply edge_oprev; auto; apply deleted_edge, edge_sym; auto].
    injection Eh as <-. cbn. auto. }
  assert (Eh' : Mesh (m_endpoints h) (m_left_from_start h) (m_starts_indices restarted) = half_swapped) by congruence.
  assert (L1 : to_left_from_end h t = to_left_from_end half_swapped t).
  { rewrite <- Eh'. reflexivity. }
  rewrite L1, (get_left_end half_swapped Qh t Lt). cbn [bind].
  pose proof (splice_starts h (m_starts_indices restarted) (sym a) (oprev half_swapped (sym t))) as P2.
  rewrite Eh', H2 in P2.
  destruct (splice_edges h (sym a) (oprev half_swapped (sym t))) as [g| |] eqn:Eg; try discriminate. cbn [bind].
  assert (Sg : m_starts_indices g = m_starts_indices h).
  { assert (X : Ok g = Ok (Mesh (m_endpoints g) (m_left_from_start g) (m_starts_indices h)));
      [|destruct g as [g1 g2 g3]; cbn in *; congruence].
    rewrite <- Eg. pose proof (splice_starts h (m_starts_indices h) (sym a) (oprev half_swapped (sym t))) as P3.
    rewrite Eg in P3. rewrite <- P3. destruct h; reflexivity. }
  assert (Ends : forall e, edge m e -> to_end_index g e = Ok (end_of m e)).
  { intros e E. pose proof (get_end_index m Q e E) as P. unfold to_end_index, to_start_index in *.
    rewrite Sg, (proj1 Sh). exact P. }
  rewrite Ends by auto. cbn [bind].
  assert (Sz : m_starts_indices g = m_starts_indices m) by (rewrite Sg, (proj1 Sh); reflexivity).
  rewrite Sz. rewrite put_ok by (apply starts_len; auto). cbn [bind].
  assert (T2 : to_end_index (Mesh (m_endpoints g) (m_left_from_start g) (set_nth (m_starts_indices m) (a / 2) (end_of m s))) t
    = Ok (end_of m t)).
  { unfold to_end_index, to_start_index. rewrite opposite_sym. rewrite sym_even, (proj1 Et). cbn.
    rewrite (get_nth _ _ 0) by (rewrite set_nth_len; apply starts_len, edge_sym; auto).
    rewrite nth_set_nth. rewrite neq_eqb; [reflexivity|]. intros X. apply half_inj in X; [|apply Ea|rewrite sym_even; apply Et].
    destruct (other_group t a Dt) as (_ & _ & N1 & _). congruence. }
  rewrite T2. cbn [bind]. cbn [m_starts_indices m_endpoints m_left_from_start].
  rewrite put_ok by (rewrite set_nth_len; apply starts_len; auto). cbn [bind].
  assert (Sw : Mesh (m_endpoints g) (m_left_from_start g)
     (set_nth (set_nth (m_starts_indices m) (a / 2) (end_of m s)) (sym a / 2) (end_of m t)) = swapped).
  { change (set_nth (set_nth (m_starts_indices m) (a / 2) (end_of m s)) (sym a / 2) (end_of m t)) with (m_starts_indices restarted). congruence. }
  rewrite Sw.
  assert (Sed : forall e, edge m e -> edge swapped e).
  { intros e E. unfold edge, swapped. rewrite spliced_size. apply half_swapped_edge; auto. }
  rewrite (get_start swapped Qs a) by auto. cbn [bind]. rewrite (get_end swapped Qs s) by auto. cbn [bind].
  rewrite (get_end swapped Qs a) by auto. cbn [bind]. rewrite (get_end swapped Qs t) by auto. cbn [bind].
  unfold end_of at 1 2 3. rewrite !swapped_start by (auto; apply edge_sym; auto).
  destruct (other_group s a Ds) as (_ & _ & N1 & N2). destruct (other_group t a Dt) as (_ & _ & N3 & N4).
  rewrite (neq_eqb (sym s) a), (neq_eqb (sym s) (sym a)), (neq_eqb (sym t) a), (neq_eqb (sym t) (sym a)),
    (neq_eqb (sym a) a) by (auto; apply sym_neq). rewrite !Nat.eqb_refl.
  fold (end_of m s). fold (end_of m t).
  rewrite !(proj2 (point_eq_true _ _)) by reflexivity. reflexivity.
Qed.
End Swap.

(** ** Histories *)
Lemma step_structure m m' : quad_structure m -> mesh_step m m' -> quad_structure m'.
Proof.
  intros Q S. destruct S as [m i j m' e Hi Hj C|m a b m' Ea Eb St S|m a b m' e Ea Eb S|m a m' Ea S|m a m' Ea D1 D2 S].
  - pose proof (create_structure m Q i j Hi Hj) as P. rewrite C in P. exact P.
  - rewrite splice_ok in S by auto. injection S as <-. apply spliced_structure; auto.
  - rewrite connect_ok in S by auto. injection S as <- <-. apply connected_structure; auto.
  - rewrite delete_ok in S by auto. injection S as <-. apply deleted_structure; auto.
  - rewrite swap_ok in S by auto. injection S as <-. apply swapped_ok'; auto.
Qed.
Lemma history_structure m m' : quad_structure m -> mesh_history m m' -> quad_structure m'.
Proof. intros Q H. induction H; auto. apply (step_structure m'); auto. Qed.
