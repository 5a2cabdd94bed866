(** The divide-and-conquer triangulation, part 3: merging two parts. *)
From Coq Require Import QArith Qcanon Bool List Arith Lia.
From Verif Require Import QcTac Model_Base Model_Utils Model_Mesh Spec_Base Spec_Mesh Proof_Base Proof_Mesh Proof_Mesh2 Proof_Mesh3 Proof_Delaunay Proof_Delaunay2.
Import ListNotations.
Local Open Scope nat_scope.

(** No two edges with the same endpoints in the same order. *)
Definition simple (m : mesh) : Prop := forall e f, edge m e -> edge m f ->
  start m e = start m f -> end_of m e = end_of m f -> e = f.
Lemma same_simple m m' : same_edges m m' -> simple m -> simple m'.
Proof.
  intros S H e f Ee Ef. rewrite !(same_start m m'), !(same_end m m') by auto.
  apply H; apply (same_edge m m'); auto.
Qed.

(** Connecting two points that are not yet connected. *)
Lemma connect_simple m x y : quad_structure m -> simple m -> edge m x -> edge m y ->
  end_of m x <> start m y ->
  (forall f, edge m f -> start m f = end_of m x -> end_of m f = start m y -> False) ->
  exists m' e, connect_edges m x y = Ok (m', e) /\ quad_structure m' /\ simple m' /\
    m_endpoints m' = m_endpoints m /\ edge m' e /\ start m' e = end_of m x /\ end_of m' e = start m y /\
    (forall f, edge m' f <-> edge m f \/ f = e \/ f = sym e) /\
    (forall f, edge m f -> start m' f = start m f /\ end_of m' f = end_of m f).
Proof.
  intros Q Sm Ex Ey Ne New.
  destruct (connecting m x y Q Ex Ey) as (m' & e & Ok_ & Q' & Fr & Ee & Se & De & _ & _ & Pe & Ed & St & _).
  exists m', e. split; auto. split; auto.
  assert (St' : forall f, edge m f -> start m' f = start m f /\ end_of m' f = end_of m f).
  { intros f Ef. split; [auto|]. apply (St (sym f)). apply edge_sym; auto. }
  assert (Sse : start m' (sym e) = start m y) by (rewrite <- De; reflexivity).
  assert (Dse : end_of m' (sym e) = end_of m x) by (unfold end_of at 1; rewrite sym_sym; auto).
  assert (New2 : forall f, edge m f -> start m f = start m y -> end_of m f = end_of m x -> False).
  { intros f Ef A B. apply (New (sym f)); [apply edge_sym; auto|exact B|unfold end_of; rewrite sym_sym; auto]. }
  split; [|repeat (split; auto)].
  - intros f g Ef Eg A B. apply Ed in Ef. apply Ed in Eg.
    destruct Ef as [Ef|[->| ->]], Eg as [Eg|[->| ->]]; auto.
    + destruct (St' f Ef) as (X1 & X2), (St' g Eg) as (X3 & X4). apply Sm; auto; congruence.
    + exfalso. destruct (St' f Ef) as (X1 & X2). apply (New f Ef); congruence.
    + exfalso. destruct (St' f Ef) as (X1 & X2). apply (New2 f Ef); congruence.
    + exfalso. destruct (St' g Eg) as (X1 & X2). apply (New g Eg); congruence.
    + exfalso. congruence.
    + exfalso. destruct (St' g Eg) as (X1 & X2). apply (New2 g Eg); congruence.
    + exfalso. congruence.
Qed.

Section Merge.
Variable ps : list point.
Variables (a b c : nat).
Hypothesis Sorted : forall i j, i < j -> j < length ps -> lex_lt (at_ ps i) (at_ ps j).
Hypothesis Bound : c <= length ps.
Notation in_first i := (a <= i /\ i < b).
Notation in_second i := (b <= i /\ i < c).
Notation in_both i := (a <= i /\ i < c).
Notation pos i := (at_ ps i).

Definition extends (m m' : mesh) : Prop :=
  (forall e, edge m e -> edge m' e /\ start m' e = start m e /\ end_of m' e = end_of m e) /\
  (forall e, edge m' e -> edge m e \/ in_both (start m' e) /\ in_both (end_of m' e)).
Lemma extends_trans m m' m'' : extends m m' -> extends m' m'' -> extends m m''.
Proof.
  intros (A & B) (C & D). split.
  - intros e E. destruct (A e E) as (A1 & A2 & A3). destruct (C e A1) as (C1 & C2 & C3). split; [exact C1|split; congruence].
  - intros e E. destruct (D e E) as [E'|]; auto. destruct (B e E') as [|R]; auto.
    destruct (C e E') as (_ & C2 & C3). rewrite C2, C3. auto.
Qed.
Lemma same_extends m m' : same_edges m m' -> extends m m'.
Proof.
  intros S. split; intros e E.
  - split; [apply (same_edge m); auto|]. split; [apply same_start|apply same_end]; auto.
  - left. apply (same_edge m m'); auto.
Qed.

Lemma separated : exists eps k, (forall i, in_first i -> across eps (pos i) < k)%Qc
  /\ (forall j, in_second j -> k < across eps (pos j))%Qc.
Proof.
  destruct (shear_pairs (map (fun '(i, j) => (pos i, pos j)) (list_prod (seq a (b - a)) (seq b (c - b))))) as (eps & H0 & H).
  { intros p q I. apply in_map_iff in I. destruct I as ((i, j) & E & I). apply in_prod_iff in I.
    destruct I as (I & J). apply in_seq in I. apply in_seq in J. injection E as <- <-. apply Sorted; lia. }
  destruct (cut (map (fun i => across eps (pos i)) (seq a (b - a))) (map (fun i => across eps (pos i)) (seq b (c - b)))) as (k & K1 & K2).
  { intros x y I J. apply in_map_iff in I. destruct I as (i & <- & I). apply in_map_iff in J. destruct J as (j & <- & J).
    apply (H eps H0); [qlra|]. apply in_map_iff. exists (i, j). split; auto. apply in_prod_iff. auto. }
  exists eps, k. split.
  - intros i I. apply K1. apply in_map_iff. exists i. split; auto. apply in_seq. lia.
  - intros i I. apply K2. apply in_map_iff. exists i. split; auto. apply in_seq. lia.
Qed.

Section Cut.
Variables (eps k : Qc).
Hypothesis Below : forall i, in_first i -> (across eps (pos i) < k)%Qc.
Hypothesis Beyond : forall j, in_second j -> (k < across eps (pos j))%Qc.
Definition ht (i j : nat) : Qc := height eps k (pos i) (pos j).
Definition heights : list Qc := map (fun '(i, j) => ht i j) (list_prod (seq a (b - a)) (seq b (c - b))).
Lemma heights_in i j : in_first i -> in_second j -> In (ht i j) heights.
Proof.
  intros I J. apply in_map_iff. exists (i, j). split; auto. apply in_prod_iff. split; apply in_seq; lia.
Qed.
Definition higher (h : Qc) : nat := length (filter (fun x => qltb h x) heights).
Definition lower (h : Qc) : nat := length (filter (fun x => qltb x h) heights).
Lemma higher_lt h h' : In h' heights -> (h < h')%Qc -> higher h' < higher h.
Proof.
  intros I L. apply (filter_lt _ _ _ h' I).
  - apply qltb_false. qlra.
  - apply qltb_true. auto.
  - intros x _ H. apply qltb_true in H. apply qltb_true. qlra.
Qed.
Lemma lower_lt h h' : In h' heights -> (h' < h)%Qc -> lower h' < lower h.
Proof.
  intros I L. apply (filter_lt _ _ _ h' I).
  - apply qltb_false. qlra.
  - apply qltb_true. auto.
  - intros x _ H. apply qltb_true in H. apply qltb_true. qlra.
Qed.

(** A base edge: it leads from the second part to the first; no edge between the
    parts is higher. *)
Record rising (m : mesh) (base : nat) : Prop := {
  r_structure : quad_structure m;
  r_points : m_endpoints m = ps;
  r_simple : simple m;
  r_base : edge m base;
  r_start : in_second (start m base);
  r_end : in_first (end_of m base);
  r_closed : forall e, edge m e -> in_both (start m e) -> in_both (end_of m e);
  r_top : forall e, edge m e -> in_first (start m e) -> in_second (end_of m e) ->
    (ht (start m e) (end_of m e) <= ht (end_of m base) (start m base))%Qc }.
Lemma same_rising m m' base : same_edges m m' -> quad_structure m' -> rising m base -> rising m' base.
Proof.
  intros S Q R. pose proof (same_start m m') as A. pose proof (same_end m m') as B. pose proof (same_edge m m') as C.
  constructor; auto.
  - destruct S as (_ & _ & ->). apply R.
  - apply (same_simple m); auto. apply R.
  - apply C; auto. apply R.
  - rewrite A by auto. apply R.
  - rewrite B by auto. apply R.
  - intros e E. rewrite A, B by auto. apply R. apply C; auto.
  - intros e E. rewrite !A, !B by auto. apply R. apply C; auto.
Qed.
(** A left candidate leads to a point of the first part, and the edge to it would be
    higher; the same for right candidates. *)
Lemma left_end m base e : rising m base -> edge m e -> start m e = end_of m base -> above m base e ->
  in_first (end_of m e) /\ (ht (end_of m base) (start m base) < ht (end_of m e) (start m base))%Qc.
Proof.
  intros R E S A. unfold above in A. rewrite (r_points m base R) in A.
  pose proof (r_start m base R) as Rs. pose proof (r_end m base R) as Re.
  assert (Bo : in_both (end_of m e)) by (apply (r_closed m base R); auto; rewrite S; lia).
  assert (F : in_first (end_of m e)).
  { destruct (Nat.lt_ge_cases (end_of m e) b); [lia|]. exfalso.
    assert (T : (ht (start m e) (end_of m e) <= ht (end_of m base) (start m base))%Qc)
      by (apply (r_top m base R); auto; [rewrite S; auto|lia]).
    rewrite S in T. assert (H1 : (ht (end_of m base) (start m base) < ht (end_of m base) (end_of m e))%Qc).
    { apply height_right; [apply Below|apply Beyond|apply Beyond|]; auto; try lia. clear - A. unfold area2 in *. qlra. }
    qlra. }
  split; auto. apply height_left; [apply Below|apply Below|apply Beyond|]; auto. clear - A. unfold area2 in *. qlra.
Qed.
Lemma right_end m base e : rising m base -> edge m e -> start m e = start m base -> above m base e ->
  in_second (end_of m e) /\ (ht (end_of m base) (start m base) < ht (end_of m base) (end_of m e))%Qc.
Proof.
  intros R E S A. unfold above in A. rewrite (r_points m base R) in A.
  pose proof (r_start m base R) as Rs. pose proof (r_end m base R) as Re.
  assert (Bo : in_both (end_of m e)) by (apply (r_closed m base R); auto; rewrite S; lia).
  assert (F : in_second (end_of m e)).
  { destruct (Nat.lt_ge_cases (end_of m e) b) as [L|]; [|lia]. exfalso.
    assert (Es : edge m (sym e)) by (apply edge_sym; auto; apply R).
    assert (T : (ht (start m (sym e)) (end_of m (sym e)) <= ht (end_of m base) (start m base))%Qc).
    { apply (r_top m base R); auto; [change (in_first (end_of m e)); lia|unfold end_of; rewrite sym_sym, S; auto]. }
    unfold end_of at 1 in T. rewrite sym_sym in T. change (start m (sym e)) with (end_of m e) in T. rewrite S in T.
    assert (H1 : (ht (end_of m base) (start m base) < ht (end_of m e) (start m base))%Qc).
    { apply height_left; [apply Below|apply Below|apply Beyond|]; auto; try lia. clear - A. unfold area2 in *. qlra. }
    qlra. }
  split; auto. apply height_right; [apply Below|apply Beyond|apply Beyond|]; auto. clear - A. unfold area2 in *. qlra.
Qed.
(** Connecting a higher pair gives a new base. *)
Lemma connect_rising m base x y : rising m base -> edge m x -> edge m y ->
  in_second (end_of m x) -> in_first (start m y) ->
  (ht (end_of m base) (start m base) < ht (start m y) (end_of m x))%Qc ->
  exists m' e, connect_edges m x y = Ok (m', e) /\ rising m' e /\ extends m m' /\
    higher (ht (end_of m' e) (start m' e)) < higher (ht (end_of m base) (start m base)).
Proof.
  intros R Ex Ey Is If H. pose proof (r_structure m base R) as Q.
  destruct (connect_simple m x y) as (m' & e & Ok_ & Q' & Sm & Pe & Ee & Se & De & Ed & St); auto; [apply R|lia| |].
  - intros f Ef A B. assert (Es : edge m (sym f)) by (apply edge_sym; auto).
    assert (T : (ht (start m (sym f)) (end_of m (sym f)) <= ht (end_of m base) (start m base))%Qc).
    { apply (r_top m base R); auto; [change (in_first (end_of m f)); rewrite B; auto|unfold end_of; rewrite sym_sym, A; auto]. }
    unfold end_of at 1 in T. rewrite sym_sym in T. change (start m (sym f)) with (end_of m f) in T. rewrite A, B in T. qlra.
  - exists m', e. split; auto.
    assert (Sse : start m' (sym e) = start m y) by (rewrite <- De; reflexivity).
    assert (Dse : end_of m' (sym e) = end_of m x) by (unfold end_of at 1; rewrite sym_sym; auto).
    split; [|split].
    + constructor; auto.
      * rewrite Pe. apply R.
      * rewrite Se. auto.
      * rewrite De. auto.
      * intros f Ef. apply Ed in Ef. destruct Ef as [Ef|[->| ->]].
        -- destruct (St f Ef) as (-> & ->). apply R; auto.
        -- rewrite Se, De. lia.
        -- rewrite Sse, Dse. lia.
      * intros f Ef. rewrite Se, De. apply Ed in Ef. destruct Ef as [Ef|[->| ->]].
        -- destruct (St f Ef) as (-> & ->). intros A B. pose proof (r_top m base R f Ef A B). qlra.
        -- rewrite Se, De. lia.
        -- rewrite Sse, Dse. intros _ _. qlra.
    + split.
      * intros f Ef. destruct (St f Ef). split; [apply Ed; auto|auto].
      * intros f Ef. apply Ed in Ef. destruct Ef as [Ef|[->| ->]]; auto; right.
        -- rewrite Se, De. lia.
        -- rewrite Sse, Dse. lia.
    + rewrite Se, De. apply higher_lt; auto. apply heights_in; auto.
Qed.

Definition risen (m m' : mesh) : Prop :=
  quad_structure m' /\ m_endpoints m' = ps /\ simple m' /\ extends m m' /\
  (forall e, edge m' e -> in_both (start m' e) -> in_both (end_of m' e)).
Lemma rise_settles m base : rising m base ->
  exists m', risen m m' /\ exists N, forall n i, N <= n -> N <= i -> rise_bubble n i m base = Ok m'.
Proof.
  remember (higher (ht (end_of m base) (start m base))) as w eqn:W. revert m base W.
  induction w as [w IH] using (well_founded_induction lt_wf). intros m base -> R.
  destruct (left_settles m base) as ((m1, lc) & (Q1 & S1 & C1) & N1 & H1); [apply R|apply R|].
  pose proof (same_rising m m1 base S1 Q1 R) as R1.
  destruct (right_settles m1 base) as ((m2, rc) & (Q2 & S2 & C2) & N2 & H2); [apply R1|apply R1|].
  pose proof (same_rising m1 m2 base S2 Q2 R1) as R2.
  pose proof (same_edges_trans m m1 m2 S1 S2) as S3.
  pose proof (r_base m2 base R2) as Eb2. pose proof (edge_sym m2 Q2 base Eb2) as Es2.
  assert (Hb : ht (end_of m2 base) (start m2 base) = ht (end_of m base) (start m base))
    by (rewrite (same_start m m2), (same_end m m2) by auto; reflexivity).
  (* the two ways to go on *)
  assert (Left : forall l, edge m2 l -> start m2 l = end_of m2 base -> above m2 base l ->
    exists m', risen m m' /\ exists N, forall n i, N <= n -> N <= i ->
      (let* '(m, base_edge) := connect_edges m2 (to_opposite_edge base) (to_opposite_edge l) in rise_bubble n i m base_edge) = Ok m').
  { intros l El Sl Al. destruct (left_end m2 base l R2 El Sl Al) as (If & Hh).
    pose proof (edge_sym m2 Q2 l El) as El'.
    assert (Xe : end_of m2 (sym base) = start m2 base) by (unfold end_of; rewrite sym_sym; reflexivity).
    destruct (connect_rising m2 base (sym base) (sym l)) as (m3 & e & Ok_ & R3 & Ext & Lt); auto.
    - rewrite Xe. apply R2.
    - rewrite Xe. exact Hh.
    - rewrite Hb in Lt. destruct (IH _ Lt m3 e eq_refl R3) as (m' & (A & B & C & D & F) & N & H).
      exists m'. split.
      + split; auto. split; auto. split; auto. split; auto. apply (extends_trans m m3); auto.
        apply (extends_trans m m2); auto. apply same_extends; auto.
      + exists N. intros n i Ln Li. rewrite !opposite_sym, Ok_. cbn [bind]. apply H; auto. }
  assert (Right : forall r, edge m2 r -> start m2 r = start m2 base -> above m2 base r ->
    exists m', risen m m' /\ exists N, forall n i, N <= n -> N <= i ->
      (let* '(m, base_edge) := connect_edges m2 r (to_opposite_edge base) in rise_bubble n i m base_edge) = Ok m').
  { intros r Er Sr Ar. destruct (right_end m2 base r R2 Er Sr Ar) as (If & Hh).
    destruct (connect_rising m2 base r (sym base)) as (m3 & e & Ok_ & R3 & Ext & Lt); auto.
    - apply R2.
    - rewrite Hb in Lt. destruct (IH _ Lt m3 e eq_refl R3) as (m' & (A & B & C & D & F) & N & H).
      exists m'. split.
      + split; auto. split; auto. split; auto. split; auto. apply (extends_trans m m3); auto.
        apply (extends_trans m m2); auto. apply same_extends; auto.
      + exists N. intros n i Ln Li. rewrite !opposite_sym, Ok_. cbn [bind]. apply H; auto. }
  assert (Done : exists m', risen m m' /\ exists N, forall n i, N <= n -> N <= i ->
     match lc, rc with
      | Some left_candidate, Some right_candidate =>
          let* right_end := to_end m2 right_candidate in
          let* left_end := to_end m2 left_candidate in
          let* base_end := to_end m2 base in
          let* base_start := to_start m2 base in
          if location_is (locate_point_in_point_point_point_circle
                            right_end left_end base_end base_start) INTERIOR
          then let* '(m, base_edge) := connect_edges m2 right_candidate (to_opposite_edge base) in rise_bubble n i m base_edge
          else let* '(m, base_edge) := connect_edges m2 (to_opposite_edge base) (to_opposite_edge left_candidate) in rise_bubble n i m base_edge
      | Some left_candidate, None => let* '(m, base_edge) := connect_edges m2 (to_opposite_edge base) (to_opposite_edge left_candidate) in rise_bubble n i m base_edge
      | None, Some right_candidate => let* '(m, base_edge) := connect_edges m2 right_candidate (to_opposite_edge base) in rise_bubble n i m base_edge
      | None, None => Ok m2
      end = Ok m').
  { destruct lc as [l|].
    - destruct C1 as (El & Sl & Al).
      assert (El2 : edge m2 l) by (apply (same_edge m1 m2); auto).
      assert (Sl2 : start m2 l = end_of m2 base)
        by (rewrite (same_start m1 m2), Sl, (same_end m m2) by auto; reflexivity).
      assert (Al2 : above m2 base l) by (apply (above_same m1 m2); auto).
      destruct rc as [r|]; [|apply Left; auto].
      destruct C2 as (Er & Sr & Ar).
      assert (Sr2 : start m2 r = start m2 base) by (rewrite Sr, (same_start m1 m2) by auto; reflexivity).
      rewrite (get_end m2 Q2 r Er), (get_end m2 Q2 l El2), (get_end m2 Q2 base Eb2), (get_start m2 Q2 base Eb2). cbn [bind].
      destruct (location_is _ INTERIOR); [apply Right; auto|apply Left; auto].
    - destruct rc as [r|].
      + destruct C2 as (Er & Sr & Ar).
        assert (Sr2 : start m2 r = start m2 base) by (rewrite Sr, (same_start m1 m2) by auto; reflexivity).
        apply Right; auto.
      + exists m2. split; [|exists 0; auto]. split; auto. split; [apply R2|]. split; [apply R2|].
        split; [apply same_extends; auto|]. apply R2. }
  destruct Done as (m' & Rm & N & H). exists m'. split; auto. exists (S (N + N1 + N2)).
  intros [|n] i Ln Li; [lia|]. cbn [rise_bubble]. rewrite H1 by lia. cbn [bind]. rewrite H2 by lia. cbn [bind].
  apply H; lia.
Qed.

(** The descent to the lower tangent. *)
Definition apart (m : mesh) : Prop :=
  quad_structure m /\ m_endpoints m = ps /\ simple m /\
  (forall e, edge m e -> in_first (start m e) -> in_first (end_of m e)) /\
  (forall e, edge m e -> in_second (start m e) -> in_second (end_of m e)).
Lemma base_settles m f s : apart m -> edge m f -> edge m s -> in_first (start m f) -> in_second (start m s) ->
  settles (fun n => find_base_sides n m f s) (fun '(f', s') =>
    edge m f' /\ edge m s' /\ in_first (start m f') /\ in_second (start m s')).
Proof.
  intros (Q & Pm & Sm & C1 & C2). remember (lower (ht (start m f) (start m s))) as w eqn:W. revert f s W.
  induction w as [w IH] using (well_founded_induction lt_wf). intros f s -> Ef Es If Is.
  pose proof (edge_sym m Q f Ef) as Ef'. pose proof (edge_sym m Q s Es) as Es'.
  eapply settles_step.
  { intros n. cbn [find_base_sides]. rewrite (get_start m Q s Es). cbn [bind]. rewrite (orient_at m Q f _ Ef). cbn [bind].
    rewrite (get_left_end m Q f) by apply Ef. cbn [bind]. rewrite (get_start m Q f Ef). cbn [bind].
    rewrite (orient_at m Q s _ Es). cbn [bind]. rewrite (get_right_end m Q s) by apply Es. cbn [bind].
    change (nth ?i (m_endpoints m) (Pt 0 0)) with (at_ (m_endpoints m) i). rewrite Pm. reflexivity. }
  destruct (orientation_is_spec (orient (pos (start m f)) (pos (end_of m f)) (pos (start m s))) COUNTERCLOCKWISE) as [O|O].
  - apply orient_ccw in O.
    pose proof (edge_oprev m Q _ Ef') as En. pose proof (start_oprev m Q _ Ef') as Sn.
    change (start m (sym f)) with (end_of m f) in Sn. pose proof (C1 f Ef If) as In'.
    apply (IH (lower (ht (start m (oprev m (sym f))) (start m s)))); auto; rewrite ?Sn; auto.
    apply lower_lt; [apply heights_in; auto|].
    apply height_left; [apply Below|apply Below|apply Beyond|]; auto. clear - O. unfold area2 in *. qlra.
  - destruct (orientation_is_spec (orient (pos (start m s)) (pos (end_of m s)) (pos (start m f))) CLOCKWISE) as [O'|O'].
    + apply orient_cw in O'.
      pose proof (edge_onext m Q _ Es') as En. pose proof (qs_start m Q _ Es') as Sn.
      change (start m (sym s)) with (end_of m s) in Sn. pose proof (C2 s Es Is) as In'.
      apply (IH (lower (ht (start m f) (start m (onext m (sym s)))))); auto; rewrite ?Sn; auto.
      apply lower_lt; [apply heights_in; auto|].
      apply height_right; [apply Below|apply Beyond|apply Beyond|]; auto. clear - O'. unfold area2 in *. qlra.
    + apply settles_ok. auto.
Qed.
Lemma merge_cut m fl fr sl sr : apart m -> edge m fl -> edge m fr -> edge m sl -> edge m sr ->
  in_first (start m fl) -> in_first (start m fr) -> in_second (start m sl) -> in_second (start m sr) ->
  settles (fun n => merge n m (fl, fr) (sl, sr)) (fun '(m', (l, r)) =>
    risen m m' /\ edge m' l /\ edge m' r /\ in_both (start m' l) /\ in_both (start m' r)).
Proof.
  intros Ap Efl Efr Esl Esr Ifl Ifr Isl Isr. destruct Ap as (Q & Pm & Sm & C1 & C2) eqn:EA.
  assert (Ap' : apart m) by exact Ap. clear EA.
  destruct (base_settles m fr sl Ap' Efr Esl Ifr Isl) as ((f, s) & (Ef & Es & If & Is) & N1 & H1).
  pose proof (edge_sym m Q s Es) as Es'.
  assert (Xe : end_of m (sym s) = start m s) by (unfold end_of; rewrite sym_sym; reflexivity).
  destruct (connect_simple m (sym s) f) as (m1 & base & Ok_ & Q1 & Sm1 & Pe & Ee & Se & De & Ed & St); auto.
  { rewrite Xe. lia. }
  { rewrite Xe. intros g Eg A B. assert (in_second (end_of m g)) by (apply C2; auto; rewrite A; auto). lia. }
  rewrite Xe in Se.
  assert (Sse : start m1 (sym base) = start m f) by (rewrite <- De; reflexivity).
  assert (Dse : end_of m1 (sym base) = start m s) by (unfold end_of at 1; rewrite sym_sym; auto).
  assert (R : rising m1 base).
  { constructor; auto.
    - congruence.
    - rewrite Se. auto.
    - rewrite De. auto.
    - intros g Eg I. apply Ed in Eg. destruct Eg as [Eg|[->| ->]].
      + destruct (St g Eg) as (A & B). rewrite A in I. rewrite B.
        destruct (Nat.lt_ge_cases (start m g) b).
        * assert (in_first (end_of m g)) by (apply C1; auto; lia). lia.
        * assert (in_second (end_of m g)) by (apply C2; auto; lia). lia.
      + rewrite De. lia.
      + rewrite Dse. lia.
    - intros g Eg I J. apply Ed in Eg. destruct Eg as [Eg|[->| ->]].
      + destruct (St g Eg) as (A & B). rewrite A in I. rewrite B in J.
        assert (in_first (end_of m g)) by (apply C1; auto; lia). lia.
      + rewrite Se in I. lia.
      + rewrite Se, De, Sse, Dse. qlra. }
  assert (Ext1 : extends m m1).
  { split.
    - intros g Eg. destruct (St g Eg). split; [apply Ed; auto|auto].
    - intros g Eg. apply Ed in Eg. destruct Eg as [Eg|[->| ->]]; auto; right.
      + rewrite Se, De. lia.
      + rewrite Sse, Dse. lia. }
  destruct (rise_settles m1 base R) as (m2 & (Q2 & P2 & Sm2 & Ext & Cl) & N2 & H2).
  pose proof (extends_trans m m1 m2 Ext1 Ext) as Ext2.
  destruct (proj1 Ext2 fl Efl) as (Efl2 & Sfl2 & _). destruct (proj1 Ext2 f Ef) as (Ef2 & Sf2 & _).
  destruct (proj1 Ext2 s Es) as (Es2 & Ss2 & _). destruct (proj1 Ext2 sr Esr) as (Esr2 & Ssr2 & _).
  destruct (proj1 Ext base Ee) as (Eb2 & Sb2 & Db2). pose proof (edge_sym m2 Q2 base Eb2) as Eb2'.
  eexists (m2, (_, _)). split; [|exists (N1 + N2); intros n L; unfold merge, build_base_edge; rewrite H1 by lia;
    cbn [bind]; rewrite opposite_sym, Ok_; cbn [bind]; rewrite H2 by lia; cbn [bind];
    rewrite (get_start m2 Q2 fl Efl2), (get_start m2 Q2 f Ef2), (get_start m2 Q2 s Es2), (get_start m2 Q2 sr Esr2);
    cbn [bind]; rewrite opposite_sym; reflexivity].
  split; [repeat (split; auto)|].
  split; [destruct (point_eq _ _); auto|]. split; [destruct (point_eq _ _); auto|].
  split; (destruct (point_eq _ _); [|rewrite ?Sfl2, ?Ssr2; lia]).
  - change (start m2 (sym base)) with (end_of m2 base). rewrite Db2, De. lia.
  - rewrite Sb2, Se. lia.
Qed.
End Cut.

Lemma merge_settles m fl fr sl sr : apart m -> edge m fl -> edge m fr -> edge m sl -> edge m sr ->
  in_first (start m fl) -> in_first (start m fr) -> in_second (start m sl) -> in_second (start m sr) ->
  settles (fun n => merge n m (fl, fr) (sl, sr)) (fun '(m', (l, r)) =>
    risen m m' /\ edge m' l /\ edge m' r /\ in_both (start m' l) /\ in_both (start m' r)).
Proof.
  destruct separated as (eps & k & B1 & B2). apply (merge_cut eps k); auto.
Qed.
End Merge.
