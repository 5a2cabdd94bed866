(** The sweep of a linear operand against a shaped one, part 1: the attributes as functions, the
    invariant of the attributes and a left event. *)
From Coq Require Import QArith Qcanon Bool List Arith Lia Permutation.
From Verif Require Import QcTac Model_Base Model_Utils Model_Linear Model_Mixed Model_Shaped Spec_Base
  Spec_Sweep Proof_Base Proof_Line Proof_Sweep Proof_Sweep2 Proof_Sweep3 Proof_Sweep5 Proof_Sweep7
  Proof_Sweep8 Proof_Sweep9 Proof_Sweep10 Proof_Sweep11 Proof_Sweep12 Proof_Sweep13 Proof_Parity
  Proof_Flags Proof_Flags2 Proof_Flags3.
Import ListNotations.
Local Open Scope Qc_scope.

(** ** Attributes *)
Definition m_other (m : mixed_operation) (e : event) : bool := flag (mo_other m) (left_event_to_position e).
Definition m_over (m : mixed_operation) (e : event) : bool := flag (mo_overlap m) (left_event_to_position e).
Definition m_result (m : mixed_operation) (e : event) : bool := flag (mo_result m) (left_event_to_position e).
Record mview := MView { wo : event -> bool; wk : event -> bool; wr : event -> bool }.
Definition meq (v w : mview) : Prop := forall x, is_event_left x = true ->
  wo v x = wo w x /\ wk v x = wk w x /\ wr v x = wr w x.
Definition mview_of (m : mixed_operation) : mview := MView (m_other m) (m_over m) (m_result m).
Lemma meq_refl v : meq v v. Proof. intros x _; auto. Qed.
Lemma meq_trans u v w : meq u v -> meq v w -> meq u w.
Proof. intros A B x L. destruct (A x L) as (-> & -> & ->). apply B; auto. Qed.
Lemma meq_sym u v : meq u v -> meq v u.
Proof. intros A x L. destruct (A x L) as (-> & -> & ->). auto. Qed.
Lemma flag_set l i v j : flag (set_flag l i v) j = if (j =? i)%nat then v else flag l j.
Proof. apply (nth_put false l i v j). Qed.

Section Views.
Variable int : list bool.
Variable sel : bool -> bool -> bool -> bool.
Variable from_result : mixed_operation -> event -> bool.
Hypothesis FR : forall m e, from_result m e
  = sel (is_left_event_from_first_operand (mo m) e) (m_other m e) (m_over m e).

Definition mot (o : operation) (v : mview) (y : event) (below : option event) : bool :=
  match below with
  | None => wo v y
  | Some b => if Bool.eqb (firstop o y) (firstop o b) then wo v b else nth (sid o b) int false
  end.
Definition mcompute (o : operation) (v : mview) (e : event) (below : option event) : mview :=
  MView (upd (wo v) e (mot o v e below)) (wk v) (upd (wr v) e (sel (firstop o e) (mot o v e below) (wk v e))).
Definition mkinds (v : mview) (b e : event) : mview :=
  MView (wo v) (upd (upd (wk v) b true) e true) (wr v).

Lemma compute_mixed_view m e below : mo_interior m = int -> is_event_left e = true ->
  (forall b, below = Some b -> is_event_left b = true /\ b <> e) ->
  mo (compute_left_event_fields from_result m e below) = mo m
  /\ mo_interior (compute_left_event_fields from_result m e below) = int
  /\ meq (mview_of (compute_left_event_fields from_result m e below)) (mcompute (mo m) (mview_of m) e below).
Proof.
  intros Ei Le Hb. unfold compute_left_event_fields. cbv zeta. destruct below as [b|].
  - destruct (Hb b eq_refl) as [Lb Nb]. cbn -[set_flag flag is_left_event_from_first_operand]. split; auto. split; auto. intros x Lx.
    unfold mcompute, mot, m_other, m_over, m_result. cbn -[set_flag flag is_left_event_from_first_operand]. rewrite !FR.
    unfold m_other, m_over, m_result. cbn -[set_flag flag is_left_event_from_first_operand]. rewrite !flag_set, !eqb_position by auto.
    rewrite Nat.eqb_refl. unfold upd. subst int. unfold flag at 2.
    destruct (x =? e)%nat; auto.
  - cbn -[set_flag flag is_left_event_from_first_operand]. split; auto. split; auto. intros x Lx.
    unfold mcompute, mot, m_other, m_over, m_result. cbn -[set_flag flag is_left_event_from_first_operand]. rewrite !FR.
    unfold m_other, m_over, m_result. cbn -[set_flag flag is_left_event_from_first_operand]. rewrite !flag_set, !eqb_position by auto.
    unfold upd. destruct (Nat.eqb_spec x e) as [->|]; auto.
Qed.
Lemma detect_mixed_view m b e o' : mo_interior m = int -> is_event_left e = true -> is_event_left b = true ->
  detect_intersection (mo m) b e = Some o' ->
  exists m', detect_mixed m b e = Some (m', overlap_from_start (mo m) b e) /\ mo m' = o' /\ mo_interior m' = int
  /\ meq (mview_of m') (if overlap_from_start (mo m) b e then mkinds (mview_of m) b e else mview_of m).
Proof.
  intros Ei Le Lb D. unfold detect_mixed. rewrite D. destruct (overlap_from_start (mo m) b e).
  - eexists. split; [reflexivity|]. cbn -[set_flag flag]. split; auto. split; auto. intros x Lx.
    unfold mkinds, m_other, m_over, m_result. cbn -[set_flag flag]. unfold m_other, m_over, m_result. cbn -[set_flag flag]. rewrite !flag_set, !eqb_position by auto.
    unfold upd. auto.
  - eexists. split; [reflexivity|]. cbn. split; auto. split; auto. apply meq_refl.
Qed.
Lemma mcompute_ext o o' v e below : firstop o' e = firstop o e ->
  (forall b, below = Some b -> firstop o' b = firstop o b /\ sid o' b = sid o b) ->
  mcompute o' v e below = mcompute o v e below.
Proof.
  intros E1 E2. unfold mcompute, mot. destruct below as [b|]; rewrite E1; auto.
  destruct (E2 b eq_refl) as [-> ->]. auto.
Qed.
Lemma mcompute_meq o v w e below : is_event_left e = true ->
  (forall b, below = Some b -> is_event_left b = true) -> meq v w ->
  meq (mcompute o v e below) (mcompute o w e below).
Proof.
  intros Le Lb E x Lx. destruct (E x Lx) as (E1 & E2 & E3). destruct (E e Le) as (F1 & F2 & F3).
  unfold mcompute, mot. cbn. unfold upd. destruct below as [b|].
  - destruct (E b (Lb b eq_refl)) as (B1 & B2 & B3). rewrite B1, F2, E1, E2, E3. auto.
  - rewrite F1, F2, E1, E2, E3. auto.
Qed.
Lemma mkinds_meq v w b e : meq v w -> meq (mkinds v b e) (mkinds w b e).
Proof.
  intros E x Lx. destruct (E x Lx) as (E1 & E2 & E3). unfold mkinds, upd. cbn. rewrite E1, E2, E3. auto.
Qed.
Lemma mcompute_off o v e below x : x <> e -> wo (mcompute o v e below) x = wo v x
  /\ wk (mcompute o v e below) x = wk v x /\ wr (mcompute o v e below) x = wr v x.
Proof. intros Ne. unfold mcompute. cbn [wo wk wr]. rewrite !upd_other by auto. auto. Qed.
End Views.

Section Flags.
Variable c : ctx.
Hypothesis G : good c.
Hypothesis N : nc c.
Variable int : list bool.
Variable sel : bool -> bool -> bool -> bool.
(** The operand that is linear. *)
Variable f : bool.
Notation S' := (SX c). Notation E' := (EX c). Notation h := (hh c). Notation k := (kk c).
Notation EV := (EVX c). Notation col := (col c).
Notation core := (core c). Notation th := (th c). Notation mates := (mates c).
Notation through := (through c). Notation inv := (inv c). Notation least := (least c).
Notation gap := (gap c). Notation oth := (oth c). Notation later := (later c).

(** The endpoints of the shaped operand that an edge of the linear one passes are even in
    number; the edges of the shaped operand that the linear one sees are oriented. *)
Definition evn1 : Prop := forall i v, (i < length (c_ins c))%nat -> opd c i = f ->
  X c (fst (input c i)) < X c v -> X c v < X c (snd (input c i)) ->
  Nat.even (count_occ point_dec (ends c (negb (opd c i))) v) = true.
Definition ori1 : Prop := forall i j t, (i < length (c_ins c))%nat -> (j < length (c_ins c))%nat ->
  opd c i = f -> opd c i <> opd c j ->
  (forall p, In p (c_pts c) -> X c p <> t) -> spans c i t = true -> spans c j t = true ->
  nth j int false = negb (xsum (fun m => bel c m t (H c j t)) (idx c (opd c j))).

Record mflags (o : operation) (v : mview) : Prop := {
  mf_default : forall l, is_event_left l = true -> ~ popped o l -> wo v l = false /\ wk v l = false;
  mf_over1 : forall l m, popped o l -> popped o m -> l <> m -> mates o l m -> wk v l = true;
  mf_over2 : forall l, popped o l -> (forall m, popped o m -> m <> l -> ~ mates o l m) -> wk v l = false;
  mf_other : forall l u, popped o l -> firstop o l = f -> ~ later o l -> gap (S' o l) u -> wo v l = oth (sid o l) u;
  mf_result : forall l, popped o l -> wr v l = sel (firstop o l) (wo v l) (wk v l) }.

Lemma mflags_meq o v w : meq v w -> mflags o v -> mflags o w.
Proof.
  intros E [D K1 K2 O R].
  assert (Q : forall l, popped o l -> is_event_left l = true) by (intros l [[A _] _]; auto).
  constructor.
  - intros l Ll Nl. destruct (E l Ll) as (<- & <- & _). auto.
  - intros l m Pl. destruct (E l (Q l Pl)) as (_ & <- & _). apply K1; auto.
  - intros l Pl. destruct (E l (Q l Pl)) as (_ & <- & _). auto.
  - intros l u Pl. destruct (E l (Q l Pl)) as (<- & _ & _). auto.
  - intros l Pl. destruct (E l (Q l Pl)) as (<- & <- & <-). auto.
Qed.

(** ** Divisions *)
Lemma mflags_frame o o' t Y0 Z0 v : core o t -> core o' t -> frame c o o' t Y0 Z0 -> mflags o v -> mflags o' v.
Proof.
  intros C C' F [D K1 K2 O R].
  assert (Pop : forall l, popped o' l <-> popped o l).
  { intros l. split; intros [Ll Ql].
    - destruct (Nat.lt_ge_cases l (size o)) as [Q|Q].
      + split; [split; auto; apply Ll|]. rewrite <- (f_queue _ _ _ _ _ _ F); auto.
      + destruct (f_fresh _ _ _ _ _ _ F l Ll Q); contradiction.
    - split; [apply (frame_left c o o' t Y0 Z0); auto|]. rewrite (f_queue _ _ _ _ _ _ F); auto. apply Ll. }
  assert (Lf : forall l, popped o l -> left_of o l) by (intros l Q; apply Q).
  assert (Mt : forall x y, left_of o x -> left_of o y -> (mates o' x y <-> mates o x y)) by (apply (fr_mates c o o' t Y0 Z0 F)).
  assert (Fs : forall l, left_of o l -> S' o' l = S' o l) by (apply (fr_S c o o' t Y0 Z0 F)).
  assert (Ff : forall l, left_of o l -> firstop o' l = firstop o l) by (apply (fr_first c o o' t Y0 Z0 F)).
  assert (Fi : forall l, left_of o l -> sid o' l = sid o l) by (apply (f_sid _ _ _ _ _ _ F)).
  assert (NM : forall l, popped o l -> (forall m, popped o' m -> m <> l -> ~ mates o' l m) ->
    forall m, popped o m -> m <> l -> ~ mates o l m).
  { intros l Pl A m Pm Nm M. apply (A m); auto; [apply Pop; auto|apply Mt; auto]. }
  constructor.
  - intros l Ll Nl. apply D; auto. rewrite <- Pop. auto.
  - intros l m Pl Pm Nlm M. apply Pop in Pl. apply Pop in Pm. apply (K1 l m); auto. apply Mt; auto.
  - intros l Pl A. apply Pop in Pl. apply K2; auto.
  - intros l u Pl Fl NL Gp. apply Pop in Pl. rewrite Fs in Gp by auto. rewrite Ff in Fl by auto. rewrite Fi by auto. apply O; auto.
    intros (A1 & x & Lx & Qx & A2 & M). apply NL. split; [rewrite Ff; auto|]. exists x.
    split; [apply (frame_left c o o' t Y0 Z0); auto|]. split; [apply (f_queue _ _ _ _ _ _ F); auto; apply Lx|].
    split; [rewrite Ff; auto|]. apply Mt; auto.
  - intros l Pl. apply Pop in Pl. rewrite Ff by auto. auto.
Qed.

(** ** A left event *)
Section Left.
Hypothesis Ee : evn1.
Hypothesis Or : ori1.
Variables (o : operation) (t : Qc) (e : event) (v : mview).
Hypothesis V : inv o t.
Hypothesis Le : least o e.
Hypothesis Re : is_event_left e = true.
Hypothesis Et : EV o e = t.
Hypothesis Fl : mflags o v.
Let C : core o t := v_core c o t V.
Let W : wf c o := i_wf _ _ _ C.
Variables (l1 l2 : list event).
Hypothesis El : op_line o = l1 ++ l2.
Hypothesis P1 : forall x, In x l1 -> lowerb c o t e x = true.
Hypothesis P2 : forall x, In x l2 -> lowerb c o t e x = false.
Notation o1 := (relined o e (l1 ++ e :: l2)).

Let lf_left : left_of o e := lf_left c o t e V Le Re.
Let lf_S : S' o e = t := Et.
Let lf_core : core o1 t := lf_core c N o t e V Le Re Et l1 l2 El P1 P2.
Let lf_popped : forall x, popped o1 x <-> popped o x \/ x = e := lf_popped c o t e V Le Re l1 l2.
Let lf_active : forall x, active o1 x <-> active o x \/ x = e := lf_active c o t e V Le Re l1 l2.
Let lf_queue : forall x, In x (op_queue o1) <-> In x (op_queue o) /\ x <> e.
Proof. intros x. apply (lp_queue c o t e V). Qed.
Let lf_not_popped : ~ popped o e := lf_not_popped c o e Le.
Let lf_least_le : forall z, left_of o z -> In z (op_queue o) -> S' o z = t -> k o e <= k o z.
Proof. intros z. apply (lf_least_le c o t e Le Re Et). Qed.
Let lf_point : forall x y, left_of o x -> left_of o y -> S' o x = t -> S' o y = t -> h o x t = h o y t.
Proof. intros x y. apply (lf_point c G o t V). Qed.
Let lf_tied : forall x y, before (op_line o1) x y -> h o1 x t = h o1 y t ->
  k o1 x < k o1 y \/ (k o1 x = k o1 y /\ firstop o1 x = true /\ firstop o1 y = false).
Proof. intros x y. apply (lf_tied c N o t e V Le Re Et l1 l2 El P1 P2). Qed.
Let lf_beyond : forall x, active o1 x -> t < E' o1 x.
Proof. intros x. apply (lf_beyond c o t e V Le Re Et l1 l2). Qed.
Let lf_spans : forall x u, active o1 x -> gap t u -> spans c (sid o x) u = true.
Proof. intros x u. apply (lf_spans c N o t e V Le Re Et l1 l2 El P1 P2). Qed.
Let lf_later : forall x, popped o x -> (h o x t = h o e t -> k o x < k o e) -> ~ later o x.
Proof. intros x. apply (lf_later c G o t e V Le Re Et). Qed.
Let lf_popped_active : forall x, popped o1 x -> S' o x = t -> active o1 x.
Proof. intros x. apply (lf_popped_active c N o t e V Le Re Et l1 l2 El P1 P2). Qed.
Let lf_neq : forall x, popped o x -> x <> e.
Proof. intros x P ->. apply lf_not_popped; auto. Qed.
Let lf_old : forall x, popped o1 x -> x <> e -> popped o x.
Proof. intros x. rewrite lf_popped. intros [A|A]; congruence. Qed.

Lemma mf_neighbour x u : active o x -> firstop o x = f -> (h o x t = h o e t -> k o x < k o e) -> gap t u -> wo v x = oth (sid o x) u.
Proof.
  intros Ax Fx K Gu. pose proof (active_popped _ _ Ax) as Px. pose proof (lf_later x Px K) as NL.
  pose proof (i_S _ _ _ C x Px) as Sx. destruct (Qc_eq_dec (S' o x) t) as [Q|Q].
  - apply (mf_other _ _ Fl); auto. rewrite Q; auto.
  - destruct (gap_exists c (S' o x)) as (u1 & Gu1). rewrite (mf_other _ _ Fl x u1 Px Fx NL Gu1).
    assert (Lx : S' o x < t) by (apply Qcle_lt_or_eq in Sx; destruct Sx; auto; congruence).
    apply (carry_of c G o t x u1 u); auto.
    + intros w. apply Ee; [apply (w_sid c o W x), Ax|]. rewrite <- (firstop_opd c o x W). auto.
    + apply (lf_beyond x). apply lf_active; auto.
    + intros y Ay. apply (lf_beyond y). apply lf_active; auto.
    + intros z Lz Qz Sz Hz. pose proof (lf_least_le z Lz Qz Sz) as Kz.
      assert (k o x < k o e).
      { apply K. rewrite <- Hz. apply lf_point; auto. }
      qlra.
    + exists (pt o e). split; [apply (w_ptS _ _ W), lf_left|apply lf_S].
Qed.
Lemma mf_value y m1 m2 u : active o1 y -> S' o y = t -> firstop o y = f ->
  (forall z, left_of o z -> In z (op_queue o1) -> S' o z = t -> k o y < k o z) ->
  op_line o1 = m1 ++ y :: m2 ->
  (forall x, hd_error (rev m1) = Some x -> firstop o y = firstop o x ->
     active o x /\ (h o x t = h o e t -> k o x < k o e)) ->
  (hd_error (rev m1) = None -> wo v y = oth (sid o y) u \/ wo v y = false) -> gap t u ->
  mot int o v y (hd_error (rev m1)) = oth (sid o y) u.
Proof.
  intros Ay Sy Fy QH Em Hx H0 Gu. unfold mot. destruct (hd_error (rev m1)) as [x|] eqn:Ex.
  - assert (Ad : adj (op_line o1) x y) by (rewrite Em; apply last_adj; auto).
    assert (Ax : active o1 x). { apply (i_line _ _ _ lf_core). apply adj_In in Ad. apply Ad. }
    destruct (Bool.eqb (firstop o y) (firstop o x)) eqn:Ef.
    + apply Bool.eqb_prop in Ef. destruct (Hx x eq_refl Ef) as [Aox Kx].
      rewrite (mf_neighbour x u Aox); [|congruence|auto|auto]. symmetry.
      apply (nb_same c G o1 t u lf_core lf_tied Gu y Ay Sy QH x Ad). symmetry. exact Ef.
    + apply Bool.eqb_false_iff in Ef.
      assert (Ef' : firstop o1 x <> firstop o1 y) by (intros Q; apply Ef; symmetry; exact Q).
      rewrite (nb_diff c G o1 t u lf_core lf_beyond lf_tied Gu y Ay Sy QH x Ad Ef' : oth (sid o y) u = _).
      change (sid o1 x) with (sid o x).
      apply (Or (sid o y) (sid o x) u).
      * apply (w_sid _ _ W); apply Ay.
      * apply (w_sid _ _ W); apply Ax.
      * rewrite <- (firstop_opd c o) by auto. auto.
      * rewrite <- !(firstop_opd c o) by auto. auto.
      * intros p Ip. apply (gap_not c t u p Gu Ip).
      * apply lf_spans; auto.
      * apply lf_spans; auto.
  - destruct (H0 eq_refl) as [->| ->]; auto. symmetry.
    apply (nb_none c G o1 t u lf_core lf_tied Gu y Ay Sy QH).
    intros x B. rewrite Em in B. destruct m1 as [|z m1]; [|cbn in Ex; destruct (rev m1); discriminate].
    cbn in B. destruct B as (b1 & b2 & b3 & B). destruct b1 as [|b b1]; cbn in B.
    + injection B as <- B. apply (line_irrefl c o1 t y lf_core). rewrite Em. exists [], b2, b3. rewrite B. reflexivity.
    + injection B as <- B. apply (line_irrefl c o1 t y lf_core). rewrite Em, B. cbn.
      exists [], (b1 ++ x :: b2), b3. cbn. rewrite <- app_assoc. reflexivity.
Qed.

Lemma mf_single : (forall m, popped o m -> ~ mates o e m) ->
  mflags o1 (mcompute int sel o1 v e (hd_error (rev l1))).
Proof.
  intros NM. set (below := hd_error (rev l1)).
  assert (Ke : wk v e = false) by (apply (mf_default _ _ Fl); [exact Re|apply lf_not_popped]).
  assert (Oe : wo v e = false) by (apply (mf_default _ _ Fl); [exact Re|apply lf_not_popped]).
  assert (Bel : forall b, below = Some b -> active o b /\ before (op_line o1) b e).
  { intros b Eb. split.
    - apply (i_line _ _ _ C). rewrite El. apply in_or_app; left. apply last_In; auto.
    - apply adj_before. apply last_adj; auto. }
  assert (Kb : forall b, below = Some b -> h o b t = h o e t -> k o b < k o e \/ (k o b = k o e /\ S' o b < t
                 /\ firstop o b = true /\ firstop o e = false)).
  { intros b Eb Hb. destruct (Bel b Eb) as [Ab Bb]. destruct (lf_tied b e Bb Hb) as [Q|(Q & F1 & F2)]; auto. right.
    change (k o b = k o e) in Q. split; auto. split; [|split; auto].
    pose proof (i_S _ _ _ C b (active_popped _ _ Ab)) as Sb. apply Qcle_lt_or_eq in Sb. destruct Sb as [|Sb]; auto.
    exfalso. apply (NM b (active_popped _ _ Ab)). split; [|rewrite Sb; apply lf_S].
    apply (col_slope c o e b t); auto. }
  assert (NoM : forall l m, popped o1 l -> popped o1 m -> l <> m -> mates o l m -> popped o l /\ popped o m).
  { intros l m Pl Pm Nlm M. split; apply lf_old; auto; intros Q.
    - rewrite Q in *. apply (NM m); auto.
    - rewrite Q in *. apply (NM l); [apply lf_old; auto|apply mates_sym; auto]. }
  constructor; unfold mcompute; cbn [wo wk wr].
  - intros l Ll Nl. assert (Q : ~ (popped o l \/ l = e)) by (rewrite <- lf_popped; auto).
    assert (Ne : l <> e) by (intros A; apply Q; auto). rewrite !upd_other by auto. apply (mf_default _ _ Fl); auto.
  - intros l m Pl Pm Nlm M. destruct (NoM l m Pl Pm Nlm M) as [Ql Qm].
    apply (mf_over1 _ _ Fl l m); auto.
  - intros l Pl NMl. destruct (Nat.eq_dec l e) as [->|Ne]; auto. apply (mf_over2 _ _ Fl); [apply lf_old; auto|].
    intros m Pm. apply NMl. apply lf_popped; auto.
  - intros l u Pl Ff NL Gu. destruct (Nat.eq_dec l e) as [->|Ne].
    + rewrite upd_same. change (gap (S' o e) u) in Gu. rewrite lf_S in Gu.
      change (mot int o v e (hd_error (rev l1)) = oth (sid o e) u).
      apply (mf_value e l1 l2 u); auto.
      * intros z Lz Qz Sz. apply lf_queue in Qz. destruct Qz as [Qz Nz].
        destruct (lf_least c o t e Le Re Et z Lz Qz Nz Sz) as [|(Kz & F1 & F2)]; auto. exfalso. apply NL. split; auto.
        exists z. split; auto. split; [apply lf_queue; auto|]. split; auto. split.
        -- apply (col_slope c o z e t); auto.
        -- change (S' o z = S' o e). rewrite lf_S. auto.
      * intros b Eb Ef. destruct (Bel b Eb) as [Ab Bb]. split; auto. intros Hb.
        destruct (Kb b Eb Hb) as [|(_ & _ & F1 & F2)]; auto. congruence.
    + rewrite upd_other by auto. apply (mf_other _ _ Fl); auto.
      intros (A1 & x & Lx & Qx & A2 & M). apply NL. split; auto. exists x. split; auto.
      destruct (Nat.eq_dec x e) as [->|Nx].
      * exfalso. apply (NM l); auto.
      * split; [apply lf_queue; auto|]. auto.
  - intros l Pl. destruct (Nat.eq_dec l e) as [->|Ne].
    + rewrite !upd_same. reflexivity.
    + rewrite !upd_other by auto. apply (mf_result _ _ Fl). apply lf_old; auto.
Qed.

Definition mpair (p r : event) (below : option event) : mview :=
  let other := nth (sid o p) int false in
  MView (upd (upd (wo v) p (mot int o v p below)) r other) (upd (upd (wk v) p true) r true)
    (upd (upd (wr v) p (sel true (mot int o v p below) true)) r (sel false other true)).

Lemma mf_pair p r m1 m2 : (p = e /\ popped o r) \/ (r = e /\ popped o p) -> mates o p r ->
  firstop o p = true -> firstop o r = false -> op_line o1 = m1 ++ p :: r :: m2 ->
  mflags o1 (mpair p r (hd_error (rev m1))).
Proof.
  intros Who Mpr Fp Fr Em. set (below := hd_error (rev m1)).
  assert (Npr : p <> r) by (intros ->; congruence).
  assert (Pp : popped o1 p) by (apply lf_popped; destruct Who as [[-> _]|[_ Q]]; auto).
  assert (Pr : popped o1 r) by (apply lf_popped; destruct Who as [[_ Q]|[-> _]]; auto).
  assert (Lp : left_of o p) by apply Pp. assert (Lr : left_of o r) by apply Pr.
  assert (Se : S' o e = t) by apply lf_S.
  assert (Sp : S' o p = t).
  { destruct Who as [[-> _]|[Q _]]; auto. destruct Mpr as [_ M]. rewrite M, Q; auto. }
  assert (Sr : S' o r = t) by (destruct Mpr as [_ M]; rewrite <- M; auto).
  assert (Ke : k o p = k o e /\ k o r = k o e).
  { pose proof (lf_mates_k c o p r Mpr). destruct Who as [[Q _]|[Q _]]; rewrite Q in *; auto. }
  destruct Ke as [Kp Kr].
  assert (Hpe : h o p t = h o e t) by (apply lf_point; auto).
  assert (Third : forall x, left_of o x -> x <> p -> x <> r -> ~ mates o p x /\ ~ mates o r x).
  { intros x Lx Nx1 Nx2. split; intros M.
    - apply (mates_three c N o p r x); auto.
    - apply (mates_three c N o r p x); auto. apply mates_sym; auto. }
  assert (Epr : e = p \/ e = r) by (destruct Who as [[-> _]|[-> _]]; auto).
  assert (OldP : forall x, popped o1 x -> x <> p -> x <> r -> popped o x).
  { intros x Q N1 N2. apply lf_old; auto. destruct Epr; congruence. }
  assert (Ap : active o1 p) by (apply lf_popped_active; auto).
  assert (Ar : active o1 r) by (apply lf_popped_active; auto).
  assert (Bel : forall b, below = Some b -> active o b /\ before (op_line o1) b p /\ b <> p /\ b <> r).
  { intros b Eb. assert (Bb : before (op_line o1) b p) by (rewrite Em; apply adj_before, last_adj; auto).
    assert (N1 : b <> p) by (intros A; rewrite A in Bb; apply (line_irrefl c o1 t p lf_core); auto).
    assert (N2 : b <> r).
    { intros A; rewrite A in Bb. apply (line_asym c o1 t r p lf_core Bb). rewrite Em. exists m1, [], m2. reflexivity. }
    split; [|auto]. apply before_In in Bb. destruct Bb as [Bb _]. apply (i_line _ _ _ lf_core) in Bb. apply lf_active in Bb.
    destruct Bb as [Bb|Bb]; auto. destruct Epr; congruence. }
  assert (Kb : forall b, below = Some b -> h o b t = h o p t -> k o b < k o p).
  { intros b Eb Hb. destruct (Bel b Eb) as (Ab & Bb & _). destruct (lf_tied b p Bb Hb) as [Q|(_ & _ & Q)]; auto.
    change (firstop o p = false) in Q. congruence. }
  assert (Kbe : forall b, below = Some b -> h o b t = h o e t -> k o b < k o e).
  { intros b Eb Hb. rewrite <- Kp. apply Kb; auto. congruence. }
  assert (Popped : popped o p \/ ~ popped o p).
  { destruct Who as [[A _]|[_ Q]]; [right; rewrite A; apply lf_not_popped|auto]. }
  assert (QH : forall z, left_of o z -> In z (op_queue o1) -> S' o z = t -> k o e < k o z).
  { intros z Lz Qz Sz. apply lf_queue in Qz. destruct Qz as [Qz Nz].
    destruct (lf_least c o t e Le Re Et z Lz Qz Nz Sz) as [|(Kz & F1 & F2)]; auto. exfalso.
    assert (Nzp : z <> p).
    { intros A. destruct Epr as [B|B]; [congruence|]. rewrite A in Qz. destruct Who as [[_ D]|[_ D]]; [|apply D; auto].
      apply (lf_neq r D). auto. }
    assert (Nzr : z <> r) by congruence.
    apply (proj1 (Third z Lz Nzp Nzr)). split; [|congruence].
    apply (col_slope c o p z t); [congruence|]. apply lf_point; auto. }
  assert (Vp : firstop o p = f -> forall u, gap t u -> mot int o v p below = oth (sid o p) u).
  { intros Ff u Gu. apply (mf_value p m1 (r :: m2) u); auto.
    - intros z Lz Qz Sz. rewrite Kp. auto.
    - intros b Eb _. split; [apply (Bel b Eb)|apply (Kbe b Eb)].
    - intros _. destruct Popped as [Q|Q]; [left|right; apply (mf_default _ _ Fl); auto; apply Lp]. apply (mf_other _ _ Fl); auto.
      + intros [A _]. congruence.
      + rewrite Sp. auto. }
  assert (Vr : firstop o r = f -> forall u, gap t u -> nth (sid o p) int false = oth (sid o r) u).
  { intros Ff u Gu. assert (Ad : adj (op_line o1) p r) by (rewrite Em; exists m1, m2; auto).
    assert (Ef' : firstop o1 p <> firstop o1 r) by (change (firstop o p <> firstop o r); congruence).
    rewrite (nb_diff c G o1 t u lf_core lf_beyond lf_tied Gu r Ar Sr (fun z Lz Qz Sz => eq_ind_r (fun q => q < k o z) (QH z Lz Qz Sz) Kr) p Ad Ef' : oth (sid o r) u = _).
    change (sid o1 p) with (sid o p). apply (Or (sid o r) (sid o p) u).
    - apply (w_sid _ _ W); auto.
    - apply (w_sid _ _ W); auto.
    - rewrite <- (firstop_opd c o) by auto. congruence.
    - rewrite <- !(firstop_opd c o) by auto. congruence.
    - intros x Ix. apply (gap_not c t u x Gu Ix).
    - apply lf_spans; auto.
    - apply lf_spans; auto. }
  assert (Upd : forall (A : Type) (g : event -> A) a b x, x <> p -> x <> r -> upd (upd g p a) r b x = g x).
  { intros A g a b x N1 N2. rewrite !upd_other; auto. }
  assert (UpdP : forall (A : Type) (g : event -> A) a b, upd (upd g p a) r b p = a).
  { intros A g a b. rewrite upd_other, upd_same; auto. }
  assert (NoM : forall l m, popped o1 l -> popped o1 m -> l <> m -> mates o l m -> l <> p -> l <> r -> m <> p /\ m <> r).
  { intros l m Pl Pm Nlm M N1 N2. destruct (Third l) as [T1 T2]; auto; [apply Pl|].
    split; intros A; rewrite A in *; [apply T1|apply T2]; apply mates_sym; auto. }
  constructor; unfold mpair; cbn [wo wk wr].
  - intros l Ll Nl. assert (N1 : l <> p) by (intros A; rewrite A in *; auto).
    assert (N2 : l <> r) by (intros A; rewrite A in *; auto). rewrite !Upd by auto. apply (mf_default _ _ Fl); auto.
    intros Q. apply Nl, lf_popped; auto.
  - intros l m Pl Pm Nlm M.
    destruct (Nat.eq_dec l p) as [->|N1]; [rewrite UpdP; auto|destruct (Nat.eq_dec l r) as [->|N2]; [rewrite upd_same; auto|]].
    rewrite Upd by auto. destruct (NoM l m Pl Pm Nlm M N1 N2). apply (mf_over1 _ _ Fl l m); auto.
  - intros l Pl NMl. destruct (Nat.eq_dec l p) as [->|N1]; [|destruct (Nat.eq_dec l r) as [->|N2]].
    + exfalso. apply (NMl r Pr); auto.
    + exfalso. apply (NMl p Pp); auto. apply mates_sym; auto.
    + rewrite Upd by auto. apply (mf_over2 _ _ Fl); auto. intros m Pm. apply NMl, lf_popped; auto.
  - intros l u Pl Ff NL Gu. destruct (Nat.eq_dec l p) as [->|N1]; [|destruct (Nat.eq_dec l r) as [->|N2]].
    + rewrite UpdP. apply Vp; auto. change (gap (S' o p) u) in Gu. rewrite Sp in Gu. auto.
    + rewrite upd_same. apply Vr; auto. change (gap (S' o r) u) in Gu. rewrite Sr in Gu. auto.
    + rewrite Upd by auto. apply (mf_other _ _ Fl); auto.
      intros (A1 & x & Lx & Qx & A2 & M). apply NL. split; auto. exists x. split; auto.
      split; [apply lf_queue; split; auto|auto]. intros A. rewrite A in *.
      destruct (Third l (proj1 Pl) N1 N2) as [T1 T2].
      destruct Who as [[B _]|[B _]]; rewrite B in *; [apply T1|apply T2]; auto.
  - intros l Pl. destruct (Nat.eq_dec l p) as [->|N1]; [|destruct (Nat.eq_dec l r) as [->|N2]].
    + rewrite !UpdP. change (firstop o1 p) with (firstop o p). rewrite Fp. auto.
    + rewrite !upd_same. change (firstop o1 r) with (firstop o r). rewrite Fr. auto.
    + rewrite !Upd by auto. apply (mf_result _ _ Fl); auto.
Qed.
End Left.

(** The second evaluation of the attributes of two mates. *)
Lemma pair_mview o v v1 p r below : firstop o p = true -> firstop o r = false -> p <> r ->
  (forall b, below = Some b -> b <> p /\ b <> r) ->
  (forall x, x <> p -> x <> r -> wo v1 x = wo v x /\ wk v1 x = wk v x /\ wr v1 x = wr v x) ->
  (below = None -> wo v1 p = wo v p) ->
  meq (mcompute int sel o (mcompute int sel o (mkinds v1 p r) p below) r (Some p)) (mpair o v p r below).
Proof.
  intros Fp Fr Npr Hb H1 H0 x Lx.
  assert (E1 : mot int o (mkinds v1 p r) p below = mot int o v p below).
  { unfold mot, mkinds. cbn [wo]. destruct below as [b|]; [|apply H0; auto]. destruct (Hb b eq_refl) as [N1 N2].
    destruct (H1 b N1 N2) as (-> & _). auto. }
  assert (E2 : mot int o (mcompute int sel o (mkinds v1 p r) p below) r (Some p) = nth (sid o p) int false).
  { unfold mot. rewrite Fp, Fr. reflexivity. }
  unfold mcompute at 1 3 5. rewrite !E2. unfold mcompute. rewrite E1, Fp, Fr. unfold mpair. cbn [wo wk wr mkinds].
  destruct (Nat.eq_dec x r) as [->|Nr]; [|destruct (Nat.eq_dec x p) as [->|Np]].
  - unfold upd. rewrite !Nat.eqb_refl. auto.
  - unfold upd. rewrite !Nat.eqb_refl, !(proj2 (Nat.eqb_neq p r)) by auto. auto.
  - unfold upd. rewrite !(proj2 (Nat.eqb_neq x r)), !(proj2 (Nat.eqb_neq x p)) by auto. apply H1; auto.
Qed.
End Flags.
