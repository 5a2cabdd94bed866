(** The sweep over two shaped operands, part 4: the invariant of the attributes and a left event. *)
From Coq Require Import QArith Qcanon Bool List Arith Lia Permutation.
From Verif Require Import QcTac Model_Base Model_Utils Model_Linear Model_Mixed Model_Shaped Spec_Base
  Spec_Sweep Proof_Base Proof_Line Proof_Sweep Proof_Sweep2 Proof_Sweep3 Proof_Sweep5 Proof_Sweep7
  Proof_Sweep8 Proof_Sweep9 Proof_Sweep10 Proof_Sweep11 Proof_Sweep12 Proof_Sweep13 Proof_Parity
  Proof_Flags Proof_Flags2.
Import ListNotations.
Local Open Scope Qc_scope.

Lemma qltb_irrefl a : qltb a a = false.
Proof. destruct (qltb_spec a a) as [Q|Q]; auto. exfalso. qlra. Qed.

Section Flags.
Variable c : ctx.
Hypothesis G : good c.
Hypothesis N : nc c.
Variable int : list bool.
Variable sel : bool -> bool -> overlap_kind -> bool.
Hypothesis Sel : forall x q, q <> NO_OVERLAP -> sel true x q = false.
Notation S' := (SX c). Notation E' := (EX c). Notation h := (hh c). Notation k := (kk c).
Notation EV := (EVX c). Notation col := (col c).
Notation core := (core c). Notation th := (th c). Notation mates := (mates c).
Notation through := (through c). Notation inv := (inv c). Notation least := (least c).
Notation gap := (gap c). Notation oth := (oth c). Notation kind_at := (kind_at int).

(** The edges of an operand that the other one sees are oriented: the interior is to the left of
    an edge that goes to the right, above it, when an even number of them passes below. *)
Definition ori : Prop := forall i j t, (i < length (c_ins c))%nat -> (j < length (c_ins c))%nat ->
  opd c i <> opd c j -> (forall p, In p (c_pts c) -> X c p <> t) -> spans c i t = true -> spans c j t = true ->
  nth j int false = negb (xsum (fun m => bel c m t (H c j t)) (idx c (opd c j))).

Definition later (o : operation) (l : event) : Prop :=
  firstop o l = false /\ exists x, left_of o x /\ In x (op_queue o) /\ firstop o x = true /\ mates o x l.
Definition expects (o : operation) (ex : event -> Prop) (a : event) : Prop :=
  (exists x, left_of o x /\ In x (op_queue o) /\ mates o a x)
  \/ (ex a /\ forall m, popped o m -> m <> a -> ~ mates o a m).
Definition precedes (o : operation) (f l : event) : Prop :=
  S' o f < S' o l \/ (S' o f = S' o l /\ k o f < k o l).
Record flags (o : operation) (ex : event -> Prop) (v : view) : Prop := {
  fl_default : forall l, is_event_left l = true -> ~ popped o l ->
    vo v l = false /\ vk v l = NO_OVERLAP /\ vb v l = None;
  fl_kind1 : forall l m, popped o l -> popped o m -> l <> m -> mates o l m -> vk v l = kind_at o l m;
  fl_kind2 : forall l, popped o l -> (forall m, popped o m -> m <> l -> ~ mates o l m) -> vk v l = NO_OVERLAP;
  fl_other : forall l u, popped o l -> ~ later o l -> gap (S' o l) u -> vo v l = oth (sid o l) u;
  fl_result : forall l, popped o l -> vr v l = sel (firstop o l) (vo v l) (vk v l);
  fl_below : forall l f, popped o l -> vb v l = Some f -> popped o f /\ vr v f = true /\ precedes o f l;
  fl_pend : forall a l, popped o a -> popped o l -> expects o ex a -> vb v l <> Some a }.

Lemma flags_veq o ex v w : veq v w -> flags o ex v -> flags o ex w.
Proof.
  intros E [D K1 K2 O R B P].
  assert (Q : forall l, popped o l -> is_event_left l = true) by (intros l [[A _] _]; auto).
  constructor.
  - intros l Ll Nl. destruct (E l Ll) as (<- & <- & _ & <-). auto.
  - intros l m Pl. destruct (E l (Q l Pl)) as (_ & <- & _ & _). auto.
  - intros l Pl. destruct (E l (Q l Pl)) as (_ & <- & _ & _). auto.
  - intros l u Pl. destruct (E l (Q l Pl)) as (<- & _ & _ & _). auto.
  - intros l Pl. destruct (E l (Q l Pl)) as (<- & <- & <- & _). auto.
  - intros l f Pl. destruct (E l (Q l Pl)) as (_ & _ & _ & <-). intros F.
    destruct (B l f Pl F) as (Pf & Rf & A). destruct (E f (Q f Pf)) as (_ & _ & <- & _). auto.
  - intros a l Pa Pl X. destruct (E l (Q l Pl)) as (_ & _ & _ & <-). auto.
Qed.
Lemma flags_weaken o (ex ex' : event -> Prop) v : (forall x, ex' x -> ex x) -> flags o ex v -> flags o ex' v.
Proof.
  intros E [D K1 K2 O R B P]. constructor; auto.
  intros a l Pa Pl [X|[X X']]; apply P; auto; [left|right]; auto.
Qed.

Lemma kind_at_sym o x y : kind_at o x y = kind_at o y x.
Proof. unfold Proof_Flags2.kind_at. destruct (nth (sid o y) int false), (nth (sid o x) int false); auto. Qed.

(** ** Divisions *)
Lemma flags_frame o o' t Y0 Z0 (ex : event -> Prop) v : (forall a, ex a \/ ~ ex a) -> core o t -> th o t ex -> (forall y, ex y -> S' o y = t) -> core o' t ->
  frame c o o' t Y0 Z0 -> flags o ex v -> flags o' ex v.
Proof.
  intros Dx C T Ex C' F [D K1 K2 O R B P].
  assert (Pop : forall l, popped o' l <-> popped o l).
  { intros l. split; intros [Ll Ql].
    - destruct (Nat.lt_ge_cases l (size o)) as [Q|Q].
      + split; [split; auto; apply Ll|]. rewrite <- (f_queue _ _ _ _ _ _ F); auto.
      + destruct (f_fresh _ _ _ _ _ _ F l Ll Q); contradiction.
    - split; [apply (frame_left c o o' t Y0 Z0); auto|]. rewrite (f_queue _ _ _ _ _ _ F); auto. apply Ll. }
  assert (Lf : forall l, popped o l -> left_of o l) by (intros l Q; apply Q).
  assert (Mt : forall x y, left_of o x -> left_of o y -> (mates o' x y <-> mates o x y)) by (apply (fr_mates c o o' t Y0 Z0 F)).
  assert (Fs : forall l, left_of o l -> S' o' l = S' o l) by (apply (fr_S c o o' t Y0 Z0 F)).
  assert (Fk : forall l, left_of o l -> k o' l = k o l) by (apply (fr_k c o o' t Y0 Z0 F)).
  assert (Ff : forall l, left_of o l -> firstop o' l = firstop o l) by (apply (fr_first c o o' t Y0 Z0 F)).
  assert (Fi : forall l, left_of o l -> sid o' l = sid o l) by (apply (f_sid _ _ _ _ _ _ F)).
  assert (Kd : forall l m, popped o l -> popped o m -> kind_at o' l m = kind_at o l m).
  { intros l m Pl Pm. unfold Proof_Flags2.kind_at. rewrite !Fi; auto. }
  assert (NM : forall l, popped o l -> (forall m, popped o' m -> m <> l -> ~ mates o' l m) ->
    forall m, popped o m -> m <> l -> ~ mates o l m).
  { intros l Pl A m Pm Nm M. apply (A m); auto; [apply Pop; auto|apply Mt; auto]. }
  constructor.
  - intros l Ll Nl. apply D; auto. rewrite <- Pop. auto.
  - intros l m Pl Pm Nlm M. apply Pop in Pl. apply Pop in Pm. rewrite Kd by auto. apply K1; auto. apply Mt; auto.
  - intros l Pl A. apply Pop in Pl. apply K2; auto.
  - intros l u Pl NL Gp. apply Pop in Pl. rewrite Fs in Gp by auto. rewrite Fi by auto. apply O; auto.
    intros (A1 & x & Lx & Qx & A2 & M). apply NL. split; [rewrite Ff; auto|]. exists x.
    split; [apply (frame_left c o o' t Y0 Z0); auto|]. split; [apply (f_queue _ _ _ _ _ _ F); auto; apply Lx|].
    split; [rewrite Ff; auto|]. apply Mt; auto.
  - intros l Pl. apply Pop in Pl. rewrite Ff by auto. auto.
  - intros l f Pl Bl. apply Pop in Pl. destruct (B l f Pl Bl) as (Pf & Rf & A). split; [apply Pop; auto|]. split; auto.
    unfold precedes. rewrite !Fs, !Fk by auto. auto.
  - intros a l Pa Pl X. apply Pop in Pa. apply Pop in Pl. apply P; auto. destruct X as [(x & Lx & Qx & M)|[X A]].
    + destruct (Nat.lt_ge_cases x (size o)) as [Q|Q].
      * assert (Lx0 : left_of o x) by (split; auto; apply Lx). left. exists x. split; auto.
        split; [apply (f_queue _ _ _ _ _ _ F); auto|]. apply Mt; auto.
      * destruct (Dx a) as [Xa|Xa].
        -- right. split; auto. intros m Pm Nm Mm.
           apply (mates_three c N o' a m x); auto; try (apply (frame_left c o o' t Y0 Z0); auto).
           ++ apply (i_wf _ _ _ C').
           ++ intros ->. apply Lf in Pa. destruct Pa; lia.
           ++ intros ->. apply Lf in Pm. destruct Pm; lia.
           ++ apply Mt; auto.
        -- exfalso. apply (fresh_mate c N o o' t Y0 Z0 ex x a); auto.
    + right. split; auto.
Qed.

(** ** A left event *)
Section Left.
Hypothesis Ee : evn c.
Hypothesis Or : ori.
Variables (o : operation) (t : Qc) (e : event) (v : view).
Hypothesis V : inv o t.
Hypothesis Le : least o e.
Hypothesis Re : is_event_left e = true.
Hypothesis Et : EV o e = t.
Hypothesis Fl : flags o nobody v.
Let C : core o t := v_core c o t V.
Let W : wf c o := i_wf _ _ _ C.
Variables (l1 l2 : list event).
Hypothesis El : op_line o = l1 ++ l2.
Hypothesis P1 : forall x, In x l1 -> lowerb c o t e x = true.
Hypothesis P2 : forall x, In x l2 -> lowerb c o t e x = false.
Notation o1 := (relined o e (l1 ++ e :: l2)).

Lemma lf_left : left_of o e. Proof. apply (lp_left c o t e V Le Re). Qed.
Lemma lf_S : S' o e = t. Proof. apply Et. Qed.
Lemma lf_E : t < E' o e. Proof. rewrite <- lf_S. apply (w_lt _ _ W), lf_left. Qed.
Lemma lf_core : core o1 t. Proof. apply (lp_core c N o t e V Le Re Et l1 l2 El P1 P2). Qed.
Lemma lf_popped x : popped o1 x <-> popped o x \/ x = e.
Proof. apply (lp_popped c o t e V Le Re l1 l2 x). Qed.
Lemma lf_active x : active o1 x <-> active o x \/ x = e.
Proof. apply (lp_active c o t e V Le Re l1 l2 x). Qed.
Lemma lf_queue x : In x (op_queue o1) <-> In x (op_queue o) /\ x <> e.
Proof. apply (lp_queue c o t e V). Qed.
Lemma lf_not_popped : ~ popped o e. Proof. intros [_ Q]. apply Q, Le. Qed.
Lemma lf_beyond x : active o1 x -> t < E' o1 x.
Proof.
  rewrite lf_active. intros [A| ->]; [|apply lf_E].
  apply (lp_beyond c o t e V Le Re Et x A).
Qed.
Lemma lf_queue_S z : left_of o z -> In z (op_queue o) -> t <= S' o z.
Proof. intros Lz Qz. apply (i_q1 _ _ _ C z Qz). Qed.
Lemma lf_least z : left_of o z -> In z (op_queue o) -> z <> e -> S' o z = t ->
  k o e < k o z \/ (k o e = k o z /\ firstop o e = false /\ firstop o z = true).
Proof.
  intros Lz Qz Nz Sz. destruct (proj2 Le z Qz) as [->|Q]; [congruence|].
  assert (Ez : EV o z = t) by exact Sz. destruct Q as [Q|[_ Q]]; [exfalso; qlra|].
  destruct Q as [[Q _]|[_ Q]]; [congruence|]. unfold skey, is_event_from_first_operand, to_left_event in Q.
  rewrite (proj1 Lz), Re in Q. auto.
Qed.
Lemma lf_least_le z : left_of o z -> In z (op_queue o) -> S' o z = t -> k o e <= k o z.
Proof.
  intros Lz Qz Sz. destruct (Nat.eq_dec z e) as [->|Nz]; [qlra|].
  destruct (lf_least z Lz Qz Nz Sz) as [Q|[Q _]]; [qlra|rewrite Q; qlra].
Qed.
Lemma lf_point x y : left_of o x -> left_of o y -> S' o x = t -> S' o y = t -> h o x t = h o y t.
Proof.
  intros Lx Ly Sx Sy. assert (Q : pt o x = pt o y).
  { apply (X_inj c G); [apply (w_ptS _ _ W); auto|apply (w_ptS _ _ W); auto|].
    change (S' o x = S' o y). congruence. }
  pose proof (w_S _ _ W x Lx) as Ax. pose proof (w_S _ _ W y Ly) as Ay. rewrite Sx in Ax. rewrite Sy in Ay. congruence.
Qed.
Lemma lf_tied x y : before (op_line o1) x y -> h o1 x t = h o1 y t ->
  k o1 x < k o1 y \/ (k o1 x = k o1 y /\ firstop o1 x = true /\ firstop o1 y = false).
Proof.
  intros B T. change (h o x t = h o y t) in T.
  change (k o x < k o y \/ (k o x = k o y /\ firstop o x = true /\ firstop o y = false)).
  apply before_app_cons in B. destruct B as [B|[[-> Ix]|[-> Iy]]].
  - rewrite <- El in B. apply (tied_order c o t e V Le Re Et x y B T).
  - pose proof (P1 x Ix) as Q. unfold lowerb in Q. rewrite T, qltb_irrefl in Q. cbn [orb andb negb] in Q.
    destruct (qeqb_spec (h o e t) (h o e t)) as [_|]; [|congruence]. cbn [orb andb negb] in Q.
    apply orb_true_iff in Q. destruct Q as [Q|Q]; [left; apply qltb_true; auto|right].
    apply andb_true_iff in Q. destruct Q as [Q Q3]. apply andb_true_iff in Q. destruct Q as [Q1 Q2].
    split; [apply qeqb_true; auto|]. split; auto. apply negb_true_iff; auto.
  - pose proof (P2 y Iy) as Q. unfold lowerb in Q. rewrite <- T, qltb_irrefl in Q. cbn [orb andb negb] in Q.
    destruct (qeqb_spec (h o e t) (h o e t)) as [_|]; [|congruence]. cbn [orb andb negb] in Q.
    apply orb_false_iff in Q. destruct Q as [Q1 Q2]. apply qltb_false in Q1.
    destruct (Qc_dec (k o e) (k o y)) as [[L|L]|L]; [left; auto|exfalso; qlra|right].
    split; auto. rewrite <- L in Q2. destruct (qeqb_spec (k o e) (k o e)) as [_|]; [|congruence]. cbn [orb andb negb] in Q2.
    assert (Ay : active o y).
    { apply (i_line _ _ _ C). rewrite El. apply in_or_app; auto. }
    assert (Ne : firstop o e <> firstop o y).
    { apply (col_overlap c N o e y W lf_left (proj1 Ay)).
      - intros Q. apply lf_not_popped, active_popped. rewrite Q. exact Ay.
      - apply (col_slope c o e y t); auto.
      - rewrite lf_S. apply (lf_beyond y). apply lf_active; auto.
      - pose proof (active_S _ _ _ _ C Ay). pose proof lf_E. qlra. }
    destruct (firstop o e), (firstop o y); cbn [orb andb negb] in Q2; try discriminate; try (exfalso; apply Ne; reflexivity); auto.
Qed.
Lemma lf_S1 x : popped o1 x -> S' o x <= t.
Proof. intros P. apply (i_S _ _ _ lf_core x P). Qed.
Lemma lf_popped_active x : popped o1 x -> S' o x = t -> active o1 x.
Proof.
  intros P Sx. apply (beyond_active c o1 t x lf_core P).
  change (t < E' o x). rewrite <- Sx. apply (w_lt _ _ W). apply P.
Qed.
Lemma lf_mates_S a : mates o e a -> S' o a = t.
Proof. intros [_ M]. rewrite <- M. apply lf_S. Qed.
Lemma lf_mates_first a : left_of o a -> a <> e -> mates o e a -> firstop o e <> firstop o a.
Proof.
  intros La Na M. pose proof (lf_mates_S a M) as Sa. apply (col_overlap c N o e a W lf_left La); auto.
  - apply M.
  - rewrite lf_S, <- Sa. apply (w_lt _ _ W); auto.
  - rewrite Sa. apply lf_E.
Qed.
Lemma lf_mates_k a b : mates o a b -> k o a = k o b. Proof. intros [[M _] _]; auto. Qed.
Lemma lf_mates_h a b u : mates o a b -> h o a u = h o b u. Proof. intros [[_ M] _]; auto. Qed.

(** The mate of the event is its neighbour. *)
Lemma lf_mate_above a : popped o a -> mates o e a -> firstop o e = true -> hd_error l2 = Some a.
Proof.
  intros Pa M Fe. assert (Nae : a <> e) by (intros ->; apply lf_not_popped; auto).
  pose proof (lf_mates_S a M) as Sa.
  assert (Aa : active o a).
  { assert (A1 : active o1 a) by (apply lf_popped_active; auto; apply lf_popped; auto).
    apply lf_active in A1. destruct A1; congruence. }
  pose proof (proj2 (i_line _ _ _ C a) Aa) as Ia. rewrite El in Ia. apply in_app_or in Ia.
  pose proof (lf_mates_first a (proj1 Aa) Nae M) as Nf. rewrite Fe in Nf.
  destruct Ia as [Ia|Ia].
  - exfalso. pose proof (P1 a Ia) as Q. unfold lowerb in Q.
    rewrite (lf_mates_h e a t M), (lf_mates_k e a M), !qltb_irrefl, Fe in Q. cbn [orb andb negb] in Q.
    rewrite andb_false_r, andb_false_r in Q. discriminate.
  - destruct (hd_exists l2 a Ia) as (y & r & E2). rewrite E2. cbn. f_equal. rewrite E2 in Ia.
    destruct Ia as [Ia|Ia]; auto. exfalso. apply (between_mates c N o1 t e y a); auto.
    + apply lf_core.
    + exists l1, [], r. change (op_line o1) with (l1 ++ e :: l2). rewrite E2. reflexivity.
    + apply in_split in Ia. destruct Ia as (r1 & r2 & Er). exists (l1 ++ [e]), r1, r2.
      change (op_line o1) with (l1 ++ e :: l2). rewrite E2, Er, <- app_assoc. reflexivity.
Qed.
Lemma lf_mate_below a : popped o a -> mates o e a -> firstop o e = false -> hd_error (rev l1) = Some a.
Proof.
  intros Pa M Fe. assert (Nae : a <> e) by (intros ->; apply lf_not_popped; auto).
  pose proof (lf_mates_S a M) as Sa.
  assert (Aa : active o a).
  { assert (A1 : active o1 a) by (apply lf_popped_active; auto; apply lf_popped; auto).
    apply lf_active in A1. destruct A1; congruence. }
  pose proof (proj2 (i_line _ _ _ C a) Aa) as Ia. rewrite El in Ia. apply in_app_or in Ia.
  pose proof (lf_mates_first a (proj1 Aa) Nae M) as Nf. rewrite Fe in Nf.
  assert (Fa : firstop o a = true) by (destruct (firstop o a); congruence).
  destruct Ia as [Ia|Ia].
  - destruct (rev_exists l1 a Ia) as (y & r & E1 & E2). rewrite E2. f_equal.
    destruct (Nat.eq_dec y a) as [|Ny]; auto. exfalso.
    assert (Ir : In a r). { rewrite E1 in Ia. apply in_app_or in Ia. destruct Ia as [|[|[]]]; auto; congruence. }
    apply (between_mates c N o1 t a y e).
    + apply lf_core.
    + apply mates_sym; auto.
    + apply in_split in Ir. destruct Ir as (r1 & r2 & Er). exists r1, r2, (e :: l2).
      change (op_line o1) with (l1 ++ e :: l2). rewrite E1, Er, <- !app_assoc. reflexivity.
    + exists r, [], l2. change (op_line o1) with (l1 ++ e :: l2). rewrite E1, <- !app_assoc. reflexivity.
  - exfalso. pose proof (P2 a Ia) as Q. unfold lowerb in Q.
    rewrite (lf_mates_h e a t M), (lf_mates_k e a M), !qltb_irrefl, Fe, Fa in Q.
    destruct (qeqb_spec (h o a t) (h o a t)); [|congruence]. destruct (qeqb_spec (k o a) (k o a)); [|congruence].
    discriminate.
Qed.
Lemma lf_above_first a : hd_error l2 = Some a -> mates o e a -> firstop o e = true /\ firstop o a = false.
Proof.
  intros Ha M. assert (Ia : In a l2) by (apply hd_error_In; auto).
  assert (Aa : active o a). { apply (i_line _ _ _ C). rewrite El. apply in_or_app; auto. }
  assert (Nae : a <> e) by (intros ->; apply lf_not_popped, active_popped; auto).
  pose proof (lf_mates_first a (proj1 Aa) Nae M) as Nf. pose proof (P2 a Ia) as Q. unfold lowerb in Q.
  rewrite (lf_mates_h e a t M), (lf_mates_k e a M), !qltb_irrefl in Q.
  destruct (qeqb_spec (h o a t) (h o a t)); [|congruence]. destruct (qeqb_spec (k o a) (k o a)); [|congruence].
  destruct (firstop o e), (firstop o a); cbn [orb andb negb] in Q; try discriminate; try (exfalso; apply Nf; reflexivity); auto.
Qed.
Lemma lf_below_first a : hd_error (rev l1) = Some a -> mates o e a -> firstop o e = false /\ firstop o a = true.
Proof.
  intros Ha M. assert (Ia : In a l1) by (apply last_In; auto).
  assert (Aa : active o a). { apply (i_line _ _ _ C). rewrite El. apply in_or_app; auto. }
  assert (Nae : a <> e) by (intros ->; apply lf_not_popped, active_popped; auto).
  pose proof (lf_mates_first a (proj1 Aa) Nae M) as Nf. pose proof (P1 a Ia) as Q. unfold lowerb in Q.
  rewrite (lf_mates_h e a t M), (lf_mates_k e a M), !qltb_irrefl in Q.
  destruct (firstop o e), (firstop o a); cbn [orb andb negb] in Q; rewrite ?andb_false_r in Q; cbn [orb andb negb] in Q;
    try discriminate; try (exfalso; apply Nf; reflexivity); auto.
Qed.

(** ** The flag of the neighbour below *)
Lemma lf_later x : popped o x -> (h o x t = h o e t -> k o x < k o e) -> ~ later o x.
Proof.
  intros Px K (_ & z & Lz & Qz & _ & M). pose proof (lf_queue_S z Lz Qz) as Sz.
  pose proof (i_S _ _ _ C x Px) as Sx. assert (Ez : S' o z = S' o x) by apply M.
  assert (Sxt : S' o x = t) by (apply Qcle_antisym; qlra).
  assert (Szt : S' o z = t) by congruence.
  pose proof (lf_least_le z Lz Qz Szt) as Kz. rewrite (lf_mates_k z x M) in Kz.
  assert (k o x < k o e) by (apply K, lf_point; auto using lf_S, lf_left; apply Px). qlra.
Qed.
Lemma lf_other x u : active o x -> (h o x t = h o e t -> k o x < k o e) -> gap t u -> vo v x = oth (sid o x) u.
Proof.
  intros Ax K Gu. pose proof (active_popped _ _ Ax) as Px. pose proof (lf_later x Px K) as NL.
  pose proof (i_S _ _ _ C x Px) as Sx. destruct (Qc_eq_dec (S' o x) t) as [Q|Q].
  - apply (fl_other _ _ _ Fl); auto. rewrite Q; auto.
  - destruct (gap_exists c (S' o x)) as (u1 & Gu1). rewrite (fl_other _ _ _ Fl x u1 Px NL Gu1).
    assert (Lx : S' o x < t) by (apply Qcle_lt_or_eq in Sx; destruct Sx; auto; congruence).
    apply (carry c G Ee o t x u1 u V Ax Lx); auto.
    + apply (lf_beyond x). apply lf_active; auto.
    + intros y Ay. apply (lf_beyond y). apply lf_active; auto.
    + intros z Lz Qz Sz Hz. pose proof (lf_least_le z Lz Qz Sz) as Kz.
      assert (k o x < k o e).
      { apply K. rewrite <- Hz. apply lf_point; auto using lf_left. }
      qlra.
    + exists (pt o e). split; [apply (w_ptS _ _ W), lf_left|apply lf_S].
Qed.
Lemma lf_spans x u : active o1 x -> gap t u -> spans c (sid o x) u = true.
Proof.
  intros Ax Gu. pose proof (lf_beyond x Ax) as B. pose proof (lf_S1 x (active_popped _ _ Ax)) as A.
  destruct (w_in _ _ W x (proj1 Ax)) as [I1 I2]. apply spans_true. destruct Gu as [G1 G2].
  assert (u < E' o x) by (apply (G2 (pt o (opp o x))); [apply (w_ptE _ _ W); apply Ax|exact B]). split; qlra.
Qed.
Definition ot_of (w : view) (y : event) (below : option event) : bool :=
  match below with
  | None => vo w y
  | Some b => if Bool.eqb (firstop o y) (firstop o b) then vo w b else nth (sid o b) int false
  end.
Lemma lf_value y m1 m2 u : active o1 y -> S' o y = t ->
  (forall z, left_of o z -> In z (op_queue o1) -> S' o z = t -> k o y < k o z) ->
  op_line o1 = m1 ++ y :: m2 ->
  (forall x, hd_error (rev m1) = Some x -> firstop o y = firstop o x ->
     active o x /\ (h o x t = h o e t -> k o x < k o e)) ->
  (hd_error (rev m1) = None -> vo v y = oth (sid o y) u \/ vo v y = false) -> gap t u ->
  ot_of v y (hd_error (rev m1)) = oth (sid o y) u.
Proof.
  intros Ay Sy QH Em Hx H0 Gu. unfold ot_of. destruct (hd_error (rev m1)) as [x|] eqn:Ex.
  - assert (Ad : adj (op_line o1) x y) by (rewrite Em; apply last_adj; auto).
    assert (Ax : active o1 x). { apply (i_line _ _ _ lf_core). apply adj_In in Ad. apply Ad. }
    destruct (Bool.eqb (firstop o y) (firstop o x)) eqn:Ef.
    + apply Bool.eqb_prop in Ef. destruct (Hx x eq_refl Ef) as [Aox Kx].
      rewrite (lf_other x u Aox Kx Gu). symmetry.
      apply (nb_same c G o1 t u lf_core lf_tied Gu y Ay Sy QH x Ad). symmetry. exact Ef.
    + apply Bool.eqb_false_iff in Ef.
      assert (Ef' : firstop o1 x <> firstop o1 y) by (intros Q; apply Ef; symmetry; exact Q).
      rewrite (nb_diff c G o1 t u lf_core lf_beyond lf_tied Gu y Ay Sy QH x Ad Ef' : oth (sid o y) u = _).
      change (sid o1 x) with (sid o x).
      apply (Or (sid o y) (sid o x) u).
      * apply (w_sid _ _ W); apply Ay.
      * apply (w_sid _ _ W); apply Ax.
      * rewrite <- !(firstop_opd c o) by auto. auto.
      * intros p Ip. apply (gap_not c t u p Gu Ip).
      * apply lf_spans; auto.
      * apply lf_spans; auto.
  - destruct (H0 eq_refl) as [->| ->]; auto. symmetry.
    apply (nb_none c G o1 t u lf_core lf_tied Gu y Ay Sy QH).
    intros x B. rewrite Em in B. destruct m1 as [|z m1]; [|cbn in Ex; destruct (rev m1); discriminate].
    cbn in B. destruct B as (b1 & b2 & b3 & B). destruct b1 as [|b b1]; cbn in B.
    + injection B as <- B. apply (line_irrefl c o1 t y lf_core). rewrite Em. exists [], b2, b3. rewrite B. reflexivity.
    + injection B as <- B. apply (line_irrefl c o1 t y lf_core). rewrite Em, B. cbn.
      exists [], (b1 ++ x :: b2), b3. cbn. rewrite <- app_assoc. reflexivity.
Qed.

(** ** The attributes after the event *)
Definition bl_of (w : view) (vert : event -> bool) (y : event) (below : option event) : option event :=
  match below with
  | None => vb w y
  | Some b => if negb (sel (firstop o b) (vo w b) (vk w b)) || vert b then vb w b else Some b
  end.
Lemma bl_cases w vert y below f : bl_of w vert y below = Some f ->
  (below = Some f /\ sel (firstop o f) (vo w f) (vk w f) = true)
  \/ (exists b, below = Some b /\ vb w b = Some f) \/ (below = None /\ vb w y = Some f).
Proof.
  unfold bl_of. destruct below as [b|]; [|auto]. destruct (sel (firstop o b) (vo w b) (vk w b)) eqn:Q; cbn [negb orb].
  - destruct (vert b); [eauto|]. intros [= <-]. auto.
  - eauto.
Qed.
Lemma lf_neq x : popped o x -> x <> e.
Proof. intros P ->. apply lf_not_popped; auto. Qed.
Lemma lf_old x : popped o1 x -> x <> e -> popped o x.
Proof. rewrite lf_popped. intros [A|A]; congruence. Qed.
Lemma lf_In_line x : In x (op_line o1) -> x <> e -> active o x.
Proof. intros I Ne. apply (i_line _ _ _ lf_core) in I. apply lf_active in I. destruct I; congruence. Qed.
Lemma lf_precedes f x y : precedes o f x -> S' o x <= t -> S' o y = t -> (S' o x = t -> k o x <= k o y) -> precedes o f y.
Proof.
  unfold precedes. intros P Sx Sy K. destruct (Qc_eq_dec (S' o x) t) as [Q|Q].
  - specialize (K Q). rewrite Sy. rewrite Q in P. destruct P as [P|[P P']]; [left; auto|right; split; auto; qlra].
  - left. rewrite Sy. assert (S' o x < t) by (apply Qcle_lt_or_eq in Sx; destruct Sx; auto; congruence).
    destruct P as [P|[P _]]; [qlra|rewrite P; auto].
Qed.
(** A neighbour below an event that starts here and awaits a mate is its mate. *)
Lemma lf_awaits b y x : popped o b -> left_of o y -> S' o y = t -> k o y = k o e -> (h o b t = h o y t -> k o b < k o y) ->
  left_of o x -> In x (op_queue o) -> mates o b x -> False.
Proof.
  intros Pb Ly Sy Ky K Lx Qx M. pose proof (lf_queue_S x Lx Qx) as Sx. pose proof (i_S _ _ _ C b Pb) as Sb.
  assert (Ex : S' o b = S' o x) by apply M. assert (Sbt : S' o b = t) by (apply Qcle_antisym; qlra).
  assert (Sxt : S' o x = t) by congruence. pose proof (lf_least_le x Lx Qx Sxt) as Kx.
  rewrite <- (lf_mates_k b x M) in Kx.
  assert (k o b < k o y) by (apply K, lf_point; auto; apply Pb). qlra.
Qed.

Lemma lf_single vert : (forall m, popped o m -> ~ mates o e m) ->
  flags o1 (fun x => x = e) (vcompute int sel o1 vert v e (hd_error (rev l1))).
Proof.
  intros NM. set (below := hd_error (rev l1)).
  assert (Ke : vk v e = NO_OVERLAP) by (apply (fl_default _ _ _ Fl); [exact Re|apply lf_not_popped]).
  assert (Be : vb v e = None) by (apply (fl_default _ _ _ Fl); [exact Re|apply lf_not_popped]).
  assert (Oe : vo v e = false) by (apply (fl_default _ _ _ Fl); [exact Re|apply lf_not_popped]).
  assert (Bel : forall b, below = Some b -> active o b /\ before (op_line o1) b e).
  { intros b Eb. split.
    - apply (i_line _ _ _ C). rewrite El. apply in_or_app; left. apply last_In; auto.
    - apply adj_before. apply last_adj; auto. }
  assert (Kb : forall b, below = Some b -> h o b t = h o e t -> k o b < k o e \/ (k o b = k o e /\ S' o b < t
                 /\ firstop o b = true /\ firstop o e = false)).
  { intros b Eb Hb. destruct (Bel b Eb) as [Ab Bb]. destruct (lf_tied b e Bb Hb) as [Q|(Q & F1 & F2)]; auto. right.
    change (k o b = k o e) in Q. split; auto. split; [|split; auto].
    pose proof (i_S _ _ _ C b (active_popped _ _ Ab)) as Sb. apply Qcle_lt_or_eq in Sb. destruct Sb as [|Sb]; auto.
    exfalso. apply (NM b (active_popped _ _ Ab)). split; [|rewrite Sb; apply lf_S].
    apply (col_slope c o e b t); auto. }
  assert (Bl : forall f, bl_of v vert e below = Some f -> popped o f /\ vr v f = true /\ precedes o f e).
  { intros f Ef. apply bl_cases in Ef. destruct Ef as [[Eb Sb]|[(b & Eb & Vb)|[Eb Vb]]].
    - destruct (Bel f Eb) as [Ab Bb]. pose proof (active_popped _ _ Ab) as Pb. split; auto.
      split; [rewrite (fl_result _ _ _ Fl); auto|].
      pose proof (i_S _ _ _ C f Pb) as Sf. unfold precedes. rewrite lf_S.
      apply Qcle_lt_or_eq in Sf. destruct Sf as [|Sf]; auto. right. split; auto.
      destruct (Kb f Eb) as [|(_ & Q & _)]; auto; [|exfalso; qlra].
      apply lf_point; auto using lf_S, lf_left; apply Pb.
    - destruct (Bel b Eb) as [Ab Bb]. pose proof (active_popped _ _ Ab) as Pb.
      destruct (fl_below _ _ _ Fl b f Pb Vb) as (Pf & Rf & Pr). split; auto. split; auto.
      apply (lf_precedes f b e Pr); [apply (i_S _ _ _ C b Pb)|apply lf_S|].
      intros Sb. destruct (Kb b Eb) as [Q|(_ & Q & _)]; [|qlra|exfalso; qlra].
      apply lf_point; auto using lf_S, lf_left; apply Pb.
    - congruence. }
  assert (NoM : forall l m, popped o1 l -> popped o1 m -> l <> m -> mates o l m -> popped o l /\ popped o m).
  { intros l m Pl Pm Nlm M. split; apply lf_old; auto; intros Q.
    - rewrite Q in *. apply (NM m); auto. apply lf_old; auto.
    - rewrite Q in *. apply (NM l); [apply lf_old; auto|apply mates_sym; auto]. }
  constructor; unfold vcompute; cbn [vo vk vr vb].
  - intros l Ll Nl. assert (Q : ~ (popped o l \/ l = e)) by (rewrite <- lf_popped; auto).
    assert (Ne : l <> e) by (intros A; apply Q; auto). rewrite !upd_other by auto. apply (fl_default _ _ _ Fl); auto.
  - intros l m Pl Pm Nlm M. destruct (NoM l m Pl Pm Nlm M) as [Ql Qm].
    apply (fl_kind1 _ _ _ Fl l m); auto.
  - intros l Pl NMl. destruct (Nat.eq_dec l e) as [->|Ne]; auto. apply (fl_kind2 _ _ _ Fl); [apply lf_old; auto|].
    intros m Pm. apply NMl. apply lf_popped; auto.
  - intros l u Pl NL Gu. destruct (Nat.eq_dec l e) as [->|Ne].
    + rewrite upd_same. change (gap (S' o e) u) in Gu. rewrite lf_S in Gu.
      change (ot_of v e (hd_error (rev l1)) = oth (sid o e) u).
      apply (lf_value e l1 l2 u); auto.
      * apply lf_active; auto.
      * intros z Lz Qz Sz. apply lf_queue in Qz. destruct Qz as [Qz Nz].
        destruct (lf_least z Lz Qz Nz Sz) as [|(Kz & F1 & F2)]; auto. exfalso. apply NL. split; auto.
        exists z. split; auto. split; [apply lf_queue; auto|]. split; auto. split.
        -- apply (col_slope c o z e t); auto. apply lf_point; auto using lf_left, lf_S.
        -- change (S' o z = S' o e). rewrite lf_S. auto.
      * intros b Eb Ef. destruct (Bel b Eb) as [Ab Bb]. split; auto. intros Hb.
        destruct (Kb b Eb Hb) as [|(_ & _ & F1 & F2)]; auto. congruence.
    + rewrite upd_other by auto. apply (fl_other _ _ _ Fl); auto; [apply lf_old; auto|].
      intros (A1 & x & Lx & Qx & A2 & M). apply NL. split; auto. exists x. split; auto.
      destruct (Nat.eq_dec x e) as [->|Nx].
      * exfalso. apply (NM l); auto. apply lf_old; auto.
      * split; [apply lf_queue; auto|]. auto.
  - intros l Pl. destruct (Nat.eq_dec l e) as [->|Ne].
    + rewrite !upd_same. reflexivity.
    + rewrite !upd_other by auto. apply (fl_result _ _ _ Fl). apply lf_old; auto.
  - intros l f Pl Ef. destruct (Nat.eq_dec l e) as [->|Ne].
    + rewrite upd_same in Ef. change (bl_of v vert e below = Some f) in Ef. destruct (Bl f Ef) as (Pf & Rf & Pr).
      split; [apply lf_popped; auto|]. rewrite upd_other by (apply lf_neq; auto). auto.
    + rewrite upd_other in Ef by auto. destruct (fl_below _ _ _ Fl l f (lf_old l Pl Ne) Ef) as (Pf & Rf & Pr).
      split; [apply lf_popped; auto|]. rewrite upd_other by (apply lf_neq; auto). auto.
  - intros a l Pa Pl Ex Ef.
    assert (Oa : popped o a -> exists x, left_of o x /\ In x (op_queue o) /\ mates o a x).
    { intros Qa. destruct Ex as [(x & Lx & Qx & M)|[A _]]; [|exfalso; apply (lf_neq a Qa A)].
      exists x. apply lf_queue in Qx. split; [apply Lx|]. split; [apply Qx|apply M]. }
    destruct (Nat.eq_dec l e) as [->|Ne].
    + rewrite upd_same in Ef. change (bl_of v vert e below = Some a) in Ef. destruct (Bl a Ef) as (Qa & _ & _).
      destruct (Oa Qa) as (x & Lx & Qx & M). apply bl_cases in Ef. destruct Ef as [[Eb Sb]|[(b & Eb & Vb)|[Eb Vb]]].
      * destruct (Nat.eq_dec x e) as [->|Nx]; [apply (NM a); auto; apply mates_sym; auto|].
        apply (lf_awaits a e x Qa lf_left lf_S eq_refl); auto. intros Ha. destruct (Kb a Eb Ha) as [|(Kq & Sq & _)]; auto.
        exfalso. pose proof (lf_queue_S x Lx Qx). assert (S' o a = S' o x) by apply M. qlra.
      * destruct (Bel b Eb) as [Ab Bb]. apply (fl_pend _ _ _ Fl a b Qa (active_popped _ _ Ab)); auto.
        left. exists x. auto.
      * congruence.
    + rewrite upd_other in Ef by auto. pose proof (lf_old l Pl Ne) as Ql.
      destruct (fl_below _ _ _ Fl l a Ql Ef) as (Qa & _ & _). destruct (Oa Qa) as (x & Lx & Qx & M).
      apply (fl_pend _ _ _ Fl a l Qa Ql); auto. left. exists x. auto.
Qed.

Definition vpair (vert : event -> bool) (p r : event) (below : option event) : view :=
  let q := kind_at o p r in
  let other := nth (sid o p) int false in
  View (upd (upd (vo v) p (ot_of v p below)) r other) (upd (upd (vk v) p q) r q)
    (upd (upd (vr v) p false) r (sel false other q))
    (upd (upd (vb v) p (bl_of v vert p below)) r (bl_of v vert p below)).

Lemma lf_pair vert p r m1 m2 : (p = e /\ popped o r) \/ (r = e /\ popped o p) -> mates o p r ->
  firstop o p = true -> firstop o r = false -> op_line o1 = m1 ++ p :: r :: m2 ->
  flags o1 (fun x => x = e) (vpair vert p r (hd_error (rev m1))).
Proof.
  intros Who Mpr Fp Fr Em. set (below := hd_error (rev m1)).
  assert (Npr : p <> r) by (intros ->; congruence).
  assert (Pp : popped o1 p) by (apply lf_popped; destruct Who as [[-> _]|[_ Q]]; auto).
  assert (Pr : popped o1 r) by (apply lf_popped; destruct Who as [[_ Q]|[-> _]]; auto).
  assert (Lp : left_of o p) by apply Pp. assert (Lr : left_of o r) by apply Pr.
  assert (Se : S' o e = t) by apply lf_S.
  assert (Sp : S' o p = t).
  { destruct Who as [[-> _]|[Q _]]; auto. destruct Mpr as [_ M]. rewrite M, Q; auto. }
  assert (Sr : S' o r = t) by (destruct Mpr as [_ M]; rewrite <- M; auto).
  assert (Ke : k o p = k o e /\ k o r = k o e).
  { pose proof (lf_mates_k p r Mpr). destruct Who as [[Q _]|[Q _]]; rewrite Q in *; auto. }
  destruct Ke as [Kp Kr].
  assert (Hpe : h o p t = h o e t) by (apply lf_point; auto using lf_left).
  assert (Third : forall x, left_of o x -> x <> p -> x <> r -> ~ mates o p x /\ ~ mates o r x).
  { intros x Lx Nx1 Nx2. split; intros M.
    - apply (mates_three c N o p r x); auto.
    - apply (mates_three c N o r p x); auto. apply mates_sym; auto. }
  assert (Old : forall x, popped o x -> x <> p -> x <> r -> x <> e) by (intros x Q _ _; apply lf_neq; auto).
  assert (Epr : e = p \/ e = r) by (destruct Who as [[-> _]|[-> _]]; auto).
  assert (OldP : forall x, popped o1 x -> x <> p -> x <> r -> popped o x).
  { intros x Q N1 N2. apply lf_old; auto. destruct Epr; congruence. }
  assert (PopP : popped o p -> In r (op_queue o)).
  { intros Q. destruct Who as [[A _]|[A _]]; [exfalso; apply (lf_neq p Q A)|]. rewrite A. apply Le. }
  assert (PopR : popped o r -> In p (op_queue o)).
  { intros Q. destruct Who as [[A _]|[A _]]; [|exfalso; apply (lf_neq r Q A)]. rewrite A. apply Le. }
  assert (NoBelow : forall l f, popped o l -> vb v l = Some f -> f <> p /\ f <> r).
  { intros l f Ql Vl. destruct (fl_below _ _ _ Fl l f Ql Vl) as (Qf & _ & _). split; intros A; rewrite A in *.
    - apply (fl_pend _ _ _ Fl p l Qf Ql); auto. left. exists r. auto.
    - apply (fl_pend _ _ _ Fl r l Qf Ql); auto. left. exists p. split; auto. split; auto. apply mates_sym; auto. }
  assert (Ap : active o1 p) by (apply lf_popped_active; auto).
  assert (Ar : active o1 r) by (apply lf_popped_active; auto).
  assert (Bel : forall b, below = Some b -> active o b /\ before (op_line o1) b p /\ b <> p /\ b <> r).
  { intros b Eb. assert (Bb : before (op_line o1) b p) by (rewrite Em; apply adj_before, last_adj; auto).
    assert (N1 : b <> p) by (intros A; rewrite A in Bb; apply (line_irrefl c o1 t p lf_core); auto).
    assert (N2 : b <> r).
    { intros A; rewrite A in Bb. apply (line_asym c o1 t r p lf_core Bb). rewrite Em. exists m1, [], m2. reflexivity. }
    split; [|auto]. apply lf_In_line; [apply before_In in Bb; apply Bb|]. destruct Epr; congruence. }
  assert (Kb : forall b, below = Some b -> h o b t = h o p t -> k o b < k o p).
  { intros b Eb Hb. destruct (Bel b Eb) as (Ab & Bb & _). destruct (lf_tied b p Bb Hb) as [Q|(_ & _ & Q)]; auto.
    change (firstop o p = false) in Q. congruence. }
  assert (Kbe : forall b, below = Some b -> h o b t = h o e t -> k o b < k o e).
  { intros b Eb Hb. rewrite <- Kp. apply Kb; auto. congruence. }
  assert (Dp : ~ popped o p -> vb v p = None /\ vo v p = false).
  { intros Q. destruct (fl_default _ _ _ Fl p (proj1 Lp) Q) as (A1 & _ & A2). auto. }
  assert (Popped : popped o p \/ ~ popped o p).
  { destruct Who as [[A _]|[_ Q]]; [right; rewrite A; apply lf_not_popped|auto]. }
  assert (Bl : forall f, bl_of v vert p below = Some f -> popped o f /\ vr v f = true /\ precedes o f p /\ f <> p /\ f <> r
      /\ ~ (exists x, left_of o x /\ In x (op_queue o) /\ mates o f x)).
  { intros f Ef. apply bl_cases in Ef. destruct Ef as [[Eb Sb]|[(b & Eb & Vb)|[Eb Vb]]].
    - destruct (Bel f Eb) as (Ab & Bb & N1 & N2). pose proof (active_popped _ _ Ab) as Pb. split; auto.
      split; [rewrite (fl_result _ _ _ Fl); auto|]. split; [|split; [auto|split; auto]].
      + pose proof (i_S _ _ _ C f Pb) as Sf. unfold precedes. rewrite Sp.
        apply Qcle_lt_or_eq in Sf. destruct Sf as [|Sf]; auto. right. split; auto.
        apply Kb; auto. apply lf_point; auto. apply Pb.
      + intros (x & Lx & Qx & M). apply (lf_awaits f p x Pb Lp Sp Kp); auto.
    - destruct (Bel b Eb) as (Ab & Bb & N1 & N2). pose proof (active_popped _ _ Ab) as Pb.
      destruct (fl_below _ _ _ Fl b f Pb Vb) as (Pf & Rf & Prec). split; auto. split; auto.
      split; [|split; [apply (NoBelow b f); auto|split; [apply (NoBelow b f); auto|]]].
      + apply (lf_precedes f b p Prec); [apply (i_S _ _ _ C b Pb)|auto|].
        intros Sb. assert (k o b < k o p) by (apply Kb; auto; apply lf_point; auto; apply Pb). qlra.
      + intros Q. apply (fl_pend _ _ _ Fl f b Pf Pb); auto. left. auto.
    - destruct Popped as [Q|Q]; [|destruct (Dp Q); congruence].
      destruct (fl_below _ _ _ Fl p f Q Vb) as (Pf & Rf & Prec). split; auto. split; auto. split; auto.
      split; [apply (NoBelow p f); auto|split; [apply (NoBelow p f); auto|]].
      intros Q'. apply (fl_pend _ _ _ Fl f p Pf Q); auto. left. auto. }
  assert (QH : forall z, left_of o z -> In z (op_queue o1) -> S' o z = t -> k o e < k o z).
  { intros z Lz Qz Sz. apply lf_queue in Qz. destruct Qz as [Qz Nz].
    destruct (lf_least z Lz Qz Nz Sz) as [|(Kz & F1 & F2)]; auto. exfalso.
    assert (Nzp : z <> p).
    { intros A. destruct Epr as [B|B]; [congruence|]. rewrite A in Qz. destruct Who as [[_ D]|[_ D]]; [|apply D; auto].
      apply (lf_neq r D). auto. }
    assert (Nzr : z <> r) by congruence.
    apply (proj1 (Third z Lz Nzp Nzr)). split; [|congruence].
    apply (col_slope c o p z t); [congruence|]. apply lf_point; auto. }
  assert (Vp : forall u, gap t u -> ot_of v p below = oth (sid o p) u).
  { intros u Gu. apply (lf_value p m1 (r :: m2) u); auto.
    - intros z Lz Qz Sz. rewrite Kp. auto.
    - intros b Eb _. split; [apply (Bel b Eb)|apply (Kbe b Eb)].
    - intros _. destruct Popped as [Q|Q]; [left|right; apply Dp; auto]. apply (fl_other _ _ _ Fl); auto.
      + intros [A _]. congruence.
      + rewrite Sp. auto. }
  assert (Vr : forall u, gap t u -> nth (sid o p) int false = oth (sid o r) u).
  { intros u Gu. assert (Ad : adj (op_line o1) p r) by (rewrite Em; exists m1, m2; auto).
    assert (Ef' : firstop o1 p <> firstop o1 r) by (change (firstop o p <> firstop o r); congruence).
    rewrite (nb_diff c G o1 t u lf_core lf_beyond lf_tied Gu r Ar Sr (fun z Lz Qz Sz => eq_ind_r (fun q => q < k o z) (QH z Lz Qz Sz) Kr) p Ad Ef' : oth (sid o r) u = _).
    change (sid o1 p) with (sid o p). apply (Or (sid o r) (sid o p) u).
    - apply (w_sid _ _ W); auto.
    - apply (w_sid _ _ W); auto.
    - rewrite <- !(firstop_opd c o) by auto. congruence.
    - intros x Ix. apply (gap_not c t u x Gu Ix).
    - apply lf_spans; auto.
    - apply lf_spans; auto. }
  assert (Nq : kind_at o p r <> NO_OVERLAP).
  { unfold Proof_Flags2.kind_at. destruct (Bool.eqb _ _); discriminate. }
  assert (Upd : forall (A : Type) (f : event -> A) a b x, x <> p -> x <> r -> upd (upd f p a) r b x = f x).
  { intros A f a b x N1 N2. rewrite !upd_other; auto. }
  assert (UpdP : forall (A : Type) (f : event -> A) a b, upd (upd f p a) r b p = a).
  { intros A f a b. rewrite upd_other, upd_same; auto. }
  assert (NoM : forall l m, popped o1 l -> popped o1 m -> l <> m -> mates o l m -> l <> p -> l <> r -> m <> p /\ m <> r).
  { intros l m Pl Pm Nlm M N1 N2. destruct (Third l) as [T1 T2]; auto; [apply Pl|].
    split; intros A; rewrite A in *; [apply T1|apply T2]; apply mates_sym; auto. }
  constructor; unfold vpair; cbn [vo vk vr vb].
  - intros l Ll Nl. assert (N1 : l <> p) by (intros A; rewrite A in *; auto).
    assert (N2 : l <> r) by (intros A; rewrite A in *; auto). rewrite !Upd by auto. apply (fl_default _ _ _ Fl); auto.
    intros Q. apply Nl, lf_popped; auto.
  - intros l m Pl Pm Nlm M. change (kind_at o1 l m) with (kind_at o l m).
    destruct (Nat.eq_dec l p) as [->|N1]; [|destruct (Nat.eq_dec l r) as [->|N2]].
    + rewrite UpdP. destruct (Nat.eq_dec m r) as [->|N3]; auto. exfalso.
      apply (proj1 (Third m (proj1 Pm) (not_eq_sym Nlm) N3)); auto.
    + rewrite upd_same. destruct (Nat.eq_dec m p) as [->|N3]; [apply kind_at_sym|]. exfalso.
      apply (proj2 (Third m (proj1 Pm) N3 (not_eq_sym Nlm))); auto.
    + rewrite Upd by auto. destruct (NoM l m Pl Pm Nlm M N1 N2). apply (fl_kind1 _ _ _ Fl l m); auto.
  - intros l Pl NMl. destruct (Nat.eq_dec l p) as [->|N1]; [|destruct (Nat.eq_dec l r) as [->|N2]].
    + exfalso. apply (NMl r Pr); auto.
    + exfalso. apply (NMl p Pp); auto. apply mates_sym; auto.
    + rewrite Upd by auto. apply (fl_kind2 _ _ _ Fl); auto. intros m Pm. apply NMl, lf_popped; auto.
  - intros l u Pl NL Gu. destruct (Nat.eq_dec l p) as [->|N1]; [|destruct (Nat.eq_dec l r) as [->|N2]].
    + rewrite UpdP. apply Vp. change (gap (S' o p) u) in Gu. rewrite Sp in Gu. auto.
    + rewrite upd_same. apply Vr. change (gap (S' o r) u) in Gu. rewrite Sr in Gu. auto.
    + rewrite Upd by auto. apply (fl_other _ _ _ Fl); auto.
      intros (A1 & x & Lx & Qx & A2 & M). apply NL. split; auto. exists x. split; auto.
      split; [apply lf_queue; split; auto|auto]. intros A. rewrite A in *.
      destruct (Third l (proj1 Pl) N1 N2) as [T1 T2].
      destruct Who as [[B _]|[B _]]; rewrite B in *; [apply T1|apply T2]; auto.
  - intros l Pl. destruct (Nat.eq_dec l p) as [->|N1]; [|destruct (Nat.eq_dec l r) as [->|N2]].
    + rewrite !UpdP. change (firstop o1 p) with (firstop o p). rewrite Fp. symmetry. apply Sel; auto.
    + rewrite !upd_same. change (firstop o1 r) with (firstop o r). rewrite Fr. auto.
    + rewrite !Upd by auto. apply (fl_result _ _ _ Fl); auto.
  - intros l f Pl Ef.
    assert (Fin : forall f, popped o f -> vr v f = true -> f <> p -> f <> r ->
      popped o1 f /\ upd (upd (vr v) p false) r (sel false (nth (sid o p) int false) (kind_at o p r)) f = true).
    { intros y Py Ry N1 N2. split; [apply lf_popped; auto|]. rewrite Upd; auto. }
    destruct (Nat.eq_dec l p) as [->|N1]; [|destruct (Nat.eq_dec l r) as [->|N2]].
    + rewrite UpdP in Ef. destruct (Bl f Ef) as (Pf & Rf & Prec & N1 & N2 & _).
      destruct (Fin f Pf Rf N1 N2) as [R1 R2]. exact (conj R1 (conj R2 Prec)).
    + rewrite upd_same in Ef. destruct (Bl f Ef) as (Pf & Rf & Prec & N2 & N3 & _).
      destruct (Fin f Pf Rf N2 N3). split; auto. split; auto. unfold precedes in *.
      change (S' o f < S' o r \/ (S' o f = S' o r /\ k o f < k o r)). rewrite Sr, Kr, <- Sp, <- Kp. auto.
    + rewrite Upd in Ef by auto. destruct (fl_below _ _ _ Fl l f (OldP l Pl N1 N2) Ef) as (Pf & Rf & Prec).
      destruct (NoBelow l f (OldP l Pl N1 N2) Ef) as [N3 N4]. destruct (Fin f Pf Rf N3 N4) as [R1 R2]. exact (conj R1 (conj R2 Prec)).
  - intros a l Pa Pl Ex Ef.
    assert (Oa : popped o a -> exists x, left_of o x /\ In x (op_queue o) /\ mates o a x).
    { intros Qa. destruct Ex as [(x & Lx & Qx & M)|[A _]]; [|exfalso; apply (lf_neq a Qa A)].
      exists x. apply lf_queue in Qx. split; [apply Lx|]. split; [apply Qx|apply M]. }
    destruct (Nat.eq_dec l p) as [->|N1]; [|destruct (Nat.eq_dec l r) as [->|N2]].
    + rewrite UpdP in Ef. destruct (Bl a Ef) as (Qa & _ & _ & _ & _ & NE). apply NE, Oa, Qa.
    + rewrite upd_same in Ef. destruct (Bl a Ef) as (Qa & _ & _ & _ & _ & NE). apply NE, Oa, Qa.
    + rewrite Upd in Ef by auto. pose proof (OldP l Pl N1 N2) as Ql.
      destruct (fl_below _ _ _ Fl l a Ql Ef) as (Qa & _ & _).
      apply (fl_pend _ _ _ Fl a l Qa Ql); auto. left. apply Oa; auto.
Qed.
End Left.
End Flags.
