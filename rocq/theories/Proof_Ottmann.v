(** The Bentley-Ottmann sweep, part 1: relation to the machinery of the clipping
    sweep, and what every run preserves whatever the state of the sweep line. *)
From Coq Require Import QArith Qcanon Bool List Arith Lia.
From Verif Require Import QcTac Model_Base Model_Utils Model_Linear Model_BentleyOttmann Spec_Base
  Spec_Sweep Proof_Base Proof_Line Proof_Sweep Proof_Sweep2 Proof_Sweep3 Proof_Sweep5 Proof_Sweep7
  Proof_Sweep8.
Import ListNotations.
Local Open Scope Qc_scope.

Notation eid := to_event_segment_id.

(** ** The sweep line *)
Lemma registry_line_key o e x : op_first_count o = O ->
  registry_line_key_lt o e x = line_key_lt o e x.
Proof.
  intros F. unfold registry_line_key_lt, line_key_lt, is_left_event_from_first_operand.
  rewrite F. cbn [Nat.ltb Nat.leb Bool.eqb negb].
  destruct (orientation_is (orient (pt o e) (to_event_end o e) (pt o x))
                           (orient (pt o e) (to_event_end o e) (to_event_end o x))); auto.
  destruct (negb (orientation_is (orient (pt o e) (to_event_end o e) (pt o x)) COLLINEAR)); auto.
  destruct (qeqb (py (pt o e)) (py (pt o x))); reflexivity.
Qed.
Lemma registry_search_eq fuel root o e : op_first_count o = O -> forall entries,
  registry_search fuel root o e entries = search fuel root o e entries.
Proof.
  intros F. induction fuel as [|fuel IH]; intros entries; cbn [registry_search search]; auto.
  destruct (nth_error entries (root entries mod length entries)); auto.
  rewrite !registry_line_key by auto. rewrite !IH. reflexivity.
Qed.
Lemma registry_lookup_eq shape index o e : op_first_count o = O ->
  registry_lookup shape index o e = lookup shape index o e.
Proof. intros F. apply registry_search_eq; auto. Qed.

Lemma registry_above_In shape index o e x : op_first_count o = O ->
  registry_above shape index o e = Some x -> In x (op_line o).
Proof.
  intros F. unfold registry_above. rewrite registry_lookup_eq by auto. apply above_In.
Qed.
Lemma registry_below_In shape index o e x : op_first_count o = O ->
  registry_below shape index o e = Some x -> In x (op_line o).
Proof.
  intros F. unfold registry_below. rewrite registry_lookup_eq by auto. apply below_In.
Qed.
Lemma registry_find_In shape index o e x : op_first_count o = O ->
  registry_find shape index o e = Some x -> In x (op_line o).
Proof.
  intros F. unfold registry_find. rewrite registry_lookup_eq by auto.
  destruct (lookup shape index o e) as [[b f] a] eqn:Q. apply lookup_split in Q.
  destruct (match f with Some x => Some x | None => hd_error (rev b) end) as [y|] eqn:C; [|discriminate].
  destruct (_ && _); [|discriminate]. intros [= <-]. rewrite Q. destruct f as [z|].
  - injection C as <-. apply in_or_app; right; left; auto.
  - apply hd_error_In, in_rev in C. apply in_or_app; auto.
Qed.
Lemma registry_add_line shape index o e : op_first_count o = O ->
  exists l, registry_add shape index o e = set_line o l /\ incl l (e :: op_line o).
Proof.
  intros F. unfold registry_add. rewrite registry_lookup_eq by auto.
  destruct (lookup shape index o e) as [[b f] a] eqn:Q. apply lookup_split in Q. destruct f as [x|].
  - exists (op_line o). split; [destruct o; reflexivity|]. intros y I; right; auto.
  - exists (b ++ e :: a). split; auto. rewrite Q. intros y I. apply in_app_or in I.
    destruct I as [I|[->|I]]; [right|left; auto|right]; apply in_or_app; auto.
Qed.
Lemma registry_remove_line shape index o e o' : op_first_count o = O ->
  registry_remove shape index o e = Some o' ->
  exists l, o' = set_line o l /\ incl l (op_line o).
Proof.
  intros F. unfold registry_remove. rewrite registry_lookup_eq by auto.
  destruct (lookup shape index o e) as [[b f] a] eqn:Q. apply lookup_split in Q. destruct f as [x|]; [|discriminate].
  intros [= <-]. exists (b ++ a). split; auto. rewrite Q. intros y I. apply in_app_or in I.
  apply in_or_app. destruct I; auto. right; right; auto.
Qed.

(** ** Divisions *)
Lemma registry_divide_eq r e p : registry_divide r e p =
  option_map (set_op r) (divide_event_by_midpoint (rg_op r) e p).
Proof.
  unfold registry_divide, divide, divide_event_by_midpoint. destruct (is_event_left e); reflexivity.
Qed.
Lemma divide_pieces o l mid : linked o -> left_of o l -> exists o' o2,
  divide o l mid = Some (o', S (size o), size o) /\ divided o l mid o2
  /\ same_pieces o2 o' /\ op_queue o' = op_queue o /\ op_line o' = op_line o.
Proof.
  intros K L. destruct (divide_divided o l mid K L) as (o2 & Q & D).
  unfold divide_event_by_midpoint in Q. unfold divide. destruct (is_event_left l) eqn:E.
  2: { destruct L as [L _]. congruence. }
  eexists. exists o2. split; [reflexivity|]. split; auto. injection Q as <-. repeat split.
Qed.

Lemma pieces_eid o o' e : same_pieces o o' -> eid o' e = eid o e.
Proof.
  destruct o, o'; unfold same_pieces; cbn; intros (-> & -> & -> & ->). reflexivity.
Qed.
Lemma pieces_pt o o' e : same_pieces o o' -> pt o' e = pt o e.
Proof. destruct o, o'; unfold same_pieces; cbn; intros (-> & -> & -> & ->). reflexivity. Qed.
Lemma pieces_opp o o' e : same_pieces o o' -> opp o' e = opp o e.
Proof. destruct o, o'; unfold same_pieces; cbn; intros (-> & -> & -> & ->). reflexivity. Qed.
Lemma pieces_left o o' e : same_pieces o o' -> (left_of o' e <-> left_of o e).
Proof.
  intros P. unfold left_of. rewrite (same_pieces_size _ _ P). reflexivity.
Qed.
Lemma pieces_refl o : same_pieces o o.
Proof. repeat split. Qed.
Lemma pieces_trans o1 o2 o3 : same_pieces o1 o2 -> same_pieces o2 o3 -> same_pieces o1 o3.
Proof. unfold same_pieces. intros (A & B & C & D) (A' & B' & C' & D'). repeat split; congruence. Qed.
Lemma pieces_sym o1 o2 : same_pieces o1 o2 -> same_pieces o2 o1.
Proof. unfold same_pieces. intros (A & B & C & D). repeat split; congruence. Qed.

Section Weak.
Variable c : ctx.
Hypothesis G : good c.
Hypothesis C0 : c_first c = O.
Notation S' := (SX c). Notation E' := (EX c). Notation h := (hh c). Notation k := (kk c).
Notation Sx i := (X c (fst (input c i))).
Notation Ex i := (X c (snd (input c i))).

(** Before [R] different inputs meet in their common endpoints only. *)
Variable R : Qc.
Definition calm : Prop := forall i j t, (i < length (c_ins c))%nat -> (j < length (c_ins c))%nat ->
  i <> j -> t < R -> Sx i <= t -> t <= Ex i -> Sx j <= t -> t <= Ex j -> H c i t = H c j t ->
  (t = Sx i \/ t = Ex i) /\ (t = Sx j \/ t = Ex j).
Hypothesis NB : calm.

Lemma cut_late o l m mid : wf c o -> left_of o l -> left_of o m -> l <> m -> cut c o l m mid ->
  R <= X c mid.
Proof.
  intros W Ll Lm N [Ci Cl Cm CS CE CSm CEm _].
  destruct (w_in c o W l Ll) as [A1 A2]. destruct (w_in c o W m Lm) as [B1 B2].
  destruct (Nat.eq_dec (sid o l) (sid o m)) as [Es|Es].
  - exfalso. destruct (w_disj c o W l m Ll Lm N Es); qlra.
  - apply Qcnot_lt_le. intros L.
    destruct (NB (sid o l) (sid o m) (X c mid)) as [[Q|Q] _]; auto;
      try (apply (w_sid c o W); auto); try qlra.
    fold (h o l (X c mid)). fold (h o m (X c mid)). congruence.
Qed.

(** What later states keep of an operation. *)
Record later (o o' : operation) : Prop := {
  la_size : (size o <= size o')%nat;
  la_pt : forall e, (e < size o)%nat -> pt o' e = pt o e;
  la_eid : forall e, (e < size o)%nat -> eid o' e = eid o e;
  la_new : forall e, (size o <= e)%nat -> (e < size o')%nat -> R <= X c (pt o' e);
  la_queue : incl (op_queue o) (op_queue o');
  la_pushed : forall e, In e (op_queue o') ->
    In e (op_queue o) \/ ((size o <= e)%nat /\ (e < size o')%nat);
  la_length : (length (op_queue o') + size o <= length (op_queue o) + size o')%nat }.

Lemma later_same o o' : same_pieces o o' -> op_queue o' = op_queue o -> later o o'.
Proof.
  intros P Q. pose proof (same_pieces_size _ _ P) as Sz. constructor; rewrite ?Sz, ?Q; auto; try lia.
  - intros; apply pieces_pt; auto.
  - intros; apply pieces_eid; auto.
  - apply incl_refl.
Qed.
Lemma later_refl o : later o o.
Proof. apply later_same; auto. apply pieces_refl. Qed.
Lemma later_trans o1 o2 o3 : later o1 o2 -> later o2 o3 -> later o1 o3.
Proof.
  intros [A1 A2 A3 A4 A5 A6 A7] [B1 B2 B3 B4 B5 B6 B7]. constructor.
  - lia.
  - intros. rewrite B2, A2 by lia. auto.
  - intros. rewrite B3, A3 by lia. auto.
  - intros e L1 L2. destruct (Nat.lt_ge_cases e (size o2)) as [L|L]; [|auto].
    rewrite B2 by auto. auto.
  - eapply incl_tran; eauto.
  - intros e I. destruct (B6 e I) as [J|[J1 J2]]; [|right; lia].
    destruct (A6 e J) as [|[]]; [auto|right; lia].
  - lia.
Qed.

Lemma divided_eid o l mid o' e : wf c o -> left_of o l -> divided o l mid o' -> (e < size o)%nat ->
  eid o' e = eid o e.
Proof.
  intros W L D Le. pose proof (w_linked c o W) as Kk. unfold to_event_segment_id.
  destruct (is_event_left e) eqn:El.
  - apply (d_sid _ _ _ _ D). split; auto.
  - destruct (k_opp o Kk e Le) as (A & B & E). rewrite El in E.
    destruct (Nat.eq_dec e (opp o l)) as [->|N].
    + rewrite (d_oppr _ _ _ _ D), (d_sid1 _ _ _ _ D).
      destruct (k_opp o Kk l (proj2 L)) as (_ & Q & _). rewrite Q. reflexivity.
    + rewrite (d_opp _ _ _ _ D); auto.
      * apply (d_sid _ _ _ _ D). split; auto.
      * intros ->. destruct L as [L _]. congruence.
Qed.

(** A division whatever is pushed. *)
Lemma divided_later o l mid o2 o' : wf c o -> left_of o l -> divided o l mid o2 ->
  In mid (c_pts c) -> py mid = h o l (X c mid) -> S' o l < X c mid -> X c mid < E' o l ->
  R <= X c mid -> same_pieces o2 o' -> incl (op_queue o) (op_queue o') ->
  (forall e, In e (op_queue o') -> In e (op_queue o) \/ e = size o \/ e = S (size o)) ->
  (length (op_queue o') <= 2 + length (op_queue o))%nat -> wf c o' /\ later o o'.
Proof.
  intros W L D I1 I2 I3 I4 Lr P Q1 Q2 Q3.
  assert (W2 : wf c o2) by (apply (wf_divided c o o2 l mid W L D); auto).
  split; [apply (same_wf c o2); auto|]. pose proof (same_pieces_size _ _ P) as Sz.
  pose proof (d_size _ _ _ _ D) as Sz2.
  constructor.
  - lia.
  - intros e Le. rewrite (pieces_pt o2 o') by auto. apply (d_pt _ _ _ _ D); auto.
  - intros e Le. rewrite (pieces_eid o2 o') by auto. apply (divided_eid o l mid); auto.
  - intros e L1 L2. rewrite (pieces_pt o2 o') by auto.
    assert (e = size o \/ e = S (size o)) as [-> | ->] by lia.
    + rewrite (d_pt1 _ _ _ _ D); auto.
    + rewrite (d_pt2 _ _ _ _ D); auto.
  - auto.
  - intros e I. destruct (Q2 e I) as [|[-> | ->]]; auto; right; lia.
  - lia.
Qed.

Lemma base_later o o' : base c o -> wf c o' -> later o o' ->
  (forall l, In l (op_line o') -> left_of o l) -> base c o'.
Proof.
  intros (W & Q & Ln) W' La Ln'. split; auto. pose proof (la_size _ _ La). split.
  - intros e I. destruct (la_pushed _ _ La e I) as [J|[]]; auto. apply Q in J. lia.
  - intros l I. apply Ln' in I. destruct I. split; auto. lia.
Qed.
Lemma later_left o o' l : later o o' -> left_of o l -> left_of o' l.
Proof. intros La [A B]. pose proof (la_size _ _ La). split; auto; lia. Qed.

(** A step of the run seen from outside: [o'] is later and its line holds events of
    the line of [o] or [e]. *)
Definition goes (o o' : operation) : Prop :=
  base c o' /\ later o o' /\ incl (op_line o') (op_line o).

Lemma goes_trans o1 o2 o3 : goes o1 o2 -> goes o2 o3 -> goes o1 o3.
Proof.
  intros (A1 & A2 & A3) (B1 & B2 & B3). split; auto. split; [eapply later_trans; eauto|].
  eapply incl_tran; eauto.
Qed.
Lemma goes_refl o : base c o -> goes o o.
Proof. intros B. split; auto. split; [apply later_refl|apply incl_refl]. Qed.

Lemma cut_goes o l m mid o' ts te : base c o -> left_of o l -> left_of o m -> l <> m ->
  cut c o l m mid -> divide o l mid = Some (o', ts, te) ->
  ts = S (size o) /\ te = size o /\ goes o (push o' ts) /\ goes o (push o' te)
  /\ goes o (push (push o' ts) te)
  /\ (forall x, left_of o x -> S' o' x = S' o x /\ h o' x = h o x /\ k o' x = k o x
        /\ E' o' x = if (x =? l)%nat then X c mid else E' o x).
Proof.
  intros B Ll Lm N Cu Q. pose proof B as (W & _).
  destruct (divide_pieces o l mid (w_linked c o W) Ll) as (o1 & o2 & E & D & P & Eq & El).
  rewrite Q in E. injection E as -> -> ->.
  pose proof (cut_late o l m mid W Ll Lm N Cu) as Lr. destruct Cu as [Ci Cl Cm CS CE CSm CEm _].
  assert (F : forall q, (forall e, In e q -> In e (op_queue o) \/ e = size o \/ e = S (size o)) ->
     incl (op_queue o) q -> (length q <= 2 + length (op_queue o))%nat -> goes o (set_queue o1 q)).
  { intros q F1 F2 F3.
    assert (P1 : same_pieces o2 (set_queue o1 q)) by (eapply pieces_trans; eauto; repeat split).
    destruct (divided_later o l mid o2 (set_queue o1 q) W Ll D) as [W1 La]; auto.
    assert (Li : incl (op_line (set_queue o1 q)) (op_line o)) by (cbn; rewrite El; apply incl_refl).
    split; [|split; auto]. apply (base_later o); auto. intros x I. apply Li in I.
    destruct B as (_ & _ & B). auto. }
  assert (Q1 : goes o (push o1 (S (size o)))).
  { apply F; rewrite Eq.
    - intros e I. apply in_app_or in I. destruct I as [I|[<-|[]]]; auto.
    - intros e I. apply in_or_app; auto.
    - rewrite app_length. cbn. lia. }
  assert (Q2 : goes o (push o1 (size o))).
  { apply F; rewrite Eq.
    - intros e I. apply in_app_or in I. destruct I as [I|[<-|[]]]; auto.
    - intros e I. apply in_or_app; auto.
    - rewrite app_length. cbn. lia. }
  assert (Q3 : goes o (push (push o1 (S (size o))) (size o))).
  { unfold push at 1. apply (F (op_queue (push o1 (S (size o))) ++ [size o])); cbn; rewrite Eq.
    - intros e I. apply in_app_or in I. destruct I as [I|[<-|[]]]; auto.
      apply in_app_or in I. destruct I as [I|[<-|[]]]; auto.
    - intros e I. apply in_or_app; left. apply in_or_app; auto.
    - rewrite !app_length. cbn. lia. }
  repeat (split; [assumption || reflexivity|]).
  intros x Lx. assert (Px : S' o1 x = S' o2 x /\ h o1 x = h o2 x /\ k o1 x = k o2 x /\ E' o1 x = E' o2 x).
  { destruct o1, o2; unfold same_pieces in P; cbn in P. destruct P as (-> & -> & -> & ->). repeat split. }
  destruct Px as (-> & -> & -> & ->). split; [apply (div_S c o o2 l mid D); auto|].
  split; [unfold hh; rewrite (d_sid _ _ _ _ D); auto|].
  split; [apply (div_k c o o2 l mid D); auto|]. apply (div_E c o o2 l mid W Ll D); auto.
Qed.

Definition numbers (o o' : operation) (l : event) (mid : point) : Prop :=
  forall x, left_of o x -> S' o' x = S' o x /\ h o' x = h o x /\ k o' x = k o x
    /\ E' o' x = if (x =? l)%nat then X c mid else E' o x.
Lemma base_first o : base c o -> op_first_count o = O.
Proof. intros (W & _). rewrite (w_first c o W). exact C0. Qed.

Lemma divide_goes r l m mid r' : base c (rg_op r) -> left_of (rg_op r) l -> left_of (rg_op r) m ->
  l <> m -> cut c (rg_op r) l m mid -> registry_divide r l mid = Some r' ->
  goes (rg_op r) (rg_op r') /\ numbers (rg_op r) (rg_op r') l mid.
Proof.
  intros B Ll Lm N Cu. unfold registry_divide.
  destruct (divide (rg_op r) l mid) as [[[o' ts] te]|] eqn:Q; [|discriminate]. intros [= <-].
  destruct (cut_goes _ l m mid o' ts te B Ll Lm N Cu Q) as (-> & -> & G1 & G2 & G3 & Nu).
  split; auto.
Qed.
Lemma divide_and_merge_goes r l m mid other r' : base c (rg_op r) -> left_of (rg_op r) l ->
  left_of (rg_op r) m -> l <> m -> cut c (rg_op r) l m mid ->
  divide_and_merge r l mid other = Some r' ->
  goes (rg_op r) (rg_op r') /\ numbers (rg_op r) (rg_op r') l mid.
Proof.
  intros B Ll Lm N Cu. unfold divide_and_merge.
  destruct (divide (rg_op r) l mid) as [[[o' ts] te]|] eqn:Q; [|discriminate]. intros [= <-].
  destruct (cut_goes _ l m mid o' ts te B Ll Lm N Cu Q) as (-> & -> & G1 & G2 & G3 & Nu).
  split; auto.
Qed.
Lemma cut_set_line o l m mid line : cut c o l m mid -> cut c (set_line o line) l m mid.
Proof. intros [A1 A2 A3 A4 A5 A6 A7 A8]. constructor; auto. Qed.
Lemma goes_set_line o line : base c o -> incl line (op_line o) -> goes o (set_line o line).
Proof.
  intros B I. split; [|split].
  - apply (base_same c o); auto; [repeat split|apply incl_refl|]. intros l J. apply I in J.
    destruct B as (_ & _ & B). auto.
  - apply later_same; [repeat split|reflexivity].
  - exact I.
Qed.
Lemma checking_goes shape index r l m mid r' : base c (rg_op r) -> left_of (rg_op r) l ->
  left_of (rg_op r) m -> l <> m -> cut c (rg_op r) l m mid ->
  divide_checking_above shape index r l mid = Some r' ->
  goes (rg_op r) (rg_op r') /\ numbers (rg_op r) (rg_op r') l mid.
Proof.
  intros B Ll Lm N Cu. unfold divide_checking_above.
  destruct (registry_above shape index (rg_op r) l) as [a|] eqn:Ab.
  2: { intros Q. apply (divide_goes r l m mid r'); auto. }
  destruct (_ && _).
  2: { intros Q. apply (divide_goes r l m mid r'); auto. }
  destruct (registry_remove shape (S index) (rg_op r) a) as [o1|] eqn:Rm; [|discriminate].
  destruct (registry_divide (set_op r o1) l mid) as [r1|] eqn:Q; [|discriminate].
  apply registry_remove_line in Rm; [|apply base_first; auto]. destruct Rm as (line & -> & I).
  pose proof (goes_set_line _ _ B I) as Gl. intros [= <-].
  destruct (divide_goes (set_op r (set_line (rg_op r) line)) l m mid r1) as [G1 N1]; auto.
  - apply Gl.
  - apply cut_set_line; auto.
  - split; [|exact N1]. cbn [rg_op merge_equal_segment_events]. eapply goes_trans; eauto.
Qed.

Lemma numbers_at o o' l mid x : numbers o o' l mid -> left_of o x ->
  S' o' x = S' o x /\ (forall t, h o' x t = h o x t) /\ k o' x = k o x
  /\ E' o' x = if (x =? l)%nat then X c mid else E' o x.
Proof. intros N L. destruct (N x L) as (A & B & C & D). rewrite B. auto. Qed.

Lemma registry_detect_self shape index r Y : base c (rg_op r) -> left_of (rg_op r) Y ->
  registry_detect shape index r Y Y = None.
Proof.
  intros (W & _) L. unfold registry_detect.
  assert (O1 : orient (to_event_end (rg_op r) Y) (to_event_start (rg_op r) Y) (to_event_start (rg_op r) Y) = COLLINEAR).
  { apply orient_col. unfold area2. ring. }
  assert (O2 : orient (to_event_end (rg_op r) Y) (to_event_start (rg_op r) Y) (to_event_end (rg_op r) Y) = COLLINEAR).
  { apply orient_col. unfold area2. ring. }
  rewrite O1, O2. cbn [orientation_is].
  assert (E : forall p, point_eq p p = true) by (intros p; apply point_eq_true; auto).
  rewrite !E. reflexivity.
Qed.

Section Two.
Variables (shape : tree_shape) (index : nat) (r r' : registry) (Y Z : event).
Notation o := (rg_op r).
Hypothesis B : base c o.
Hypothesis LY : left_of o Y.
Hypothesis LZ : left_of o Z.
Hypothesis NYZ : Y <> Z.
Notation a := (S' o Y). Notation b := (E' o Y). Notation u := (S' o Z). Notation v := (E' o Z).
Notation d := (dd c o Y Z).
Notation s := (ds c o Y Z).
Let W : wf c o. Proof. exact (proj1 B). Qed.
Let Aff : forall x y, d x - d y = s * (x - y).
Proof. intros x y. exact (sub_affine c o Y Z x y). Qed.
Let Y1 : py (pt o Y) = h o Y a. Proof. exact (w_S c o W Y LY). Qed.
Let Y2 : py (pt o (opp o Y)) = h o Y b. Proof. exact (w_E c o W Y LY). Qed.
Let Z1 : py (pt o Z) = h o Z u. Proof. exact (w_S c o W Z LZ). Qed.
Let Z2 : py (pt o (opp o Z)) = h o Z v. Proof. exact (w_E c o W Z LZ). Qed.
Let I1 : In (pt o Y) (c_pts c). Proof. exact (w_ptS c o W Y LY). Qed.
Let I2 : In (pt o (opp o Y)) (c_pts c). Proof. exact (w_ptE c o W Y LY). Qed.
Let I3 : In (pt o Z) (c_pts c). Proof. exact (w_ptS c o W Z LZ). Qed.
Let I4 : In (pt o (opp o Z)) (c_pts c). Proof. exact (w_ptE c o W Z LZ). Qed.
Let LtY : a < b. Proof. exact (w_lt c o W Y LY). Qed.
Let LtZ : u < v. Proof. exact (w_lt c o W Z LZ). Qed.

Lemma mid_segment_goes l m : (l = Y /\ m = Z) \/ (l = Z /\ m = Y) -> (forall t, d t = 0) ->
  S' o l < S' o m -> E' o m < E' o l ->
  divide_by_mid_segment r l m (pt o m) (pt o (opp o m)) = Some r' -> goes o (rg_op r').
Proof.
  intros P Zero A1 A2. assert (L : left_of o l /\ left_of o m /\ l <> m) by (destruct P as [[-> ->]|[-> ->]]; auto).
  destruct L as (Ll & Lm & Nlm).
  assert (HH : forall t, h o l t = h o m t).
  { intros t. specialize (Zero t). unfold dd in Zero. destruct P as [[-> ->]|[-> ->]]; qlra. }
  pose proof (w_lt c o W m Lm) as Ltm. unfold divide_by_mid_segment.
  destruct (registry_divide r l (pt o (opp o m))) as [r1|] eqn:Q1; [|discriminate].
  assert (C1 : cut c o l m (pt o (opp o m))).
  { constructor; auto; change (X c (pt o (opp o m))) with (E' o m); auto; try qlra.
    - apply (w_ptE c o W); auto.
    - rewrite HH. apply (w_E c o W); auto.
    - apply (w_E c o W); auto. }
  destruct (divide_goes r l m _ r1 B Ll Lm Nlm C1 Q1) as [G1 N1].
  change (X c (pt o (opp o m))) with (E' o m) in N1. intros Q2.
  destruct (numbers_at _ _ _ _ l N1 Ll) as (l1 & l2 & l3 & l4).
  destruct (numbers_at _ _ _ _ m N1 Lm) as (m1 & m2 & m3 & m4).
  rewrite Nat.eqb_refl in l4. rewrite (proj2 (Nat.eqb_neq m l)) in m4 by auto.
  change (X c (pt o (opp o m))) with (E' o m) in l4.
  destruct G1 as (B1 & La1 & In1).
  assert (C2 : cut c (rg_op r1) l m (pt o m)).
  { constructor; change (X c (pt o m)) with (S' o m); rewrite ?l1, ?l2, ?l4, ?m1, ?m2, ?m4; try qlra; auto.
    - apply (w_ptS c o W); auto.
    - rewrite HH. apply (w_S c o W); auto.
    - apply (w_S c o W); auto. }
  destruct (divide_and_merge_goes r1 l m _ m r' B1 (later_left _ _ _ La1 Ll) (later_left _ _ _ La1 Lm) Nlm C2 Q2)
    as [G2 _].
  eapply goes_trans; [|exact G2]. split; auto.
Qed.
Lemma overlapping_goes l m : (l = Y /\ m = Z) \/ (l = Z /\ m = Y) -> (forall t, d t = 0) ->
  S' o l < S' o m -> S' o m < E' o l -> E' o l < E' o m ->
  divide_overlapping r l m (pt o m) (pt o (opp o l)) = Some r' -> goes o (rg_op r').
Proof.
  intros P Zero A1 A2 A3. assert (L : left_of o l /\ left_of o m /\ l <> m) by (destruct P as [[-> ->]|[-> ->]]; auto).
  destruct L as (Ll & Lm & Nlm).
  assert (HH : forall t, h o l t = h o m t).
  { intros t. specialize (Zero t). unfold dd in Zero. destruct P as [[-> ->]|[-> ->]]; qlra. }
  pose proof (w_lt c o W m Lm) as Ltm. unfold divide_overlapping.
  destruct (registry_divide r m (pt o (opp o l))) as [r1|] eqn:Q1; [|discriminate].
  assert (C1 : cut c o m l (pt o (opp o l))).
  { constructor; auto; change (X c (pt o (opp o l))) with (E' o l); auto; try qlra.
    - apply (w_ptE c o W); auto.
    - rewrite <- HH. apply (w_E c o W); auto.
    - apply (w_E c o W); auto. }
  destruct (divide_goes r m l _ r1 B Lm Ll (not_eq_sym Nlm) C1 Q1) as [G1 N1]. intros Q2.
  destruct (numbers_at _ _ _ _ l N1 Ll) as (l1 & l2 & l3 & l4).
  destruct (numbers_at _ _ _ _ m N1 Lm) as (m1 & m2 & m3 & m4).
  rewrite Nat.eqb_refl in m4. rewrite (proj2 (Nat.eqb_neq l m)) in l4 by auto.
  change (X c (pt o (opp o l))) with (E' o l) in m4.
  destruct G1 as (B1 & La1 & In1).
  assert (C2 : cut c (rg_op r1) l m (pt o m)).
  { constructor; change (X c (pt o m)) with (S' o m); rewrite ?l1, ?l2, ?l4, ?m1, ?m2, ?m4; try qlra; auto.
    - apply (w_ptS c o W); auto.
    - rewrite HH. apply (w_S c o W); auto.
    - apply (w_S c o W); auto. }
  destruct (divide_and_merge_goes r1 l m _ m r' B1 (later_left _ _ _ La1 Ll) (later_left _ _ _ La1 Lm) Nlm C2 Q2)
    as [G2 _].
  eapply goes_trans; [|exact G2]. split; auto.
Qed.

(** Cuts at an endpoint of the other piece. *)
Lemma cut_at l m mid : (l = Y /\ m = Z) \/ (l = Z /\ m = Y) ->
  mid = pt o m \/ mid = pt o (opp o m) -> d (X c mid) = 0 -> S' o l < X c mid -> X c mid < E' o l ->
  cut c o l m mid.
Proof.
  intros P M Dz A1 A2.
  assert (L : left_of o l /\ left_of o m) by (destruct P as [[-> ->]|[-> ->]]; auto). destruct L as (Ll & Lm).
  assert (HH : h o l (X c mid) = h o m (X c mid)).
  { unfold dd in Dz. destruct P as [[-> ->]|[-> ->]]; qlra. }
  pose proof (w_lt c o W m Lm) as Ltm.
  assert (Pm : py mid = h o m (X c mid)).
  { destruct M as [-> | ->]; [apply (w_S c o W); auto|apply (w_E c o W); auto]. }
  constructor; auto.
  - destruct M as [-> | ->]; [apply (w_ptS c o W); auto|apply (w_ptE c o W); auto].
  - congruence.
  - destruct M as [-> | ->]; [apply Qcle_refl|]. change (X c (pt o (opp o m))) with (E' o m). qlra.
  - destruct M as [-> | ->]; [|apply Qcle_refl]. change (X c (pt o m)) with (S' o m). qlra.
  - destruct M as [-> | ->]; auto.
Qed.

Lemma crossing_facts : (d u < 0 /\ 0 < d v) \/ (0 < d u /\ d v < 0) ->
  (d a < 0 /\ 0 < d b) \/ (0 < d a /\ d b < 0) ->
  let x := to_segments_intersection (pt o Z) (pt o (opp o Z)) (pt o Y) (pt o (opp o Y)) in
  In x (c_pts c) /\ u < X c x /\ X c x < v /\ a < X c x /\ X c x < b /\ k o Y <> k o Z
  /\ py x = h o Y (X c x) /\ py x = h o Z (X c x).
Proof.
  intros HZ HY x.
  pose proof (area2_H c (sid o Y) (pt o Y) (pt o (opp o Y)) (pt o Z) Y1 Y2) as A1.
  pose proof (area2_H c (sid o Y) (pt o Y) (pt o (opp o Y)) (pt o (opp o Z)) Y1 Y2) as A2.
  pose proof (area2_H c (sid o Z) (pt o Z) (pt o (opp o Z)) (pt o Y) Z1 Z2) as A3.
  pose proof (area2_H c (sid o Z) (pt o Z) (pt o (opp o Z)) (pt o (opp o Y)) Z1 Z2) as A4.
  change (X c (pt o Y)) with a in *. change (X c (pt o (opp o Y))) with b in *.
  change (X c (pt o Z)) with u in *. change (X c (pt o (opp o Z))) with v in *.
  rewrite Z1 in A1. rewrite Z2 in A2. rewrite Y1 in A3. rewrite Y2 in A4.
  change (h o Z u - H c (sid o Y) u) with (d u) in A1.
  change (h o Z v - H c (sid o Y) v) with (d v) in A2.
  change (H c (sid o Z) a) with (h o Z a) in A3. change (H c (sid o Z) b) with (h o Z b) in A4.
  replace (h o Y a - h o Z a) with (- d a) in A3 by (unfold dd; ring).
  replace (h o Y b - h o Z b) with (- d b) in A4 by (unfold dd; ring).
  assert (O1 : opposite (area2 (pt o Y) (pt o (opp o Y)) (pt o Z)) (area2 (pt o Y) (pt o (opp o Y)) (pt o (opp o Z)))).
  { rewrite A1, A2. unfold opposite. clear A1 A2 A3 A4. 
    generalize dependent (d u); generalize dependent (d v). intros.
    destruct HZ as [[]|[]]; [right|left]; split; qnra. }
  assert (O2 : opposite (area2 (pt o Z) (pt o (opp o Z)) (pt o Y)) (area2 (pt o Z) (pt o (opp o Z)) (pt o (opp o Y)))).
  { rewrite A3, A4. unfold opposite. clear A1 A2 A3 A4 O1.
    generalize dependent (d a); generalize dependent (d b). intros.
    destruct HY as [[]|[]]; [left|right]; split; qnra. }
  destruct (crossing_point _ _ _ _ O2 O1) as [B1 B2]. fold x in B1, B2.
  destruct (strictly_between_X c _ _ (sid o Z) x Z1 Z2 LtZ B1) as (P1 & P2 & P3).
  destruct (strictly_between_X c _ _ (sid o Y) x Y1 Y2 LtY B2) as (Q1 & Q2 & Q3).
  change (X c (pt o Y)) with a in *. change (X c (pt o (opp o Y))) with b in *.
  change (X c (pt o Z)) with u in *. change (X c (pt o (opp o Z))) with v in *.
  change (H c (sid o Z) (X c x)) with (h o Z (X c x)) in *.
  change (H c (sid o Y) (X c x)) with (h o Y (X c x)) in *.
  assert (N : s <> 0).
  { intros E. pose proof (Aff u v) as E1. rewrite E in E1. destruct HZ; qlra. }
  assert (NK : k o Y <> k o Z) by (intros E; apply N; unfold ds; rewrite E; ring).
  assert (Ix : In x (c_pts c)).
  { destruct (g_cross c G (sid o Y) (sid o Z) (X c x)) as (f & If & Ef & Ff).
    - apply (w_sid c o W); auto.
    - apply (w_sid c o W); auto.
    - exact NK.
    - fold (h o Y (X c x)). fold (h o Z (X c x)). congruence.
    - change (H c (sid o Y) (X c x)) with (h o Y (X c x)) in Ff. rewrite <- Q3 in Ff.
      assert (f = x) as <-; auto. apply point_ext; auto.
      unfold X in Ef. rewrite Ff in Ef. qlra. }
  repeat (split; [assumption|]). assumption.
Qed.

(** The detection in numbers; the collinear part is left as it is. *)
Definition detect_numbers (collinear : option registry) : option registry :=
  if orientation_is (sgn (d u)) (sgn (d v))
  then if orientation_is (sgn (d u)) COLLINEAR then collinear else Some r
  else if orientation_is (sgn (d u)) COLLINEAR
  then if qltb a u && qltb u b then registry_divide r Y (pt o Z) else Some r
  else if orientation_is (sgn (d v)) COLLINEAR
  then if qltb a v && qltb v b then registry_divide r Y (pt o (opp o Z)) else Some r
  else if orientation_is (sgn (d a)) COLLINEAR
  then if orientation_is (sgn (d b)) COLLINEAR then None
       else if qltb u a && qltb a v then divide_checking_above shape index r Z (pt o Y) else Some r
  else if orientation_is (sgn (d b)) COLLINEAR
  then if qltb u b && qltb b v then divide_checking_above shape index r Z (pt o (opp o Y)) else Some r
  else if negb (orientation_is (sgn (d a)) (sgn (d b)))
  then let x := to_segments_intersection (pt o Z) (pt o (opp o Z)) (pt o Y) (pt o (opp o Y)) in
       match registry_divide r Y x with
       | None => None
       | Some r => divide_checking_above shape index r Z x
       end
  else Some r.
Definition collinear_numbers : option registry :=
  if qeqb u a
  then
    if qeqb v b then None
    else
      let '(max_end_event, min_end_event) := if qltb v b then (Y, Z) else (Z, Y) in
      match registry_remove shape index o max_end_event with
      | None => None
      | Some o =>
          match divide o max_end_event (to_event_end o min_end_event) with
          | None => None
          | Some (o, _, to_end) =>
              Some (merge_equal_segment_events (set_op r (push o to_end)) Z Y)
          end
      end
  else if qeqb v b
  then
    let '(max_start_event, min_start_event) := if qltb u a then (Y, Z) else (Z, Y) in
    divide_and_merge r min_start_event (pt o max_start_event) max_start_event
  else if qltb a u && qltb u b
  then
    if qltb v b
    then divide_by_mid_segment r Y Z (pt o Z) (pt o (opp o Z))
    else divide_overlapping r Y Z (pt o Z) (pt o (opp o Y))
  else if qltb u a && qltb a v
  then
    if qltb b v
    then divide_by_mid_segment r Z Y (pt o Y) (pt o (opp o Y))
    else divide_overlapping r Z Y (pt o Y) (pt o (opp o Z))
  else Some r.

Lemma opposite_is x y : orientation_is (sgn (- x)) (sgn (- y)) = orientation_is (sgn x) (sgn y).
Proof. rewrite !sgn_opp. destruct (sgn x), (sgn y); reflexivity. Qed.
Lemma opposite_col x : orientation_is (sgn (- x)) COLLINEAR = orientation_is (sgn x) COLLINEAR.
Proof. rewrite !sgn_opp. destruct (sgn x); reflexivity. Qed.

Lemma detect_in_numbers : registry_detect shape index r Y Z = detect_numbers collinear_numbers.
Proof.
  unfold registry_detect, detect_numbers, collinear_numbers. cbv zeta.
  assert (OY : forall p, orient (to_event_end o Y) (pt o Y) p = sgn (- (py p - h o Y (X c p)))).
  { intros p. rewrite orient_swap12. unfold to_event_end.
    rewrite (orient_sgn c (sid o Y) (pt o Y) (pt o (opp o Y))) by auto. rewrite sgn_opp.
    change (H c (sid o Y) (X c p)) with (h o Y (X c p)).
    destruct (sgn (py p - h o Y (X c p))); reflexivity. }
  assert (OZ : forall p, orient (pt o Z) (to_event_end o Z) p = sgn (py p - h o Z (X c p))).
  { intros p. unfold to_event_end.
    rewrite (orient_sgn c (sid o Z) (pt o Z) (pt o (opp o Z))) by auto. reflexivity. }
  rewrite !OY, !OZ. unfold to_event_end. rewrite Y1, Y2, Z1, Z2.
  change (X c (pt o Y)) with a. change (X c (pt o (opp o Y))) with b.
  change (X c (pt o Z)) with u. change (X c (pt o (opp o Z))) with v.
  change (h o Z u - h o Y u) with (d u). change (h o Z v - h o Y v) with (d v).
  replace (h o Y a - h o Z a) with (- d a) by (unfold dd; ring).
  replace (h o Y b - h o Z b) with (- d b) by (unfold dd; ring).
  rewrite !opposite_is, !opposite_col.
  rewrite !(point_eq_X c G (pt o Z) (pt o Y)),
    !(point_eq_X c G (pt o (opp o Z)) (pt o (opp o Y))) by auto.
  rewrite !(point_lt_X c G (pt o (opp o Z)) (pt o (opp o Y))),
    !(point_lt_X c G (pt o Z) (pt o Y)), !(point_lt_X c G (pt o Y) (pt o Z)),
    !(point_lt_X c G (pt o Z) (pt o (opp o Y))), !(point_lt_X c G (pt o (opp o Y)) (pt o (opp o Z))),
    !(point_lt_X c G (pt o Y) (pt o (opp o Z))) by auto.
  change (X c (pt o Y)) with a. change (X c (pt o (opp o Y))) with b.
  change (X c (pt o Z)) with u. change (X c (pt o (opp o Z))) with v.
  destruct (orientation_is (sgn (d u)) (sgn (d v))) eqn:Q1.
  { reflexivity. }
  destruct (orientation_is (sgn (d u)) COLLINEAR) eqn:Q2; [reflexivity|].
  destruct (orientation_is (sgn (d v)) COLLINEAR) eqn:Q3; [reflexivity|].
  destruct (orientation_is (sgn (d a)) COLLINEAR) eqn:Q4; [reflexivity|].
  destruct (orientation_is (sgn (d b)) COLLINEAR) eqn:Q5; [reflexivity|].
  destruct (orientation_is (sgn (d a)) (sgn (d b))) eqn:Q6; [reflexivity|]. cbn [negb].
  destruct crossing_facts as (Ix & A1 & A2 & A3 & A4 & _).
  - destruct (sgn_cases (d u)) as [[E1 F1]|[[E1 F1]|[E1 F1]]], (sgn_cases (d v)) as [[E2 F2]|[[E2 F2]|[E2 F2]]];
      rewrite E1 in *; rewrite E2 in *; cbn in *; try discriminate; auto.
  - destruct (sgn_cases (d a)) as [[E1 F1]|[[E1 F1]|[E1 F1]]], (sgn_cases (d b)) as [[E2 F2]|[[E2 F2]|[E2 F2]]];
      rewrite E1 in *; rewrite E2 in *; cbn in *; try discriminate; auto.
  - rewrite !(point_lt_X c G) by auto.
    change (X c (pt o Y)) with a. change (X c (pt o (opp o Y))) with b.
    change (X c (pt o Z)) with u. change (X c (pt o (opp o Z))) with v.
    rewrite (proj2 (qltb_true _ _) A1), (proj2 (qltb_true _ _) A2),
            (proj2 (qltb_true _ _) A3), (proj2 (qltb_true _ _) A4). reflexivity.
Qed.
End Two.
End Weak.
