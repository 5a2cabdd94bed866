(** The plane sweep, part 13: the order in which finished pieces are recorded. *)
From Coq Require Import QArith Qcanon Bool List Arith Lia.
From Verif Require Import QcTac Model_Base Model_Utils Model_Linear Spec_Base Spec_Sweep
  Proof_Base Proof_Line Proof_Sweep Proof_Sweep2 Proof_Sweep3 Proof_Sweep5 Proof_Sweep7
  Proof_Sweep8 Proof_Sweep9 Proof_Sweep10 Proof_Sweep11 Proof_Sweep12.
Import ListNotations.
Local Open Scope Qc_scope.

Lemma hd_exists {A} (l : list A) x : In x l -> exists y r, l = y :: r.
Proof. destruct l as [|y r]; [intros []|]. intros _. exists y, r. reflexivity. Qed.
Lemma rev_exists {A} (l : list A) x : In x l -> exists y r, l = r ++ [y] /\ hd_error (rev l) = Some y.
Proof.
  intros I. destruct (rev l) as [|y r] eqn:E.
  - apply in_rev in I. rewrite E in I. destruct I.
  - exists y, (rev r). split; auto. rewrite <- (rev_involutive l), E. reflexivity.
Qed.

Lemma NoDup_app_snoc {A} (l : list A) x : NoDup l -> ~ In x l -> NoDup (l ++ [x]).
Proof.
  intros Nd NI. induction Nd as [|y l Ny Nd IH]; cbn.
  - constructor; auto. constructor.
  - constructor.
    + rewrite in_app_iff. cbn. intros [I|[I|[]]]; auto. apply NI. left; auto.
    + apply IH. intros I; apply NI; right; auto.
Qed.

Section Record.
Variable c : ctx.
Hypothesis G : good c.
Hypothesis N : nc c.
Notation S' := (SX c). Notation E' := (EX c). Notation h := (hh c). Notation k := (kk c).
Notation EV := (EVX c). Notation col := (col c). Notation below := (below c).
Notation d := (dd c).
Notation core := (core c). Notation th := (th c). Notation mates := (mates c).
Notation dpair := (dpair c). Notation through := (through c). Notation inv := (inv c).
Notation least := (least c).

Record recorded (o : operation) (t : Qc) (ev : list event) : Prop := {
  r_done : forall x, In x ev <-> done o x;
  r_nd : NoDup ev;
  r_adj : forall Y Z, done o Y -> done o Z -> Y <> Z -> mates o Y Z -> E' o Y = E' o Z ->
    adj ev Y Z \/ adj ev Z Y;
  r_pend : forall Y Z, active o Y -> done o Z -> mates o Y Z ->
    E' o Z = t /\ hd_error (rev ev) = Some Z /\
    ((E' o Y = t /\ forall U, active o U -> E' o U = t -> U = Y \/ k o U < k o Y)
     \/ (t < E' o Y /\ forall U, active o U -> E' o U <> t)) }.

Lemma mates_three o Y Z U : wf c o -> left_of o Y -> left_of o Z -> left_of o U ->
  Y <> Z -> Y <> U -> Z <> U -> mates o Y Z -> mates o Y U -> False.
Proof.
  intros W LY LZ LU N1 N2 N3 [M1 M2] [M3 M4].
  pose proof (w_lt c o W Y LY). pose proof (w_lt c o W Z LZ). pose proof (w_lt c o W U LU).
  apply (col_three c N o Y Z U W); auto; rewrite <- ?M2, <- ?M4 in *; auto.
Qed.

Lemma advance_recorded o t t' ev : inv o t -> recorded o t ev -> t < t' ->
  (forall e, In e (op_queue o) -> t' <= EV o e) -> recorded o t' ev.
Proof.
  intros V R Lt Qu. constructor; try apply R.
  intros Y Z AY DZ M. exfalso. destruct (r_pend _ _ _ R Y Z AY DZ M) as (Ez & _ & _).
  assert (C := v_core _ _ _ V). assert (PZ := done_popped _ _ _ _ C DZ).
  pose proof (active_E' c o t' Qu Y AY) as EY.
  pose proof (w_lt c o (i_wf _ _ _ C) Z (proj1 DZ)) as Lz. destruct M as [[M1 M2] M3].
  destruct (th_now c o t t' (v_th _ _ _ V) Lt Qu Y Z) as [_ Q]; auto.
  - apply active_popped; auto.
  - intros ->. apply (active_not_done o Z AY DZ).
  - split; [rewrite M3; qlra|qlra].
  - qlra.
  - rewrite Ez; apply Qcle_refl.
  - rewrite Ez in Q. qlra.
Qed.

(** Nothing lies between two mates on the line. *)
Lemma between_mates o t A U B : core o t -> mates o A B ->
  before (op_line o) A U -> before (op_line o) U B -> False.
Proof.
  intros C M B1 B2. pose proof (before_In _ _ _ B1) as [IA IU]. pose proof (before_In _ _ _ B2) as [_ IB].
  apply (i_line _ _ _ C) in IA. apply (i_line _ _ _ C) in IU. apply (i_line _ _ _ C) in IB.
  assert (W := i_wf _ _ _ C).
  pose proof (active_S _ _ _ _ C IA) as SA. pose proof (active_S _ _ _ _ C IU) as SU.
  pose proof (active_S _ _ _ _ C IB) as SB.
  pose proof (active_E _ _ _ _ C IA) as EA. pose proof (active_E _ _ _ _ C IU) as EU.
  pose proof (active_E _ _ _ _ C IB) as EB.
  destruct (i_ord _ _ _ C A U B1) as [X1 X2 X3]. destruct (i_ord _ _ _ C U B B2) as [Y1 Y2 Y3].
  destruct M as [[Mk Mh] Ms].
  assert (Em : mx (S' o U) (S' o B) = mx (S' o A) (S' o U)).
  { rewrite <- Ms. destruct (mx_cases (S' o U) (S' o A)) as [[-> ?]|[-> ?]];
    destruct (mx_cases (S' o A) (S' o U)) as [[-> ?]|[-> ?]]; qlra. }
  rewrite Em in *. pose proof (mx_le _ _ _ SA SU) as Mt. pose proof (mx_ge (S' o A) (S' o U)) as [G1 G2].
  set (m := mx (S' o A) (S' o U)) in *. clearbody m. unfold dd, ds in *.
  pose proof (Mh m) as Hm. pose proof (Mh t) as Ht.
  assert (Z1 : h o U m - h o A m = 0) by qlra. assert (Z2 : h o U t - h o A t = 0) by qlra.
  assert (Z3 : h o B m - h o U m = 0) by qlra. assert (Z4 : h o B t - h o U t = 0) by qlra.
  destruct (Qcle_lt_or_eq _ _ Mt) as [Lm|Eqm].
  - assert (Cl : col o A U) by (apply (col_two c o A U m t); [intros Q; rewrite Q in Lm; qlra|qlra|qlra]).
    apply (col_three c N o A U B W); try apply IA; try apply IU; try apply IB; auto; try qlra.
    + intros ->. apply (line_irrefl c o t U C B1).
    + intros ->. apply (line_asym c o t B U C B1 B2).
    + intros ->. apply (line_irrefl c o t B C B2).
    + split; auto.
  - destruct (X3 Z1 Z2) as [[_ Q1]|(Q1 & Q2 & Q3)]; destruct (Y3 Z3 Z4) as [[_ Q4]|(Q4 & Q5 & Q6)];
      try qlra; congruence.
Qed.

(** Pieces ending at [t] end in one point. *)
Lemma end_tied o o' U Z t : wf c o -> wf c o' -> left_of o U -> left_of o' Z ->
  E' o U = t -> E' o' Z = t -> h o U t = h o' Z t.
Proof.
  intros W W' LU LZ E1 E2. pose proof (w_E c o W U LU) as Q1. pose proof (w_E c o' W' Z LZ) as Q2.
  assert (P : pt o (opp o U) = pt o' (opp o' Z)).
  { apply (X_inj c G); [apply (w_ptE c o W U LU)|apply (w_ptE c o' W' Z LZ)|].
    unfold EX in *. congruence. }
  rewrite E1 in Q1. rewrite E2 in Q2. congruence.
Qed.

Lemma frame_cut o o' t Y0 Z0 U : frame c o o' t Y0 Z0 -> core o' t -> linked o ->
  left_of o' Y0 -> left_of o' Z0 -> active o' U -> left_of o U ->
  E' o' U = t -> t < E' o U ->
  exists V0, ((U = Y0 /\ V0 = Z0) \/ (U = Z0 /\ V0 = Y0)) /\ S' o U < t /\ h o U t = h o V0 t
    /\ S' o V0 <= t /\ t <= E' o V0.
Proof.
  intros F C K L1 L2 A L E1 E2. destruct (f_opp _ _ _ _ _ _ F U L) as [Q|(Q1 & Q2 & Q3)].
  - exfalso. unfold EX in *. rewrite Q, (f_pt _ _ _ _ _ _ F) in E1; [rewrite E1 in E2; qlra|].
    apply (k_opp o K), L.
  - assert (W := i_wf _ _ _ C). destruct A as (LU & I & J).
    destruct (f_new _ _ _ _ _ _ F (opp o' U) J Q3) as (x & y & Pxy & R & [T1 T2] & Eh & S1 & S2).
    + destruct (k_opp o' (w_linked c o' W) U (proj2 LU)) as (_ & _ & ->). rewrite (proj1 LU). reflexivity.
    + exact E1.
    + assert (Lx : left_of o' x) by (destruct Pxy as [[-> _]|[-> _]]; auto).
      assert (Ex : x = U).
      { rewrite <- (core_opp c o' t x C Lx), <- R. apply (core_opp c o' t U C LU). }
      subst x. exists y. auto.
Qed.

(** ** A right event *)
Section RightRecord.
Variables (o : operation) (t : Qc) (e : event) (l1 l2 : list event) (o2 : operation) (ev : list event).
Hypothesis V : inv o t.
Hypothesis Le : least o e.
Hypothesis Re : is_event_left e = false.
Hypothesis Et : EV o e = t.
Hypothesis R : recorded o t ev.
Notation l := (opp o e).
Hypothesis El : op_line o = l1 ++ l :: l2.
Notation o1 := (relined o e (l1 ++ l2)).
Hypothesis V2 : inv o2 t.
Hypothesis St : stepped c o t e l1 l2 o2.
Hypothesis Ac : forall x, active o2 x <-> active o1 x.
Hypothesis Dn : forall x, done o2 x <-> done o1 x.

Let C := v_core c o t V.
Let W := i_wf _ _ _ C.
Let C2 := v_core c o2 t V2.
Let W2 := i_wf _ _ _ C2.
Let C1 : core o1 t. Proof. exact (rp_core c o t e V Le Re Et l1 l2 El). Qed.

Lemma rr_active x : active o2 x <-> active o x /\ x <> l.
Proof. rewrite Ac. apply (rp_active1 c o t e V Le Re). Qed.
Lemma rr_done x : done o2 x <-> done o x \/ x = l.
Proof. rewrite Dn. apply (rp_done1 c o t e V Le Re). Qed.
Lemma rr_l : left_of o l.
Proof. apply (rp_left c o t e V Le Re). Qed.
Lemma rr_al : active o l.
Proof. apply (rp_active c o t e V Le Re Et). Qed.
Lemma rr_El : E' o l = t.
Proof. apply (rp_E c o t e V Le Et). Qed.
Lemma rr_Sl : S' o l < t.
Proof. rewrite <- rr_El. apply (w_lt c o W), rr_l. Qed.

(** What stays the same. *)
Lemma rr_same : (size o <= size o2)%nat /\ (forall y, left_of o y -> S' o2 y = S' o y)
  /\ (forall y u, left_of o y -> h o2 y u = h o y u) /\ (forall y, left_of o y -> k o2 y = k o y)
  /\ (forall y, left_of o y -> E' o2 y <= E' o y)
  /\ (forall y, left_of o y -> ~ active o2 y -> E' o2 y = E' o y).
Proof.
  destruct St as [[-> _]|(b & a & Eb & Ea & NE & F & _)].
  - split; [apply le_n|]. split; auto. split; auto. split; auto. split; auto. intros; apply Qcle_refl.
  - split; [apply (f_size _ _ _ _ _ _ F)|]. split; [apply (fr_S c o1 o2 t b a F)|].
    split; [apply (fr_h c o1 o2 t b a F)|]. split; [apply (fr_k c o1 o2 t b a F)|].
    split; [intros y Ly; apply (frame_E c o1 o2 t b a y F (w_linked c o1 (i_wf _ _ _ C1)) Ly)|].
    intros y Ly Na.
    assert (Ib : active o1 b) by (apply (i_line _ _ _ C1); apply in_or_app; left; apply last_In; auto).
    assert (Ia : active o1 a) by (apply (i_line _ _ _ C1); apply in_or_app; right; apply hd_error_In; auto).
    apply (fr_E_other c o1 o2 t b a F y); auto.
    + apply (w_linked c o1 (i_wf _ _ _ C1)).
    + intros ->. apply Na, Ac, Ib.
    + intros ->. apply Na, Ac, Ia.
Qed.
Lemma rr_mates Y Z : left_of o Y -> left_of o Z -> (mates o2 Y Z <-> mates o Y Z).
Proof.
  intros LY LZ. destruct rr_same as (_ & FS & Fh & Fk & _).
  unfold Proof_Sweep9.mates, Proof_Sweep8.col. rewrite (FS Y LY), (FS Z LZ), (Fk Y LY), (Fk Z LZ).
  split; intros [[M1 M2] M3]; (split; [split; auto|auto]); intros u.
  - rewrite <- (Fh Y u LY), <- (Fh Z u LZ). auto.
  - rewrite (Fh Y u LY), (Fh Z u LZ). auto.
Qed.
Lemma rr_cut U : active o2 U -> E' o2 U = t -> t < E' o U ->
  exists b a V0, hd_error (rev l1) = Some b /\ hd_error l2 = Some a
    /\ ((U = b /\ V0 = a) \/ (U = a /\ V0 = b)) /\ S' o U < t /\ h o U t = h o V0 t.
Proof.
  intros AU E1 E2. destruct St as [[-> _]|(b & a & Eb & Ea & NE & F & _)].
  - exfalso. change (E' o1 U) with (E' o U) in E1. rewrite E1 in E2. qlra.
  - assert (Ib : active o1 b) by (apply (i_line _ _ _ C1); apply in_or_app; left; apply last_In; auto).
    assert (Ia : active o1 a) by (apply (i_line _ _ _ C1); apply in_or_app; right; apply hd_error_In; auto).
    apply Ac in Ib. apply Ac in Ia.
    destruct (frame_cut o1 o2 t b a U F C2) as (V0 & P & Q1 & Q2 & _); auto.
    + apply (w_linked c o1 (i_wf _ _ _ C1)).
    + apply Ib.
    + apply Ia.
    + apply rr_active in AU. apply AU.
    + exists b, a, V0. auto.
Qed.
Lemma rr_dpair b a : hd_error (rev l1) = Some b -> hd_error l2 = Some a -> dpair o2 b a.
Proof.
  intros Eb Ea. destruct St as [[_ [Q|Q]]|(b' & a' & Eb' & Ea' & _ & _ & Q)]; congruence.
Qed.

(** The other pieces ending here. *)
Lemma rr_least U : active o U -> U <> l -> E' o U = t ->
  k o U < k o l \/ (k o U = k o l /\ firstop o l = false /\ firstop o U = true).
Proof.
  intros AU NU EU. assert (LU : left_of o U) by apply AU.
  pose proof (rp_opp c o t e V Le) as Ol.
  destruct (proj2 Le (opp o U)) as [Q|[Q|(_ & [[_ Q]|[_ Q]])]]; [apply AU| | | |].
  - exfalso. apply NU. rewrite <- Q. symmetry. apply (core_opp c o t U C LU).
  - exfalso. rewrite Et in Q. unfold EVX, EX in *. rewrite EU in Q. qlra.
  - exfalso. rewrite (opp_right c o t V U LU) in Q. discriminate.
  - unfold skey, is_event_from_first_operand, to_left_event in Q.
    rewrite Re, (opp_right c o t V U LU), (core_opp c o t U C LU) in Q.
    destruct Q as [Q|(Q1 & Q2 & Q3)]; [left; qlra|right]. split; [qlra|auto].
Qed.

(** Less steep pieces ending here are above. *)
Lemma rr_above U : active o U -> U <> l -> E' o U = t -> k o U < k o l -> In U l2.
Proof.
  intros AU NU EU Ku. assert (LU : left_of o U) by apply AU.
  assert (I : In U (op_line o)) by (apply (i_line _ _ _ C); auto).
  assert (I' := I). rewrite El in I'. apply in_app_or in I'. destruct I' as [I'|[I'|I']]; auto; [|congruence].
  exfalso. assert (B : before (op_line o) U l).
  { rewrite El. apply in_split in I'. destruct I' as (u & v & ->). exists u, v, l2. rewrite <- app_assoc. reflexivity. }
  destruct (i_ord _ _ _ C U l B) as [B1 _ _].
  pose proof (w_lt c o W U LU) as Lu. rewrite EU in Lu. pose proof rr_Sl as Ll.
  assert (Lm : mx (S' o U) (S' o l) < t) by (destruct (mx_cases (S' o U) (S' o l)) as [[-> _]|[-> _]]; auto).
  assert (Z0 : d o U l t = 0).
  { apply d_zero. apply (end_tied o o U l t W W LU rr_l EU rr_El). }
  pose proof (aff_up (d o U l) (ds c o U l) (d_affine c o U l) _ _ ltac:(unfold ds; qlra) Lm). qlra.
Qed.

Lemma rr_before1 x : In x l1 -> before (op_line o) x l.
Proof. rewrite El. intros I. apply in_split in I. destruct I as (u & v & ->). exists u, v, l2. rewrite <- app_assoc. reflexivity. Qed.
Lemma rr_before2 x : In x l2 -> before (op_line o) l x.
Proof. rewrite El. intros I. apply in_split in I. destruct I as (u & v & ->). exists l1, u, v. reflexivity. Qed.

Section Mate.
Variable Y : event.
Hypothesis AY : active o Y.
Hypothesis NY : Y <> l.
Hypothesis M : mates o Y l.
Let LY : left_of o Y := proj1 AY.
Lemma rm_S : S' o Y < t.
Proof. destruct M as [_ Q]. rewrite Q. apply rr_Sl. Qed.
Lemma rm_h u : h o Y u = h o l u.
Proof. apply M. Qed.
Lemma rm_k : k o Y = k o l.
Proof. apply M. Qed.
Lemma rm_three U : active o U -> U <> Y -> U <> l -> mates o Y U -> False.
Proof.
  intros AU N1 N2 Q. apply (mates_three o Y l U W LY rr_l (proj1 AU)); auto.
Qed.
Lemma rm_active2 : active o2 Y.
Proof. apply rr_active. auto. Qed.

Lemma rm_pend : E' o2 l = t /\
  ((E' o2 Y = t /\ forall U, active o2 U -> E' o2 U = t -> U = Y \/ k o2 U < k o2 Y)
   \/ (t < E' o2 Y /\ forall U, active o2 U -> E' o2 U <> t)).
Proof.
  destruct rr_same as (Sz & FS & Fh & Fk & FE & FE').
  split. { rewrite FE'; [apply rr_El|apply rr_l|]. intros Q. apply rr_active in Q. tauto. }
  pose proof (active_E _ _ _ _ C2 rm_active2) as EY2.
  pose proof rm_S as SY. pose proof (active_E _ _ _ _ C AY) as EY. pose proof rr_Sl as Sl.
  assert (IY : In Y (op_line o)) by (apply (i_line _ _ _ C); auto).
  rewrite El in IY. apply in_app_or in IY. destruct IY as [IY|[IY|IY]]; [|congruence|].
  - (* Y just below *)
    assert (BYl := rr_before1 Y IY).
    destruct (rev_exists l1 Y IY) as (b & r & E1 & Eb).
    assert (HbY : b = Y).
    { destruct (Nat.eq_dec b Y) as [|Nb]; auto. exfalso. apply (between_mates o t Y b l C M).
      - rewrite El, E1. rewrite E1 in IY. apply in_app_or in IY. destruct IY as [IY|[IY|[]]]; [|contradiction].
        apply in_split in IY. destruct IY as (u & v & ->). exists u, v, (l :: l2). rewrite <- !app_assoc. reflexivity.
      - apply rr_before1. rewrite E1. apply in_or_app; right; left; auto. }
    subst b.
    assert (Ops : firstop o Y = true /\ firstop o l = false).
    { destruct (i_ord _ _ _ C Y l BYl) as [_ _ B3].
      destruct B3 as [[_ Q]|(_ & Q)]; auto; try apply (mates_d c o Y l _ M).
      exfalso. unfold ds in Q. rewrite rm_k in Q. qlra. }
    destruct Ops as [Oy Ol].
    assert (Cl1 : forall U, active o U -> U <> l -> E' o U = t -> U = Y \/ k o U < k o Y).
    { intros U AU NU EU. rewrite rm_k. destruct (Nat.eq_dec U Y) as [|NUY]; auto. right.
      destruct (rr_least U AU NU EU) as [|(Q1 & _ & Q3)]; auto. exfalso.
      pose proof (w_lt c o W U (proj1 AU)) as Lu. rewrite EU in Lu.
      apply (col_overlap c N o U Y W (proj1 AU) LY NUY); try qlra; [|congruence].
      apply (col_slope c o U Y t); [rewrite rm_k; auto|].
      rewrite rm_h. apply (end_tied o o U l t W W (proj1 AU) rr_l EU rr_El). }
    assert (Cl2 : forall a, hd_error l2 = Some a -> h o a t = h o Y t -> t < E' o2 Y -> False).
    { intros a Ea Ta Ly. assert (Ia : In a l2) by (apply hd_error_In; auto).
      assert (Ba := rr_before2 a Ia). assert (Aa : active o a).
      { apply (i_line _ _ _ C). apply before_In in Ba. apply Ba. }
      assert (Na : a <> l) by (intros Q; rewrite Q in Ba; apply (line_irrefl c o t l C Ba)).
      assert (NaY : a <> Y) by (intros Q; rewrite Q in Ba; apply (line_asym c o t Y l C BYl Ba)).
      assert (Aa2 : active o2 a) by (apply rr_active; auto).
      destruct (rr_dpair Y a Eb Ea) as [Ap|[Ma _]].
      - destruct (Ap t) as [[Q|Q] _].
        + rewrite (FS Y LY). qlra.
        + qlra.
        + rewrite (FS a (proj1 Aa)). apply (active_S _ _ _ _ C Aa).
        + apply (active_E _ _ _ _ C2 Aa2).
        + rewrite (Fh Y t LY), (Fh a t (proj1 Aa)). auto.
        + rewrite (FS Y LY) in Q. qlra.
        + rewrite <- Q in Ly. qlra.
      - apply (rm_three a Aa NaY Na). apply rr_mates; auto. apply Aa. }
    destruct (Qcle_lt_or_eq _ _ EY2) as [Ly|Ly].
    + right. split; auto. intros U AU2 EU2.
      assert (AU : active o U /\ U <> l) by (apply rr_active; auto). destruct AU as [AU NU].
      assert (NUY : U <> Y) by (intros Q; rewrite Q in EU2; rewrite EU2 in Ly; qlra).
      pose proof (active_E _ _ _ _ C AU) as GeU.
      destruct (Qcle_lt_or_eq _ _ GeU) as [Gt|Eq].
      * destruct (rr_cut U AU2 EU2 Gt) as (b & a & V0 & Eb' & Ea & P & _ & Th).
        rewrite Eb in Eb'. injection Eb' as <-. destruct P as [[P _]|[-> ->]]; [contradiction|].
        apply (Cl2 a Ea Th Ly).
      * symmetry in Eq. destruct (Cl1 U AU NU Eq) as [|Ku]; [contradiction|]. rewrite rm_k in Ku.
        pose proof (rr_above U AU NU Eq Ku) as IU.
        destruct (hd_exists l2 U IU) as (a & r2 & E2). apply (Cl2 a); auto; [rewrite E2; reflexivity|].
        pose proof (end_tied o o U l t W W (proj1 AU) rr_l Eq rr_El) as TU.
        destruct (Nat.eq_dec a U) as [->|NaU]; [rewrite TU, rm_h; auto|].
        assert (B1 : before (op_line o) l a) by (apply rr_before2; rewrite E2; left; auto).
        assert (B2 : before (op_line o) a U).
        { rewrite El, E2. rewrite E2 in IU. destruct IU as [IU|IU]; [contradiction|].
          apply in_split in IU. destruct IU as (u & v & ->). exists (l1 ++ [l]), u, v. rewrite <- app_assoc. reflexivity. }
        pose proof (be_t _ _ _ _ _ (i_ord _ _ _ C _ _ B1)) as Q1.
        pose proof (be_t _ _ _ _ _ (i_ord _ _ _ C _ _ B2)) as Q2. pose proof (rm_h t). unfold dd in *. qlra.
    + left. split; auto. intros U AU2 EU2.
      assert (AU : active o U /\ U <> l) by (apply rr_active; auto). destruct AU as [AU NU].
      rewrite (Fk U (proj1 AU)), (Fk Y LY).
      pose proof (active_E _ _ _ _ C AU) as GeU.
      destruct (Qcle_lt_or_eq _ _ GeU) as [Gt|Eq]; [|apply Cl1; auto].
      destruct (rr_cut U AU2 EU2 Gt) as (b & a & V0 & Eb' & Ea & P & Sa & Th).
      rewrite Eb in Eb'. injection Eb' as <-. destruct P as [[P _]|[-> ->]]; auto. right.
      assert (Ia : In a l2) by (apply hd_error_In; auto). assert (Ba := rr_before2 a Ia).
      assert (NaY : a <> Y) by (intros Q; rewrite Q in Ba; apply (line_asym c o t Y l C BYl Ba)).
      destruct (i_ord _ _ _ C l a Ba) as [B1 _ _].
      assert (Lm : mx (S' o l) (S' o a) < t) by (destruct (mx_cases (S' o l) (S' o a)) as [[-> _]|[-> _]]; auto).
      pose proof (mx_ge (S' o l) (S' o a)) as [M1 M2].
      set (m := mx (S' o l) (S' o a)) in *. clearbody m.
      assert (Z0 : d o l a t = 0) by (apply d_zero; rewrite Th, rm_h; auto).
      rewrite rm_k. destruct (Qcle_lt_or_eq _ _ B1) as [P|Z1].
      * assert (ds c o l a < 0) by (apply (aff_slope_neg (d o l a) (ds c o l a) (d_affine c o l a) m t Lm); rewrite Z0; auto).
        unfold ds in *. qlra.
      * exfalso. assert (Cl : col o l a).
        { apply (col_two c o l a m t); [intros Q; rewrite Q in Lm; qlra|apply d_zero; auto|apply d_zero; auto]. }
        pose proof rr_El as El'.
        apply (col_three c N o l Y a W rr_l LY (proj1 AU)); auto; try qlra.
        apply col_sym, M.
  - (* Y just above *)
    assert (BlY := rr_before2 Y IY).
    assert (Ops : firstop o l = true /\ firstop o Y = false).
    { destruct (i_ord _ _ _ C l Y BlY) as [_ _ B3].
      destruct B3 as [[_ Q]|(_ & Q)]; auto; try apply (mates_d c o l Y _ (mates_sym c o Y l M)).
      exfalso. unfold ds in Q. rewrite rm_k in Q. qlra. }
    destruct Ops as [Ol Oy].
    assert (TY : t < E' o Y).
    { destruct (Qcle_lt_or_eq _ _ EY) as [|Eq]; auto. exfalso. symmetry in Eq.
      destruct (rr_least Y AY NY Eq) as [Q|(_ & Q & _)]; [rewrite rm_k in Q; qlra|congruence]. }
    destruct (hd_exists l2 Y IY) as (a & r & E2).
    assert (HaY : a = Y).
    { destruct (Nat.eq_dec a Y) as [|Na]; auto. exfalso. apply (between_mates o t l a Y C (mates_sym c o Y l M)).
      - apply rr_before2. rewrite E2. left; auto.
      - rewrite El, E2. rewrite E2 in IY. destruct IY as [IY|IY]; [contradiction|].
        apply in_split in IY. destruct IY as (u & v & ->). exists (l1 ++ [l]), u, v. rewrite <- app_assoc. reflexivity. }
    subst a.
    assert (Cl4 : forall U, active o U -> U <> l -> E' o U = t -> False).
    { intros U AU NU EU. destruct (rr_least U AU NU EU) as [Ku|(_ & Q & _)]; [|congruence].
      assert (NUY : U <> Y) by (intros Q; rewrite Q in EU; rewrite EU in TY; qlra).
      pose proof (rr_above U AU NU EU Ku) as IU. rewrite E2 in IU. destruct IU as [IU|IU]; [congruence|].
      assert (B : before (op_line o) Y U).
      { rewrite El, E2. apply in_split in IU. destruct IU as (u & v & ->).
        exists (l1 ++ [l]), u, v. rewrite <- app_assoc. reflexivity. }
      pose proof (end_tied o o U l t W W (proj1 AU) rr_l EU rr_El) as TU.
      destruct (before_next _ _ _ B) as (P & Ad & PU).
      pose proof (adj_In _ _ _ Ad) as [_ IP]. apply (i_line _ _ _ C) in IP.
      pose proof (be_t _ _ _ _ _ (i_ord _ _ _ C _ _ (adj_before _ _ _ Ad))) as Q1.
      assert (TP : h o Y t = h o P t).
      { destruct PU as [->|PU]; [rewrite TU; apply rm_h|].
        pose proof (be_t _ _ _ _ _ (i_ord _ _ _ C _ _ PU)) as Q2. pose proof (rm_h t). unfold dd in *. qlra. }
      assert (NPY : P <> Y) by (intros Q; rewrite Q in Ad; apply (line_irrefl c o t Y C (adj_before _ _ _ Ad))).
      assert (NPl : P <> l) by (intros Q; rewrite Q in Ad; apply (line_asym c o t Y l C (adj_before _ _ _ Ad) BlY)).
      destruct (v_line _ _ _ V Y P Ad) as [Ap|[Mp _]].
      - destruct (Ap t) as [[Q|Q] _]; auto; try qlra.
        + apply (active_S _ _ _ _ C IP).
        + apply (active_E _ _ _ _ C IP).
      - apply (rm_three P IP NPY NPl Mp). }
    assert (Only : forall U, active o2 U -> E' o2 U = t -> U = Y).
    { intros U AU2 EU2.
      assert (AU : active o U /\ U <> l) by (apply rr_active; auto). destruct AU as [AU NU].
      pose proof (active_E _ _ _ _ C AU) as GeU.
      destruct (Qcle_lt_or_eq _ _ GeU) as [Gt|Eq]; [|exfalso; apply (Cl4 U AU NU); auto].
      destruct (rr_cut U AU2 EU2 Gt) as (b & a & V0 & Eb & Ea & P & Sa & Th).
      rewrite E2 in Ea. injection Ea as <-. destruct P as [[-> ->]|[-> _]]; auto. exfalso.
      assert (NbY : b <> Y).
      { intros ->. apply last_In in Eb. apply (line_asym c o t Y l C); auto. apply rr_before1; auto. }
      destruct (v_th _ _ _ V Y b LY (proj1 AU)) as [[Mb _]|[Nt _]]; auto.
      - intros [I|[]]; apply AY; auto.
      - intros [I|[]]; apply AU; auto.
      - split; auto.
      - qlra.
      - apply (rm_three b AU NbY NU Mb).
      - apply Nt; split; auto. }
    destruct (Qcle_lt_or_eq _ _ EY2) as [Ly|Ly].
    + right. split; auto. intros U AU2 EU2. rewrite (Only U AU2 EU2) in EU2. rewrite EU2 in Ly. qlra.
    + left. split; auto.
Qed.
End Mate.

Lemma rr_recorded : recorded o2 t (ev ++ [l]).
Proof.
  destruct rr_same as (Sz & FS & Fh & Fk & FE & FE').
  assert (Nl : ~ In l ev) by (rewrite (r_done _ _ _ R); intros Q; apply (active_not_done o l rr_al Q)).
  assert (Ed : forall x, done o x -> E' o2 x = E' o x).
  { intros x Dx. apply FE'; [apply Dx|]. intros Q. apply rr_active in Q. apply (active_not_done o x (proj1 Q) Dx). }
  assert (El2 : E' o2 l = t).
  { rewrite FE'; [apply rr_El|apply rr_l|]. intros Q. apply rr_active in Q. tauto. }
  assert (Pair : forall Z, done o Z -> mates o l Z -> adj (ev ++ [l]) Z l).
  { intros Z Dz M. destruct (r_pend _ _ _ R l Z rr_al Dz M) as (_ & Q & _).
    apply (last_adj ev [] Z l). exact Q. }
  constructor.
  - intros x. rewrite in_app_iff, rr_done, (r_done _ _ _ R). cbn. intuition.
  - apply NoDup_app_snoc; auto. apply (r_nd _ _ _ R).
  - intros Y Z DY DZ NE M Eq. apply rr_done in DY. apply rr_done in DZ.
    assert (LY : left_of o Y) by (destruct DY as [DY| ->]; [apply DY|apply rr_l]).
    assert (LZ : left_of o Z) by (destruct DZ as [DZ| ->]; [apply DZ|apply rr_l]).
    apply rr_mates in M; auto.
    destruct DY as [DY| ->]; destruct DZ as [DZ| ->].
    + rewrite (Ed Y DY), (Ed Z DZ) in Eq. destruct (r_adj _ _ _ R Y Z DY DZ NE M Eq); [left|right]; apply adj_app_l; auto.
    + left. apply Pair; auto. apply mates_sym; auto.
    + right. apply Pair; auto.
    + congruence.
  - intros Y Z AY DZ M. apply rr_active in AY. destruct AY as [AY NY]. apply rr_done in DZ.
    assert (LY : left_of o Y) by apply AY.
    assert (LZ : left_of o Z) by (destruct DZ as [DZ| ->]; [apply DZ|apply rr_l]).
    apply rr_mates in M; auto. destruct DZ as [DZ| ->].
    + exfalso. destruct (r_pend _ _ _ R Y Z AY DZ M) as (Ez & _ & [[EY Q]|[_ Q]]).
      * destruct (Q l rr_al rr_El) as [Q'|Q']; [congruence|].
        destruct (rr_least Y AY NY EY) as [Q2|[Q2 _]]; [qlra|rewrite Q2 in Q'; qlra].
      * apply (Q l rr_al rr_El).
    + split; auto. split; [rewrite rev_app_distr; reflexivity|]. apply (rm_pend Y AY NY M).
Qed.
End RightRecord.

(** ** A left event *)
Section LeftRecord.
Variables (o : operation) (t : Qc) (e : event) (o3 : operation) (ev : list event).
Hypothesis V : inv o t.
Hypothesis Le : least o e.
Hypothesis Re : is_event_left e = true.
Hypothesis Et : EV o e = t.
Hypothesis R : recorded o t ev.
Hypothesis V3 : inv o3 t.
Hypothesis Ac : forall x, active o3 x <-> active o x \/ x = e.
Hypothesis Dn : forall x, done o3 x <-> done o x.
Hypothesis FS : forall y, left_of o y -> S' o3 y = S' o y.
Hypothesis Fh : forall y u, left_of o y -> h o3 y u = h o y u.
Hypothesis Fk : forall y, left_of o y -> k o3 y = k o y.
Hypothesis FE' : forall y, left_of o y -> ~ active o3 y -> E' o3 y = E' o y.

Lemma lr_recorded : recorded o3 t ev.
Proof.
  assert (C := v_core _ _ _ V). assert (W := i_wf _ _ _ C).
  assert (C3 := v_core _ _ _ V3). assert (W3 := i_wf _ _ _ C3).
  assert (Lel : left_of o e) by (apply (lp_left c o t e V Le Re)).
  assert (Ed : forall x, done o x -> E' o3 x = E' o x).
  { intros x Dx. apply FE'; [apply Dx|]. intros Q. apply Dn in Dx. apply (active_not_done o3 x Q Dx). }
  assert (Mt : forall Y Z, left_of o Y -> left_of o Z -> mates o3 Y Z -> mates o Y Z).
  { intros Y Z LY LZ. unfold Proof_Sweep9.mates, Proof_Sweep8.col.
    rewrite (FS Y LY), (FS Z LZ), (Fk Y LY), (Fk Z LZ).
    intros [[M1 M2] M3]; (split; [split; auto|auto]); intros u.
    rewrite <- (Fh Y u LY), <- (Fh Z u LZ). auto. }
  constructor.
  - intros x. rewrite Dn. apply (r_done _ _ _ R).
  - apply R.
  - intros Y Z DY DZ NE M Eq. apply Dn in DY. apply Dn in DZ.
    rewrite (Ed Y DY), (Ed Z DZ) in Eq. apply (r_adj _ _ _ R Y Z DY DZ NE); auto.
    apply Mt; auto; [apply DY|apply DZ].
  - intros Y Z AY DZ M. assert (AY3 := AY). apply Dn in DZ. assert (LZ : left_of o Z) by apply DZ.
    apply Ac in AY. destruct AY as [AY| ->].
    2: { exfalso. apply Mt in M; auto. destruct M as [_ M]. pose proof (w_lt c o W Z LZ).
         pose proof (i_E _ _ _ C Z DZ). rewrite <- M in *. unfold EVX, SX in *. rewrite Et in *. qlra. }
    assert (LY : left_of o Y) by apply AY. apply Mt in M; auto.
    destruct (r_pend _ _ _ R Y Z AY DZ M) as (Ez & La & Q).
    split; [rewrite (Ed Z DZ); auto|]. split; auto.
    pose proof (lp_beyond c o t e V Le Re Et Y AY) as EY.
    assert (SY : S' o Y < t).
    { destruct M as [_ M]. rewrite M. rewrite <- Ez. apply (w_lt c o W Z LZ). }
    assert (Only : forall U, active o3 U -> E' o3 U = t -> U = Y).
    { intros U AU3 EU3. destruct (Nat.eq_dec U Y) as [|NU]; auto. exfalso.
      pose proof (w_lt c o3 W3 U (proj1 AU3)) as LtU. rewrite EU3 in LtU.
      pose proof AU3 as AU. apply Ac in AU. destruct AU as [AU| ->].
      2: { rewrite (FS e Lel) in LtU. unfold SX, EVX in *. rewrite Et in LtU. qlra. }
      assert (LU : left_of o U) by apply AU. rewrite (FS U LU) in LtU.
      pose proof (lp_beyond c o t e V Le Re Et U AU) as EU.
      assert (TU : h o U t = h o Z t).
      { rewrite <- (Fh U t LU). apply (end_tied o3 o U Z t W3 W (proj1 AU3) LZ EU3 Ez). }
      destruct (v_th _ _ _ V Y U LY LU) as [[Mu _]|[Nt _]]; auto.
      - intros [I|[]]; apply AY; auto.
      - intros [I|[]]; apply AU; auto.
      - split; auto.
      - qlra.
      - qlra.
      - rewrite TU. apply M.
      - apply (mates_three o Y U Z W LY LU LZ); auto.
        + intros Q'. rewrite Q' in AY. apply (active_not_done o Z AY DZ).
        + intros Q'. rewrite Q' in AU. apply (active_not_done o Z AU DZ).
      - apply Nt; split; auto. }
    pose proof (active_E _ _ _ _ C3 AY3) as EY3.
    destruct (Qcle_lt_or_eq _ _ EY3) as [Ly|Ly].
    + right. split; auto. intros U AU EU. rewrite (Only U AU EU) in EU. rewrite EU in Ly. qlra.
    + left. split; auto.
Qed.
End LeftRecord.
End Record.
