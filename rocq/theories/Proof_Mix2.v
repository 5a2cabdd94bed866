(** The sweep of a linear operand against a shaped one, part 2: the steps keep the invariant,
    whole runs. *)
From Coq Require Import QArith Qcanon Bool List Arith Lia Permutation.
From Verif Require Import QcTac Model_Base Model_Utils Model_Linear Model_Mixed Model_Shaped Spec_Base Spec_Clip
  Spec_Sweep Proof_Base Proof_Line Proof_Sweep Proof_Sweep2 Proof_Sweep3 Proof_Sweep4 Proof_Sweep5 Proof_Sweep6 Proof_Sweep7
  Proof_Sweep8 Proof_Sweep9 Proof_Sweep10 Proof_Sweep11 Proof_Sweep12 Proof_Sweep13 Proof_Sweep14 Proof_Sweep15 Proof_Mesh Proof_Parity
  Proof_Flags Proof_Flags2 Proof_Flags3 Proof_Flags4 Proof_Flags5 Proof_Flags6 Proof_Start Proof_Mix1.
Import ListNotations.
Local Open Scope Qc_scope.

Section Steps.
Variable c : ctx.
Hypothesis G : good c.
Hypothesis N : nc c.
Variable int : list bool.
Variable sel : bool -> bool -> bool -> bool.
Variable f : bool.
Variable from_result : mixed_operation -> event -> bool.
Hypothesis FR : forall m e, from_result m e
  = sel (is_left_event_from_first_operand (mo m) e) (m_other m e) (m_over m e).
Hypothesis Ee : evn1 c f.
Hypothesis Or : ori1 c int f.
Notation S' := (SX c). Notation E' := (EX c). Notation h := (hh c). Notation k := (kk c).
Notation EV := (EVX c). Notation col := (col c).
Notation core := (core c). Notation th := (th c). Notation mates := (mates c).
Notation inv := (inv c). Notation least := (least c).
Notation gap := (gap c). Notation oth := (oth c).
Notation mflags := (mflags c sel f).

Record mtrans (t : Qc) (ex : event -> Prop) (o o' : operation) : Prop := {
  mt_core : core o' t;
  mt_th : th o' t ex;
  mt_line : op_line o' = op_line o;
  mt_left : forall x, left_of o x -> left_of o' x /\ sid o' x = sid o x /\ firstop o' x = firstop o x;
  mt_mates : forall x y, left_of o x -> left_of o y -> (mates o' x y <-> mates o x y);
  mt_active : forall x, active o' x <-> active o x;
  mt_S : forall x, ex x -> left_of o x /\ S' o x = t -> S' o' x = t;
  mt_flags : forall v, mflags o v -> mflags o' v }.
Lemma mtrans_refl t ex o : core o t -> th o t ex -> mtrans t ex o o.
Proof. intros C T. constructor; auto; try reflexivity. intros x _ [_ Q]; auto. Qed.
Lemma mtrans_trans t ex o1 o2 o3 : mtrans t ex o1 o2 -> mtrans t ex o2 o3 -> mtrans t ex o1 o3.
Proof.
  intros A B. constructor.
  - apply (mt_core _ _ _ _ B).
  - apply (mt_th _ _ _ _ B).
  - rewrite (mt_line _ _ _ _ B). apply (mt_line _ _ _ _ A).
  - intros x L. destruct (mt_left _ _ _ _ A x L) as (L2 & <- & <-). apply (mt_left _ _ _ _ B x L2).
  - intros x y Lx Ly. rewrite <- (mt_mates _ _ _ _ A) by auto. apply (mt_mates _ _ _ _ B); apply (mt_left _ _ _ _ A); auto.
  - intros x. rewrite (mt_active _ _ _ _ B). apply (mt_active _ _ _ _ A).
  - intros x Xx [Lx Sx]. apply (mt_S _ _ _ _ B x Xx). split; [apply (mt_left _ _ _ _ A); auto|]. apply (mt_S _ _ _ _ A x); auto.
  - intros v F. apply (mt_flags _ _ _ _ B), (mt_flags _ _ _ _ A), F.
Qed.
Lemma mtrans_detect t ex o Y Z : (forall a, ex a \/ ~ ex a) -> (forall x, ex x -> left_of o x /\ S' o x = t) ->
  core o t -> th o t ex -> active o Y -> active o Z -> Y <> Z ->
  exists o', detect_intersection o Y Z = Some o' /\ mtrans t ex o o'.
Proof.
  intros Dx Ex C T AY AZ Ne. destruct (detect_active c G N o t Y Z C AY AZ Ne) as (o' & D & Cs & _).
  destruct (cuts_frame c Y Z o o' t Cs C AY AZ Ne) as (C' & F & _ & Ths & Ac & _).
  exists o'. split; auto. constructor; auto.
  - apply Ths; auto. intros x Xx. apply Ex; auto.
  - apply (f_line _ _ _ _ _ _ F).
  - intros x L. split; [apply (frame_left c o o' t Y Z x F L)|].
    split; [apply (f_sid _ _ _ _ _ _ F); auto|apply (fr_first c o o' t Y Z F); auto].
  - apply (fr_mates c o o' t Y Z F).
  - intros x Xx [Lx Sx]. rewrite (fr_S c o o' t Y Z F); auto.
  - intros v Fl. apply (mflags_frame c sel f o o' t Y Z v); auto.
Qed.

(** ** A left event *)
Lemma left_mixed shape o t e m : inv o t -> least o e -> is_event_left e = true -> EV o e = t ->
  mo m = popping o e -> mo_interior m = int -> mflags o (mview_of m) ->
  exists m', process_mixed from_result true shape m e = Some (m', true)
    /\ process_event shape (popping o e) e = Some (mo m') /\ mo_interior m' = int /\ mflags (mo m') (mview_of m').
Proof.
  intros V Le Re Et Es Ei Fl. set (ex := fun x : event => x = e).
  destruct (lp_split c o t e V Le Re Et) as (l1 & l2 & El & P1 & P2).
  set (o1 := relined o e (l1 ++ e :: l2)).
  pose proof (lf_core c N o t e V Le Re Et l1 l2 El P1 P2) as C1. change (core o1 t) in C1.
  pose proof (lp_th c o t e V Le l1 l2) as T1. change (th o1 t ex) in T1.
  assert (Le1 : left_of o1 e) by (apply (lf_left c o t e V Le Re)).
  assert (Dx : forall a, ex a \/ ~ ex a) by (intros a; unfold ex; destruct (Nat.eq_dec a e); auto).
  assert (Ex1 : forall x, ex x -> left_of o1 x /\ S' o1 x = t) by (intros x ->; split; auto).
  assert (Ae : active o1 e) by (apply (lf_active c o t e V Le Re l1 l2); auto).
  assert (In1 : forall x, In x (l1 ++ e :: l2) -> active o1 x) by (intros x I; apply (i_line _ _ _ C1); exact I).
  assert (Lf : forall x, active o1 x -> left_of o1 x) by (intros x A; apply A).
  pose proof (lf_not_popped c o e Le) as NPe.
  assert (Old : forall x, In x l1 \/ In x l2 -> active o x /\ x <> e).
  { intros x I. assert (A : active o x).
    { apply (i_line _ _ _ (v_core _ _ _ V)). rewrite El. apply in_or_app; auto. }
    split; auto. intros ->. apply NPe, active_popped; auto. }
  rewrite (lp_process c N o t e V Le Re Et l1 l2 El P1 P2). fold o1.
  unfold process_mixed, is_event_right. rewrite <- Nat.negb_even.
  change (Nat.even e) with (is_event_left e). rewrite Re. cbn [negb].
  assert (Lk : forall i, lookup shape i (popping o e) e = (l1, None, l2))
    by (intros i; apply (lp_lookup c N o t e V Le Re Et l1 l2 El P1 P2)).
  assert (Lk1 : forall i, lookup shape i o1 e = (l1, Some e, l2))
    by (intros i; apply (lp_lookup1 c N o t e V Le Re Et l1 l2 El P1 P2)).
  assert (Ad : add_event shape 1 (popping o e) e = o1) by (unfold add_event; rewrite Lk; reflexivity).
  unfold find_event. rewrite Es, Lk, Ad. cbv zeta.
  set (m0 := with_operation m o1). set (below := hd_error (rev l1)).
  assert (Eb : below_event shape 3 (mo m0) e = below).
  { change (mo m0) with o1. unfold below_event. rewrite Lk1. reflexivity. }
  assert (Ea : above_event shape 2 (mo m0) e = hd_error l2).
  { change (mo m0) with o1. unfold above_event. rewrite Lk1. reflexivity. }
  rewrite Eb, Ea. assert (Hbelow : forall b, below = Some b -> is_event_left b = true /\ b <> e).
  { intros b Q. destruct (Old b) as [A B]; [left; apply last_In; auto|]. split; auto. apply A. }
  destruct (compute_mixed_view int sel from_result FR m0 e below Ei Re Hbelow) as (So1 & Ei1 & Ve1).
  set (m1 := compute_left_event_fields from_result m0 e below) in *. change (mo m0) with o1 in So1, Ve1.
  change (mview_of m0) with (mview_of m) in Ve1. set (v := mview_of m) in *.
  set (v1 := mcompute int sel o1 v e below) in *.
  (* the neighbour above *)
  assert (Step2 : exists m2, match hd_error l2 with
      | None => Some m1
      | Some a => match detect_mixed m1 e a with
                  | None => None
                  | Some (s, true) => Some (compute_left_event_fields from_result (compute_left_event_fields from_result s e below) a (Some e))
                  | Some (s, false) => Some s
                  end
      end = Some m2 /\ detect_optional o1 (Some e) (hd_error l2) = Some (mo m2) /\ mo_interior m2 = int /\ mtrans t ex o1 (mo m2)
      /\ ((meq (mview_of m2) v1 /\ forall a, hd_error l2 = Some a -> ~ mates o1 e a)
          \/ exists a, hd_error l2 = Some a /\ mates o1 e a /\ meq (mview_of m2) (mpair int sel o v e a below))).
  { destruct (hd_error l2) as [a|] eqn:E2; cbn [detect_optional].
    2: { exists m1. rewrite So1. split; auto. split; auto. split; [auto|].
         split; [apply mtrans_refl; auto|]. left. split; auto. intros a Q; discriminate. }
    assert (Ia : In a l2) by (apply hd_error_In; auto). destruct (Old a (or_intror Ia)) as [Aoa Nae].
    assert (Aa : active o1 a) by (apply In1, in_or_app; right; right; auto).
    destruct (mtrans_detect t ex o1 e a Dx Ex1 C1 T1 Ae Aa (not_eq_sym Nae)) as (o2 & D & Tr).
    assert (D' : detect_intersection (mo m1) e a = Some o2) by (rewrite So1; exact D).
    destruct (detect_mixed_view int m1 e a o2 Ei1 (proj1 (proj1 Aa)) Re D') as (m2 & Ds & So2 & Ei2 & Ve2).
    rewrite Ds. rewrite So1 in *.
    pose proof (overlap_mates c G o1 e a (i_wf _ _ _ C1) Le1 (Lf a Aa)) as OM.
    destruct (overlap_from_start o1 e a) eqn:Ov.
    2: { exists m2. rewrite So2. split; auto. split; auto. split; auto. split; auto. left.
         split; [apply (meq_trans _ _ _ Ve2 Ve1)|]. intros a' [= <-] M. apply OM in M. discriminate. }
    assert (M : mates o1 e a) by (apply OM; auto).
    destruct (lf_above_first c N o t e V Le Re Et l1 l2 El P2 a E2 M) as [Fe Fa].
    destruct (compute_mixed_view int sel from_result FR m2 e below Ei2 Re Hbelow) as (So3 & Ei3 & Ve3).
    set (m3 := compute_left_event_fields from_result m2 e below) in *.
    assert (He : forall b, Some e = Some b -> is_event_left b = true /\ b <> a).
    { intros b [= <-]. split; auto. }
    destruct (compute_mixed_view int sel from_result FR m3 a (Some e) Ei3 (proj1 (proj1 Aa)) He) as (So4 & Ei4 & Ve4).
    exists (compute_left_event_fields from_result m3 a (Some e)). split; auto. rewrite So4, So3, So2.
    split; auto. split; auto.
    split; auto. right. exists a. split; auto. split; auto.
    apply (meq_trans _ _ _ Ve4). rewrite So3. rewrite So2 in *.
    assert (TL : forall x, active o1 x -> firstop o2 x = firstop o1 x /\ sid o2 x = sid o1 x).
    { intros x A. destruct (mt_left _ _ _ _ Tr x (Lf x A)) as (_ & Q1 & Q2). auto. }
    rewrite (mcompute_ext int sel o1 o2);
      [|apply TL; auto|intros b [= <-]; apply TL; auto].
    rewrite (mcompute_ext int sel o1 o2) in Ve3;
      [|apply TL; auto|intros b Q; apply TL, In1, in_or_app; left; apply last_In; auto].
    apply (meq_trans _ (mcompute int sel o1 (mcompute int sel o1 (mkinds v1 e a) e below) a (Some e))).
    - apply mcompute_meq; [apply Aa|intros b [= <-]; auto|]. apply (meq_trans _ _ _ Ve3).
      apply mcompute_meq; [auto|intros b Q; apply Hbelow; auto|]. apply (meq_trans _ _ _ Ve2). apply mkinds_meq; auto.
    - apply (pair_mview int sel o v v1 e a below Fe Fa (not_eq_sym Nae)).
      + intros b Q. split; [apply Hbelow; auto|]. intros ->.
        apply (line_irrefl c o1 t a C1). change (op_line o1) with (l1 ++ e :: l2).
        apply last_In in Q. apply in_split in Q. destruct Q as (x1 & x2 & ->). apply in_split in Ia.
        destruct Ia as (y1 & y2 & ->). exists x1, (x2 ++ e :: y1), y2. rewrite <- ?app_assoc. cbn.
        rewrite <- ?app_assoc. reflexivity.
      + intros x N1 N2. apply mcompute_off; auto.
      + intros Q. unfold v1, mcompute, mot. rewrite Q. cbn [wo]. rewrite !upd_same. auto. }
  destruct Step2 as (m2 & E2 & D2 & Ei2 & Tr2 & View2). rewrite E2, D2. set (o2 := mo m2) in *.
  assert (Ex2 : forall x, ex x -> left_of o2 x /\ S' o2 x = t).
  { intros x Q. split; [apply (mt_left _ _ _ _ Tr2), Ex1, Q|apply (mt_S _ _ _ _ Tr2); auto]. }
  assert (Fin : forall m', mtrans t ex o2 (mo m') -> (exists w, meq (mview_of m') w /\ mflags o1 w) ->
     mflags (mo m') (mview_of m')).
  { intros m' Tr (w & Ew & Fw).
    apply (mt_flags _ _ _ _ Tr), (mt_flags _ _ _ _ Tr2). apply (mflags_meq c sel f _ w); auto. apply meq_sym; auto. }
  assert (Above : forall a, hd_error l2 = Some a -> mates o1 e a -> mflags o1 (mpair int sel o v e a below)).
  { intros a E M. assert (Ia : In a l2) by (apply hd_error_In; auto). destruct (Old a (or_intror Ia)) as [Aoa Nae].
    destruct (lf_above_first c N o t e V Le Re Et l1 l2 El P2 a E M) as [Fe Fa].
    destruct l2 as [|a' r2]; [discriminate|]. injection E as ->.
    apply (mf_pair c G N int sel f Ee Or o t e v V Le Re Et Fl l1 (a :: r2) El P1 P2 e a l1 r2); auto.
    left. split; auto. apply active_popped; auto. }
  assert (SoSome : forall b, below = Some b -> In b l1) by (intros b Q; apply last_In; auto).
  destruct below as [b|] eqn:Ebl; cbn [detect_optional].
  2: { exists m2. split; auto. split; auto. split; auto. apply Fin; [apply mtrans_refl; apply Tr2|].
       destruct View2 as [[View2 NMa]|(a & Ha & M & View2)].
       - exists v1. split; auto. unfold v1. rewrite <- Ebl.
         apply (mf_single c G N int sel f Ee Or o t e v V Le Re Et Fl l1 l2 El P1 P2).
         intros x Pm M. destruct (firstop o e) eqn:Fe.
         + apply (NMa x); auto. apply (lf_mate_above c N o t e V Le Re Et l1 l2 El P1 P2 x Pm M Fe).
         + pose proof (lf_mate_below c N o t e V Le Re Et l1 l2 El P1 P2 x Pm M Fe) as Q. fold below in Q. congruence.
       - exists (mpair int sel o v e a None). auto. }
  assert (Ib : In b l1) by auto. destruct (Old b (or_introl Ib)) as [Aob Nbe].
  assert (Ab : active o1 b) by (apply In1, in_or_app; left; auto).
  assert (Ab2 : active o2 b) by (apply (mt_active _ _ _ _ Tr2); auto).
  assert (Ae2 : active o2 e) by (apply (mt_active _ _ _ _ Tr2); auto).
  destruct (mtrans_detect t ex o2 b e Dx Ex2 (mt_core _ _ _ _ Tr2) (mt_th _ _ _ _ Tr2) Ab2 Ae2 Nbe) as (o3 & D3 & Tr3).
  destruct (detect_mixed_view int m2 b e o3 Ei2 Re (proj1 (proj1 Ab)) D3) as (m3 & Ds3 & So3 & Ei3 & Ve3).
  rewrite Ds3, D3. fold o2 in Ve3.
  pose proof (overlap_mates c G o2 b e (i_wf _ _ _ (mt_core _ _ _ _ Tr2)) (proj1 Ab2) (proj1 Ae2)) as OM.
  rewrite (mt_mates _ _ _ _ Tr2 b e (Lf b Ab) Le1) in OM. fold o2.
  destruct (overlap_from_start o2 b e) eqn:Ov.
  2: { exists m3. rewrite So3. split; auto. split; auto. split; auto.
       rewrite <- So3. apply Fin; [rewrite So3; auto|].
       assert (NMb : ~ mates o1 b e) by (intros M; apply OM in M; discriminate).
       destruct View2 as [[View2 NMa]|(a & Ha & M & View2)].
       - exists v1. split; [apply (meq_trans _ _ _ Ve3 View2)|]. unfold v1. rewrite <- Ebl.
         apply (mf_single c G N int sel f Ee Or o t e v V Le Re Et Fl l1 l2 El P1 P2).
         intros x Pm M. destruct (firstop o e) eqn:Fe.
         + apply (NMa x); auto. apply (lf_mate_above c N o t e V Le Re Et l1 l2 El P1 P2 x Pm M Fe).
         + pose proof (lf_mate_below c N o t e V Le Re Et l1 l2 El P1 P2 x Pm M Fe) as Q. fold below in Q.
           rewrite Ebl in Q. injection Q as <-. apply NMb, mates_sym, M.
       - exists (mpair int sel o v e a (Some b)). split; [apply (meq_trans _ _ _ Ve3 View2)|]. auto. }
  assert (M : mates o1 e b) by (apply mates_sym, OM; auto).
  assert (Eb1 : hd_error (rev l1) = Some b) by exact Ebl.
  destruct (lf_below_first c N o t e V Le Re Et l1 l2 El P1 b Eb1 M) as [Fe Fb].
  assert (V2 : meq (mview_of m2) v1).
  { destruct View2 as [[View2 _]|(a & Ha & M' & _)]; auto. exfalso.
    destruct (lf_above_first c N o t e V Le Re Et l1 l2 El P2 a Ha M') as [Fe' _]. congruence. }
  destruct (rev_exists l1 b Ib) as (b' & n1 & Em & Hb'). rewrite Eb1 in Hb'. injection Hb' as <-.
  set (bb := hd_error (rev n1)).
  assert (Lk3 : below_event shape 4 (mo m3) b = bb).
  { rewrite So3. unfold below_event. rewrite (lookup_present c o3 t o3 b n1 (e :: l2) shape 4); auto.
    - apply (mt_core _ _ _ _ Tr3).
    - rewrite (mt_line _ _ _ _ Tr3), (mt_line _ _ _ _ Tr2). change (op_line o1) with (l1 ++ e :: l2).
      rewrite Em, <- app_assoc. reflexivity. }
  rewrite Lk3.
  assert (Hbb : forall x, bb = Some x -> active o1 x /\ x <> b /\ x <> e).
  { intros x Q. apply last_In in Q. assert (Ix : In x l1) by (rewrite Em; apply in_or_app; auto).
    split; [apply In1, in_or_app; auto|]. split; [|apply (Old x); auto]. intros ->.
    apply (line_irrefl c o1 t b C1). change (op_line o1) with (l1 ++ e :: l2). rewrite Em.
    apply in_split in Q. destruct Q as (x1 & x2 & ->). exists x1, x2, (e :: l2). rewrite <- !app_assoc. reflexivity. }
  assert (Hbb1 : forall x, bb = Some x -> is_event_left x = true /\ x <> b).
  { intros x Q. destruct (Hbb x Q) as (A & B & _). split; auto. apply A. }
  destruct (compute_mixed_view int sel from_result FR m3 b bb Ei3 (proj1 (proj1 Ab)) Hbb1) as (So4 & Ei4 & Ve4).
  set (m4 := compute_left_event_fields from_result m3 b bb) in *.
  assert (Hb : forall x, Some b = Some x -> is_event_left x = true /\ x <> e).
  { intros x [= <-]. split; auto. apply Ab. }
  destruct (compute_mixed_view int sel from_result FR m4 e (Some b) Ei4 Re Hb) as (So5 & Ei5 & Ve5).
  exists (compute_left_event_fields from_result m4 e (Some b)). rewrite So5, So4, So3. split; auto. split; auto.
  split; auto.
  replace o3 with (mo (compute_left_event_fields from_result m4 e (Some b))) by (rewrite So5, So4, So3; auto).
  apply Fin; [rewrite So5, So4, So3; auto|].
  exists (mpair int sel o v b e bb). split.
  - apply (meq_trans _ _ _ Ve5). rewrite So4, So3. rewrite So3 in Ve4.
    assert (TL : forall x, active o1 x -> firstop o3 x = firstop o1 x /\ sid o3 x = sid o1 x).
    { intros x A. destruct (mt_left _ _ _ _ (mtrans_trans _ _ _ _ _ Tr2 Tr3) x (Lf x A)) as (_ & Q1 & Q2). auto. }
    rewrite (mcompute_ext int sel o1 o3); [|apply TL; auto|intros x [= <-]; apply TL; auto].
    rewrite (mcompute_ext int sel o1 o3) in Ve4; [|apply TL; auto|intros x Q; apply TL, Hbb; auto].
    apply (meq_trans _ (mcompute int sel o1 (mcompute int sel o1 (mkinds v1 b e) b bb) e (Some b))).
    + apply mcompute_meq; [auto|intros x [= <-]; apply Ab|]. apply (meq_trans _ _ _ Ve4).
      apply mcompute_meq; [apply Ab|intros x Q; apply Hbb1; auto|]. apply (meq_trans _ _ _ Ve3). apply mkinds_meq; auto.
    + apply (pair_mview int sel o v v1 b e bb Fb Fe Nbe).
      * intros x Q. destruct (Hbb x Q) as (_ & A & B). auto.
      * intros x N1 N2. apply mcompute_off; auto.
      * intros Q. destruct (mcompute_off int sel o1 v e (Some b) b Nbe) as (A & _). auto.
  - apply (mf_pair c G N int sel f Ee Or o t e v V Le Re Et Fl l1 l2 El P1 P2 b e n1 l2); auto.
    + right. split; auto. apply active_popped; auto.
    + apply mates_sym; exact M.
    + change (op_line o1) with (l1 ++ e :: l2). rewrite Em, <- app_assoc. reflexivity.
Qed.

(** ** A right event *)
Lemma mflags_relined o t e l v : inv o t -> least o e -> is_event_left e = false -> EV o e = t ->
  mflags o v -> mflags (relined o e l) v.
Proof.
  intros V L Re Et [D K1 K2 O R]. set (o1 := relined o e l).
  assert (Q : forall x, left_of o x -> (In x (op_queue o1) <-> In x (op_queue o)))
    by (apply (rp_left_queue c o t e V Re)).
  assert (Pp : forall x, popped o1 x <-> popped o x).
  { intros x. split; intros [A A']; split; auto; intros I; apply A'; apply Q; auto. }
  constructor.
  - intros x Lx NP. apply D; auto. rewrite <- Pp. auto.
  - intros x m Px Pm. apply K1; apply Pp; auto.
  - intros x Px A. apply K2; [apply Pp; auto|]. intros m Pm. apply A, Pp; auto.
  - intros x u Px Fx NL. apply O; [apply Pp; auto|auto|]. intros (A & y & Ly & Iy & B1 & B2). apply NL. split; auto.
    exists y. split; auto. split; [apply Q; auto|]. split; auto.
  - intros x Px. apply R, Pp; auto.
Qed.
Lemma right_mixed shape o t e m : inv o t -> least o e -> is_event_left e = false -> EV o e = t ->
  mo m = popping o e -> mo_interior m = int -> mflags o (mview_of m) ->
  exists m', process_mixed from_result true shape m e = Some (m', true)
    /\ process_event shape (popping o e) e = Some (mo m') /\ mo_interior m' = int /\ mflags (mo m') (mview_of m').
Proof.
  intros V L Re Et Es Ei Fl. destruct (rp_split c o t e V L Re Et) as (l1 & l2 & El).
  set (l := opp o e) in *. set (o1 := relined o e (l1 ++ l2)).
  assert (C := v_core _ _ _ V).
  assert (C1 := rp_core c o t e V L Re Et l1 l2 El). fold o1 in C1.
  assert (T1 := rp_th c o t e V Re l1 l2). fold o1 in T1.
  assert (Lk : forall i, lookup shape i (popping o e) l = (l1, Some l, l2)).
  { intros i. apply (lookup_present c o t); auto. }
  rewrite (rp_process c o t e V L Re l1 l2 El shape). fold o1.
  unfold process_mixed, is_event_right. rewrite <- Nat.negb_even.
  change (Nat.even e) with (is_event_left e). rewrite Re. cbn [negb]. rewrite Es.
  change (opp (popping o e) e) with l. assert (Ll : is_event_left l = true) by apply (rp_left c o t e V L Re). rewrite Ll.
  unfold find_event. rewrite Lk. unfold above_event, below_event, remove_event. rewrite !Lk.
  change (set_line (popping o e) (l1 ++ l2)) with o1. cbv zeta. set (m0 := with_operation m o1).
  assert (F1 : mflags o1 (mview_of m)) by (apply (mflags_relined o t e (l1 ++ l2)); auto).
  destruct (hd_error (rev l1)) as [b|] eqn:Eb; cbn [detect_optional].
  2: { exists m0. split; auto. }
  destruct (hd_error l2) as [a|] eqn:Ea; cbn [detect_optional].
  2: { exists m0. split; auto. }
  assert (Ib : active o1 b).
  { apply (i_line _ _ _ C1). apply in_or_app; left; apply last_In; auto. }
  assert (Ia : active o1 a).
  { apply (i_line _ _ _ C1). apply in_or_app; right; apply hd_error_In; auto. }
  assert (NE : b <> a).
  { intros Q. apply (line_irrefl c o1 t a C1), adj_before. destruct l2 as [|a' r]; [discriminate|].
    injection Ea as ->. apply last_adj. rewrite Q in Eb. auto. }
  destruct (mtrans_detect t nobody o1 b a (fun x => or_intror (fun f => f)) (fun x (f : nobody x) => match f with end) C1 T1 Ib Ia NE)
    as (o2 & D & Tr).
  assert (D' : detect_intersection (mo m0) b a = Some o2) by exact D.
  destruct (detect_mixed_view int m0 b a o2 Ei (proj1 (proj1 Ia)) (proj1 (proj1 Ib)) D') as (m' & Ds & So & Ei' & Ve).
  rewrite Ds. exists m'. rewrite So. split; auto. split; auto. split; auto.
  apply (mflags_meq c sel f o2 (mview_of m)).
  2: { apply (mt_flags _ _ _ _ Tr); auto. }
  apply meq_sym. apply (meq_trans _ _ _ Ve). change (mo m0) with o1. change (mview_of m0) with (mview_of m).
  destruct (overlap_from_start o1 b a) eqn:Ov; [|apply meq_refl].
  apply (overlap_mates c G o1 b a (i_wf _ _ _ C1) (proj1 Ib) (proj1 Ia)) in Ov.
  intros x Lx. unfold mkinds, upd. cbn [wo wk wr].
  assert (Pb := active_popped _ _ Ib). assert (Pa := active_popped _ _ Ia).
  split; auto. split; auto.
  destruct (Nat.eqb_spec x a) as [->|Na]; [|destruct (Nat.eqb_spec x b) as [->|Nb]; auto].
  - symmetry. apply (mf_over1 _ _ _ _ _ F1 a b); auto. apply mates_sym; auto.
  - symmetry. apply (mf_over1 _ _ _ _ _ F1 b a); auto.
Qed.

(** ** Runs *)
Variable every : bool.
Definition recorded (e : event) : Prop := every = true \/ is_event_left e = true.
Record mruns (m : mixed_operation) (t : Qc) (ev : list event) : Prop := {
  mu_inv : inv (mo m) t;
  mu_flags : mflags (mo m) (mview_of m);
  mu_int : mo_interior m = int;
  mu_nd : NoDup ev;
  mu_ev : forall x, In x ev <-> (x < size (mo m))%nat /\ ~ In x (op_queue (mo m)) /\ recorded x }.

Lemma one_mixed shape m t ev : mruns m t ev -> op_queue (mo m) <> [] ->
  exists e m1 m', pop (tick (mo m)) = Some (e, popping (mo m) e) /\ least (mo m) e
    /\ pop_mixed m = Some (e, m1)
    /\ process_mixed from_result true shape m1 e = Some (m', true)
    /\ process_event shape (popping (mo m) e) e = Some (mo m')
    /\ (forall x, (x < size (mo m))%nat -> pt (mo m') x = pt (mo m) x)
    /\ (forall x, In x (op_queue (mo m')) -> EV (mo m) e <= EV (mo m') x)
    /\ (e < size (mo m))%nat /\ ~ In e ev /\ (forall x, In x ev -> (x < size (mo m))%nat)
    /\ (size (mo m) <= size (mo m'))%nat
    /\ (forall x, (x < size (mo m'))%nat /\ ~ In x (op_queue (mo m')) /\ recorded x <-> In x ev \/ (x = e /\ recorded x))
    /\ mruns m' (EV (mo m) e) (if every || is_event_left e then ev ++ [e] else ev).
Proof.
  intros [V Fl Ei Nd Ev] NQ. set (o := mo m) in *. assert (C := v_core _ _ _ V). assert (W := i_wf _ _ _ C).
  assert (Wt : wf c (tick o)) by (apply (same_wf c o (tick o)); [repeat split|apply W]).
  destruct (pop_spec c G N (tick o) Wt NQ (i_qnd _ _ _ C) (i_qsz _ _ _ C)) as (e & P & I & Q).
  assert (L : least o e) by (split; [exact I|exact Q]).
  assert (Le : (e < size o)%nat) by (apply (i_qsz _ _ _ C); auto).
  assert (V' : inv o (EV o e)).
  { pose proof (i_q1 _ _ _ C e (proj1 L)) as Ge. destruct (Qcle_lt_or_eq _ _ Ge) as [Lt|Eq]; [|rewrite <- Eq; auto].
    pose proof (least_after c o e L) as Qu. constructor.
    - apply (next_core c o t (EV o e) C (v_line _ _ _ V) (v_th _ _ _ V) Lt Qu).
    - apply V.
    - apply (next_th c N o t (EV o e) C (v_line _ _ _ V) Lt Qu). }
  set (m1 := with_operation m (popping o e)).
  assert (Pm : pop_mixed m = Some (e, m1)).
  { unfold pop_mixed. fold o. rewrite P. reflexivity. }
  assert (Fl1 : mflags o (mview_of m1)) by exact Fl.
  assert (Ex : exists m', process_mixed from_result true shape m1 e = Some (m', true)
    /\ process_event shape (popping o e) e = Some (mo m') /\ mo_interior m' = int /\ mflags (mo m') (mview_of m')).
  { destruct (is_event_left e) eqn:Re.
    - apply (left_mixed shape o (EV o e) e m1 V' L Re eq_refl eq_refl Ei Fl1).
    - apply (right_mixed shape o (EV o e) e m1 V' L Re eq_refl eq_refl Ei Fl1). }
  destruct Ex as (m' & Ps & Pe & R1 & F'). exists e, m1, m'.
  assert (Gr := step_grown c G N o (EV o e) e shape (mo m') V' L eq_refl Pe).
  assert (Inv' : inv (mo m') (EV o e)).
  { destruct (is_event_left e) eqn:Re.
    - destruct (lp_split c o (EV o e) e V' L Re eq_refl) as (l1 & l2 & El & P1' & P2').
      destruct (lp_steps c G N o (EV o e) e V' L Re eq_refl l1 l2 El P1' P2' shape)
        as (o2 & o3 & P' & C3 & T3 & D3 & L3 & M2 & M3 & C2 & Ac2 & Dn2 & Ac3 & Dn3).
      rewrite Pe in P'. injection P' as ->. constructor; auto.
      + rewrite L3. exact D3.
      + apply (lp_final c N o (EV o e) e V' L Re eq_refl l1 l2 o2 o3 El P1' P2' C3 T3 D3 M2 M3).
        exact Ac3.
    - destruct (rp_split c o (EV o e) e V' L Re eq_refl) as (l1 & l2 & El).
      destruct (rp_step c G N o (EV o e) e V' L Re eq_refl l1 l2 El shape) as (o2 & P' & V2 & _).
      rewrite Pe in P'. injection P' as ->. auto. }
  assert (Sz : (size o <= size (mo m'))%nat) by apply (gr_size _ _ Gr).
  assert (Pt : forall x, (x < size o)%nat -> pt (mo m') x = pt o x) by apply (gr_pt _ _ Gr).
  assert (Qe : forall x, (x < size o)%nat -> (In x (op_queue (mo m')) <-> In x (op_queue o) /\ x <> e)).
  { intros x Lx. rewrite (gr_queue _ _ Gr x Lx). apply (popping_queue c o t e x V). }
  assert (Evs : forall x, (x < size (mo m'))%nat /\ ~ In x (op_queue (mo m')) /\ recorded x <-> In x ev \/ (x = e /\ recorded x)).
  { intros x. rewrite Ev. split.
    - intros (A & B & D). destruct (Nat.lt_ge_cases x (size o)) as [Lx|Lx].
      + rewrite Qe in B by auto. destruct (Nat.eq_dec x e) as [->|Nx]; [right; auto|left]. split; auto.
      + exfalso. apply B, (gr_fresh _ _ Gr); auto.
    - intros [(A & B & D)|[-> D]]; (split; [lia|]); rewrite Qe by auto; tauto. }
  assert (Ne : ~ In e ev) by (rewrite Ev; intros (_ & A & _); apply A, I).
  split; auto. split; auto. split; auto. split; auto. split; auto. split; auto.
  split; [intros x Ix; apply (i_q1 _ _ _ (v_core _ _ _ Inv') x Ix)|].
  split; auto. split; auto. split; [intros x Ix; apply Ev; auto|]. split; auto. split; auto.
  constructor; auto.
  - destruct (every || is_event_left e); auto. apply NoDup_app_snoc; auto.
  - intros x. rewrite Evs. unfold recorded. destruct every, (is_event_left e) eqn:Re; cbn [orb]; rewrite ?in_app_iff; cbn [In].
    1-3: intuition (subst; auto).
    split; auto. intros [A|[-> [A|A]]]; auto; congruence.
Qed.

Record mfinished (limit : Qc) (m : mixed_operation) (t : Qc) (ev : list event) : Prop := {
  mn_inv : inv (mo m) t;
  mn_flags : mflags (mo m) (mview_of m);
  mn_nd : NoDup ev;
  mn_ev : forall x, In x ev <-> (x < size (mo m))%nat /\ ~ In x (op_queue (mo m)) /\ recorded x /\ px (pt (mo m) x) <= limit;
  mn_queue : forall e, In e (op_queue (mo m)) -> limit < px (pt (mo m) e);
  mn_last : op_queue (mo m) = [] \/ exists p, In p (c_pts c) /\ X c p = t /\ limit < px p }.

Lemma mixed_spec shape limit : forall fuel m t ev, mruns m t ev ->
  (forall x, (x < size (mo m))%nat -> ~ In x (op_queue (mo m)) -> px (pt (mo m) x) <= limit) ->
  sweep_mixed from_result true shape fuel every limit m ev <> MixedFails
  /\ (forall lin, sweep_mixed from_result true shape fuel every limit m ev = MixedRunsOut ->
       sweep fuel shape (Some limit) (mo m) lin = OutOfFuel)
  /\ forall m' ev', sweep_mixed from_result true shape fuel every limit m ev = SweepsMixed m' ev' ->
     exists t', mfinished limit m' t' ev'.
Proof.
  induction fuel as [|fuel IH]; intros m t ev R Li; cbn [sweep_mixed sweep].
  - split; [discriminate|]. split; [auto|]. intros m' ev' Q; discriminate.
  - destruct (op_queue (mo m)) as [|q0 qs] eqn:Eq.
    + split; [discriminate|]. split; [discriminate|]. intros m' ev' Q. injection Q as <- <-. exists t.
      destruct R as [V Fl Ei Nd Ev]. constructor; auto.
      * intros x. rewrite Ev. rewrite Eq in *. split; [intros (A & B & D)|tauto]. auto.
      * rewrite Eq. intros e [].
    + rewrite <- Eq in Li. assert (NQ : op_queue (mo m) <> []) by (rewrite Eq; discriminate).
      destruct (one_mixed shape m t ev R NQ) as (e & m1 & m' & P & L & Pp & Ps & Pe & Pt & Qu & Le & Ne & Lev & Sz & Evs & R').
      rewrite Pp, Ps, P, Pe. cbn [andb].
      assert (Evl : forall x, In x ev -> px (pt (mo m') x) <= limit).
      { intros x Ix. rewrite Pt by (apply Lev; auto). apply (mu_ev _ _ _ R) in Ix. apply Li; apply Ix. }
      assert (Old : forall x, (x < size (mo m'))%nat -> ~ In x (op_queue (mo m')) -> x = e \/ ((x < size (mo m))%nat /\ ~ In x (op_queue (mo m)))).
      { assert (Gr := step_grown c G N (mo m) (EV (mo m) e) e shape (mo m')).
        assert (V' : inv (mo m) (EV (mo m) e)).
        { pose proof (mu_inv _ _ _ R) as V. pose proof (v_core _ _ _ V) as C.
          pose proof (i_q1 _ _ _ C e (proj1 L)) as Ge. destruct (Qcle_lt_or_eq _ _ Ge) as [Lt|Eq']; [|rewrite <- Eq'; auto].
          pose proof (least_after c (mo m) e L) as Qu'. constructor.
          - apply (next_core c (mo m) t (EV (mo m) e) C (v_line _ _ _ V) (v_th _ _ _ V) Lt Qu').
          - apply V.
          - apply (next_th c N (mo m) t (EV (mo m) e) C (v_line _ _ _ V) Lt Qu'). }
        specialize (Gr V' L eq_refl Pe). intros x A B.
        destruct (Nat.lt_ge_cases x (size (mo m))) as [Lx|Lx].
        - rewrite (gr_queue _ _ Gr x Lx), (popping_queue c (mo m) t e x (mu_inv _ _ _ R)) in B.
          destruct (Nat.eq_dec x e); [left; auto|right; split; auto].
        - exfalso. apply B, (gr_fresh _ _ Gr); auto. }
      destruct (is_beyond (Some limit) (mo m') e) eqn:B.
      * split; [discriminate|]. split; [discriminate|]. intros m2 ev2 Q. injection Q as <- <-. exists (EV (mo m) e).
        cbn in B. apply qltb_true in B. destruct R' as [V' Fl Ei Nd Ev].
        assert (C := v_core _ _ _ V'). assert (W := i_wf _ _ _ C).
        assert (Le' : (e < size (mo m'))%nat) by lia. destruct (event_pt c (mo m') e W Le') as [I1 _].
        assert (Ee' : EV (mo m) e = EV (mo m') e) by (unfold EVX; rewrite (Pt e Le); auto).
        assert (Be : forall y, In y (op_queue (mo m')) -> limit < px (pt (mo m') y)).
        { intros y I. pose proof (Qu y I) as Ly. assert (Iy := i_qsz _ _ _ C y I).
          destruct (event_pt c (mo m') y W Iy) as [I2 _]. rewrite Ee' in Ly.
          unfold EVX in Ly. apply (X_le c G) in Ly; auto. unfold lex_le, lex_lt in Ly.
          destruct Ly as [[Q1|[Q1 _]]|Q1]; [qlra|rewrite <- Q1; auto|rewrite <- Q1; auto]. }
        constructor; auto.
        -- apply (mu_nd _ _ _ R).
        -- intros y. split.
           ++ intros Iy. destruct (proj2 (Evs y) (or_introl Iy)) as (A1 & A2 & A3). split; auto.
           ++ intros (A1 & A2 & A3 & A4). destruct (proj1 (Evs y)) as [|[-> _]]; auto. exfalso; qlra.
        -- right. exists (pt (mo m') e). split; auto.
      * cbn in B. apply qltb_false in B. destruct (IH m' (EV (mo m) e) _ R') as (A1 & A2 & A3); [|auto].
        intros x A1 A2. destruct (Old x A1 A2) as [->|[A3 A4]]; [exact B|]. rewrite Pt by auto. apply Li; auto.
Qed.
End Steps.
