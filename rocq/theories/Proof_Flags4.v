(** The sweep over two shaped operands, part 5: the steps of the sweep keep the invariant. *)
From Coq Require Import QArith Qcanon Bool List Arith Lia Permutation.
From Verif Require Import QcTac Model_Base Model_Utils Model_Linear Model_Mixed Model_Shaped Spec_Base
  Spec_Sweep Proof_Base Proof_Line Proof_Sweep Proof_Sweep2 Proof_Sweep3 Proof_Sweep5 Proof_Sweep7
  Proof_Sweep8 Proof_Sweep9 Proof_Sweep10 Proof_Sweep11 Proof_Sweep12 Proof_Sweep13 Proof_Sweep14 Proof_Parity
  Proof_Flags Proof_Flags2 Proof_Flags3.
Import ListNotations.
Local Open Scope Qc_scope.

Section Steps.
Variable c : ctx.
Hypothesis G : good c.
Hypothesis N : nc c.
Variable int : list bool.
Variable sel : bool -> bool -> overlap_kind -> bool.
Hypothesis Sel : forall x q, q <> NO_OVERLAP -> sel true x q = false.
Variable from_result : shaped_operation -> event -> bool.
Hypothesis FR : forall s e, from_result s e
  = sel (is_left_event_from_first_operand (so s) e) (other_flag s e) (kind_of s e).
Hypothesis Ee : evn c.
Hypothesis Or : ori c int.
Notation S' := (SX c). Notation E' := (EX c). Notation h := (hh c). Notation k := (kk c).
Notation EV := (EVX c). Notation col := (col c).
Notation core := (core c). Notation th := (th c). Notation mates := (mates c).
Notation through := (through c). Notation inv := (inv c). Notation least := (least c).
Notation gap := (gap c). Notation oth := (oth c). Notation kind_at := (kind_at int).
Notation flags := (flags c int sel).

Record trans (t : Qc) (ex : event -> Prop) (o o' : operation) : Prop := {
  tr_core : core o' t;
  tr_th : th o' t ex;
  tr_line : op_line o' = op_line o;
  tr_left : forall x, left_of o x -> left_of o' x /\ sid o' x = sid o x /\ firstop o' x = firstop o x;
  tr_mates : forall x y, left_of o x -> left_of o y -> (mates o' x y <-> mates o x y);
  tr_active : forall x, active o' x <-> active o x;
  tr_S : forall x, ex x -> left_of o x /\ S' o x = t -> S' o' x = t;
  tr_flags : forall v, flags o ex v -> flags o' ex v }.
Lemma trans_refl t ex o : core o t -> th o t ex -> trans t ex o o.
Proof. intros C T. constructor; auto; try reflexivity. intros x _ [_ Q]; auto. Qed.
Lemma trans_trans t ex o1 o2 o3 : trans t ex o1 o2 -> trans t ex o2 o3 -> trans t ex o1 o3.
Proof.
  intros A B. constructor.
  - apply (tr_core _ _ _ _ B).
  - apply (tr_th _ _ _ _ B).
  - rewrite (tr_line _ _ _ _ B). apply (tr_line _ _ _ _ A).
  - intros x L. destruct (tr_left _ _ _ _ A x L) as (L2 & <- & <-). apply (tr_left _ _ _ _ B x L2).
  - intros x y Lx Ly. rewrite <- (tr_mates _ _ _ _ A) by auto. apply (tr_mates _ _ _ _ B); apply (tr_left _ _ _ _ A); auto.
  - intros x. rewrite (tr_active _ _ _ _ B). apply (tr_active _ _ _ _ A).
  - intros x Xx [Lx Sx]. apply (tr_S _ _ _ _ B x Xx). split; [apply (tr_left _ _ _ _ A); auto|]. apply (tr_S _ _ _ _ A x); auto.
  - intros v F. apply (tr_flags _ _ _ _ B), (tr_flags _ _ _ _ A), F.
Qed.
Lemma trans_detect t ex o Y Z : (forall a, ex a \/ ~ ex a) -> (forall x, ex x -> left_of o x /\ S' o x = t) ->
  core o t -> th o t ex -> active o Y -> active o Z -> Y <> Z ->
  exists o', detect_intersection o Y Z = Some o' /\ trans t ex o o'.
Proof.
  intros Dx Ex C T AY AZ Ne. destruct (detect_active c G N o t Y Z C AY AZ Ne) as (o' & D & Cs & _).
  destruct (cuts_frame c Y Z o o' t Cs C AY AZ Ne) as (C' & F & _ & Ths & Ac & _).
  exists o'. split; auto. constructor; auto.
  - apply Ths; auto. intros x Xx. apply Ex; auto.
  - apply (f_line _ _ _ _ _ _ F).
  - intros x L. split; [apply (frame_left c o o' t Y Z x F L)|].
    split; [apply (f_sid _ _ _ _ _ _ F); auto|apply (fr_first c o o' t Y Z F); auto].
  - apply (fr_mates c o o' t Y Z F).
  - intros x Xx [Lx Sx]. rewrite (fr_S c o o' t Y Z F); auto.
  - intros v Fl. apply (flags_frame c N int sel o o' t Y Z ex v); auto. intros y Xy. apply Ex; auto.
Qed.

(** The second evaluation of the attributes of two mates. *)
Lemma pair_view o vert v v1 p r below q : firstop o p = true -> firstop o r = false -> p <> r ->
  q = kind_at o p r -> (forall b, below = Some b -> b <> p /\ b <> r) ->
  (forall x, x <> p -> x <> r -> vo v1 x = vo v x /\ vk v1 x = vk v x /\ vr v1 x = vr v x /\ vb v1 x = vb v x) ->
  (below = None -> vo v1 p = vo v p /\ vb v1 p = vb v p) ->
  veq (vcompute int sel o vert (vcompute int sel o vert (vkinds v1 p r q) p below) r (Some p))
      (vpair int sel o v vert p r below).
Proof.
  intros Fp Fr Npr Eq Hb H1 H0 x Lx. subst q. set (q := kind_at o p r).
  assert (Nq : q <> NO_OVERLAP). { unfold q, Proof_Flags2.kind_at. destruct (Bool.eqb _ _); discriminate. }
  assert (E1 : match below with
    | Some b => if Bool.eqb (firstop o p) (firstop o b) then vo v1 b else nth (sid o b) int false
    | None => vo v1 p end = ot_of int o v p below).
  { unfold ot_of. destruct below as [b|]; [|apply H0; auto]. destruct (Hb b eq_refl) as [N1 N2].
    destruct (H1 b N1 N2) as (-> & _). auto. }
  assert (E2 : match below with
    | Some b => if negb (sel (firstop o b) (vo v1 b) (upd (upd (vk v1) p q) r q b)) || vert b then vb v1 b else Some b
    | None => vb v1 p end = bl_of sel o v vert p below).
  { unfold bl_of. destruct below as [b|]; [|apply H0; auto]. destruct (Hb b eq_refl) as [N1 N2].
    rewrite !upd_other by auto. destruct (H1 b N1 N2) as (-> & -> & _ & ->). auto. }
  unfold vcompute, vkinds, vpair. cbn [vo vk vr vb]. rewrite E2, Fr.
  replace (match below with
    | Some b => if Bool.eqb (firstop o p) (firstop o b) then vo v1 b else nth (sid o b) int false
    | None => vo v1 p end) with (ot_of int o v p below).
  rewrite Fp. cbn [Bool.eqb]. fold q.
  destruct (Nat.eq_dec x r) as [->|Nr]; [|destruct (Nat.eq_dec x p) as [->|Np]].
  - unfold upd. rewrite !Nat.eqb_refl, !(proj2 (Nat.eqb_neq p r)) by auto. rewrite !(Sel _ q Nq). auto.
  - unfold upd. rewrite !Nat.eqb_refl, !(proj2 (Nat.eqb_neq p r)) by auto. rewrite !(Sel _ q Nq). auto.
  - unfold upd. rewrite !(proj2 (Nat.eqb_neq x r)), !(proj2 (Nat.eqb_neq x p)) by auto. apply H1; auto.
Qed.

Lemma vcompute_off o vert v e below x : x <> e -> vo (vcompute int sel o vert v e below) x = vo v x
  /\ vk (vcompute int sel o vert v e below) x = vk v x /\ vr (vcompute int sel o vert v e below) x = vr v x
  /\ vb (vcompute int sel o vert v e below) x = vb v x.
Proof. intros Ne. unfold vcompute. cbn [vo vk vr vb]. rewrite !upd_other by auto. auto. Qed.

(** ** A left event *)
Lemma left_shaped shape o t e s : inv o t -> least o e -> is_event_left e = true -> EV o e = t ->
  so s = popping o e -> so_interior s = int -> flags o nobody (view_of s) ->
  exists s', process_shaped from_result shape s e = Some (s', true)
    /\ process_event shape (popping o e) e = Some (so s') /\ same_rest s s' /\ flags (so s') nobody (view_of s').
Proof.
  intros V Le Re Et Es Ei Fl. set (ex := fun x : event => x = e).
  destruct (lp_split c o t e V Le Re Et) as (l1 & l2 & El & P1 & P2).
  set (o1 := relined o e (l1 ++ e :: l2)).
  pose proof (lf_core c N o t e V Le Re Et l1 l2 El P1 P2) as C1. change (core o1 t) in C1.
  pose proof (lp_th c o t e V Le l1 l2) as T1. change (th o1 t ex) in T1.
  assert (Le1 : left_of o1 e) by (apply (lf_left c o t e V Le Re)).
  assert (Dx : forall a, ex a \/ ~ ex a) by (intros a; unfold ex; destruct (Nat.eq_dec a e); auto).
  assert (Ex1 : forall x, ex x -> left_of o1 x /\ S' o1 x = t) by (intros x ->; split; auto).
  assert (Ae : active o1 e) by (apply (lf_active c o t e V Le Re l1 l2); auto).
  assert (In1 : forall x, In x (l1 ++ e :: l2) -> active o1 x) by (intros x I; apply (i_line _ _ _ C1); exact I).
  assert (Lf : forall x, active o1 x -> left_of o1 x) by (intros x A; apply A).
  pose proof (lf_not_popped c o e Le) as NPe.
  assert (Old : forall x, In x l1 \/ In x l2 -> active o x /\ x <> e).
  { intros x I. assert (A : active o x).
    { apply (i_line _ _ _ (v_core _ _ _ V)). rewrite El. apply in_or_app; auto. }
    split; auto. intros ->. apply NPe, active_popped; auto. }
  rewrite (lp_process c N o t e V Le Re Et l1 l2 El P1 P2). fold o1.
  unfold process_shaped, is_event_right. rewrite <- Nat.negb_even.
  change (Nat.even e) with (is_event_left e). rewrite Re. cbn [negb].
  assert (Lk : forall i, lookup shape i (popping o e) e = (l1, None, l2))
    by (intros i; apply (lp_lookup c N o t e V Le Re Et l1 l2 El P1 P2)).
  assert (Lk1 : forall i, lookup shape i o1 e = (l1, Some e, l2))
    by (intros i; apply (lp_lookup1 c N o t e V Le Re Et l1 l2 El P1 P2)).
  assert (Ad : add_event shape 1 (popping o e) e = o1) by (unfold add_event; rewrite Lk; reflexivity).
  unfold find_event. rewrite Es, Lk, Ad. cbv zeta.
  set (s0 := with_base s o1). set (below := hd_error (rev l1)).
  assert (Eb : below_event shape 2 (so s0) e = below).
  { change (so s0) with o1. unfold below_event. rewrite Lk1. reflexivity. }
  rewrite Eb. assert (Hbelow : forall b, below = Some b -> is_event_left b = true /\ b <> e).
  { intros b Q. destruct (Old b) as [A B]; [left; apply last_In; auto|]. split; auto. apply A. }
  destruct (compute_fields_view int sel from_result FR s0 e below Ei Re Hbelow) as (So1 & Sr1 & Ve1).
  set (s1 := compute_fields from_result s0 e below) in *. change (so s0) with o1 in So1, Ve1.
  change (view_of s0) with (view_of s) in Ve1. set (v := view_of s) in *.
  set (v1 := vcompute int sel o1 (is_vertical s0) v e below) in *.
  assert (Ei1 : so_interior s1 = int) by (destruct Sr1 as (A & _); rewrite A; exact Ei).
  assert (Ea : above_event shape 3 (so s1) e = hd_error l2).
  { rewrite So1. unfold above_event. rewrite Lk1. reflexivity. }
  rewrite Ea.
  (* the neighbour above *)
  assert (Step2 : exists s2, match hd_error l2 with
      | None => Some s1
      | Some a => match detect_shaped s1 e a with
                  | None => None
                  | Some (s, true) => Some (compute_fields from_result (compute_fields from_result s e below) a (Some e))
                  | Some (s, false) => Some s
                  end
      end = Some s2 /\ detect_optional o1 (Some e) (hd_error l2) = Some (so s2) /\ same_rest s1 s2 /\ trans t ex o1 (so s2)
      /\ ((veq (view_of s2) v1 /\ forall a, hd_error l2 = Some a -> ~ mates o1 e a)
          \/ exists a vert, hd_error l2 = Some a /\ mates o1 e a /\ veq (view_of s2) (vpair int sel o v vert e a below))).
  { destruct (hd_error l2) as [a|] eqn:E2; cbn [detect_optional].
    2: { exists s1. rewrite So1. split; auto. split; auto. split; [repeat split|].
         split; [apply trans_refl; auto|]. left. split; auto. intros a Q; discriminate. }
    assert (Ia : In a l2) by (apply hd_error_In; auto). destruct (Old a (or_intror Ia)) as [Aoa Nae].
    assert (Aa : active o1 a) by (apply In1, in_or_app; right; right; auto).
    destruct (trans_detect t ex o1 e a Dx Ex1 C1 T1 Ae Aa (not_eq_sym Nae)) as (o2 & D & Tr).
    assert (D' : detect_intersection (so s1) e a = Some o2) by (rewrite So1; exact D).
    destruct (detect_shaped_view int s1 e a o2 Ei1 (proj1 (proj1 Aa)) Re D') as (s2 & Ds & So2 & Sr2 & Ve2).
    rewrite Ds. rewrite So1 in *.
    pose proof (overlap_mates c G o1 e a (i_wf _ _ _ C1) Le1 (Lf a Aa)) as OM.
    destruct (overlap_from_start o1 e a) eqn:Ov.
    2: { exists s2. rewrite So2. split; auto. split; auto. split; auto. split; auto. left.
         split; [apply (veq_trans _ _ _ Ve2 Ve1)|]. intros a' [= <-] M. apply OM in M. discriminate. }
    assert (M : mates o1 e a) by (apply OM; auto).
    destruct (lf_above_first c N o t e V Le Re Et l1 l2 El P2 a E2 M) as [Fe Fa].
    assert (Ei2 : so_interior s2 = int) by (destruct Sr2 as (A & _); rewrite A; exact Ei1).
    destruct (compute_fields_view int sel from_result FR s2 e below Ei2 Re Hbelow) as (So3 & Sr3 & Ve3).
    set (s3 := compute_fields from_result s2 e below) in *.
    assert (Ei3 : so_interior s3 = int) by (destruct Sr3 as (A & _); rewrite A; exact Ei2).
    assert (He : forall b, Some e = Some b -> is_event_left b = true /\ b <> a).
    { intros b [= <-]. split; auto. }
    destruct (compute_fields_view int sel from_result FR s3 a (Some e) Ei3 (proj1 (proj1 Aa)) He) as (So4 & Sr4 & Ve4).
    exists (compute_fields from_result s3 a (Some e)). split; auto. rewrite So4, So3, So2.
    split; auto. split; [apply (same_rest_trans s1 s2); auto; apply (same_rest_trans s2 s3); auto|].
    split; auto. right. exists a, (is_vertical s2). split; auto. split; auto.
    apply (veq_trans _ _ _ Ve4). rewrite So3. change (is_vertical s3) with (fun x => is_vertical s3 x).
    assert (Vt : is_vertical s3 = is_vertical s2) by (unfold is_vertical; rewrite So3; reflexivity).
    rewrite Vt. rewrite So2 in *.
    assert (TL : forall x, active o1 x -> firstop o2 x = firstop o1 x /\ sid o2 x = sid o1 x).
    { intros x A. destruct (tr_left _ _ _ _ Tr x (Lf x A)) as (_ & Q1 & Q2). auto. }
    rewrite (vcompute_ext int sel o1 o2);
      [|apply TL; auto|intros b [= <-]; apply TL; auto].
    rewrite (vcompute_ext int sel o1 o2) in Ve3;
      [|apply TL; auto|intros b Q; apply TL, In1, in_or_app; left; apply last_In; auto].
    apply (veq_trans _ (vcompute int sel o1 (is_vertical s2) (vcompute int sel o1 (is_vertical s2)
             (vkinds v1 e a (kind_at o1 e a)) e below) a (Some e))).
    - apply vcompute_veq; [apply Aa|intros b [= <-]; auto|]. apply (veq_trans _ _ _ Ve3).
      apply vcompute_veq; [auto|intros b Q; apply Hbelow; auto|]. apply (veq_trans _ _ _ Ve2). apply vkinds_veq; auto.
    - apply (pair_view o (is_vertical s2) v v1 e a below (kind_at o1 e a) Fe Fa (not_eq_sym Nae) eq_refl).
      + intros b Q. split; [apply Hbelow; auto|]. intros ->.
        apply (line_irrefl c o1 t a C1). change (op_line o1) with (l1 ++ e :: l2).
        apply last_In in Q. apply in_split in Q. destruct Q as (x1 & x2 & ->). apply in_split in Ia.
        destruct Ia as (y1 & y2 & ->). exists x1, (x2 ++ e :: y1), y2. rewrite <- ?app_assoc. cbn.
        rewrite <- ?app_assoc. reflexivity.
      + intros x N1 N2. apply vcompute_off; auto.
      + intros Q. unfold v1, vcompute. rewrite Q. cbn [vo vb]. rewrite !upd_same. auto. }
  destruct Step2 as (s2 & E2 & D2 & Sr2 & Tr2 & View2). rewrite E2, D2. set (o2 := so s2) in *.
  assert (Ei2 : so_interior s2 = int) by (destruct Sr2 as (A & _); rewrite A; exact Ei1).
  assert (Ex2 : forall x, ex x -> left_of o2 x /\ S' o2 x = t).
  { intros x Q. split; [apply (tr_left _ _ _ _ Tr2), Ex1, Q|apply (tr_S _ _ _ _ Tr2); auto]. }
  assert (Rest : same_rest s s2) by (apply (same_rest_trans s s0); [apply with_base_rest|apply (same_rest_trans s0 s1); auto]).
  assert (Fin : forall s', trans t ex o2 (so s') -> (exists w, veq (view_of s') w /\ flags o1 ex w) ->
     flags (so s') nobody (view_of s')).
  { intros s' Tr (w & Ew & Fw). apply (flags_weaken c int sel _ ex); [intros x []|].
    apply (tr_flags _ _ _ _ Tr), (tr_flags _ _ _ _ Tr2). apply (flags_veq c int sel _ _ w); auto. apply veq_sym; auto. }
  assert (Above : forall a vert, hd_error l2 = Some a -> mates o1 e a -> flags o1 ex (vpair int sel o v vert e a below)).
  { intros a vert E M. assert (Ia : In a l2) by (apply hd_error_In; auto). destruct (Old a (or_intror Ia)) as [Aoa Nae].
    destruct (lf_above_first c N o t e V Le Re Et l1 l2 El P2 a E M) as [Fe Fa].
    destruct l2 as [|a' r2]; [discriminate|]. injection E as ->.
    apply (lf_pair c G N int sel Sel Ee Or o t e v V Le Re Et Fl l1 (a :: r2) El P1 P2 vert e a l1 r2); auto.
    left. split; auto. apply active_popped; auto. }
  assert (SoSome : forall b, below = Some b -> In b l1) by (intros b Q; apply last_In; auto).
  destruct below as [b|] eqn:Ebl; cbn [detect_optional].
  2: { exists s2. split; auto. split; auto. split; auto. apply Fin; [apply trans_refl; apply Tr2|].
       destruct View2 as [[View2 NMa]|(a & vert & Ha & M & View2)].
       - exists v1. split; auto. unfold v1. rewrite <- Ebl.
         apply (lf_single c G N int sel Ee Or o t e v V Le Re Et Fl l1 l2 El P1 P2).
         intros m Pm M. destruct (firstop o e) eqn:Fe.
         + apply (NMa m); auto. apply (lf_mate_above c N o t e V Le Re Et l1 l2 El P1 P2 m Pm M Fe).
         + pose proof (lf_mate_below c N o t e V Le Re Et l1 l2 El P1 P2 m Pm M Fe) as Q. fold below in Q. congruence.
       - exists (vpair int sel o v vert e a None). auto. }
  assert (Ib : In b l1) by auto. destruct (Old b (or_introl Ib)) as [Aob Nbe].
  assert (Ab : active o1 b) by (apply In1, in_or_app; left; auto).
  assert (Ab2 : active o2 b) by (apply (tr_active _ _ _ _ Tr2); auto).
  assert (Ae2 : active o2 e) by (apply (tr_active _ _ _ _ Tr2); auto).
  destruct (trans_detect t ex o2 b e Dx Ex2 (tr_core _ _ _ _ Tr2) (tr_th _ _ _ _ Tr2) Ab2 Ae2 Nbe) as (o3 & D3 & Tr3).
  destruct (detect_shaped_view int s2 b e o3 Ei2 Re (proj1 (proj1 Ab)) D3) as (s3 & Ds3 & So3 & Sr3 & Ve3).
  rewrite Ds3, D3. fold o2 in Ve3.
  pose proof (overlap_mates c G o2 b e (i_wf _ _ _ (tr_core _ _ _ _ Tr2)) (proj1 Ab2) (proj1 Ae2)) as OM.
  rewrite (tr_mates _ _ _ _ Tr2 b e (Lf b Ab) Le1) in OM. fold o2.
  destruct (overlap_from_start o2 b e) eqn:Ov.
  2: { exists s3. rewrite So3. split; auto. split; auto. split; [apply (same_rest_trans s s2); auto|].
       rewrite <- So3. apply Fin; [rewrite So3; auto|].
       assert (NMb : ~ mates o1 b e) by (intros M; apply OM in M; discriminate).
       destruct View2 as [[View2 NMa]|(a & vert & Ha & M & View2)].
       - exists v1. split; [apply (veq_trans _ _ _ Ve3 View2)|]. unfold v1. rewrite <- Ebl.
         apply (lf_single c G N int sel Ee Or o t e v V Le Re Et Fl l1 l2 El P1 P2).
         intros m Pm M. destruct (firstop o e) eqn:Fe.
         + apply (NMa m); auto. apply (lf_mate_above c N o t e V Le Re Et l1 l2 El P1 P2 m Pm M Fe).
         + pose proof (lf_mate_below c N o t e V Le Re Et l1 l2 El P1 P2 m Pm M Fe) as Q. fold below in Q.
           rewrite Ebl in Q. injection Q as <-. apply NMb, mates_sym, M.
       - exists (vpair int sel o v vert e a (Some b)). split; [apply (veq_trans _ _ _ Ve3 View2)|]. auto. }
  assert (M : mates o1 e b) by (apply mates_sym, OM; auto).
  assert (Eb1 : hd_error (rev l1) = Some b) by exact Ebl.
  destruct (lf_below_first c N o t e V Le Re Et l1 l2 El P1 b Eb1 M) as [Fe Fb].
  assert (V2 : veq (view_of s2) v1).
  { destruct View2 as [[View2 _]|(a & vert & Ha & M' & _)]; auto. exfalso.
    destruct (lf_above_first c N o t e V Le Re Et l1 l2 El P2 a Ha M') as [Fe' _]. congruence. }
  destruct (rev_exists l1 b Ib) as (b' & m1 & Em & Hb'). rewrite Eb1 in Hb'. injection Hb' as <-.
  set (bb := hd_error (rev m1)).
  assert (Lk3 : below_event shape 4 (so s3) b = bb).
  { rewrite So3. unfold below_event. rewrite (lookup_present c o3 t o3 b m1 (e :: l2) shape 4); auto.
    - apply (tr_core _ _ _ _ Tr3).
    - rewrite (tr_line _ _ _ _ Tr3), (tr_line _ _ _ _ Tr2). change (op_line o1) with (l1 ++ e :: l2).
      rewrite Em, <- app_assoc. reflexivity. }
  rewrite Lk3. assert (Ei3 : so_interior s3 = int) by (destruct Sr3 as (A & _); rewrite A; exact Ei2).
  assert (Hbb : forall x, bb = Some x -> active o1 x /\ x <> b /\ x <> e).
  { intros x Q. apply last_In in Q. assert (Ix : In x l1) by (rewrite Em; apply in_or_app; auto).
    split; [apply In1, in_or_app; auto|]. split; [|apply (Old x); auto]. intros ->.
    apply (line_irrefl c o1 t b C1). change (op_line o1) with (l1 ++ e :: l2). rewrite Em.
    apply in_split in Q. destruct Q as (x1 & x2 & ->). exists x1, x2, (e :: l2). rewrite <- !app_assoc. reflexivity. }
  assert (Hbb1 : forall x, bb = Some x -> is_event_left x = true /\ x <> b).
  { intros x Q. destruct (Hbb x Q) as (A & B & _). split; auto. apply A. }
  destruct (compute_fields_view int sel from_result FR s3 b bb Ei3 (proj1 (proj1 Ab)) Hbb1) as (So4 & Sr4 & Ve4).
  set (s4 := compute_fields from_result s3 b bb) in *.
  assert (Ei4 : so_interior s4 = int) by (destruct Sr4 as (A & _); rewrite A; exact Ei3).
  assert (Hb : forall x, Some b = Some x -> is_event_left x = true /\ x <> e).
  { intros x [= <-]. split; auto. apply Ab. }
  destruct (compute_fields_view int sel from_result FR s4 e (Some b) Ei4 Re Hb) as (So5 & Sr5 & Ve5).
  exists (compute_fields from_result s4 e (Some b)). rewrite So5, So4, So3. split; auto. split; auto.
  split. { apply (same_rest_trans s s2 _ Rest), (same_rest_trans s2 s3 _ Sr3), (same_rest_trans s3 s4 _ Sr4 Sr5). }
  replace o3 with (so (compute_fields from_result s4 e (Some b))) by (rewrite So5, So4, So3; auto).
  apply Fin; [rewrite So5, So4, So3; auto|].
  exists (vpair int sel o v (is_vertical s3) b e bb). split.
  - apply (veq_trans _ _ _ Ve5). rewrite So4.
    assert (Vt : is_vertical s4 = is_vertical s3) by (unfold is_vertical; rewrite So4; reflexivity). rewrite Vt, So3.
    rewrite So3 in Ve4.
    assert (TL : forall x, active o1 x -> firstop o3 x = firstop o1 x /\ sid o3 x = sid o1 x).
    { intros x A. destruct (tr_left _ _ _ _ (trans_trans _ _ _ _ _ Tr2 Tr3) x (Lf x A)) as (_ & Q1 & Q2). auto. }
    rewrite (vcompute_ext int sel o1 o3); [|apply TL; auto|intros x [= <-]; apply TL; auto].
    rewrite (vcompute_ext int sel o1 o3) in Ve4; [|apply TL; auto|intros x Q; apply TL, Hbb; auto].
    assert (Kd : kind_at o2 b e = kind_at o1 b e).
    { unfold Proof_Flags2.kind_at. destruct (tr_left _ _ _ _ Tr2 b (Lf b Ab)) as (_ & -> & _).
      destruct (tr_left _ _ _ _ Tr2 e Le1) as (_ & -> & _). auto. }
    rewrite Kd in Ve3.
    apply (veq_trans _ (vcompute int sel o1 (is_vertical s3) (vcompute int sel o1 (is_vertical s3)
             (vkinds v1 b e (kind_at o1 b e)) b bb) e (Some b))).
    + apply vcompute_veq; [auto|intros x [= <-]; apply Ab|]. apply (veq_trans _ _ _ Ve4).
      apply vcompute_veq; [apply Ab|intros x Q; apply Hbb1; auto|]. apply (veq_trans _ _ _ Ve3). apply vkinds_veq; auto.
    + apply (pair_view o (is_vertical s3) v v1 b e bb (kind_at o1 b e) Fb Fe Nbe eq_refl).
      * intros x Q. destruct (Hbb x Q) as (_ & A & B). auto.
      * intros x N1 N2. apply vcompute_off; auto.
      * intros Q. destruct (vcompute_off o1 (is_vertical s0) v e (Some b) b Nbe) as (A & _ & _ & B). split; auto.
  - apply (lf_pair c G N int sel Sel Ee Or o t e v V Le Re Et Fl l1 l2 El P1 P2 (is_vertical s3) b e m1 l2); auto.
    + right. split; auto. apply active_popped; auto.
    + apply mates_sym; exact M.
    + change (op_line o1) with (l1 ++ e :: l2). rewrite Em, <- app_assoc. reflexivity.
Qed.
End Steps.
