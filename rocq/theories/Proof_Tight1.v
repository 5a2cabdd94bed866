(** Both sides of a drawing without crossings near any of its points. *)
From Coq Require Import QArith Qcanon Bool List Arith Lia Permutation.
From Verif Require Import QcTac Model_Base Model_Geometry Model_Contour Spec_Base Spec_Segment Spec_Clip Spec_Contour Spec_Relate Spec_Shaped Spec_Tight
  Proof_Base Proof_Line Proof_SegRel Proof_SegOps Proof_Relate6 Proof_Edges Proof_Locate Proof_Locate3 Proof_Locate4 Proof_Sweep4 Proof_Sweep6 Proof_Parity Proof_Corner Proof_Ray Proof_Orient Proof_Nested Proof_Nested2
  Proof_RelateP Proof_Odd Proof_Clip Proof_Ready Proof_RelShaped6.
Import ListNotations.
Local Open Scope Qc_scope.

Section Near.
Variable eps : Qc.
Notation X := (Xs eps).
Lemma nudge_near (segs : list segment) (q : point) (b : Qc) : 0 < b -> Forall (sound_edge eps) segs ->
  (forall e, In e segs -> X (lo e) <> X q /\ X (hi e) <> X q) ->
  exists d', 0 < d' /\ d' < b /\ let up := spot eps (X q) (py q + d') in let down := spot eps (X q) (py q - d') in
    ~ on_segs segs up /\ ~ on_segs segs down
    /\ forall e, In e segs -> (on_seg e q -> below_seg eps up e = true /\ below_seg eps down e = false)
       /\ (~ on_seg e q -> below_seg eps up e = below_seg eps down e).
Proof.
  intros Pb Sd Gn. rewrite Forall_forall in Sd.
  destruct (gap_round (map (fun e => height eps e (X q)) segs) (py q)) as (d & Pd & Gp).
  assert (Mm : exists m, 0 < m /\ m <= d /\ m <= b) by (destruct (Qclt_le_dec d b) as [Q|Q]; [exists d|exists b]; repeat split; qlra).
  destruct Mm as (m & M0 & M1 & M2). destruct (qmid 0 m M0) as (d' & D1 & D2).
  assert (Gp' : forall e, In e segs -> height eps e (X q) <> py q -> height eps e (X q) < py q - d \/ py q + d < height eps e (X q)).
  { intros e I. apply Gp. apply in_map_iff. exists e. auto. }
  exists d'. split; auto. split; [qlra|]. cbv zeta.
  assert (Xu : X (spot eps (X q) (py q + d')) = X q) by apply spot_X.
  assert (Xd : X (spot eps (X q) (py q - d')) = X q) by apply spot_X.
  assert (Hq : forall e, In e segs -> height eps e (X q) <> py q + d' /\ height eps e (X q) <> py q - d').
  { intros e I. destruct (Qc_eq_dec (height eps e (X q)) (py q)) as [Q|Q]; [rewrite Q; split; intros R; qlra|].
    destruct (Gp' e I Q); split; intros R; qlra. }
  split; [|split].
  - intros (e & I & O). apply (on_height eps) in O; auto. rewrite Xu in O. cbn [spot py] in O. destruct (Hq e I). auto.
  - intros (e & I & O). apply (on_height eps) in O; auto. rewrite Xd in O. cbn [spot py] in O. destruct (Hq e I). auto.
  - intros e I. rewrite !below_height by auto. rewrite Xu, Xd. cbn [spot py]. destruct (Gn e I) as [N1 N2]. split.
    + intros O. pose proof (on_height eps e q (Sd e I) O) as Py. pose proof (on_between eps e q (Sd e I) O) as [B1 B2].
      rewrite (qltb_yes (X (lo e))), (qltb_yes (X q)). cbn [andb]. rewrite <- Py.
      * rewrite (qltb_yes (py q)), (qltb_not (py q) (py q - d')) by qlra. auto.
      * apply Qcle_lt_or_eq in B2. destruct B2; auto. congruence.
      * apply Qcle_lt_or_eq in B1. destruct B1; auto. congruence.
    + intros O. destruct (qltb (X (lo e)) (X q)) eqn:B1; auto. destruct (qltb (X q) (X (hi e))) eqn:B2; auto. cbn [andb].
      apply qltb_true in B1. apply qltb_true in B2.
      assert (Nq : height eps e (X q) <> py q) by (intros Q; apply O, (between_on eps); auto; qlra).
      destruct (Gp' e I Nq) as [L|L].
      * rewrite !qltb_yes by qlra. auto.
      * rewrite !qltb_not by qlra. auto.
Qed.
(** A point of the edge near a given one in a column that is none of the given ones. *)
Lemma walk_near (T : list Qc) e x d : 0 < d -> sound_edge eps e -> on_seg e x ->
  exists x', on_seg e x' /\ ~ In (X x') T /\ close_to d x x'.
Proof.
  intros Pd Se Oe. destruct (on_between eps e x Se Oe) as [B1 B2].
  assert (Ww : exists w, (w = lo e \/ w = hi e) /\ X w <> X x).
  { unfold sound_edge in Se. destruct (Qc_eq_dec (X (hi e)) (X x)) as [E|E]; [exists (lo e)|exists (hi e)]; split; auto. intros Q. qlra. }
  destruct Ww as (w & W & Nw). assert (Ow : on_seg e w).
  { unfold on_seg. destruct W as [-> | ->], (lo_hi e) as [[Q1 Q2]|[Q1 Q2]]; rewrite ?Q1, ?Q2; auto using between_start, between_end. }
  destruct (column_above (map (fun t => (t - X x) / (X w - X x)) T) 0) as (u & U0 & U).
  destruct (stays_less (px x - d) (px x) 0 (px w - px x)) as (d1 & P1 & E1); [qlra|].
  destruct (stays_less (px x) (px x + d) (px w - px x) 0) as (d2 & P2 & E2); [qlra|].
  destruct (stays_less (py x - d) (py x) 0 (py w - py x)) as (d3 & P3 & E3); [qlra|].
  destruct (stays_less (py x) (py x + d) (py w - py x) 0) as (d4 & P4 & E4); [qlra|].
  assert (Least : forall a b : Qc, 0 < a -> 0 < b -> exists m, 0 < m /\ m <= a /\ m <= b) by (clear; intros a b A B; destruct (Qclt_le_dec a b); [exists a|exists b]; repeat split; qlra).
  destruct (Least d1 d2 P1 P2) as (m1 & Q1 & Q2 & Q3). destruct (Least d3 d4 P3 P4) as (m2 & Q4 & Q5 & Q6).
  destruct (Least m1 m2 Q1 Q4) as (m3 & Q7 & Q8 & Q9). assert (One : 0 < 1) by (vm_compute; reflexivity).
  destruct (Least u 1 U0 One) as (m4 & Q10 & Q11 & Q12). destruct (Least m3 m4 Q7 Q10) as (m5 & Q13 & Q14 & Q15).
  destruct (qmid 0 m5 Q13) as (s & S0 & S1). clear Least.
  exists (lerp x w s). split; [|split].
  - pose proof (on_height eps e x Se Oe) as Hx. pose proof (on_height eps e w Se Ow) as Hw. destruct (on_between eps e w Se Ow) as [W1 W2].
    apply between_on with (eps := eps); auto; rewrite ?X_lerp.
    + assert (0 <= s * (X w - X (lo e))) by (apply Qcmult_nonneg; qlra). assert (0 <= (1 - s) * (X x - X (lo e))) by (apply Qcmult_nonneg; qlra).
      replace (X x + s * (X w - X x)) with (X (lo e) + s * (X w - X (lo e)) + (1 - s) * (X x - X (lo e))) by ring. qlra.
    + assert (0 <= s * (X (hi e) - X w)) by (apply Qcmult_nonneg; qlra). assert (0 <= (1 - s) * (X (hi e) - X x)) by (apply Qcmult_nonneg; qlra).
      replace (X x + s * (X w - X x)) with (X (hi e) - s * (X (hi e) - X w) - (1 - s) * (X (hi e) - X x)) by ring. qlra.
    + unfold lerp; cbn [py]. rewrite (height_lerp eps e (X x) (X x + s * (X w - X x))) by auto. rewrite (height_lerp eps e (X x) (X w)) in Hw by auto. rewrite <- Hx in *.
      set (k := (py (hi e) - py (lo e)) / (X (hi e) - X (lo e))) in *. clearbody k. rewrite Hw. ring.
  - intros I. rewrite X_lerp in I. assert (D : X w - X x <> 0) by (intros Q; apply Nw; qlra).
    assert (L : u < s); [|qlra]. apply U; [|exact S0]. apply in_map_iff. exists (X x + s * (X w - X x)). split; auto. field. exact D.
  - unfold close_to, lerp. cbn [px py]. specialize (E1 s ltac:(qlra) ltac:(qlra)). specialize (E2 s ltac:(qlra) ltac:(qlra)).
    specialize (E3 s ltac:(qlra) ltac:(qlra)). specialize (E4 s ltac:(qlra) ltac:(qlra)).
    replace (px x - d + s * 0) with (px x - d) in E1 by ring. replace (px x + d + s * 0) with (px x + d) in E2 by ring.
    replace (py x - d + s * 0) with (py x - d) in E3 by ring. replace (py x + d + s * 0) with (py x + d) in E4 by ring. auto.
Qed.
End Near.

Lemma halves d : 0 < d -> exists h, 0 < h /\ h + h = d.
Proof. intros P. exists (d / (1 + 1)). split; [|field; discriminate]. assert (E : d / (1 + 1) + d / (1 + 1) = d) by (field; discriminate). qlra. Qed.

Lemma FOP_split {T} (R : T -> T -> Prop) l1 e l2 : (forall x y, R x y -> R y x) -> ForallOrdPairs R (l1 ++ e :: l2) -> forall y, In y (l1 ++ l2) -> R e y.
Proof.
  intros Sy F y I. induction l1 as [|a l1 IH]; cbn [app] in *; inversion F as [|? ? F1 F2]; subst.
  - rewrite Forall_forall in F1. auto.
  - destruct I as [<-|I]; auto. rewrite Forall_forall in F1. apply Sy, F1. apply in_or_app; right; left; auto.
Qed.
(** The columns where an edge meets edges that it shares no piece with. *)
Lemma meeting_columns eps e l : proper_seg e -> Forall proper_seg l -> (forall y, In y l -> ~ share_continuum e y) ->
  exists T, forall y x, In y l -> on_seg e x -> on_seg y x -> In (Xs eps x) T.
Proof.
  intros Pe. induction 1 as [|y l Py Fl IH]; intros No; [exists []; intros y x []|].
  destruct IH as (T & HT); [intros z I; apply No; right; auto|].
  destruct (not_share_cases e y Pe Py (No y (or_introl eq_refl))) as [(p & (A & B & C) & _)|[(p & (A & B & C) & _)|D]].
  - exists (Xs eps p :: T). intros z x [<-|I] O1 O2; [left; rewrite (C x); auto|right; apply (HT z); auto].
  - exists (Xs eps p :: T). intros z x [<-|I] O1 O2; [left; rewrite (C x); auto|right; apply (HT z); auto].
  - exists T. intros z x [<-|I] O1 O2; [exfalso; apply D; exists x; auto|apply (HT z); auto].
Qed.
(** A list of edges with an even number of ends everywhere that an edge is a part of exactly one of. *)
Definition crosses_once (S0 : list segment) (e : segment) (R : list segment) : Prop :=
  incl R S0 /\ no_overlaps R /\ even_ends R /\ exists e', In e' R /\ seg_subset e e'.
Lemma once_columns eps S0 e Rs : proper_seg e -> Forall (crosses_once S0 e) Rs ->
  exists T, forall R x, In R Rs -> on_seg e x -> ~ In (Xs eps x) T -> exists R1 e' R2, R = R1 ++ e' :: R2 /\ on_seg e' x /\ forall y, In y (R1 ++ R2) -> ~ on_seg y x.
Proof.
  intros Pe. induction 1 as [|R Rs (In_ & [PR NR] & Ev & e' & Ie & Sb) F IH]; [exists []; intros R x []|].
  destruct IH as (T & HT). apply in_split in Ie. destruct Ie as (R1 & R2 & ->).
  assert (No : forall y, In y (R1 ++ R2) -> ~ share_continuum e y).
  { intros y I Sh. apply (FOP_split (fun s t => ~ share_continuum s t) R1 e' R2) with (y := y) in NR; auto.
    - apply NR. destruct Sh as (p & q & N & A & B & C & D). exists p, q. auto 6.
    - intros a b N Q. apply N, share_continuum_sym; auto. }
  destruct (meeting_columns eps e (R1 ++ R2) Pe) as (T' & HT'); auto.
  { rewrite Forall_forall in *. intros y I. apply PR. apply in_app_or in I. apply in_or_app. destruct I; [left|right; right]; auto. }
  exists (T' ++ T). intros R x [<-|I] O Nx.
  - exists R1, e', R2. split; auto. split; auto. intros y I Oy. apply Nx, in_or_app. left. apply (HT' y); auto.
  - apply (HT R x); auto. intros J. apply Nx, in_or_app. auto.
Qed.

(** Two points near a point of an edge, on its two sides: the parity of every list that the edge is
    a part of once is not the same at them. *)
Theorem flip_near S0 (F : list point) e x d (Rs : list (list segment)) : Forall proper_seg S0 -> proper_seg e -> on_seg e x -> 0 < d -> Forall (crosses_once S0 e) Rs ->
  exists m up down, on_seg e m /\ px up < px m /\ px m < px down /\ py down < py m /\ py m < py up
    /\ (forall z, z = up \/ z = down -> close_to d x z /\ ~ In z F /\ ~ on_segs S0 z)
    /\ forall R, In R Rs -> parity R up = negb (parity R down).
Proof.
  intros PS0 Pre Oe Pd Once. set (S1 := e :: S0).
  destruct (eps_exists (ends_of S1 ++ F)) as (eps & Pe & Ri0).
  assert (Ri : rising eps (ends_of S1)) by (intros p r Ip Ir; apply Ri0; apply in_or_app; auto).
  assert (Sd : Forall (sound_edge eps) S1) by (apply sound_all; auto; constructor; auto).
  assert (Se : sound_edge eps e) by (inversion Sd; auto).
  destruct (halves d Pd) as (h & Ph & Eh).
  destruct (once_columns eps S0 e Rs Pre Once) as (T & HT).
  destruct (walk_near eps (T ++ map (Xs eps) (ends_of S1 ++ F)) e x h Ph Se Oe) as (x' & Ox & Nx & Ne).
  assert (Gn : forall w, In w (ends_of S1) -> Xs eps w <> Xs eps x').
  { intros w I E. apply Nx. apply in_or_app. right. rewrite <- E. apply in_map, in_or_app. auto. }
  assert (Gs : forall y, In y S1 -> Xs eps (seg_start y) <> Xs eps x' /\ Xs eps (seg_end y) <> Xs eps x').
  { intros y I. split; apply Gn; unfold ends_of; apply in_flat_map; exists y; cbn; auto. }
  assert (Pe1 : 0 < eps + 1) by (assert (0 < 1) by (vm_compute; reflexivity); qlra).
  assert (Bb : exists b, 0 < b /\ (eps + 1) * b = h).
  { exists (h / (eps + 1)). assert (D : eps + 1 <> 0) by (intros Q; qlra). assert (E : (eps + 1) * (h / (eps + 1)) = h) by (field; exact D). split; auto.
    apply Qcnot_le_lt. intros L. assert ((eps + 1) * (h / (eps + 1)) <= 0) by qnra. qlra. }
  destruct Bb as (b & Pb & Eb).
  destruct (nudge_near eps S1 x' b Pb Sd) as (d' & D0 & D1 & Ou & Od & Bl).
  { intros y I. destruct (Gs y I), (lo_hi y) as [[-> ->]|[-> ->]]; auto. }
  assert (M1 : 0 < eps * d') by (apply Qcmult_pos; auto). assert (M2 : (eps + 1) * d' < h) by (rewrite <- Eb; qnra).
  assert (M3 : (eps + 1) * d' = eps * d' + d') by ring.
  set (up := spot eps (Xs eps x') (py x' + d')) in *. set (down := spot eps (Xs eps x') (py x' - d')) in *.
  assert (Eu : px up = px x' - eps * d') by (unfold up, spot, Xs; cbn [px]; ring).
  assert (Ed : px down = px x' + eps * d') by (unfold down, spot, Xs; cbn [px]; ring).
  assert (Yu : py up = py x' + d') by reflexivity. assert (Yd : py down = py x' - d') by reflexivity.
  assert (Xz : forall z, z = up \/ z = down -> Xs eps z = Xs eps x') by (intros z [-> | ->]; apply spot_X).
  exists x', up, down. rewrite Eu, Ed, Yu, Yd. split; auto. split; [qlra|]. split; [qlra|]. split; [qlra|]. split; [qlra|]. split.
  - intros z Z. split; [|split].
    + unfold close_to in *. destruct Ne as (N1 & N2 & N3 & N4). destruct Z as [-> | ->]; rewrite ?Eu, ?Ed, ?Yu, ?Yd; repeat split; qlra.
    + intros I; apply Nx; apply in_or_app; right; rewrite <- (Xz z Z); apply in_map, in_or_app; auto.
    + intros (y & I & O). assert (Oz : ~ on_segs S1 z) by (destruct Z as [-> | ->]; auto). apply Oz. exists y. split; auto. right; auto.
  - intros R IR. rewrite Forall_forall in Once. destruct (Once R IR) as (Inc & _ & Ev & _).
    destruct (HT R x' IR Ox) as (R1 & e' & R2 & ER & Oe' & Al); [intros I; apply Nx, in_or_app; auto|].
    assert (Inc' : forall y, In y R -> In y S1) by (intros y I; right; apply Inc; auto).
    assert (Pb' : forall z, z = up \/ z = down -> parity R z = xsum (below_seg eps z) R).
    { intros z Z. apply parity_below; auto.
      - intros (y & I & O). assert (Oz : ~ on_segs S1 z) by (destruct Z as [-> | ->]; auto). apply Oz. exists y. auto.
      - intros w I. rewrite (Xz z Z). apply Gn. unfold ends_of in *. apply in_flat_map in I. destruct I as (y & I & J). apply in_flat_map. exists y. auto. }
    rewrite (Pb' up), (Pb' down) by auto. rewrite ER in Inc' |- *.
    assert (A0 : below_seg eps up e' = true /\ below_seg eps down e' = false).
    { destruct (Bl e') as [Be _]; [apply Inc'; apply in_or_app; right; left; auto|]. auto. }
    assert (A1 : xsum (below_seg eps up) R1 = xsum (below_seg eps down) R1).
    { apply xsum_ext. intros y I. destruct (Bl y) as [_ Bx]; [apply Inc', in_or_app; left; auto|]. apply Bx, Al, in_or_app; auto. }
    assert (A2 : xsum (below_seg eps up) R2 = xsum (below_seg eps down) R2).
    { apply xsum_ext. intros y I. destruct (Bl y) as [_ Bx]; [apply Inc', in_or_app; right; right; auto|]. apply Bx, Al, in_or_app; auto. }
    rewrite !xsum_app. cbn [xsum]. destruct A0 as [-> ->]. rewrite A1, A2. clear. generalize (xsum (below_seg eps down) R1) (xsum (below_seg eps down) R2). intros [] []; reflexivity.
Qed.

Theorem both_near R S (F : list point) x d : no_overlaps R -> even_ends R -> Forall proper_seg S -> on_segs R x -> 0 < d ->
  forall v : bool, exists z, close_to d x z /\ ~ In z F /\ ~ on_segs R z /\ ~ on_segs S z /\ parity R z = v.
Proof.
  intros No Ev PS (e & Ie & Oe) Pd v. assert (Pr := proj1 No). assert (Pre : proper_seg e) by (rewrite Forall_forall in Pr; auto).
  destruct (flip_near (R ++ S) F e x d [R]) as (_ & up & down & _ & _ & _ & _ & _ & Cl & Fl); auto.
  - apply Forall_app; auto.
  - constructor; auto. split; [intros y I; apply in_or_app; auto|]. split; auto. split; auto. exists e. split; auto. intros y O; exact O.
  - specialize (Fl R (or_introl eq_refl)).
    assert (Z : forall z, z = up \/ z = down -> close_to d x z /\ ~ In z F /\ ~ on_segs R z /\ ~ on_segs S z).
    { intros z Q. destruct (Cl z Q) as (C1 & C2 & C3). split; auto. split; auto. split; intros (y & I & O); apply C3; exists y; split; auto; apply in_or_app; auto. }
    destruct (Bool.bool_dec (parity R down) v) as [E|E].
    + exists down. destruct (Z down) as (Z1 & Z2 & Z3 & Z4); auto.
    + exists up. destruct (Z up) as (Z1 & Z2 & Z3 & Z4); auto. split; auto. split; auto. split; auto. split; auto. rewrite Fl. destruct v, (parity R down); cbn; congruence.
Qed.
Lemma no_overlaps_nc l : non_crossing l -> no_overlaps l.
Proof.
  intros [P F]. split; auto. clear P. induction F as [|a l F1 F2 IH]; constructor; auto. rewrite Forall_forall in *. intros b I. apply Proof_Relate6.tod_no_share; auto.
Qed.
