(** Relating polygons, part 7: what the flags say about points. *)
From Coq Require Import QArith Qcanon Bool List Arith Lia.
From Verif Require Import QcTac Model_Base Model_Utils Model_Geometry Model_Contour Model_Linear Model_Mixed Model_Shaped Model_Relate Model_RelateLinear Model_RelateShaped
  Spec_Base Spec_Segment Spec_Clip Spec_Contour Spec_Relate Spec_Sweep Spec_Shaped
  Proof_Base Proof_Line Proof_Edges Proof_Locate Proof_Locate3 Proof_Locate4 Proof_Sweep Proof_Sweep4 Proof_Sweep6 Proof_Sweep8 Proof_Sweep15 Proof_Sweep18 Proof_Parity
  Proof_Flags Proof_Flags3 Proof_Corner Proof_Region Proof_Select Proof_Ray Proof_Orient Proof_Nested Proof_Nested2 Proof_Bridge
  Proof_RelateP Proof_Odd Proof_Clip Proof_Ready Proof_RelSweep4 Proof_RelShaped2 Proof_RelShaped3 Proof_RelShaped4 Proof_RelShaped5 Proof_RelShaped6.
Import ListNotations.
Local Open Scope Qc_scope.

(** Inside by the parity of the edges, and in the region. *)
Definition inn (l : list segment) (x : point) : Prop := ~ on_segs l x /\ parity l x = true.
Definition reg (l : list segment) (x : point) : Prop := on_segs l x \/ inn l x.

Section Transfer.
Variables ra rb : list (list point).
Notation A := (outlines ra). Notation B := (outlines rb).
Variable eps : Qc.
Notation X := (Xs eps).
Notation c := (the_ctx A B eps).
Notation op := (opf A B).
Hypothesis NA : non_crossing A.
Hypothesis NB : non_crossing B.
Hypothesis G : good c.
Lemma ops b : op b = outlines (if b then ra else rb). Proof. destruct b; reflexivity. Qed.
Lemma nc_op b : non_crossing (op b). Proof. destruct b; auto. Qed.
Lemma even_op b : even_ends (op b). Proof. rewrite ops. apply even_outlines. Qed.
Lemma snd_op b : Forall (sound_edge eps) (op b).
Proof. apply Forall_forall. intros e I. apply (operand_sound A B eps G b e I). Qed.
Lemma snd_all : Forall (sound_edge eps) (A ++ B).
Proof. apply Forall_app. split; [apply (snd_op true)|apply (snd_op false)]. Qed.
Lemma ends_pts b v : In v (ends_of (op b)) -> In v (c_pts c).
Proof.
  intros I. unfold ends_of in I. apply in_flat_map in I. destruct I as (e & I & J). apply (end_in A B eps G b e v I).
  apply end_of. cbn in J. destruct J as [<-|[<-|[]]]; auto.
Qed.
Lemma generic_ends t b v : generic c t -> In v (ends_of (op b)) -> X v <> t.
Proof. intros Gt I. exact (Gt v (ends_pts b v I)). Qed.
Lemma off_both x : ~ on_segs (A ++ B) x <-> ~ on_segs A x /\ ~ on_segs B x.
Proof.
  split.
  - intros O. split; intros (e & I & Q); apply O; exists e; split; auto; apply in_or_app; auto.
  - intros [O1 O2] (e & I & Q). apply in_app_or in I. destruct I; [apply O1|apply O2]; exists e; auto.
Qed.
Lemma parity_op b x : generic c (X x) -> ~ on_segs (op b) x -> parity (op b) x = xsum (below_seg eps x) (op b).
Proof. intros Gx O. apply parity_below; auto; [|apply even_op]. intros v I. apply (generic_ends _ b); auto. Qed.
Lemma spot_same x : spot eps (X x) (py x) = x.
Proof. unfold spot, Xs. apply point_ext; cbn; ring. Qed.
Lemma ends_all v t : generic c t -> In v (ends_of (A ++ B)) -> X v <> t.
Proof.
  intros Gt I. rewrite ends_app in I. apply in_app_or in I. destruct I as [I|I]; [apply (generic_ends t true)|apply (generic_ends t false)]; auto.
Qed.
Lemma lohi_ends l e : In e l -> In (lo e) (ends_of l) /\ In (hi e) (ends_of l).
Proof.
  intros I. assert (J : forall v, v = seg_start e \/ v = seg_end e -> In v (ends_of l)).
  { intros v Q. unfold ends_of. apply in_flat_map. exists e. split; auto. cbn. intuition. }
  destruct (lo_hi e) as [[-> ->]|[-> ->]]; auto.
Qed.

Lemma area_point f : area A B eps f -> exists x, ~ on_segs A x /\ ~ on_segs B x /\ f (parity A x) (parity B x) = true.
Proof.
  intros (t & y & Gt & F). set (q := spot eps t y). assert (Xq : X q = t) by apply spot_X.
  destruct (nudge eps (A ++ B) q snd_all) as (up & dn & Xu & Xd & Ou & Od & Bl).
  { intros e I. rewrite Xq. destruct (lohi_ends _ e I). split; apply ends_all; auto. }
  apply off_both in Od. destruct Od as [OA OB]. exists dn. split; auto. split; auto.
  assert (Gd : generic c (X dn)) by (rewrite Xd, Xq; auto).
  assert (Sm : forall b, parity (op b) dn = inp c t b y).
  { intros b. rewrite parity_op; auto; [|destruct b; auto]. rewrite (inp_below A B eps G t b y). fold q. apply xsum_ext. intros e I.
    destruct (Bl e) as [B1 B2]; [apply in_or_app; destruct b; auto|].
    destruct (between_dec (seg_start e) (seg_end e) q) as [O|O].
    - destruct (B1 O) as (-> & _ & ->). reflexivity.
    - destruct (B2 O) as (_ & ->). reflexivity. }
  pose proof (Sm true) as S1. pose proof (Sm false) as S2. cbn [opf] in S1, S2. rewrite S1, S2. exact F.
Qed.
Lemma point_area f x : ~ on_segs A x -> ~ on_segs B x -> f (parity A x) (parity B x) = true -> area A B eps f.
Proof.
  intros OA OB F. destruct (creep eps (A ++ B) (map X (c_pts c)) x (Pt (px x + 1) (py x)) snd_all) as (s & S0 & S1 & Nt & Of).
  { apply off_both. auto. }
  { unfold Xs. cbn. intros E. qlra. }
  set (x' := lerp x (Pt (px x + 1) (py x)) s) in *. exists (X x'), (py x').
  assert (Gx : generic c (X x')) by (intros v I E; apply Nt; rewrite <- E; apply (in_map X); auto).
  split; auto. rewrite !(inp_below A B eps G), spot_same.
  assert (Sm : forall b, xsum (below_seg eps x') (op b) = parity (op b) x).
  { intros b. assert (Of' : forall y, on_seg (Seg x x') y -> ~ on_segs (op b) y) by (intros y O; destruct (proj1 (off_both y) (Of y O)); destruct b; auto).
    rewrite <- parity_op; auto; [|apply Of', between_end]. rewrite ops in *. symmetry. apply parity_way. exact Of'. }
  rewrite !Sm. exact F.
Qed.

(** The other operand below an edge that does not overlap it. *)
Lemma oth_below i e t : nth_error (A ++ B) i = Some e -> (forall j, In j (idx c (negb (opd c i))) -> spans c j t = true -> H c j t <> H c i t) ->
  oth c i t = xsum (below_seg eps (spot eps t (height eps e t))) (op (negb (opd c i))).
Proof.
  intros E Ne. rewrite <- (inp_below A B eps G). rewrite <- (H_height A B eps i e t E). unfold oth, cnt, inp. apply xsum_ext. intros j Ij.
  unfold term, bel. destruct (spans c j t) eqn:Sj; auto. cbn [andb]. specialize (Ne j Ij Sj).
  replace (qeqb (H c j t) (H c i t)) with false; [rewrite orb_false_r; auto|]. destruct (qeqb_spec (H c j t) (H c i t)); congruence.
Qed.
Lemma on_spot b e t : In e (op b) -> spanb eps t e = true -> on_seg e (spot eps t (height eps e t)).
Proof.
  intros I Sp. apply spanb_true in Sp. assert (Se : sound_edge eps e) by (pose proof (snd_op b) as Q; rewrite Forall_forall in Q; auto).
  apply between_on with (eps := eps); auto; rewrite spot_X; auto; qlra.
Qed.
Lemma on_generic b e x : In e (op b) -> on_seg e x -> generic c (X x) -> spanb eps (X x) e = true /\ py x = height eps e (X x).
Proof.
  intros I O Gx. assert (Se : sound_edge eps e) by (pose proof (snd_op b) as Q; rewrite Forall_forall in Q; auto).
  destruct (on_between eps e x Se O) as [B1 B2]. destruct (lohi_ends _ e I) as [L1 L2].
  pose proof (generic_ends _ b _ Gx L1) as N1. pose proof (generic_ends _ b _ Gx L2) as N2.
  split; [|apply on_height; auto]. apply spanb_true. split; apply Qcnot_le_lt; intros Q; [apply N1|apply N2]; qlra.
Qed.
Lemma wcol_point b t i : generic c t -> wcol c b t i -> exists x, on_segs (op b) x /\ inn (op (negb b)) x.
Proof.
  intros Gt (Ii & Sp & Ot & Ne). apply idx_In in Ii. destruct Ii as [Li Oi]. destruct (nth_some A B eps i Li) as (e & E).
  pose proof (nth_operand A B eps i e E) as Ie. rewrite Oi in Ie. rewrite (spans_span A B eps i e t E) in Sp.
  set (x := spot eps t (height eps e t)). assert (Xx : X x = t) by apply spot_X. exists x. split; [exists e; split; auto; apply (on_spot b); auto|].
  assert (Off : ~ on_segs (op (negb b)) x).
  { intros (g & Ig & Og). destruct (on_generic (negb b) g x Ig Og) as [Sg Hg]; [rewrite Xx; auto|]. rewrite Xx in Sg, Hg.
    destruct (operand_nth A B eps (negb b) g Ig) as (j & Ej & Oj). apply (Ne j).
    - apply idx_In. split; auto. apply (some_lt A B eps j g Ej).
    - rewrite (spans_span A B eps j g t Ej). auto.
    - rewrite (H_height A B eps j g t Ej), (H_height A B eps i e t E). exact (eq_sym Hg). }
  split; auto. rewrite parity_op; auto; [|rewrite Xx; auto]. rewrite <- Ot. rewrite (oth_below i e t E); [rewrite Oi; auto|rewrite Oi; exact Ne].
Qed.
Lemma point_wcol b x : on_segs (op b) x -> inn (op (negb b)) x -> exists t i, generic c t /\ wcol c b t i.
Proof.
  intros (e & Ie & Oe) [Off Pa]. assert (Se : sound_edge eps e) by (pose proof (snd_op b) as Q; rewrite Forall_forall in Q; auto).
  destruct (slide eps (op (negb b)) (map X (c_pts c)) e x Se Oe (snd_op (negb b)) Off) as (x' & Ox & Nt & Of).
  assert (Gx : generic c (X x')) by (intros v I E; apply Nt; rewrite <- E; apply (in_map X); auto).
  assert (Of' : ~ on_segs (op (negb b)) x') by (apply Of, between_end).
  assert (Pa' : parity (op (negb b)) x' = true).
  { rewrite <- Pa. rewrite ops in *. symmetry. apply parity_way. exact Of. }
  destruct (operand_nth A B eps b e Ie) as (i & E & Oi). exists (X x'), i. split; auto.
  destruct (on_generic b e x' Ie Ox Gx) as [Sp Hx].
  assert (Ne : forall j, In j (idx c (negb b)) -> spans c j (X x') = true -> H c j (X x') <> H c i (X x')).
  { intros j Ij Sj Hj. apply idx_In in Ij. destruct Ij as [Lj Oj]. destruct (nth_some A B eps j Lj) as (g & Eg).
    pose proof (nth_operand A B eps j g Eg) as Ig. rewrite Oj in Ig. rewrite (spans_span A B eps j g _ Eg) in Sj.
    rewrite (H_height A B eps j g _ Eg), (H_height A B eps i e _ E), <- Hx in Hj.
    apply Of'. exists g. split; auto. pose proof (on_spot (negb b) g (X x') Ig Sj) as Q. rewrite Hj, spot_same in Q. exact Q. }
  split; [apply idx_In; split; auto; apply (some_lt A B eps i e E)|]. split; [rewrite (spans_span A B eps i e _ E); auto|]. split; auto.
  rewrite (oth_below i e _ E); [|rewrite Oi; exact Ne]. rewrite Oi, <- Hx, spot_same. rewrite <- parity_op; auto.
Qed.
(** Both sides of the outline of an operand off the other one. *)
Lemma both_sides b x v : on_segs (op b) x -> ~ on_segs (op (negb b)) x ->
  exists z, ~ on_segs A z /\ ~ on_segs B z /\ parity (op b) z = v /\ parity (op (negb b)) z = parity (op (negb b)) x.
Proof.
  intros (e & Ie & Oe) Off. assert (Se : sound_edge eps e) by (pose proof (snd_op b) as Q; rewrite Forall_forall in Q; auto).
  destruct (slide eps (op (negb b)) (map X (c_pts c)) e x Se Oe (snd_op (negb b)) Off) as (x' & Ox & Nt & Of).
  assert (Gx : generic c (X x')) by (intros w I E; apply Nt; rewrite <- E; apply (in_map X); auto).
  assert (Of' : ~ on_segs (op (negb b)) x') by (apply Of, between_end).
  destruct (sides eps (op b) (op (negb b)) e x' (nc_op b) Ie) with (v := v) as (z & Xz & Oz & Z1 & Z2); auto.
  - apply Forall_app. split; apply snd_op.
  - intros w I. rewrite ends_app in I. apply in_app_or in I. destruct I as [I|I]; [apply (generic_ends _ b)|apply (generic_ends _ (negb b))]; auto.
  - assert (Oz' : forall f, ~ on_segs (op f) z).
    { intros f (g & Ig & Og). apply Oz. exists g. split; auto. apply in_or_app. destruct b, f; auto. }
    exists z. split; [apply (Oz' true)|]. split; [apply (Oz' false)|].
    assert (Gz : generic c (X z)) by (rewrite Xz; auto).
    rewrite (parity_op b z), (parity_op (negb b) z); auto. split; auto. rewrite Z2. rewrite <- parity_op; auto. clear - Of. rewrite ops in *. symmetry. apply parity_way. exact Of.
Qed.

(** What the verdict says about the points. *)
Definition lies (b : bool) : Prop := forall x, reg (op b) x -> reg (op (negb b)) x.
Lemma area_minus b : area A B eps (minus b) <-> exists x, inn (op b) x /\ ~ reg (op (negb b)) x.
Proof.
  split.
  - intros Ar. apply area_point in Ar. destruct Ar as (x & OA & OB & M). exists x. unfold inn, reg, inn, minus in *.
    destruct b; cbn [opf negb] in *; apply andb_true_iff in M; destruct M as [M1 M2]; [apply negb_true_iff in M2|apply negb_true_iff in M1];
      (split; [split; auto|intros [O|[O P]]; [auto|congruence]]).
  - intros (x & [O P] & Nr). assert (O' : ~ on_segs (op (negb b)) x) by (intros Q; apply Nr; left; auto).
    assert (P' : parity (op (negb b)) x = false) by (destruct (parity (op (negb b)) x) eqn:E; auto; exfalso; apply Nr; right; split; auto).
    apply (point_area _ x); [destruct b; auto|destruct b; auto|]. unfold minus. destruct b; cbn [opf negb] in *; rewrite P, P'; auto.
Qed.
Lemma area_both : area A B eps andb <-> exists x, inn A x /\ inn B x.
Proof.
  split.
  - intros Ar. apply area_point in Ar. destruct Ar as (x & OA & OB & M). apply andb_true_iff in M. exists x. unfold inn. tauto.
  - intros (x & [O P] & [O' P']). apply (point_area _ x); auto. rewrite P, P'. auto.
Qed.
Lemma lies_area b : lies b <-> ~ area A B eps (minus b).
Proof.
  rewrite area_minus. split.
  - intros L (x & I & N). apply N, L. right; auto.
  - intros N x R.
    assert (D : ~ on_segs (op (negb b)) x -> parity (op (negb b)) x = false -> False).
    { intros Off Pf. destruct R as [On|In].
      - destruct (both_sides b x true On Off) as (z & ZA & ZB & Z1 & Z2). apply N. exists z.
        split; [split; [destruct b; auto|auto]|]. intros [O|[_ Q]]; [destruct b; auto|congruence].
      - apply N. exists x. split; auto. intros [O|[_ Q]]; [auto|congruence]. }
    destruct (on_segs_dec (op (negb b)) x) as [O|O]; [left; auto|]. right. split; auto.
    destruct (parity (op (negb b)) x) eqn:E; [reflexivity|destruct (D O eq_refl)].
Qed.
(** An outline in the interior of the other operand leaves some of it uncovered. *)
Lemma inner_outline b x : on_segs (op b) x -> inn (op (negb b)) x -> ~ lies (negb b) /\ exists z, inn A z /\ inn B z.
Proof.
  intros On [Off Pa]. split.
  - intros L. apply lies_area in L. apply L. apply area_minus. destruct (both_sides b x false On Off) as (z & ZA & ZB & Z1 & Z2). exists z.
    split; [split; [destruct b; auto|congruence]|]. rewrite negb_involutive. intros [O|[_ Q]]; [destruct b; auto|congruence].
  - destruct (both_sides b x true On Off) as (z & ZA & ZB & Z1 & Z2). exists z. rewrite Pa in Z2. unfold inn. destruct b; cbn [opf negb] in *; auto.
Qed.
End Transfer.
