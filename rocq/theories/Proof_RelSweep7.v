(** Relating multisegments and contours, part 7: from the sweep to [relate_to]. *)
From Coq Require Import QArith Qcanon Bool List Arith Lia.
From Verif Require Import QcTac Model_Base Model_Box Model_Geometry Model_Utils Model_Segment Model_Contour Model_Linear Model_Relate Model_RelateLinear
  Spec_Base Spec_Segment Spec_Clip Spec_Contour Spec_Bounds Spec_Sweep Spec_Relate Spec_RelateLinear
  Proof_Base Proof_Line Proof_SegRel Proof_SegOps Proof_Box Proof_Bounds Proof_Edges Proof_Outline Proof_SegOps2 Proof_Relate Proof_Relate2 Proof_Relate3 Proof_Relate4 Proof_Relate5 Proof_Relate6 Proof_Relate7 Proof_RelateC Proof_RelateC2 Proof_RelateP
  Proof_Sweep Proof_Sweep2 Proof_Sweep3 Proof_Sweep4 Proof_Sweep5 Proof_Sweep6 Proof_Sweep7
  Proof_Sweep8 Proof_Sweep9 Proof_Sweep15 Proof_Sweep18
  Proof_RelSweep Proof_RelSweep4 Proof_RelSweep6.
Import ListNotations.
Local Open Scope Qc_scope.

(** ** Segments that meet at endpoints only *)
Lemma joined_pair_share s t : proper_seg s ->
  (forall p, on_seg s p -> on_seg t p -> endpoint_of s p /\ endpoint_of t p) -> ~ share_continuum s t.
Proof.
  intros P J (p & q & NE & A & B & C & D).
  destruct (J p A B) as (Ep & _). destruct (J q C D) as (Eq & _).
  assert (Both : on_seg t (seg_start s) /\ on_seg t (seg_end s)).
  { destruct Ep as [-> | ->], Eq as [-> | ->]; try congruence; auto. }
  destruct Both as (T1 & T2). set (m := lerp (seg_start s) (seg_end s) (1 / (1 + 1))).
  assert (H : 1 / (1 + 1) + 1 / (1 + 1) = 1) by (field; discriminate).
  assert (Om : between (seg_start s) (seg_end s) m) by (exists (1 / (1 + 1)); repeat split; qlra).
  assert (Ot : on_seg t m) by (apply (between_trans _ _ (seg_start s) (seg_end s)); auto).
  destruct (J m Om Ot) as ([E|E] & _).
  - assert (Q : m = lerp (seg_start s) (seg_end s) 0) by (rewrite lerp_0; auto). apply lerp_inj in Q; auto. qlra.
  - assert (Q : m = lerp (seg_start s) (seg_end s) 1) by (rewrite lerp_1; auto). apply lerp_inj in Q; auto. qlra.
Qed.
Lemma joined_pair_touch s t : proper_seg s -> proper_seg t ->
  (forall p, on_seg s p -> on_seg t p -> endpoint_of s p /\ endpoint_of t p) -> touch_or_disjoint s t.
Proof.
  intros P P' J. destruct (not_share_cases s t P P' (joined_pair_share s t P J)) as [(p & (O1 & O2 & _) & I1 & _)|[K|K]];
    [|left; auto|right; auto].
  exfalso. unfold inside_seg in I1. apply strictly_between_iff in I1; auto. destruct I1 as (_ & N1 & N2).
  destruct (J p O1 O2) as ([E|E] & _); auto.
Qed.
Lemma joined_non_crossing l : joined l -> non_crossing l.
Proof.
  intros [P F]. split; auto. induction F as [|s l Fs F IH]; [constructor|].
  inversion P as [|? ? Ps Pl]; subst. constructor; auto.
  rewrite Forall_forall in *. intros t I. apply joined_pair_touch; auto.
Qed.
Lemma joined_filter f l : joined l -> joined (filter f l).
Proof.
  intros [P F]. split.
  - apply Forall_forall. intros u I. apply filter_In in I. rewrite Forall_forall in P. apply P; tauto.
  - clear P. induction F as [|u l Fu F IH]; cbn; [constructor|]. destruct (f u); auto. constructor; auto.
    apply Forall_forall. intros w I. apply filter_In in I. rewrite Forall_forall in Fu. apply Fu; tauto.
Qed.
Lemma simple_joined vs : simple_contour vs -> joined (edges vs).
Proof.
  intros C. pose proof (simple_outline vs C) as O. split; [apply (ou_proper _ O)|].
  assert (Nd : NoDup (edges vs)).
  { apply (NoDup_map_inv seg_start). rewrite edges_starts. apply C. }
  assert (Q : forall l, NoDup l -> incl l (edges vs) -> ForallOrdPairs
    (fun s t => forall p, on_seg s p -> on_seg t p -> endpoint_of s p /\ endpoint_of t p) l).
  { induction 1 as [|s l NI D IH]; intros Sub; [constructor|]. constructor.
    - apply Forall_forall. intros t I p. apply (proj2 C); [apply Sub; left; auto|apply Sub; right; auto|congruence].
    - apply IH. intros x I. apply Sub. right. auto. }
  apply Q; auto. apply incl_refl.
Qed.
Lemma joined_NoDup l : joined l -> NoDup l.
Proof.
  intros [P F]. induction F as [|s l Fs F IH]; [constructor|]. inversion P as [|? ? Ps Pl]; subst.
  constructor; auto. intros I. rewrite Forall_forall in Fs. apply (joined_pair_share s s Ps (Fs s I)).
  exists (seg_start s), (seg_end s). split; auto. repeat split; try apply between_start; apply between_end.
Qed.
Lemma operand_joined g : joined_operand g -> joined (parts g).
Proof. destruct g; cbn; try tauto. apply simple_joined. Qed.
Lemma operand_constructed g : joined_operand g -> constructed g.
Proof. destruct g; cbn; try tauto. intros C. apply C. Qed.
Lemma operand_parts g : joined_operand g -> segments_of g = parts g.
Proof. destruct g; cbn; try tauto. Qed.
Lemma operand_length g : joined_operand g -> (2 <= length (parts g))%nat.
Proof. destruct g; cbn; try tauto. intros C. pose proof (ou_length _ (simple_outline _ C)). lia. Qed.
Lemma operand_outline g p : joined_operand g -> on_segs (parts g) p -> in_box (bounding_box g) p.
Proof.
  intros J O. apply bounding_box_covers; [apply operand_constructed; auto|]. destruct g; cbn in J; try tauto; exact O.
Qed.

(** ** The relater of a segment *)
(** [F] are segments of [Wh]. *)
Definition relater_ok (Wh F : list segment) (r : relation) (s : segment) : Prop :=
  let subset := forall p, on_seg s p -> on_segs F p in
  let superset := forall p, on_segs F p -> on_seg s p in
  let common := exists p, on_seg s p /\ on_segs F p in
  let overlaps := exists t, In t F /\ share_continuum s t in
  match r with
  | EQUAL => subset /\ superset
  | COMPONENT => subset /\ ~ superset
  | COMPOSITE => superset /\ ~ subset
  | OVERLAP => overlaps /\ ~ subset /\ ~ (forall p, on_segs Wh p -> on_seg s p)
  | CROSS | TOUCH => common /\ ~ overlaps
  | DISJOINT => ~ common
  | _ => False
  end.
Lemma spec_relater Wh F r s : incl F Wh -> segment_list_relation_spec r s F -> relater_ok Wh F r s.
Proof.
  intros I. unfold segment_list_relation_spec, relater_ok. destruct r; try tauto.
  - intros (NO & p & Is & t & u & q & r & It & _ & Ot & _). split; auto.
    exists p. split; [apply strictly_between_between; exact Is|exists t; auto].
  - intros (O & A & B). split; auto. split; auto. intros Q. apply B. intros p (t & It & Ot). apply Q. exists t. auto.
Qed.

Lemma contour_relater vs F s : simple_contour vs -> incl F (edges vs) -> NoDup F -> (2 <= length F)%nat -> proper_seg s ->
  exists r, relate_to_contour_segments (seg_start s) (seg_end s) F = Some r /\ relater_ok (edges vs) F r s.
Proof.
  intros C I Nd Len P. pose proof (simple_outline vs C) as O. destruct s as [s0 s1]. cbn [seg_start seg_end].
  assert (Pr : Forall proper_seg F).
  { apply Forall_forall. intros t It. pose proof (ou_proper _ O) as Q. rewrite Forall_forall in Q. auto. }
  assert (Pr' := Pr). rewrite Forall_forall in Pr'.
  unfold relate_to_contour_segments. destruct F as [|first rest] eqn:EF; [cbn in Len; lia|]. rewrite <- EF in *.
  pose proof (contour_loop_spec s0 s1 P F [] (ContourState true true None) Pr (initial_loop_state s0 s1)) as H.
  cbn [length app] in H.
  destruct (relate_to_contour_loop s0 s1 0 F (ContourState true true None)) as [r|c|]; [| |destruct H].
  - exists r. split; auto. destruct H as (t & It & [(-> & SB)|(-> & SH & NS)]); cbn.
    + split; [intros p Op; exists t; auto|]. intros Sup.
      assert (U : exists u, In u F /\ u <> t).
      { rewrite EF in *. destruct rest as [|g rest]; [cbn in Len; lia|]. inversion Nd as [|? ? N1 N2]; subst.
        destruct (point_dec (seg_start first) (seg_start t)) as [E|E].
        - exists g. split; [right; left; auto|]. intros ->. apply N1. left.
          apply (ou_starts _ O); [apply I; right; left; auto|apply I; left; auto|congruence].
        - exists first. split; [left; auto|congruence]. }
      destruct U as (u & Iu & Nu).
      assert (Sub : seg_subset u t) by (intros p Op; apply SB, Sup; exists u; auto).
      apply (joined_pair_share u t); auto.
      * intros p. apply (ou_meet _ O u t p); auto.
      * apply subset_continuum; auto.
    + split; [exists t; auto|]. split.
      * intros Q. apply (partial_edge_gap_any (Seg s0 s1) (edges vs) t); auto.
        intros p Op. destruct (Q p Op) as (f & If & Of). exists f. auto.
      * intros K. destruct (ou_next _ O t (I t It)) as (f & J & E).
        assert (Z : forall g p, In g (edges vs) -> on_seg g p -> area2 s0 s1 p = 0).
        { intros g p Ig Q. apply between_collinear. apply (K p). exists g; auto. }
        apply (not_one_line s0 s1 P (edges vs) O t f (I t It) J E).
        split; [apply (Z t); auto; apply between_start|]. split; [apply (Z t); auto; apply between_end|].
        apply (Z f); auto; apply between_end.
  - assert (NSh : ~ exists t, In t F /\ share_continuum (Seg s0 s1) t).
    { intros (t & It & K). exact (ls_apart s0 s1 F c H t It K). }
    assert (Cases : forall t, In t F -> seg_relation_spec CROSS (Seg s0 s1) t \/ seg_relation_spec TOUCH (Seg s0 s1) t
      \/ seg_relation_spec DISJOINT (Seg s0 s1) t).
    { intros t It. apply not_share_cases; auto. exact (ls_apart s0 s1 F c H t It). }
    assert (Com : forall t, In t F -> seg_relation_spec CROSS (Seg s0 s1) t \/ seg_relation_spec TOUCH (Seg s0 s1) t ->
      exists p, on_seg (Seg s0 s1) p /\ on_segs F p).
    { intros t It [(p & (O1 & O2 & _) & _)|(p & (O1 & O2 & _) & _)]; exists p; split; auto; exists t; auto. }
    assert (Tou : cs_no_touch c = false -> exists p, on_seg (Seg s0 s1) p /\ on_segs F p).
    { intros E. pose proof (ls_touched s0 s1 F c H) as T. destruct (cs_touched c) as [(i & p)|]; [|congruence].
      destruct T as (_ & l1 & e & l2 & Q & _ & Te & _). apply (Com e); auto. rewrite Q. apply in_elt. }
    assert (Cro : cs_no_cross c = false -> exists p, on_seg (Seg s0 s1) p /\ on_segs F p).
    { intros E. apply (ls_cross s0 s1 F c H) in E. destruct E as [(t & It & K)|(l1 & e & f & l2 & Q & Te & _)].
      - apply (Com t); auto.
      - apply (Com e); auto. rewrite Q. apply in_elt. }
    assert (Dis : cs_no_touch c = true -> cs_no_cross c = true -> ~ exists p, on_seg (Seg s0 s1) p /\ on_segs F p).
    { intros E1 E2 (p & Op & t & It & Ot). destruct (Cases t It) as [K|[K|K]].
      - assert (cs_no_cross c = false); [|congruence]. apply (ls_cross s0 s1 F c H). left. exists t. auto.
      - apply (proj1 (ls_touch s0 s1 F c H) E1 t It K).
      - apply K. exists p. auto. }
    set (fin := match cs_touched c with
            | Some (last_index, last_start) => _
            | None => cs_no_cross c
            end).
    assert (Fin : fin = true -> cs_no_touch c = true -> cs_no_cross c = true).
    { unfold fin. intros E E1. destruct (cs_touched c) as [(i & p)|]; auto. rewrite E1 in E. exact E. }
    assert (Fin' : fin = false -> cs_no_cross c = false \/ cs_no_touch c = false).
    { unfold fin. intros E. destruct (cs_touched c) as [(i & p)|]; auto. destruct (cs_no_touch c); auto. }
    clearbody fin. eexists. split; [reflexivity|]. destruct fin.
    + destruct (cs_no_touch c) eqn:T; cbn.
      * apply Dis; auto.
      * split; auto.
    + cbn. destruct Fin' as [Q|Q]; auto.
Qed.

Lemma relater_spec g F s : joined_operand g -> incl F (parts g) -> joined F -> (2 <= length F)%nat -> proper_seg s ->
  exists r, segments_relater g (seg_start s) (seg_end s) F = Some r /\ relater_ok (parts g) F r s.
Proof.
  intros J I JF Len P. pose proof (joined_NoDup F JF) as Nd. destruct g; cbn in J; try tauto; cbn [segments_relater parts].
  - destruct (multisegment_relation_any s F P (joined_non_crossing F JF) Len) as (r & E & K).
    exists r. split; [exact E|]. apply spec_relater; auto.
  - apply contour_relater; auto.
Qed.

(** A segment covered by finitely many has a part in common with one of them. *)
Lemma relater_overlap s l : proper_seg s -> Forall proper_seg l ->
  (forall p, on_seg s p -> on_segs l p) -> exists t, In t l /\ share_continuum s t.
Proof.
  intros P PL SB. destruct (to_sorted_pair_proper s P) as (a & b & _ & L & E).
  assert (EO : forall p, on_seg s p <-> on_seg (Seg a b) p) by (intros; apply on_seg_sorted; auto).
  destruct (room a b L l 0 1 PL) as (lo & hi & R1 & R2 & R3 & R4); try qlra.
  pose proof (half_twice lo hi) as HT. remember (half lo hi) as h eqn:Eh. clear Eh.
  destruct (SB (lerp a b h)) as (t & I & O); [apply EO, (on_base a b L); split; qlra|].
  exists t. split; auto. assert (Pt_ : proper_seg t) by (rewrite Forall_forall in PL; auto).
  destruct (part_cases a b L t Pt_) as [r0 R C SS|u v R K' U V UV|u v R K' UV|r0 R C SP NS].
  - destruct (subset_continuum (Seg a b) t (a_neq_b a b L) SS) as (p & q & N & A & B & C' & D).
    exists p, q. rewrite !EO. auto 6.
  - assert (X : share_continuum (Seg a b) t) by (apply (coords_share a b L t u v K'); destruct K'; qlra).
    destruct X as (p & q & N & A & B & C & D). exists p, q. rewrite !EO. auto 6.
  - assert (X : share_continuum (Seg a b) t) by (apply (coords_share a b L t u v K'); destruct K', UV; qlra).
    destruct X as (p & q & N & A & B & C & D). exists p, q. rewrite !EO. auto 6.
  - exfalso. apply (R4 t h I NS); auto; qlra.
Qed.

(** ** The filters *)
Section Driver.
Variables (first second : geometry).
Hypothesis J1 : joined_operand first.
Hypothesis J2 : joined_operand second.
Notation L1 := (parts first). Notation L2 := (parts second).
Notation F := (with_intersection (bounding_box second) L1).
Notation S := (with_intersection (bounding_box first) L2).

Lemma valid_seg_box s : valid_box (segment_bounding_box s).
Proof. apply segment_box_hull. Qed.
Lemma kept_of (b : box) s p : valid_box b -> in_box b p -> on_seg s p ->
  box_disjoint_with (segment_bounding_box s) b = false.
Proof.
  intros V I O. apply not_true_iff_false. intros E. apply disjoint_with_spec in E; auto; [|apply valid_seg_box].
  apply E. exists p. split; auto. apply segment_box_covers. auto.
Qed.
Lemma operand_box g : joined_operand g -> valid_box (bounding_box g).
Proof. intros J. apply bounding_box_least. apply operand_constructed; auto. Qed.
Lemma in_F s p : In s L1 -> on_seg s p -> on_segs L2 p -> In s F.
Proof.
  intros I O K. apply filter_In. split; auto. rewrite (kept_of _ s p); auto; [apply operand_box; auto|].
  apply operand_outline; auto.
Qed.
Lemma in_S s p : In s L2 -> on_seg s p -> on_segs L1 p -> In s S.
Proof.
  intros I O K. apply filter_In. split; auto. rewrite (kept_of _ s p); auto; [apply operand_box; auto|].
  apply operand_outline; auto.
Qed.
Lemma filter_length_le {A} (f : A -> bool) l : (length (filter f l) <= length l)%nat.
Proof. induction l as [|x l IH]; cbn; auto. destruct (f x); cbn; lia. Qed.
Lemma filter_all {A} (f : A -> bool) l : length (filter f l) = length l -> filter f l = l.
Proof.
  induction l as [|x l IH]; cbn; auto. destruct (f x); cbn; intros E.
  - f_equal. apply IH. lia.
  - exfalso. pose proof (filter_length_le f l). lia.
Qed.
Lemma filter_dropped {A} (f : A -> bool) l : length (filter f l) <> length l -> exists x, In x l /\ f x = false.
Proof.
  induction l as [|x l IH]; cbn; [congruence|]. destruct (f x) eqn:E; cbn; intros N.
  - destruct IH as (y & I & Q); [lia|]. exists y. auto.
  - exists x. auto.
Qed.
(** A segment that is dropped has points that are not of the other operand. *)
Lemma dropped_first : length F <> length L1 -> ~ forall p, on_segs L1 p -> on_segs L2 p.
Proof.
  intros N Sub. apply filter_dropped in N. destruct N as (s & I & E). apply negb_false_iff in E.
  assert (O : on_seg s (seg_start s)) by apply between_start.
  rewrite (kept_of _ s (seg_start s)) in E; [discriminate|apply operand_box; auto| |auto].
  apply operand_outline; auto. apply Sub. exists s; auto.
Qed.
Lemma dropped_second : length S <> length L2 -> ~ forall p, on_segs L2 p -> on_segs L1 p.
Proof.
  intros N Sub. apply filter_dropped in N. destruct N as (s & I & E). apply negb_false_iff in E.
  assert (O : on_seg s (seg_start s)) by apply between_start.
  rewrite (kept_of _ s (seg_start s)) in E; [discriminate|apply operand_box; auto| |auto].
  apply operand_outline; auto. apply Sub. exists s; auto.
Qed.

Hypothesis E1 : forall s, In s L1 -> ~ same_points s L2.
Hypothesis E2 : forall s, In s L2 -> ~ same_points s L1.

Lemma single_first s r : F = [s] -> relater_ok L2 L2 r s ->
  linear_relation_spec (if relation_is r COMPONENT || relation_is r EQUAL then OVERLAP else r) L1 L2.
Proof.
  intros EF K.
  assert (Is : In s L1) by (assert (In s F) by (rewrite EF; left; auto); apply (filter_In _ _ _) in H; tauto).
  assert (Cm : forall p, on_segs L1 p -> on_segs L2 p -> on_seg s p).
  { intros p (t & It & Ot) O2. pose proof (in_F t p It Ot O2) as I. rewrite EF in I. destruct I as [<-|[]]. auto. }
  assert (NSub : ~ forall p, on_segs L1 p -> on_segs L2 p).
  { apply dropped_first. rewrite EF. pose proof (operand_length first J1). cbn. lia. }
  assert (Ps : proper_seg s) by (pose proof (operand_joined first J1) as [P _]; rewrite Forall_forall in P; auto).
  assert (Ov : (exists t, In t L2 /\ share_continuum s t) <-> exists u t, In u L1 /\ In t L2 /\ share_continuum u t).
  { split; [intros (t & It & Sh); exists s, t; auto|].
    intros (u & t & Iu & It & p & q & N & A & B & C & D). exists t. split; auto.
    exists p, q. split; auto. split; [apply Cm; [exists u|exists t]; auto|]. split; auto. split; auto.
    apply Cm; [exists u|exists t]; auto. }
  destruct r; cbn in K |- *; try tauto.
  - destruct K as [Sub NSup].
    assert (O : exists u t, In u L1 /\ In t L2 /\ share_continuum u t).
    { apply Ov. destruct (relater_overlap s L2) as (t & It & Sh); auto.
      - pose proof (operand_joined second J2) as [P _]. exact P.
      - exists t. auto. }
    split; [exact O|]. split; [exact NSub|].
    intros Sup. apply NSup. intros p O2. apply Cm; auto.
  - destruct K as [Sup NS]. split; auto. intros p O2. exists s. auto.
  - destruct K as ((p & Os & O2) & NO). split; [exists p; split; auto; exists s; auto|]. rewrite <- Ov. auto.
  - intros (p & A & B). apply K. exists p. auto.
  - exfalso. apply (E1 s Is). destruct K as [A B]. intros p. split; auto.
  - destruct K as (O & A & B). split; [apply Ov; exact O|]. split; [exact NSub|].
    intros Sup. apply B. intros p O2. apply Cm; auto.
  - destruct K as ((p & Os & O2) & NO). split; [exists p; split; auto; exists s; auto|]. rewrite <- Ov. auto.
Qed.

Lemma single_second t r : S = [t] -> (2 <= length F)%nat -> relater_ok L1 F r t ->
  linear_relation_spec
    (if relation_is r COMPONENT
        || ((relation_is r COMPOSITE || relation_is r EQUAL)
            && negb (length F =? length L1)%nat)
     then OVERLAP else complement r) L1 L2.
Proof.
  intros ES Len K.
  assert (It : In t L2) by (assert (H : In t S) by (rewrite ES; left; auto); apply (filter_In _ _ _) in H; tauto).
  assert (FI : incl F L1) by (intros u H; apply (filter_In _ _ _) in H; tauto).
  assert (FO : forall p, on_segs F p -> on_segs L1 p) by (intros p (u & Iu & Ou); exists u; auto).
  assert (Cm : forall p, on_segs L1 p -> on_segs L2 p -> on_seg t p /\ on_segs F p).
  { intros p O1 O2. split.
    - destruct O2 as (u & Iu & Ou). pose proof (in_S u p Iu Ou O1) as I. rewrite ES in I. destruct I as [<-|[]]. auto.
    - destruct O1 as (u & Iu & Ou). exists u. split; auto. apply (in_F u p); auto. }
  assert (NSup : ~ forall p, on_segs L2 p -> on_segs L1 p).
  { apply dropped_second. rewrite ES. pose proof (operand_length second J2). cbn. lia. }
  assert (P1 : Forall proper_seg L1) by apply (operand_joined first J1).
  assert (P2 : Forall proper_seg L2) by apply (operand_joined second J2).
  assert (Pt' : proper_seg t) by (rewrite Forall_forall in P2; auto).
  assert (PF : Forall proper_seg F) by (apply Forall_forall; rewrite Forall_forall in P1; auto).
  assert (Ov : (exists u, In u F /\ share_continuum t u) <-> exists u v, In u L1 /\ In v L2 /\ share_continuum u v).
  { split; [intros (u & Iu & Sh); exists u, t; split; auto; split; auto; apply share_continuum_sym; auto|].
    intros (u & v & Iu & Iv & p & q & N & A & B & C & D).
    assert (Op : on_segs L1 p /\ on_segs L2 p) by (split; [exists u|exists v]; auto).
    assert (Oq : on_segs L1 q /\ on_segs L2 q) by (split; [exists u|exists v]; auto).
    exists u. split; [apply (in_F u p); tauto|]. exists p, q. split; auto.
    split; [apply Cm; tauto|]. split; auto. split; auto. apply Cm; tauto. }
  assert (NF : exists u, In u F).
  { destruct F as [|u F']; [cbn in Len; lia|]. exists u. left; auto. }
  assert (Sup : (forall p, on_segs F p -> on_seg t p) -> exists u v, In u L1 /\ In v L2 /\ share_continuum u v).
  { intros Q. destruct NF as (u & Iu). exists u, t. split; auto. split; auto. apply subset_continuum.
    - rewrite Forall_forall in PF. auto.
    - intros p Op. apply Q. exists u; auto. }
  destruct (Nat.eqb_spec (length F) (length L1)) as [EL|EL].
  - assert (EF : F = L1) by (apply filter_all; auto).
    destruct r; cbn in K |- *; try tauto.
    + destruct K as [Sub NS]. split; [|split; auto].
      * apply Ov. apply relater_overlap; auto.
      * intros Q. apply NS. intros p Op. apply Cm; auto.
    + destruct K as [Q NS]. split; auto. intros p Op. exists t. split; auto. apply Q. rewrite EF. auto.
    + destruct K as ((p & Os & O1) & NO). rewrite <- Ov. split; auto. exists p. split; auto. exists t; auto.
    + intros (p & A & B). apply K. exists p. apply Cm; auto.
    + exfalso. apply (E2 t It). rewrite EF in K. destruct K as [A B]. intros p. split; auto.
    + destruct K as (O & A & B). rewrite <- Ov. split; auto. split; auto. intros Q. apply B. intros p Op. apply Cm; auto.
    + destruct K as ((p & Os & O1) & NO). rewrite <- Ov. split; auto. exists p. split; auto. exists t; auto.
  - pose proof (dropped_first EL) as NSub.
    destruct r; cbn in K |- *; try tauto.
    + destruct K as [Sub NS]. split; [apply Ov; apply relater_overlap; auto|split; auto].
    + destruct K as ((p & Os & O1) & NO). rewrite <- Ov. split; auto. exists p. split; auto. exists t; auto.
    + intros (p & A & B). apply K. exists p. apply Cm; auto.
    + destruct K as ((p & Os & O1) & NO). rewrite <- Ov. split; auto. exists p. split; auto. exists t; auto.
Qed.

(** *** The sweep *)
Notation lo := (q_max (min_x_of F) (min_x_of S)).
Notation hi := (q_min (max_x_of F) (max_x_of S)).
Notation F' := (in_range lo hi F). Notation S' := (in_range lo hi S).
Lemma in_FS s t p : In s L1 -> In t L2 -> on_seg s p -> on_seg t p -> In s F' /\ In t S'.
Proof.
  intros Is It Os Ot.
  assert (IF : In s F) by (apply (in_F s p); auto; exists t; auto).
  assert (IS : In t S) by (apply (in_S t p); auto; exists s; auto).
  pose proof (min_x_of_le F s p IF Os). pose proof (max_x_of_le F s p IF Os).
  pose proof (min_x_of_le S t p IS Ot). pose proof (max_x_of_le S t p IS Ot).
  assert (Lo : lo <= px p) by (destruct (q_max_spec (min_x_of F) (min_x_of S)) as [[-> _]|[-> _]]; auto).
  assert (Hi : px p <= hi) by (destruct (q_min_spec (max_x_of F) (max_x_of S)) as [[-> _]|[-> _]]; auto).
  destruct (segment_box_covers s p Os) as ((A1 & A2) & _). destruct (segment_box_covers t p Ot) as ((B1 & B2) & _).
  split; apply filter_In; (split; [auto|]); apply andb_true_iff; rewrite !qleb_true; split; qlra.
Qed.

Lemma sweep_relation fuel shape s s2 r t t2 u : F' = s :: r -> S' = t :: u ->
  (enough (length L1 + length L2) <= fuel)%nat ->
  s2 = (length F' =? length L1)%nat -> t2 = (length S' =? length L2)%nat ->
  exists rel, to_relation fuel shape (from_segments_iterables F' S') s2 t2 hi = Relates rel
    /\ linear_relation_spec rel L1 L2.
Proof.
  intros EF ES Fu Es Et.
  assert (JF : joined F') by (apply joined_filter, joined_filter, operand_joined; auto).
  assert (JS : joined S') by (apply joined_filter, joined_filter, operand_joined; auto).
  assert (IF : incl F' L1) by (intros x H; apply (filter_In _ _ _) in H; destruct H as [H _]; apply (filter_In _ _ _) in H; tauto).
  assert (IS : incl S' L2) by (intros x H; apply (filter_In _ _ _) in H; destruct H as [H _]; apply (filter_In _ _ _) in H; tauto).
  assert (LF : (length F' <= length L1)%nat) by (etransitivity; [apply filter_length_le|apply filter_length_le]).
  assert (LS : (length S' <= length L2)%nat) by (etransitivity; [apply filter_length_le|apply filter_length_le]).
  assert (HF : forall p, on_segs F' p -> px p <= max_x_of F).
  { intros p (x & I & O). apply (filter_In _ _ _) in I. apply (max_x_of_le F x p); tauto. }
  assert (HS : forall p, on_segs S' p -> px p <= max_x_of S).
  { intros p (x & I & O). apply (filter_In _ _ _) in I. apply (max_x_of_le S x p); tauto. }
  assert (Com : forall p, on_segs L1 p -> on_segs L2 p -> on_segs F' p /\ on_segs S' p).
  { intros p (x & Ix & Ox) (y & Iy & Oy). destruct (in_FS x y p Ix Iy Ox Oy) as [A B]. split; [exists x|exists y]; auto. }
  assert (OF : forall p, on_segs F' p -> on_segs L1 p) by (intros p (x & I & O); exists x; auto).
  assert (OS : forall p, on_segs S' p -> on_segs L2 p) by (intros p (x & I & O); exists x; auto).
  assert (AF : length F' = length L1 -> F' = L1).
  { intros E. assert (length F = length L1) by (pose proof (filter_length_le (fun s => qleb lo (max_x (segment_bounding_box s))
                   && qleb (min_x (segment_bounding_box s)) hi) F); pose proof (filter_length_le (fun s => negb (box_disjoint_with (segment_bounding_box s) (bounding_box second))) L1); unfold in_range, with_intersection in *; lia).
    assert (EF1 : F = L1) by (apply filter_all; auto). refine (eq_trans _ EF1). apply filter_all. refine (eq_trans E _). rewrite EF1. reflexivity. }
  assert (AS : length S' = length L2 -> S' = L2).
  { intros E. assert (length S = length L2) by (pose proof (filter_length_le (fun s => qleb lo (max_x (segment_bounding_box s))
                   && qleb (min_x (segment_bounding_box s)) hi) S); pose proof (filter_length_le (fun s => negb (box_disjoint_with (segment_bounding_box s) (bounding_box first))) L2); unfold in_range, with_intersection in *; lia).
    assert (EF1 : S = L2) by (apply filter_all; auto). refine (eq_trans _ EF1). apply filter_all. refine (eq_trans E _). rewrite EF1. reflexivity. }
  assert (DF : length F' <> length L1 -> ~ forall p, on_segs L1 p -> on_segs L2 p).
  { intros E Q. apply E. apply Nat.le_antisymm; auto. apply NoDup_incl_length; [apply joined_NoDup, operand_joined; auto|].
    intros x I. assert (O : on_seg x (seg_start x)) by apply between_start.
    destruct (Q (seg_start x)) as (y & Iy & Oy); [exists x; auto|]. apply (in_FS x y (seg_start x)); auto. }
  assert (DS : length S' <> length L2 -> ~ forall p, on_segs L2 p -> on_segs L1 p).
  { intros E Q. apply E. apply Nat.le_antisymm; auto. apply NoDup_incl_length; [apply joined_NoDup, operand_joined; auto|].
    intros x I. assert (O : on_seg x (seg_start x)) by apply between_start.
    destruct (Q (seg_start x)) as (y & Iy & Oy); [exists x; auto|]. apply (in_FS y x (seg_start x)); auto. }
  assert (Bd : exists d : bool, forall p, on_op F' S' d p -> px p <= hi).
  { destruct (q_min_spec (max_x_of F) (max_x_of S)) as [[E _]|[E _]]; [exists true|exists false]; intros p Op; rewrite E; [apply HF|apply HS]; exact Op. }
  destruct Bd as (d & Bd).
  pose proof in_FS as FS. set (X := F') in *. set (Y := S') in *. clearbody X Y.
  destruct (ctx_exists X Y) as (eps & _ & G); [apply Forall_app; split; [apply JF|apply JS]|].
  pose proof (ncs_holds X Y eps G JF JS) as N.
  set (init := fun b : bool => if b then s2 else t2).
  destruct (to_relation_verdict X Y eps G N init shape hi d Bd fuel) as (st & E & V).
  - rewrite EF. discriminate.
  - etransitivity; [|exact Fu]. apply enough_mono. rewrite app_length. lia.
  - exists (state_relation st). split; [exact E|].
    assert (Sub : forall b, flag b st = true -> forall p, on_segs (if b then L1 else L2) p -> on_segs (if b then L2 else L1) p).
    { intros [] Fl p Op; destruct (f_sub _ _ _ _ V _ Fl) as [I Q]; cbn in I; subst.
      - apply Nat.eqb_eq in I. apply AF in I. rewrite <- I in Op. apply OS. apply (Q p Op).
      - apply Nat.eqb_eq in I. apply AS in I. rewrite <- I in Op. apply OF. apply (Q p Op). }
    assert (NSub : forall b, flag b st = false -> ~ forall p, on_segs (if b then L1 else L2) p -> on_segs (if b then L2 else L1) p).
    { intros [] Fl Q; destruct (f_notsub _ _ _ _ V _ Fl) as [I|I]; cbn in I; subst.
      - apply Nat.eqb_neq in I. apply (DF I Q).
      - apply I. intros p Op. apply (Com p); auto; apply Q; auto.
      - apply Nat.eqb_neq in I. apply (DS I Q).
      - apply I. intros p Op. apply (Com p); auto; apply Q; auto. }
    assert (Ov : overlaps X Y <-> exists x y, In x L1 /\ In y L2 /\ share_continuum x y).
    { split.
      - intros (x & y & Ix & Iy & Sh). exists x, y. auto.
      - intros (x & y & Ix & Iy & Sh). pose proof Sh as (p & q & _ & A & B & _).
        pose proof (FS x y p Ix Iy A B) as [KX KY]. exists x, y. split; [exact KX|]. split; [exact KY|exact Sh]. }
    assert (Cmn : common X Y <-> exists p, on_segs L1 p /\ on_segs L2 p).
    { split; intros (p & A & B); exists p; [split; [apply OF; exact A|apply OS; exact B]|exact (Com p A B)]. }
    pose proof (Sub true) as S1. pose proof (Sub false) as S2. pose proof (NSub true) as N1. pose proof (NSub false) as N2.
    cbn [flag] in S1, S2, N1, N2. destruct V as [_ _ VO VNO VC VNC VX]. rewrite Ov in VO, VNO. rewrite Cmn in VC, VNC.
    unfold state_relation, linear_relation_spec, cross_ok in *.
    destruct (rs_first_is_subset st), (rs_second_is_subset st); auto.
    destruct (rs_has_overlap st); auto.
    destruct (rs_has_crossing st); auto.
    destruct (rs_has_intersection st); auto.
Qed.

Theorem linear_relate_spec fuel shape : (enough (length L1 + length L2) <= fuel)%nat ->
  (exists r, linear_relate_to fuel shape first second = Relates r /\ linear_relation_spec r L1 L2)
  \/ (linear_relate_to fuel shape first second = RelateRaises /\ ~ exists p, on_segs L1 p /\ on_segs L2 p).
Proof.
  intros Fu. unfold linear_relate_to, relate_to_multisegmental. cbv zeta. rewrite !(operand_parts first J1), !(operand_parts second J2).
  destruct (box_disjoint_with (bounding_box first) (bounding_box second)) eqn:D.
  { left. exists DISJOINT. split; auto. intros (p & A & B).
    apply disjoint_with_spec in D; [|apply operand_box; auto..]. apply D. exists p. split; apply operand_outline; auto. }
  clear D.
  destruct F as [|s [|s' F0]] eqn:EF.
  { left. exists DISJOINT. split; auto. intros (p & (u & Iu & Ou) & B). pose proof (in_F u p Iu Ou B) as I. rewrite EF in I. destruct I. }
  { assert (Is : In s L1) by (assert (H : In s F) by (rewrite EF; left; auto); apply (filter_In _ _ _) in H; tauto).
    assert (Ps : proper_seg s) by (pose proof (operand_joined first J1) as [P _]; rewrite Forall_forall in P; auto).
    destruct (relater_spec second L2 s J2 (incl_refl _) (operand_joined second J2) (operand_length second J2) Ps) as (r & E & K).
    left. rewrite E. cbn [option_map outcome_of_relation]. eexists. split; [reflexivity|]. apply (single_first s r EF K). }
  rewrite <- EF. assert (LenF : (2 <= length F)%nat) by (rewrite EF; cbn; lia).
  destruct S as [|t [|t' S0]] eqn:ES.
  { left. exists DISJOINT. split; auto. intros (p & A & (u & Iu & Ou)). pose proof (in_S u p Iu Ou A) as I. rewrite ES in I. destruct I. }
  { assert (It : In t L2) by (assert (H : In t S) by (rewrite ES; left; auto); apply (filter_In _ _ _) in H; tauto).
    assert (Ps : proper_seg t) by (pose proof (operand_joined second J2) as [P _]; rewrite Forall_forall in P; auto).
    assert (FI : incl F L1) by (intros u H; apply (filter_In _ _ _) in H; tauto).
    destruct (relater_spec first F t J1 FI (joined_filter _ _ (operand_joined first J1)) LenF Ps) as (r & E & K).
    left. rewrite E. cbn [option_map outcome_of_relation]. eexists. split; [reflexivity|]. apply (single_second t r ES LenF K). }
  rewrite <- ES.
  destruct F' as [|x X] eqn:EX.
  { left. exists DISJOINT. split; auto. intros (p & (u & Iu & Ou) & (v & Iv & Ov)).
    pose proof (proj1 (in_FS u v p Iu Iv Ou Ov)) as I. rewrite EX in I. destruct I. }
  destruct S' as [|y Y] eqn:EY.
  { right. split; auto. intros (p & (u & Iu & Ou) & (v & Iv & Ov)).
    pose proof (proj2 (in_FS u v p Iu Iv Ou Ov)) as I. rewrite EY in I. destruct I. }
  left. rewrite <- EX, <- EY. apply (sweep_relation fuel shape x _ X y _ Y EX EY Fu eq_refl eq_refl).
Qed.
End Driver.

(** No segment has the points of a simple contour. *)
Lemma contour_not_segment vs s : simple_contour vs -> proper_seg s -> ~ same_points s (edges vs).
Proof.
  intros C P Sm. pose proof (simple_outline vs C) as O.
  assert (Ne : exists t, In t (edges vs)).
  { destruct (Sm (seg_start s)) as [H _]. destruct (H (between_start _ _)) as (t & It & _). exists t; auto. }
  destruct Ne as (t & It). destruct s as [s0 s1].
  destruct (ou_next _ O t It) as (f & J & E).
  assert (Z : forall g p, In g (edges vs) -> on_seg g p -> area2 s0 s1 p = 0).
  { intros g p Ig Q. apply between_collinear. apply (Sm p). exists g; auto. }
  apply (not_one_line s0 s1 P (edges vs) O t f It J E).
  split; [apply (Z t); auto; apply between_start|]. split; [apply (Z t); auto; apply between_end|].
  apply (Z f); auto; apply between_end.
Qed.
Lemma contours_relate_spec vs vs' fuel shape : simple_contour vs -> simple_contour vs' ->
  (enough (length vs + length vs') <= fuel)%nat ->
  (exists r, linear_relate_to fuel shape (GContour vs) (GContour vs') = Relates r
     /\ linear_relation_spec r (edges vs) (edges vs'))
  \/ (linear_relate_to fuel shape (GContour vs) (GContour vs') = RelateRaises
      /\ ~ exists p, on_segs (edges vs) p /\ on_segs (edges vs') p).
Proof.
  intros C C' Fu. apply (linear_relate_spec (GContour vs) (GContour vs')); auto.
  - intros s Is. apply contour_not_segment; auto.
    pose proof (ou_proper _ (simple_outline vs C)) as Q. rewrite Forall_forall in Q. apply Q. exact Is.
  - intros s Is. apply contour_not_segment; auto.
    pose proof (ou_proper _ (simple_outline vs' C')) as Q. rewrite Forall_forall in Q. apply Q. exact Is.
  - cbn [parts]. rewrite !edges_length. exact Fu.
Qed.

(** The relation is determined by the points, but for [CROSS] and [TOUCH]. *)
Lemma linear_spec_exclusive l l' r r' : Forall proper_seg l -> Forall proper_seg l' -> l <> [] -> l' <> [] ->
  linear_relation_spec r l l' -> linear_relation_spec r' l l' ->
  r = r' \/ (In r [CROSS; TOUCH] /\ In r' [CROSS; TOUCH]).
Proof.
  intros P P' N N' A B.
  assert (Sub : (forall p, on_segs l p -> on_segs l' p) -> exists s t, In s l /\ In t l' /\ share_continuum s t).
  { intros Q. destruct l as [|s l]; [congruence|]. assert (Ps : proper_seg s) by (inversion P; auto).
    destruct (relater_overlap s l' Ps P') as (t & It & Sh).
    - intros p Op. apply Q. exists s. split; [left|]; auto.
    - exists s, t. split; [left|]; auto. }
  assert (Sup : (forall p, on_segs l' p -> on_segs l p) -> exists s t, In s l /\ In t l' /\ share_continuum s t).
  { intros Q. destruct l' as [|s l']; [congruence|]. assert (Ps : proper_seg s) by (inversion P'; auto).
    destruct (relater_overlap s l Ps P) as (t & It & Sh).
    - intros p Op. apply Q. exists s. split; [left|]; auto.
    - exists t, s. split; [auto|]. split; [left; auto|]. apply share_continuum_sym. auto. }
  assert (Com : (exists s t, In s l /\ In t l' /\ share_continuum s t) -> exists p, on_segs l p /\ on_segs l' p).
  { intros (s & t & Is & It & p & q & _ & C & D & _). exists p. split; [exists s|exists t]; auto. }
  destruct r, r'; cbn in A, B; try tauto; cbn [In]; auto 10.
Qed.
