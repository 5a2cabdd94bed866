(** The plane sweep, part 20: what the exact descriptions mean for single points,
    and concrete operands. *)
From Coq Require Import QArith Qcanon Bool List Arith ZArith Lia.
From Verif Require Import QcTac Model_Base Model_Box Model_Geometry Model_Linear Model_Segment Spec_Base
  Spec_Segment Spec_Clip Spec_Sweep Spec_Bounds Spec_Literals Proof_Base Proof_Line Proof_SegRel Proof_SegOps
  Proof_SegOps2 Proof_SegOps3 Proof_SegLoops Proof_SegUnion Proof_Sweep19.
Import ListNotations.
Local Open Scope Qc_scope.

Lemma difference_inside k l p : in_difference_lists k l p -> on_segs k p.
Proof. intros (s & I & O & _). exists s; auto. Qed.

Lemma shorter_way p q q' r : p <> q -> p <> q' -> between p q' q -> strictly_between p q r ->
  strictly_between p q' r.
Proof.
  intros N N' B S. destruct (proj1 (strictly_between_iff p q r N) S) as (B' & D1 & D2).
  apply strictly_between_iff; auto. split; [|split; auto].
  - apply (between_trans p q' p q r); auto. exists 0. repeat split; try qlra.
    unfold lerp; pt_destr; f_equal; ring.
  - intros ->. destruct B as (t & T0 & T1 & ->). destruct S as (u & U0 & U1 & E).
    assert (Q : lerp p q' 1 = lerp p q' (u * t)).
    { transitivity q'; [unfold lerp; pt_destr; f_equal; ring|]. rewrite E at 1.
      unfold lerp; pt_destr; f_equal; ring. }
    assert (Z : (1 - u * t) = 0 \/ p = q').
    { unfold lerp in Q. destruct p as [p1 p2], q' as [q1 q2]. cbn in Q. apply Pt_inj in Q. destruct Q as [Q1 Q2].
      destruct (Qc_eq_dec (1 - u * t) 0) as [?|D]; [left; auto|right].
      assert (H1 : (1 - u * t) * (q1 - p1) = 0) by (clear -Q1; qlra || (rewrite <- (Qcplus_opp_r (p1 + 1 * (q1 - p1))); rewrite Q1 at 2; ring)).
      assert (H2 : (1 - u * t) * (q2 - p2) = 0) by (clear -Q2; qlra || (rewrite <- (Qcplus_opp_r (p2 + 1 * (q2 - p2))); rewrite Q2 at 2; ring)).
      apply Qcmult_integral in H1. apply Qcmult_integral in H2.
      f_equal; [destruct H1; [contradiction|qlra]|destruct H2; [contradiction|qlra]]. }
    destruct Z as [Z|Z]; [|contradiction]. assert (u * t < 1) by qnra. qlra.
Qed.

Lemma outside_difference k l p : Forall proper_seg k -> Forall proper_seg l -> on_segs k p -> ~ on_segs l p ->
  in_difference_lists k l p.
Proof.
  intros Pk Pl (s & I & O) N. exists s. split; auto. split; auto.
  assert (Ps : proper_seg s) by (rewrite Forall_forall in Pk; auto).
  assert (B0 : exists q, q <> p /\ on_seg s q).
  { destruct (point_dec (seg_start s) p) as [E|E].
    - exists (seg_end s). split; [intros E'; apply Ps; congruence|apply between_end].
    - exists (seg_start s). split; auto. apply between_start. }
  clear I Pk. induction l as [|t l IH].
  - destruct B0 as (q & ? & ?). exists q. repeat split; auto. intros r _ (u & [] & _).
  - inversion Pl; subst. destruct IH as (q' & D & Oq & Fr); auto.
    { intros (u & Iu & Ou). apply N. exists u. split; [right; auto|auto]. }
    destruct (outside_in_difference (Seg p q') t p) as (_ & q & Dq & Oq' & Fr'); auto.
    + intros E; apply D; auto.
    + apply between_start.
    + intros Ot. apply N. exists t. split; [left; auto|auto].
    + exists q. split; auto. split.
      * apply (between_trans _ _ p q' q); auto.
      * intros r Sr (u & [<-|Iu] & Ou); [apply (Fr' r); auto|].
        apply (Fr r); [|exists u; auto].
        apply (shorter_way p q q'); auto.
Qed.

(** A way to check that literal segments do not cross. *)
Definition tod_b (s t : segment) : bool :=
  match segment_relate_to_segment s t with Some TOUCH | Some DISJOINT => true | _ => false end.
Fixpoint non_crossing_b (l : list segment) : bool :=
  match l with
  | [] => true
  | s :: l' => negb (point_eq (seg_start s) (seg_end s)) && forallb (tod_b s) l' && non_crossing_b l'
  end.
Lemma non_crossing_literal l : non_crossing_b l = true -> non_crossing l.
Proof.
  induction l as [|s l IH]; intros H; [split; constructor|]. cbn in H.
  apply andb_true_iff in H. destruct H as [H Hl]. apply andb_true_iff in H. destruct H as [Hs H].
  destruct (IH Hl) as [P C]. apply negb_true_iff in Hs. apply point_eq_false in Hs.
  split; constructor; auto. rewrite Forall_forall. intros t It. rewrite forallb_forall in H.
  specialize (H t It). unfold tod_b in H. rewrite Forall_forall in P.
  destruct (segment_relate_to_segment s t) as [r|] eqn:E; [|discriminate].
  eapply tod_relate; [exact Hs|auto|exact E|]. destruct r; try discriminate; auto.
Qed.

Section Points.
Variables (fuel : nat) (shape : tree_shape) (a b : geometry).
Hypothesis M1 : multisegmental a.
Hypothesis M2 : multisegmental b.
Hypothesis N1 : non_crossing (parts a).
Hypothesis N2 : non_crossing (parts b).
Hypothesis F : (enough (length (parts a) + length (parts b)) <= fuel)%nat.
Lemma intersect_both_points :
  exists g, intersect_multisegmental_with_multisegmental fuel shape a b = Clips g
  /\ good_result g
  /\ (forall p, on_geometry g p <-> on_common_continuum_lists (parts a) (parts b) p)
  /\ (forall p, on_geometry g p -> on_geometry a p /\ on_geometry b p).
Proof.
  destruct (intersect_both fuel shape a b M1 M2 N1 N2 F) as (g & E & G & C).
  exists g. repeat (split; [assumption|]). intros p H. apply C in H.
  destruct H as (s & t & Is & It & _ & O1 & O2). split; [exists s|exists t]; auto.
Qed.
Lemma subtract_both_points :
  exists g, subtract_multisegmental_from_multisegmental fuel shape a b = Clips g
  /\ good_result g
  /\ (forall p, on_geometry g p <-> in_difference_lists (parts a) (parts b) p)
  /\ (forall p, on_geometry g p -> on_geometry a p)
  /\ (forall p, on_geometry a p -> ~ on_geometry b p -> on_geometry g p).
Proof.
  destruct (subtract_both fuel shape a b M1 M2 N1 N2 F) as (g & E & G & C).
  exists g. repeat (split; [assumption|]). split.
  - intros p H. apply C in H. apply difference_inside in H. exact H.
  - intros p H H'. apply C. apply outside_difference; auto; try apply N1; try apply N2.
Qed.
Lemma symmetric_subtract_both_points :
  exists g, symmetric_subtract_multisegmental_from_multisegmental fuel shape a b = Clips g
  /\ good_result g
  /\ (forall p, on_geometry g p <->
        in_difference_lists (parts a) (parts b) p \/ in_difference_lists (parts b) (parts a) p)
  /\ (forall p, on_geometry g p -> on_geometry a p \/ on_geometry b p)
  /\ (forall p, on_geometry a p \/ on_geometry b p -> ~ (on_geometry a p /\ on_geometry b p) ->
        on_geometry g p).
Proof.
  destruct (symmetric_subtract_both fuel shape a b M1 M2 N1 N2 F) as (g & E & G & C).
  exists g. repeat (split; [assumption|]). split.
  - intros p H. apply C in H. destruct H as [H|H]; apply difference_inside in H; [left|right]; exact H.
  - intros p H H'. apply C. destruct H as [H|H].
    + left. apply outside_difference; auto; try apply N1; try apply N2.
    + right. apply outside_difference; auto; try apply N1; try apply N2.
Qed.
End Points.
Lemma subtract_one_points fuel shape b s : multisegmental b ->
  non_crossing (parts b) -> proper_seg s ->
  (enough (S (length (parts b))) <= fuel)%nat ->
  exists g, subtract_multisegmental_from_segment fuel shape s b = Clips g
  /\ good_result g
  /\ (forall p, on_geometry g p <-> in_difference_lists [s] (parts b) p)
  /\ (forall p, on_geometry g p -> on_seg s p)
  /\ (forall p, on_seg s p -> ~ on_geometry b p -> on_geometry g p).
Proof.
  intros M N P F. destruct (subtract_one fuel shape b s M N P F) as (g & E & G & C).
  exists g. repeat (split; [assumption|]). split.
  - intros p H. apply C in H. apply difference_inside in H. destruct H as (x & [<-|[]] & O). exact O.
  - intros p H H'. apply C. apply outside_difference; auto; try apply N. exists s. split; [left|]; auto.
Qed.
