(** The divide-and-conquer triangulation, part 6: walking along the boundary. *)
From Coq Require Import QArith Qcanon Bool List Arith Lia.
From Verif Require Import QcTac Model_Base Model_Utils Model_Mesh Spec_Base Spec_Mesh Proof_Base
  Proof_Mesh Proof_Mesh2 Proof_Mesh3 Proof_Delaunay Proof_Delaunay2 Proof_Delaunay3 Proof_Delaunay4 Proof_Delaunay5.
Import ListNotations.
Local Open Scope nat_scope.

Section Walk.
Variable m : mesh.
Hypothesis Q : quad_structure m.
Notation along e := (onext m (sym e)).
Lemma along_edge e : edge m e -> edge m (along e).
Proof. intros E. apply edge_onext, edge_sym; auto. Qed.
Lemma along_inj e f : edge m e -> edge m f -> along e = along f -> e = f.
Proof.
  intros E F H. apply sym_inj. apply (onext_inj m Q); auto; apply edge_sym; auto.
Qed.
Variable first : nat.
Hypothesis Ef : edge m first.
(** The edges from [e] on, until the walk is back at [first]. *)
Lemma walk_settles visited e : NoDup visited -> (forall x, In x visited -> edge m x) -> In e visited ->
  (forall x, In x visited -> x = first \/ exists y, In y visited /\ y <> e /\ along y = x) ->
  settles (fun n => boundary_from n m first e) (fun points => exists edges, NoDup edges /\ hd_error edges = Some e /\
    (forall x, In x edges -> edge m x /\ (x = e \/ ~ In x visited)) /\
    (forall i, i < length edges -> along (nth i edges 0) = nth (S i) edges first) /\
    points = map (fun x => at_ (m_endpoints m) (start m x)) edges).
Proof.
  remember (size m - length visited) as k eqn:K. revert visited e K.
  induction k as [k IH] using (well_founded_induction lt_wf). intros visited e -> Nd Ed Ie Ch.
  pose proof (Ed e Ie) as Ee. pose proof (along_edge e Ee) as En.
  assert (Len : length visited <= size m).
  { rewrite <- (seq_length (size m) 0). apply NoDup_incl_length; auto. intros x I. apply in_seq. destruct (Ed x I). lia. }
  eapply settles_step.
  { intros n. cbn [boundary_from]. rewrite (get_start m Q e Ee). cbn [bind]. rewrite get_right_end by (auto; apply Ee).
    cbn [bind]. reflexivity. }
  destruct (Nat.eqb_spec (along e) first) as [H|H].
  - apply settles_ok. exists [e]. split; [repeat constructor; intros []|]. split; [reflexivity|].
    split; [intros x [<-|[]]; auto|]. split; [|reflexivity]. intros [|i] L; cbn in L; [|lia]. exact H.
  - assert (Fresh : ~ In (along e) visited).
    { intros I. destruct (Ch _ I) as [|(y & Iy & Ny & Hy)]; [contradiction|]. apply Ny. apply along_inj; auto. }
    assert (Nd' : NoDup (along e :: visited)) by (constructor; auto).
    assert (Len' : length (along e :: visited) <= size m).
    { rewrite <- (seq_length (size m) 0). apply NoDup_incl_length; auto. intros x [<-|I]; apply in_seq.
      - destruct En. lia.
      - destruct (Ed x I). lia. }
    cbn [length] in Len'. eapply settles_bind.
    { apply (IH (size m - S (length visited)) ltac:(lia) (along e :: visited) (along e)); auto.
      - intros x [<-|I]; auto.
      - left. auto.
      - intros x [<-|I].
        + right. exists e. split; [right; auto|]. split; auto. intros X. apply Fresh. rewrite <- X. auto.
        + destruct (Ch x I) as [|(y & Iy & Ny & Hy)]; auto. right. exists y. split; [right; auto|]. split; auto.
          intros X. apply Fresh. rewrite <- X. auto. }
    intros points (edges & N2 & Hd & In2 & St & ->). apply settles_ok. exists (e :: edges).
    split.
    { constructor; auto. intros I. destruct (In2 e I) as (_ & [X|X]).
      - apply Fresh. rewrite <- X. auto.
      - apply X. right. auto. }
    split; [reflexivity|]. split; [|split; [|reflexivity]].
    + intros x [<-|I]; auto. destruct (In2 x I) as (A & [->|B]); split; auto. right. intros X. apply B. right. auto.
    + intros [|i] L.
      * cbn [nth]. destruct edges; [discriminate|]. cbn in Hd |- *. congruence.
      * cbn [nth length] in L |- *. apply St. lia.
Qed.
End Walk.

(** Walking on from each edge of the list leads to the next one, and from the last
    one to the first. *)
Definition cycle_of (m : mesh) (edges : list nat) (first : nat) : Prop :=
  NoDup edges /\ hd_error edges = Some first /\ (forall x, In x edges -> edge m x) /\
  (forall i, i < length edges -> to_right_from_end m (nth i edges 0) = Ok (nth (S i) edges first)) /\
  (forall i, i < length edges -> end_of m (nth i edges 0) = start m (nth (S i) edges first)).
Lemma boundary_settles m l r : quad_structure m -> edge m l ->
  settles (fun n => to_boundary_points n m (Some (l, r))) (fun points => exists edges, cycle_of m edges l /\
    points = map (fun x => at_ (m_endpoints m) (start m x)) edges).
Proof.
  intros Q El. cbn [to_boundary_points]. eapply settles_weaken.
  - apply (walk_settles m Q l [l] l).
    + repeat constructor. intros [].
    + intros x [<-|[]]; auto.
    + left; auto.
    + intros x [<-|[]]. auto.
  - intros points (edges & N & Hd & I & St & ->). exists edges. split; [|reflexivity].
    split; auto. split; auto. split; [intros x Ix; apply I; auto|]. split.
    + intros i L. rewrite <- St by auto. apply get_right_end; auto. apply (I (nth i edges 0)). apply nth_In; auto.
    + intros i L. rewrite <- St by auto. symmetry. apply (qs_start m Q). apply edge_sym; auto. apply (I (nth i edges 0)). apply nth_In; auto.
Qed.
