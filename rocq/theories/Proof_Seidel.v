(** The trapezoidation, part 1: the links between neighbour trapezoids.  The trapezoids
    under one edge (or over one edge) form a doubly linked chain; what the updates do to
    the chains. *)
From Coq Require Import QArith Qcanon Bool List Arith Lia.
From Verif Require Import QcTac.
Import ListNotations.
Local Open Scope Qc_scope.

(** What matters of a trapezoid for the chain of an edge. *)
Record view := View { v_l : Qc; v_r : Qc; v_e : nat; v_L : option nat; v_R : option nat }.

Record linked_at (hi : nat -> Qc) (F : nat -> option view) (i : nat) (a : view) : Prop := {
  la_lt : v_l a < v_r a;
  la_R : forall j, v_R a = Some j ->
    exists b, F j = Some b /\ v_e b = v_e a /\ v_l b = v_r a /\ v_L b = Some i;
  la_L : forall j, v_L a = Some j ->
    exists b, F j = Some b /\ v_e b = v_e a /\ v_r b = v_l a /\ v_R b = Some i;
  la_end : v_r a < hi (v_e a) -> v_R a <> None }.
Definition linked (hi : nat -> Qc) (F : nat -> option view) : Prop :=
  forall i a, F i = Some a -> linked_at hi F i a.

(** A run of new trapezoids of one edge. *)
Fixpoint run (e : nat) (L0 : option nat) (x0 : Qc) (c : list (nat * view)) (Rn : option nat) (xn : Qc) : Prop :=
  match c with
  | [] => False
  | (i, w) :: rest =>
      v_e w = e /\ v_L w = L0 /\ v_l w = x0 /\ v_l w < v_r w /\
      match rest with
      | [] => v_R w = Rn /\ v_r w = xn
      | (i', _) :: _ => v_R w = Some i' /\ run e (Some i) (v_r w) rest Rn xn
      end
  end.
Definition first_of (c : list (nat * view)) : nat := match c with [] => O | (i, _) :: _ => i end.
Fixpoint last_of (c : list (nat * view)) : nat :=
  match c with [] => O | [(i, _)] => i | _ :: rest => last_of rest end.

Lemma run_right e L0 x0 c Rn xn : run e L0 x0 c Rn xn -> forall i w, In (i, w) c ->
  v_e w = e /\ v_l w < v_r w /\
  ((i = last_of c /\ v_R w = Rn /\ v_r w = xn) \/
   exists i' w', In (i', w') c /\ v_R w = Some i' /\ v_L w' = Some i /\ v_l w' = v_r w).
Proof.
  revert L0 x0. induction c as [|(k, u) c IH]; [intros ? ? []|]. intros L0 x0 (E & HL & Hl & Lt & Q) i w I.
  destruct c as [|(k', u') c].
  - destruct I as [[= <- <-]|[]]. destruct Q. cbn. auto 6.
  - destruct Q as [QR Q]. destruct I as [[= <- <-]|I].
    + split; auto. split; auto. right. exists k', u'. cbn in Q. cbn. intuition auto.
    + destruct (IH _ _ Q i w I) as (A & B & [C|(i' & w' & C1 & C2)]); split; auto; split; auto.
      right. exists i', w'. cbn. auto.
Qed.
Lemma run_left e L0 x0 c Rn xn : run e L0 x0 c Rn xn -> forall i w, In (i, w) c ->
  (i = first_of c /\ v_L w = L0 /\ v_l w = x0) \/
   exists i' w', In (i', w') c /\ v_L w = Some i' /\ v_R w' = Some i /\ v_r w' = v_l w.
Proof.
  revert L0 x0. induction c as [|(k, u) c IH]; [intros ? ? []|]. intros L0 x0 (E & HL & Hl & Lt & Q) i w I.
  destruct c as [|(k', u') c].
  - destruct I as [[= <- <-]|[]]. auto.
  - destruct Q as [QR Q]. destruct I as [[= <- <-]|I]; [left; cbn; auto|]. right.
    destruct (IH _ _ Q i w I) as [(-> & C1 & C2)|(i' & w' & C1 & C2)].
    + exists k, u. cbn. intuition auto; congruence.
    + exists i', w'. cbn. auto.
Qed.
Lemma run_first e L0 x0 c Rn xn : run e L0 x0 c Rn xn ->
  exists w, In (first_of c, w) c /\ v_e w = e /\ v_L w = L0 /\ v_l w = x0.
Proof. destruct c as [|(k, u) c]; [intros []|]. intros (E & HL & Hl & Lt & Q). exists u. cbn. auto. Qed.
Lemma run_last e L0 x0 c Rn xn : run e L0 x0 c Rn xn ->
  exists w, In (last_of c, w) c /\ v_e w = e /\ v_R w = Rn /\ v_r w = xn.
Proof.
  revert L0 x0. induction c as [|(k, u) c IH]; [intros ? ? []|]. intros L0 x0 (E & HL & Hl & Lt & Q).
  destruct c as [|(k', u') c]; [exists u; cbn; intuition auto|]. destruct Q as [QR Q].
  destruct (IH _ _ Q) as (w & I & R). exists w. split; [right; exact I|auto].
Qed.

Lemma in_run_dec (c : list (nat * view)) i : (exists w, In (i, w) c) \/ (forall w, ~ In (i, w) c).
Proof.
  induction c as [|(k, u) c [[w I]|N]]; [right; intros w []|left; exists w; right; auto|].
  destruct (Nat.eq_dec k i) as [->|Nk]; [left; exists u; left; auto|].
  right. intros w [E|I]; [congruence|apply (N w I)].
Qed.

Definition aim (o : option nat) (i j : nat) : option nat :=
  match o with Some k => if (k =? i)%nat then Some j else Some k | None => None end.

(** The trapezoids from [P] to [T] ([P] being [T] or its left neighbour) are replaced with
    a run. *)
Section Replace.
Variables (hi : nat -> Qc) (F F' : nat -> option view).
Variables (P T : nat) (p a : view) (c : list (nat * view)).
Hypothesis LK : linked hi F.
Hypothesis FP : F P = Some p.
Hypothesis FT : F T = Some a.
Hypothesis Same : v_e p = v_e a.
Hypothesis Near : (P = T /\ p = a) \/ v_R p = Some T.
Hypothesis RUN : run (v_e a) (v_L p) (v_l p) c (v_R a) (v_r a).
Hypothesis New : forall i w, In (i, w) c -> F' i = Some w.
Hypothesis Fresh : forall i w, In (i, w) c -> i <> T /\ (F i = None \/ i = P).
Hypothesis GoneT : F' T = None.
Hypothesis GoneP : P <> T -> F' P <> None -> exists w, In (P, w) c.
Hypothesis Other : forall j, j <> P -> j <> T -> (forall w, ~ In (j, w) c) ->
  F' j = match F j with
         | Some b => Some (View (v_l b) (v_r b) (v_e b) (aim (v_L b) T (last_of c)) (aim (v_R b) P (first_of c)))
         | None => None
         end.

Lemma replace_linked : linked hi F'.
Proof.
  intros i w Fi.
  destruct (LK P p FP) as [Plt PR PL Pe]. destruct (LK T a FT) as [Tlt TR TL Te].
  assert (TP : P <> T -> v_L a = Some P).
  { intros N. destruct Near as [[E _]|E]; [congruence|]. destruct (PR T E) as (b & Fb & _ & _ & Lb). congruence. }
  assert (RP : P <> T -> v_R p = Some T) by (destruct Near as [[E _]|E]; [congruence|auto]).
  (* an old trapezoid that stays *)
  assert (Old : forall j b, F j = Some b -> j <> P -> j <> T -> (forall u, ~ In (j, u) c)).
  { intros j b Fj N1 N2 u I. destruct (Fresh j u I) as [_ [Q|Q]]; congruence. }
  assert (Old' : forall j b, F j = Some b -> j <> P -> j <> T ->
    F' j = Some (View (v_l b) (v_r b) (v_e b) (aim (v_L b) T (last_of c)) (aim (v_R b) P (first_of c)))).
  { intros j b Fj N1 N2. rewrite (Other j N1 N2 (Old j b Fj N1 N2)), Fj. auto. }
  destruct (in_run_dec c i) as [[u I]|NI].
  - assert (w = u) by (rewrite (New i u I) in Fi; congruence). subst u.
    destruct (run_right _ _ _ _ _ _ RUN i w I) as (We & Wlt & WR). pose proof (run_left _ _ _ _ _ _ RUN i w I) as WL.
    constructor; auto.
    + intros j E. destruct WR as [(-> & Q1 & Q2)|(i' & w' & I' & Q1 & Q2 & Q3)].
      * rewrite Q1 in E. destruct (TR j E) as (b & Fb & Eb & Xb & Lb).
        assert (N1 : j <> T) by (intros ->; rewrite FT in Fb; injection Fb as <-; qlra).
        assert (N2 : j <> P).
        { intros ->. rewrite FP in Fb. injection Fb as <-. destruct Near as [[-> _]|N]; [congruence|].
          destruct (PR T N) as (b & Fb & _ & Xb' & _). rewrite FT in Fb. injection Fb as <-. qlra. }
        eexists. split; [apply (Old' j b Fb N2 N1)|]. cbn. rewrite Lb. cbn. rewrite Nat.eqb_refl.
        repeat split; congruence.
      * exists w'. rewrite E in Q1. injection Q1 as ->. split; [apply New; auto|].
        destruct (run_right _ _ _ _ _ _ RUN i' w' I') as (We' & _). repeat split; congruence.
    + intros j E. destruct WL as [(-> & Q1 & Q2)|(i' & w' & I' & Q1 & Q2 & Q3)].
      * rewrite Q1 in E. destruct (PL j E) as (b & Fb & Eb & Xb & Lb).
        assert (N2 : j <> P) by (intros ->; rewrite FP in Fb; injection Fb as <-; qlra).
        assert (N1 : j <> T).
        { intros ->. rewrite FT in Fb. injection Fb as <-. destruct Near as [[-> _]|N]; [congruence|].
          destruct (PR T N) as (b & Fb & _ & Xb' & _). rewrite FT in Fb. injection Fb as <-. qlra. }
        eexists. split; [apply (Old' j b Fb N2 N1)|]. cbn. rewrite Lb. cbn. rewrite Nat.eqb_refl.
        repeat split; congruence.
      * exists w'. rewrite E in Q1. injection Q1 as ->. split; [apply New; auto|].
        destruct (run_right _ _ _ _ _ _ RUN i' w' I') as (We' & _). repeat split; congruence.
    + intros Lt. destruct WR as [(-> & Q1 & Q2)|(i' & w' & I' & Q1 & Q2 & Q3)]; [|congruence].
      rewrite Q1. apply Te. congruence.
  - assert (N1 : i <> T) by congruence.
    assert (N2 : i <> P).
    { intros ->. assert (Q : P <> T) by auto. destruct (GoneP Q) as [u I]; [congruence|]. apply (NI u I). }
    rewrite (Other i N2 N1 NI) in Fi. destruct (F i) as [b|] eqn:Fb; [|discriminate]. injection Fi as <-.
    destruct (LK i b Fb) as [Blt BR BL Be]. constructor; cbn; auto.
    + intros j E. unfold aim in E. destruct (v_R b) as [k|] eqn:Rb; [|discriminate].
      destruct (BR k eq_refl) as (d & Fd & Ed & Xd & Ld). destruct (Nat.eqb_spec k P) as [->|Nk].
      * injection E as <-. destruct (run_first _ _ _ _ _ _ RUN) as (u & Iu & Eu & Lu & Xu).
        exists u. split; [apply New; auto|]. rewrite FP in Fd. injection Fd as <-. repeat split; congruence.
      * injection E as <-. destruct (Nat.eq_dec k T) as [->|Nt].
        -- exfalso. rewrite FT in Fd. injection Fd as <-. destruct (Nat.eq_dec P T) as [->|Np]; [congruence|].
           rewrite (TP Np) in Ld. congruence.
        -- eexists. split; [apply (Old' k d Fd Nk Nt)|]. cbn. rewrite Ld. cbn.
           destruct (Nat.eqb_spec i T); [congruence|]. repeat split; auto.
    + intros j E. unfold aim in E. destruct (v_L b) as [k|] eqn:Lb; [|discriminate].
      destruct (BL k eq_refl) as (d & Fd & Ed & Xd & Ld). destruct (Nat.eqb_spec k T) as [->|Nk].
      * injection E as <-. destruct (run_last _ _ _ _ _ _ RUN) as (u & Iu & Eu & Lu & Xu).
        exists u. split; [apply New; auto|]. rewrite FT in Fd. injection Fd as <-. repeat split; congruence.
      * injection E as <-. destruct (Nat.eq_dec k P) as [->|Nt].
        -- exfalso. rewrite FP in Fd. injection Fd as <-. destruct (Nat.eq_dec P T) as [->|Np]; [congruence|].
           rewrite (RP Np) in Ld. congruence.
        -- eexists. split; [apply (Old' k d Fd Nt Nk)|]. cbn. rewrite Ld. cbn.
           destruct (Nat.eqb_spec i P); [congruence|]. repeat split; auto.
    + intros Lt. apply Be in Lt. unfold aim. destruct (v_R b) as [k|]; [|congruence]. destruct (k =? P)%nat; discriminate.
Qed.
End Replace.

(** ** The chain of the edge being added *)
Section Grow.
Variables (hi hi' : nat -> Qc) (F F' : nat -> option view) (e : nat).
Hypothesis LK : linked hi F.
Hypothesis HI : forall i, i <> e -> hi' i = hi i.

Lemma fresh_linked B w : F B = None -> v_e w = e -> v_L w = None -> v_R w = None -> v_l w < v_r w ->
  hi' e <= v_r w -> (forall j b, F j = Some b -> v_e b <> e) ->
  F' B = Some w -> (forall j, j <> B -> F' j = F j) -> linked hi' F'.
Proof.
  intros FB We WL WR Lt Hw NE FB' O i a Fi. destruct (Nat.eq_dec i B) as [->|N].
  - assert (a = w) by congruence. subst a. constructor; auto; try congruence.
    rewrite We, WR. intros Q. exfalso. qlra.
  - rewrite (O i N) in Fi. destruct (LK i a Fi) as [A1 A2 A3 A4]. constructor; auto.
    + intros j E. destruct (A2 j E) as (b & Fb & R). exists b. rewrite O by congruence. auto.
    + intros j E. destruct (A3 j E) as (b & Fb & R). exists b. rewrite O by congruence. auto.
    + rewrite HI by (apply (NE i a Fi)). auto.
Qed.

Variables (B : nat) (b : view).
Hypothesis FB : F B = Some b.
Hypothesis Be : v_e b = e.
Hypothesis BR : v_R b = None.
Hypothesis Only : forall j c, F j = Some c -> v_e c = e -> v_R c = None -> j = B.

Lemma extend_linked w : v_e w = e -> v_L w = v_L b -> v_R w = None -> v_l w = v_l b -> v_l w < v_r w ->
  hi' e <= v_r w -> F' B = Some w -> (forall j, j <> B -> F' j = F j) -> linked hi' F'.
Proof.
  intros We WL WR Wl Lt Hw FB' O i a Fi. destruct (LK B b FB) as [B1 B2 B3 B4].
  destruct (Nat.eq_dec i B) as [->|N].
  - assert (a = w) by congruence. subst a. constructor; auto; try congruence.
    + rewrite WL. intros j E. destruct (B3 j E) as (c & Fc & R). exists c.
      assert (j <> B) by (intros ->; destruct R as (_ & Q & _); assert (c = b) by congruence; subst; qlra).
      rewrite O by auto. rewrite We, Wl, <- Be. auto.
    + rewrite We, WR. intros Q. exfalso. qlra.
  - rewrite (O i N) in Fi. destruct (LK i a Fi) as [A1 A2 A3 A4]. constructor; auto.
    + intros j E. destruct (A2 j E) as (c & Fc & R). destruct (Nat.eq_dec j B) as [->|Nj].
      * assert (c = b) by congruence. subst c. exists w. rewrite We, Wl, WL, <- Be. auto.
      * exists c. rewrite O by auto. auto.
    + intros j E. destruct (A3 j E) as (c & Fc & R). destruct (Nat.eq_dec j B) as [->|Nj].
      * assert (c = b) by congruence. subst c. destruct R as (_ & _ & Q). congruence.
      * exists c. rewrite O by auto. auto.
    + intros Q. destruct (Nat.eq_dec (v_e a) e) as [E|E].
      * intros R. apply N. apply (Only i a); auto.
      * apply A4. rewrite HI in Q by auto. auto.
Qed.

Lemma append_linked C w : F C = None -> v_e w = e -> v_L w = Some B -> v_R w = None -> v_l w = v_r b -> v_l w < v_r w ->
  hi' e <= v_r w -> F' B = Some (View (v_l b) (v_r b) (v_e b) (v_L b) (Some C)) -> F' C = Some w ->
  (forall j, j <> B -> j <> C -> F' j = F j) -> linked hi' F'.
Proof.
  intros FC We WL WR Wl Lt Hw FB' FC' O i a Fi. destruct (LK B b FB) as [B1 B2 B3 B4].
  destruct (Nat.eq_dec i C) as [->|NC]; [|destruct (Nat.eq_dec i B) as [->|N]].
  - assert (a = w) by congruence. subst a. constructor; auto; try congruence.
    + rewrite WL. intros j [= <-]. eexists. split; [exact FB'|]. cbn. rewrite We, Wl. auto.
    + rewrite We, WR. intros Q. exfalso. qlra.
  - assert (Q : Some a = Some (View (v_l b) (v_r b) (v_e b) (v_L b) (Some C))) by congruence. injection Q as ->.
    constructor; cbn; auto; try congruence.
    + intros j [= <-]. exists w. rewrite We, Wl. auto.
    + intros j E. destruct (B3 j E) as (c & Fc & R). exists c.
      assert (j <> B) by (intros ->; destruct R as (_ & Q & _); assert (c = b) by congruence; subst; qlra).
      rewrite O by congruence. auto.
  - rewrite (O i N NC) in Fi. destruct (LK i a Fi) as [A1 A2 A3 A4]. constructor; auto.
    + intros j E. destruct (A2 j E) as (c & Fc & R). destruct (Nat.eq_dec j B) as [->|Nj].
      * assert (c = b) by congruence. subst c. eexists. split; [exact FB'|]. cbn. auto.
      * exists c. rewrite O by congruence. auto.
    + intros j E. destruct (A3 j E) as (c & Fc & R). destruct (Nat.eq_dec j B) as [->|Nj].
      * assert (c = b) by congruence. subst c. destruct R as (_ & _ & Q). congruence.
      * exists c. rewrite O by congruence. auto.
    + intros Q. destruct (Nat.eq_dec (v_e a) e) as [E|E].
      * intros R. apply N. apply (Only i a); auto.
      * apply A4. rewrite HI in Q by auto. auto.
Qed.
End Grow.
Lemma linked_ext hi F F' : (forall j, F' j = F j) -> linked hi F -> linked hi F'.
Proof.
  intros E LK i a Fi. rewrite E in Fi. destruct (LK i a Fi) as [A1 A2 A3 A4]. constructor; auto.
  - intros j Q. destruct (A2 j Q) as (b & Fb & R). exists b. rewrite E. auto.
  - intros j Q. destruct (A3 j Q) as (b & Fb & R). exists b. rewrite E. auto.
Qed.
