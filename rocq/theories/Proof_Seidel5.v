(** The trapezoidation, part 5: what holds of the trapezoids and of the search structure,
    and how adding an edge to a trapezoid keeps it. *)
From Coq Require Import QArith Qcanon Bool List Arith Lia.
From Verif Require Import QcTac Model_Base Model_Utils Model_Seidel Proof_Seidel Proof_Seidel2 Proof_Seidel3 Proof_Seidel4.
Import ListNotations.
Local Open Scope Qc_scope.

Section Inv.
Variable w : world.
Variable edges : list edge.
Notation X := (xp w). Notation Y := (yp w). Notation H := (h w).

Definition vertex (D : nat -> Prop) (k : nat) : Prop := exists g, D g /\ (k = lp w g \/ k = rp w g).
Definition within (c : core) (t y : Qc) : Prop :=
  X (k_l c) < t /\ t < X (k_r c) /\ H (k_b c) t < y /\ y < H (k_a c) t.
Definition contains (s : store) (i : nat) (t y : Qc) : Prop := exists c, s_c s i = Some c /\ within c t y.

(** The nodes a point goes through. *)
Inductive path (D : nat -> Prop) (s : store) (t y : Qc) : nat -> list nat -> option nat -> Prop :=
| p_leaf i : contains s i t y -> path D s t y i [i] (Some i)
| p_xl i k a b l o : s_i s i = Some (XNode k a b) -> vertex D k -> t < X k -> path D s t y a l o -> path D s t y i (i :: l) o
| p_xr i k a b l o : s_i s i = Some (XNode k a b) -> vertex D k -> X k < t -> path D s t y b l o -> path D s t y i (i :: l) o
| p_xo i k a b : s_i s i = Some (XNode k a b) -> vertex D k -> t = X k -> path D s t y i [i] None
| p_yb i g a b l o : s_i s i = Some (YNode g a b) -> D g -> spans w g t -> y < H g t -> path D s t y a l o -> path D s t y i (i :: l) o
| p_ya i g a b l o : s_i s i = Some (YNode g a b) -> D g -> spans w g t -> H g t < y -> path D s t y b l o -> path D s t y i (i :: l) o
| p_yo i g a b : s_i s i = Some (YNode g a b) -> D g -> spans w g t -> y = H g t -> path D s t y i [i] None.

Definition inbox (t y : Qc) : Prop := X (cl w) < t /\ t < X (cr w) /\ H (bot w) t < y /\ y < H (top w) t.

Record good_core (D : nat -> Prop) (hi' : nat -> Qc) (c : core) : Prop := {
  g_in : k_in c = k_in (mk edges (k_l c) (k_r c) (k_b c) (k_a c));
  g_b : k_b c = bot w \/ D (k_b c);
  g_a : k_a c = top w \/ D (k_a c);
  g_lt : X (k_l c) < X (k_r c);
  g_lo : forall up, lo w (side up c) <= X (k_l c);
  g_hi : forall up, X (k_r c) <= hi' (side up c);
  g_over : forall t, X (k_l c) < t -> t < X (k_r c) -> H (k_b c) t < H (k_a c) t;
  g_l : k_l c = cl w \/ (vertex D (k_l c) /\ H (k_b c) (X (k_l c)) <= Y (k_l c) /\ Y (k_l c) <= H (k_a c) (X (k_l c)));
  g_r : k_r c = cr w \/ vertex D (k_r c) }.

Definition sview (s : store) (up : bool) (j : nat) : option view :=
  match s_c s j with
  | Some c => Some (View (X (k_l c)) (X (k_r c)) (side up c) (s_l s up j) (s_r s up j))
  | None => None
  end.

Record inv (D : nat -> Prop) (hi' : nat -> Qc) (s : store) : Prop := {
  i_real : forall g, D g -> real w g;
  i_hi : forall g, D g -> lo w g < hi' g /\ hi' g <= hi w g;
  i_box : hi' (top w) = X (cr w) /\ hi' (bot w) = X (cr w);
  i_none : forall j, s_c s j = None -> forall up, s_l s up j = None /\ s_r s up j = None;
  i_core : forall i c, s_c s i = Some c -> good_core D hi' c;
  i_path : forall t y, inbox t y -> exists l o, path D s t y 0 l o;
  i_free : forall i g t, generic w t -> contains s i t (H g t) -> D g -> lo w g < t -> t < hi' g -> False;
  i_one : forall i j t y, generic w t -> contains s i t y -> contains s j t y -> i = j;
  i_link : forall up, linked hi' (sview s up) }.

(** ** Adding an edge to a trapezoid *)
Section Step.
Variables (D : nat -> Prop) (hi' : nat -> Qc) (s s' : store).
Variables (T : nat) (c0 : core) (e rpt : nat) (cont : bool) (mg : bool -> bool) (Q N : bool -> nat) (sl sr : option nat).
Variables (xa xb : Qc).
Hypothesis INV : inv D hi' s.
Hypothesis CT : s_c s T = Some c0.
Hypothesis AF : after edges e (lp w e) (rp w e) rpt s s' T c0 cont mg Q N sl sr.
Hypothesis Re : real w e.
Notation xl := (X (k_l c0)).
Notation xr := (X (k_r c0)).
Hypothesis Start : cont = false -> ~ D e /\ xa = lo w e /\ (sl = None -> xl = xa) /\ (forall l, sl = Some l -> xl < xa).
Hypothesis Cont : cont = true -> D e /\ xa = xl /\ hi' e = xa /\ sl = None.
Hypothesis Xb : xb = X rpt.
Hypothesis Rpt : (rpt = rp w e /\ (forall r, sr = Some r -> xb < xr) /\ (sr = None -> xb = xr)) \/ (rpt = k_r c0 /\ sr = None /\ xb < hi w e).
Hypothesis Lt : xa < xb.
Hypothesis Inside : forall t, xa < t -> t < xb -> H (k_b c0) t < H e t /\ H e t < H (k_a c0) t.
(** In a further trapezoid: what is known of the halves so far. *)
Hypothesis Half : forall up, mg up = true -> exists q, s_c s (Q up) = Some q /\ side (negb up) q = e /\ X (k_r q) = xl
  /\ lo w e <= X (k_l q).
Hypothesis Apart : forall up, cont = true -> mg up = false -> vertex D (k_l c0) /\
  if up then H e xl < Y (k_l c0) else Y (k_l c0) < H e xl.

Let D' (g : nat) : Prop := D g \/ g = e.
Let hi2 (g : nat) : Qc := if (g =? e)%nat then xb else hi' g.

Lemma Gc0 : good_core D hi' c0. Proof. apply (i_core _ _ _ INV T c0 CT). Qed.
Lemma lo_le : lo w e <= xa.
Proof.
  destruct cont.
  - destruct Cont as (A & B & C & _); auto. destruct (i_hi _ _ _ INV e A). qlra.
  - destruct Start as (_ & B & _); auto. rewrite B. qlra.
Qed.
Lemma xl_le : xl <= xa.
Proof.
  destruct cont.
  - destruct Cont as (A & B & C & _); auto. qlra.
  - destruct Start as (_ & B & C & E); auto. destruct sl as [l|]; [specialize (E l eq_refl)|specialize (C eq_refl)]; qlra.
Qed.
Lemma xb_le : xb <= xr.
Proof.
  destruct Rpt as [(A & B & C)|(A & B & C)].
  - destruct sr as [r|]; [specialize (B r eq_refl)|specialize (C eq_refl)]; qlra.
  - rewrite Xb, A. qlra.
Qed.
Lemma xb_hi : xb <= hi w e.
Proof.
  destruct Rpt as [(A & B & C)|(A & B & C)]; [|qlra].
  destruct (w_real w e Re) as (_ & E & _). rewrite Xb, A, E. qlra.
Qed.
Lemma e_new g : D g -> g <> e \/ cont = true.
Proof. intros Dg. destruct cont eqn:C; auto. left. intros ->. destruct (Start eq_refl); auto. Qed.
Lemma c0_e up : side up c0 <> e.
Proof.
  intros Eq. pose proof Gc0 as G. pose proof (g_hi _ _ _ G up) as A. pose proof (g_lt _ _ _ G) as B. rewrite Eq in A.
  destruct (w_box w) as (_ & _ & _ & _ & _ & _ & B1 & B2).
  assert (De : D e).
  { destruct up; cbn in Eq; [destruct (g_a _ _ _ G) as [Q1|Q1]|destruct (g_b _ _ _ G) as [Q1|Q1]]; congruence. }
  destruct (e_new e De) as [?|C]; [congruence|]. destruct (Cont C) as (_ & C1 & C2 & _). qlra.
Qed.
Lemma e_top : e <> top w /\ e <> bot w.
Proof. destruct (w_box w) as (_ & _ & _ & _ & _ & _ & B1 & B2). split; congruence. Qed.
Lemma anedge_D g : D g -> anedge w g.
Proof. intros Dg. left. apply (i_real _ _ _ INV). auto. Qed.
Lemma side_an up : anedge w (side up c0).
Proof.
  destruct up; cbn [side]; [destruct (g_a _ _ _ Gc0) as [ -> |Q1]|destruct (g_b _ _ _ Gc0) as [ -> |Q1]]; try solve [apply anedge_D; auto]; right; auto.
Qed.
Lemma hi_le_an up : hi' (side up c0) <= hi w (side up c0).
Proof.
  destruct (i_box _ _ _ INV) as [B1 B2]. destruct (w_box w) as (_ & _ & B3 & B4 & _).
  destruct up; cbn; [destruct (g_a _ _ _ Gc0) as [ -> |Q1]|destruct (g_b _ _ _ Gc0) as [ -> |Q1]];
    try solve [apply (i_hi _ _ _ INV); auto]; qlra.
Qed.

(** The part of [T] a point belongs to. *)
Definition inpart (i : nat) (t y : Qc) : Prop :=
  (sl = Some i /\ t < xa) \/ (sr = Some i /\ xb < t) \/
  (xa < t /\ t < xb /\ ((i = N true /\ H e t < y) \/ (i = N false /\ y < H e t))).

Lemma vertex_D' k : vertex D k -> vertex D' k.
Proof. intros (g & Dg & K). exists g. split; auto. left. auto. Qed.

Lemma new_contains i t y : contains s' i t y -> generic w t ->
  exists j, contains s j t y /\ ((i = j /\ j <> T) \/ (j = T /\ inpart i t y)).
Proof.
  intros (c & Ci & Wi) Gt. pose proof xl_le as X1. pose proof xb_le as X2.
  assert (NT : i <> T) by (intros ->; rewrite (a_T _ _ _ _ _ _ _ _ _ _ _ _ _ _ _ AF) in Ci; discriminate).
  destruct (in_dec Nat.eq_dec i [N true; N false]) as [IN|NI].
  - assert (IU : exists up, i = N up) by (destruct IN as [<-|[<-|[]]]; [exists true|exists false]; auto).
    destruct IU as [up ->]. pose proof (a_N _ _ _ _ _ _ _ _ _ _ _ _ _ _ _ AF up) as AN.
    assert (FromT : H (k_b c0) t < y -> y < H (k_a c0) t -> xa < t -> t < xb -> (if up then H e t < y else y < H e t) ->
      exists j, contains s j t y /\ ((N up = j /\ j <> T) \/ (j = T /\ inpart (N up) t y))).
    { intros Y1 Y2 T1 T2 Y3. exists T. split; [exists c0; split; auto; repeat split; auto; qlra|]. right. split; auto.
      right. right. destruct up; auto. }
    destruct (mg up) eqn:M.
    + destruct AN as (AN1 & q & Cq & Sq & AN2). rewrite AN2 in Ci. injection Ci as <-. destruct Wi as (W1 & W2 & W3 & W4). cbn in *.
      destruct (Half up M) as (q' & Cq' & Eq & Xq & _). rewrite Cq in Cq'. injection Cq' as <-.
      destruct (Cont (a_mg _ _ _ _ _ _ _ _ _ _ _ _ _ _ _ AF up M)) as (_ & Xa & _).
      destruct (Qc_dec t (X (k_r q))) as [[L|L]|L].
      * exists (N up). split; [|left; split; auto]. rewrite AN1. exists q. split; auto. repeat split; auto.
      * destruct (Inside t) as [I1 I2]; [qlra|qlra|]. destruct up; cbn in Eq, Sq; rewrite Eq in *; rewrite Sq in *; apply FromT; try qlra; auto.
      * exfalso. destruct (g_r _ _ _ (i_core _ _ _ INV _ _ Cq)) as [K|(g & Dg & K)].
        -- pose proof (g_hi _ _ _ Gc0 true) as G1. pose proof (hi_le_an true) as G2. pose proof (g_lt _ _ _ Gc0) as G3.
           assert (hi w (side true c0) <= X (cr w)).
           { destruct (w_box w) as (_ & _ & B3 & B4 & _). destruct (side_an true) as [R|[E|E]].
             - destruct (w_in w _ R). qlra. - rewrite E. qlra. - rewrite E. qlra. }
           rewrite K in *. qlra.
        -- apply (Gt g _ (i_real _ _ _ INV g Dg) K). auto.
    + destruct AN as (AN1 & AN2). rewrite AN2 in Ci. injection Ci as <-. destruct Wi as (W1 & W2 & W3 & W4). cbn in *.
      assert (TA : xa < t).
      { destruct cont; [destruct Cont as (_ & ? & _)|destruct Start as (_ & ? & _)]; auto; [qlra|].
        destruct (w_real w e Re) as (L & _). qlra. }
      rewrite <- Xb in W2. destruct (Inside t TA W2) as [I1 I2].
      apply FromT; auto; destruct up; auto; qlra.
  - destruct sl as [l|] eqn:Esl; [destruct (Nat.eq_dec i l) as [->|Nl]|].
    1:{ destruct (a_sl _ _ _ _ _ _ _ _ _ _ _ _ _ _ _ AF l eq_refl) as [_ A]. rewrite A in Ci. injection Ci as <-.
        destruct Wi as (W1 & W2 & W3 & W4). cbn in *. exists T.
        destruct cont eqn:Ec; [destruct (Cont eq_refl) as (_ & _ & _ & ?); congruence|].
        destruct (Start eq_refl) as (_ & Ea & _). destruct (w_real w e Re) as (L & _).
        split; [exists c0; split; auto; repeat split; auto; qlra|]. right. split; auto. left. rewrite Esl. split; auto. qlra. }
    all: destruct sr as [r|] eqn:Esr; [destruct (Nat.eq_dec i r) as [->|Nr]|].
    1,4: destruct (a_sr _ _ _ _ _ _ _ _ _ _ _ _ _ _ _ AF r eq_refl) as [_ A]; rewrite A in Ci; injection Ci as <-;
        destruct Wi as (W1 & W2 & W3 & W4); cbn in *; exists T;
        destruct Rpt as [(Er & _)|(_ & ? & _)]; [|congruence]; rewrite <- Er, <- Xb in W1;
        (split; [exists c0; split; auto; repeat split; auto; qlra|]); right; split; auto; right; left; rewrite Esr; auto.
    all: exists i; split; [|left; split; auto]; exists c; split; auto; rewrite <- Ci; symmetry;
      apply (a_c _ _ _ _ _ _ _ _ _ _ _ _ _ _ _ AF); auto; try congruence; intros up ->; apply NI; destruct up; cbn; auto.
Qed.

Lemma new_one i j t y : generic w t -> contains s' i t y -> contains s' j t y -> i = j.
Proof.
  intros Gt Ci Cj. destruct (new_contains i t y Ci Gt) as (i0 & Ci0 & Hi). destruct (new_contains j t y Cj Gt) as (j0 & Cj0 & Hj).
  pose proof (i_one _ _ _ INV _ _ _ _ Gt Ci0 Cj0) as E0. subst j0.
  destruct Hi as [(-> & Hi)|(Hi & Pi)], Hj as [(-> & Hj)|(Hj & Pj)]; try congruence.
  destruct Pi as [(A & B)|[(A & B)|(A & B & C)]], Pj as [(A' & B')|[(A' & B')|(A' & B' & C')]]; try congruence; try (exfalso; qlra).
  destruct C as [[-> C]|[-> C]], C' as [[-> C']|[-> C']]; auto; exfalso; qlra.
Qed.
Lemma new_free i g t : generic w t -> contains s' i t (H g t) -> D' g -> lo w g < t -> t < hi2 g -> False.
Proof.
  intros Gt Ci Dg T1 T2. destruct (new_contains i t _ Ci Gt) as (j & Cj & Hj). unfold hi2 in T2.
  pose proof lo_le as X0. pose proof xl_le as X1. pose proof xb_le as X2. pose proof Gc0 as G0.
  destruct (Nat.eqb_spec g e) as [->|Ne].
  - destruct (Qc_dec t xa) as [[L|L]|L].
    + destruct cont eqn:C.
      * destruct (Cont eq_refl) as (De & _ & Hc & _). apply (i_free _ _ _ INV j e t Gt Cj De T1). qlra.
      * destruct (Start eq_refl) as (_ & S1 & _). qlra.
    + destruct Hj as [[-> Hj]|[-> P]].
      * apply Hj. apply (i_one _ _ _ INV j T t (H e t) Gt Cj). exists c0. split; auto.
        destruct (Inside t L T2). repeat split; auto; qlra.
      * destruct P as [(A & B)|[(A & B)|(A & B & [[_ C]|[_ C]])]]; qlra.
    + destruct cont eqn:C.
      * destruct (Cont eq_refl) as (De & S1 & Hc & _).
        destruct (g_l _ _ _ G0) as [K|[(g' & Dg' & K) _]].
        -- rewrite K in S1. destruct (w_in w e Re). qlra.
        -- apply (Gt g' (k_l c0) (i_real _ _ _ INV g' Dg') K). congruence.
      * destruct (Start eq_refl) as (_ & S1 & _). qlra.
  - destruct Dg as [Dg|]; [|congruence]. apply (i_free _ _ _ INV j g t Gt Cj Dg T1 T2).
Qed.

Lemma old_contains j t y : contains s j t y -> j <> T -> contains s' j t y.
Proof.
  intros (c & Cj & W) NT.
  assert (Stay : forall up, j = N up -> contains s' j t y).
  { intros up ->. pose proof (a_N _ _ _ _ _ _ _ _ _ _ _ _ _ _ _ AF up) as AN. destruct (mg up) eqn:M.
    - destruct AN as (AN1 & q & Cq & Sq & AN2). rewrite <- AN1, Cj in Cq. injection Cq as <-. exists (Core (k_in c) (k_l c) rpt (k_b c) (k_a c)).
      split; auto. destruct (Half up M) as (q' & Cq' & Eq & Xq & _). rewrite <- AN1, Cj in Cq'. injection Cq' as <-.
      destruct W as (W1 & W2 & W3 & W4). pose proof xl_le. repeat split; cbn; auto. qlra.
    - destruct AN as (AN1 & AN2). congruence. }
  destruct (Nat.eq_dec j (N true)); [eauto|]. destruct (Nat.eq_dec j (N false)); [eauto|].
  exists c. split; auto. rewrite <- Cj. apply (a_c _ _ _ _ _ _ _ _ _ _ _ _ _ _ _ AF); auto.
  - intros []; auto.
  - intros E. destruct (a_sl _ _ _ _ _ _ _ _ _ _ _ _ _ _ _ AF j E). congruence.
  - intros E. destruct (a_sr _ _ _ _ _ _ _ _ _ _ _ _ _ _ _ AF j E). congruence.
Qed.
Lemma half_contains (up : bool) t y : H (k_b c0) t < y -> y < H (k_a c0) t -> xa < t -> t < xb -> (if up then H e t < y else y < H e t) ->
  contains s' (N up) t y.
Proof.
  intros Y1 Y2 T1 T2 Y3. pose proof (a_N _ _ _ _ _ _ _ _ _ _ _ _ _ _ _ AF up) as AN. destruct (mg up) eqn:M.
  - destruct AN as (AN1 & q & Cq & Sq & AN2). eexists. split; [exact AN2|].
    destruct (Half up M) as (q' & Cq' & Eq & Xq & _). rewrite Cq in Cq'. injection Cq' as <-.
    pose proof (g_lt _ _ _ (i_core _ _ _ INV _ _ Cq)). pose proof xl_le. unfold within. cbn.
    destruct up; cbn in Sq, Eq; rewrite Sq, Eq; repeat split; auto; qlra.
  - destruct AN as (AN1 & AN2). eexists. split; [exact AN2|]. unfold within. cbn.
    assert (X (if cont then k_l c0 else lp w e) <= xa).
    { destruct cont; [destruct Cont as (_ & ? & _)|destruct Start as (_ & ? & _)]; auto; [qlra|].
      destruct (w_real w e Re) as (L & _). qlra. }
    destruct up; repeat split; auto; qlra.
Qed.
Lemma path_T t y : within c0 t y -> exists l o, path D' s' t y T l o.
Proof.
  intros (W1 & W2 & W3 & W4). destruct (a_dag _ _ _ _ _ _ _ _ _ _ _ _ _ _ _ AF) as (x & u & IU & IX & IT).
  destruct (w_real w e Re) as (L1 & L2 & _). pose proof lo_le as LL. pose proof xb_hi as LH.
  assert (VL : vertex D' (lp w e)) by (exists e; split; [right|]; auto).
  assert (VR : vertex D' (rp w e)) by (exists e; split; [right|]; auto).
  assert (PU : xa < t -> t < xb -> exists l o, path D' s' t y u l o).
  { intros T1 T2. assert (SP : spans w e t) by (split; qlra). destruct (Qc_dec y (H e t)) as [[L|L]|L].
    - do 2 eexists. eapply p_yb; eauto; [right; auto|]. apply p_leaf. apply (half_contains false); auto.
    - do 2 eexists. eapply p_ya; eauto; [right; auto|]. apply p_leaf. apply (half_contains true); auto.
    - do 2 eexists. eapply p_yo; eauto. right; auto. }
  assert (PX : xa < t -> exists l o, path D' s' t y x l o).
  { intros T1. destruct sr as [r|] eqn:Er.
    - destruct Rpt as [(Er' & _ & _)|(_ & ? & _)]; [|congruence].
      destruct (Qc_dec t (X (rp w e))) as [[L|L]|L].
      + destruct PU as (l & o & P); auto; [rewrite Xb, Er'; auto|]. do 2 eexists. eapply p_xl; eauto.
      + do 2 eexists. eapply p_xr; eauto. apply p_leaf.
        destruct (a_sr _ _ _ _ _ _ _ _ _ _ _ _ _ _ _ AF r eq_refl) as [_ A]. eexists. split; [exact A|]. repeat split; auto.
      + do 2 eexists. eapply p_xo; eauto.
    - subst x. apply PU; auto. destruct Rpt as [(_ & _ & E)|(E & _ & _)]; [rewrite E; auto|rewrite Xb, E; auto]. }
  destruct sl as [l|] eqn:El.
  - destruct cont eqn:Ec; [destruct (Cont eq_refl) as (_ & _ & _ & ?); congruence|].
    destruct (Start eq_refl) as (_ & Ea & _ & _).
    destruct (Qc_dec t (X (lp w e))) as [[L|L]|L].
    + do 2 eexists. eapply p_xl; eauto. apply p_leaf.
      destruct (a_sl _ _ _ _ _ _ _ _ _ _ _ _ _ _ _ AF l eq_refl) as [_ A]. eexists. split; [exact A|]. repeat split; auto.
    + destruct PX as (l' & o & P); [qlra|]. do 2 eexists. eapply p_xr; eauto.
    + do 2 eexists. eapply p_xo; eauto.
  - subst x. apply PX. destruct cont eqn:Ec.
    + destruct (Cont eq_refl) as (_ & Ea & _). qlra.
    + destruct (Start eq_refl) as (_ & _ & E & _). rewrite <- E; auto.
Qed.
Lemma path_mono t y i l o : path D s t y i l o -> exists l' o', path D' s' t y i l' o'.
Proof.
  induction 1 as [i C|i k a b l o I V L P (l' & o' & P')|i k a b l o I V L P (l' & o' & P')|i k a b I V L
    |i g a b l o I Dg Sg L P (l' & o' & P')|i g a b l o I Dg Sg L P (l' & o' & P')|i g a b I Dg Sg L];
    try (apply (a_inner _ _ _ _ _ _ _ _ _ _ _ _ _ _ _ AF) in I); try (apply vertex_D' in V); try (assert (Dg' : D' g) by (left; auto)).
  - destruct (Nat.eq_dec i T) as [->|NT].
    + destruct C as (c & C & W). rewrite CT in C. injection C as <-. apply path_T; auto.
    + do 2 eexists. apply p_leaf. apply old_contains; auto.
  - do 2 eexists. eapply p_xl; eauto.
  - do 2 eexists. eapply p_xr; eauto.
  - do 2 eexists. eapply p_xo; eauto.
  - do 2 eexists. eapply p_yb; eauto.
  - do 2 eexists. eapply p_ya; eauto.
  - do 2 eexists. eapply p_yo; eauto.
Qed.

(** The cores. *)
Lemma hi2_le g : (g = top w \/ g = bot w \/ D g) -> hi' g <= hi2 g.
Proof.
  intros G. unfold hi2. destruct (Nat.eqb_spec g e) as [->|]; [|qlra]. destruct e_top.
  destruct G as [|[|G]]; try congruence. destruct (e_new e G) as [|C]; [congruence|].
  destruct (Cont C) as (_ & _ & E & _). qlra.
Qed.
Lemma core_mono c : good_core D hi' c -> good_core D' hi2 c.
Proof.
  intros [A B C E F G I J K]. constructor; auto.
  - destruct B; [left|right; left]; auto.
  - destruct C; [left|right; left]; auto.
  - intros up. specialize (G up). eapply Qcle_trans; [exact G|]. apply hi2_le. destruct up; cbn; tauto.
  - destruct J as [|[J1 J2]]; [left; auto|right; split; auto]. apply vertex_D'. auto.
  - destruct K as [|K]; [left; auto|right; apply vertex_D'; auto].
Qed.
Lemma order_ends (up : bool) : (if up then H e xa <= H (k_a c0) xa /\ H e xb <= H (k_a c0) xb
  else H (k_b c0) xa <= H e xa /\ H (k_b c0) xb <= H e xb).
Proof.
  set (t := (xa + xb) / (1 + 1)). assert (TT : xa < t /\ t < xb).
  { assert (E : t * (1 + 1) = xa + xb) by (unfold t; field; discriminate). clearbody t. split; qlra. }
  destruct TT as [T1 T2]. destruct (Inside t T1 T2) as [I1 I2].
  pose proof lo_le. pose proof xb_hi. pose proof xl_le. pose proof xb_le.
  pose proof (g_lo _ _ _ Gc0 up). pose proof (g_hi _ _ _ Gc0 up). pose proof (hi_le_an up). pose proof (side_an up) as A.
  assert (Ae : anedge w e) by (left; auto).
  destruct up; cbn in *; apply (order_closed w) with (t := t); auto; qlra.
Qed.
Lemma new_core i c : s_c s' i = Some c -> good_core D' hi2 c.
Proof.
  intros Ci. pose proof (core_mono _ Gc0) as G0. destruct (w_real w e Re) as (L1 & L2 & L3 & L4 & L5).
  pose proof lo_le. pose proof xb_hi. pose proof xl_le. pose proof xb_le.
  assert (He : hi2 e = xb) by (unfold hi2; rewrite Nat.eqb_refl; auto).
  assert (NT : i <> T) by (intros ->; rewrite (a_T _ _ _ _ _ _ _ _ _ _ _ _ _ _ _ AF) in Ci; discriminate).
  assert (VL : vertex D' (lp w e)) by (exists e; split; [right|]; auto).
  assert (VR : vertex D' (rp w e)) by (exists e; split; [right|]; auto).
  assert (VP : rpt = cr w \/ vertex D' rpt).
  { destruct Rpt as [(-> & _)|(-> & _)]; [right; auto|]. apply G0. }
  pose proof (order_ends true) as [OA1 OA2]. pose proof (order_ends false) as [OB1 OB2].
  destruct (in_dec Nat.eq_dec i [N true; N false]) as [IN|NI].
  - assert (IU : exists up, i = N up) by (destruct IN as [<-|[<-|[]]]; [exists true|exists false]; auto).
    destruct IU as [up ->]. pose proof (a_N _ _ _ _ _ _ _ _ _ _ _ _ _ _ _ AF up) as AN.
    destruct (mg up) eqn:M.
    + destruct AN as (AN1 & q & Cq & Sq & AN2). rewrite AN2 in Ci. injection Ci as <-.
      destruct (Half up M) as (q' & Cq' & Eq & Xq & Lq). rewrite Cq in Cq'. injection Cq' as <-.
      pose proof (i_core _ _ _ INV _ _ Cq) as Gq0. pose proof (core_mono _ Gq0) as Gq.
      assert (Lt' : X (k_l q) < X rpt) by (pose proof (g_lt _ _ _ Gq); rewrite <- Xb; qlra).
      constructor; cbn; auto; try apply Gq.
      * intros u. destruct (Bool.bool_dec u up) as [->|Nu].
        -- change (side up (Core (k_in q) (k_l q) rpt (k_b q) (k_a q))) with (side up q). rewrite Sq.
           pose proof (g_hi _ _ _ G0 up). qlra.
        -- replace u with (negb up) by (destruct u, up; auto; congruence).
           change (side (negb up) (Core (k_in q) (k_l q) rpt (k_b q) (k_a q))) with (side (negb up) q). rewrite Eq, He. qlra.
      * intros t T1 T2. destruct (Qclt_le_dec t (X (k_r q))) as [L|L].
        -- apply (g_over _ _ _ Gq); auto.
        -- destruct (Qc_eq_dec t xa) as [Et|Nt].
           ++ (* at the common wall *)
              assert (Ce := a_mg _ _ _ _ _ _ _ _ _ _ _ _ _ _ _ AF up M). destruct (Cont Ce) as (De & Ea & Hc & _).
              set (v := (xa + xb) / (1 + 1)). assert (TT : xa < v /\ v < xb).
              { assert (E : v * (1 + 1) = xa + xb) by (unfold v; field; discriminate). clearbody v. split; qlra. }
              destruct TT as [V1 V2]. destruct (Inside v V1 V2) as [I1 I2].
              assert (Ae : anedge w e) by (left; auto). pose proof (side_an up) as As.
              pose proof (hi_le_an up). pose proof (g_hi _ _ _ Gc0 up). pose proof (g_lo _ _ _ Gq0 up). rewrite Sq in *.
              assert (S1 : spans w e v) by (split; qlra).
              assert (S2 : spans w (side up c0) v) by (split; qlra).
              assert (S3 : spans w e t) by (split; qlra).
              assert (S4 : spans w (side up c0) t) by (split; qlra).
              destruct up; cbn in Sq, Eq, S2, S4, As |- *; rewrite Sq, Eq.
              ** apply (order_same w e (k_a c0) v t); auto.
              ** apply (order_same w (k_b c0) e v t); auto.
           ++ assert (Ce := a_mg _ _ _ _ _ _ _ _ _ _ _ _ _ _ _ AF up M). destruct (Cont Ce) as (De & Ea & Hc & _).
              destruct (Inside t) as [I1 I2]; [qne; qlra|qlra|]. destruct up; cbn in Sq, Eq; rewrite Sq, Eq; auto.
    + destruct AN as (AN1 & AN2). rewrite AN2 in Ci. injection Ci as <-.
      assert (KL : X (if cont then k_l c0 else lp w e) = xa).
      { destruct cont; [destruct Cont as (_ & ? & _)|destruct Start as (_ & ? & _)]; auto. qlra. }
      constructor; cbn.
      * auto.
      * destruct up; [right; right; auto|apply G0].
      * destruct up; [apply G0|right; right; auto].
      * rewrite KL. qlra.
      * rewrite KL. intros u. pose proof (g_lo _ _ _ G0 up). destruct u, up; cbn in *; qlra.
      * intros u. pose proof (g_hi _ _ _ G0 up). destruct u, up; cbn in *; rewrite ?He; qlra.
      * rewrite KL, <- Xb. intros t T1 T2. destruct (Inside t T1 T2). destruct up; auto.
      * rewrite KL. destruct cont eqn:Ec.
        -- destruct (Cont eq_refl) as (_ & Ea & _). destruct (Apart up eq_refl M) as [V B]. right.
           split; [apply vertex_D'; auto|]. destruct (g_l _ _ _ G0) as [K|(_ & K)].
           { destruct (w_in w e Re). rewrite K in Ea. exfalso. qlra. }
           rewrite Ea. destruct up; split; qlra.
        -- destruct (Start eq_refl) as (_ & Ea & _). right. split; auto. rewrite <- L4, <- Ea. destruct up; split; qlra.
      * auto.
  - destruct (option_map (Nat.eqb i) sl) as [[]|] eqn:B1.
    1:{ destruct sl as [l|]; [|discriminate]. injection B1 as B1. apply Nat.eqb_eq in B1. subst l.
        destruct (a_sl _ _ _ _ _ _ _ _ _ _ _ _ _ _ _ AF i eq_refl) as [_ A]. rewrite A in Ci. injection Ci as <-.
        destruct cont eqn:Ec; [destruct (Cont eq_refl) as (_ & _ & _ & ?); congruence|].
        destruct (Start eq_refl) as (_ & Ea & _ & El). specialize (El i eq_refl).
        constructor; cbn; auto; try apply G0; rewrite <- ?L1, <- ?Ea; auto.
        - intros u. pose proof (g_hi _ _ _ G0 u). change (side u (mk edges (k_l c0) (lp w e) (k_b c0) (k_a c0))) with (side u c0). qlra.
        - intros t T1 T2. apply G0; qlra. }
    all: assert (NL : sl <> Some i) by (intros E; rewrite E in B1; cbn in B1; rewrite Nat.eqb_refl in B1; discriminate).
    all: destruct (option_map (Nat.eqb i) sr) as [[]|] eqn:B2.
    1,4: destruct sr as [r|]; [|discriminate]; injection B2 as B2; apply Nat.eqb_eq in B2; subst r;
        destruct (a_sr _ _ _ _ _ _ _ _ _ _ _ _ _ _ _ AF i eq_refl) as [_ A]; rewrite A in Ci; injection Ci as <-;
        destruct Rpt as [(Er & El & _)|(_ & ? & _)]; [|congruence]; specialize (El i eq_refl); rewrite Er in Xb;
        (constructor; cbn; auto; try apply G0; rewrite <- ?Xb; auto);
        [intros u; pose proof (g_lo _ _ _ G0 u); change (side u (mk edges (rp w e) (k_r c0) (k_b c0) (k_a c0))) with (side u c0); qlra
        |intros t T1 T2; apply G0; qlra
        |right; split; auto; rewrite <- L5, L2, <- Xb; split; qlra].
    all: assert (NR : sr <> Some i) by (intros E; rewrite E in B2; cbn in B2; rewrite Nat.eqb_refl in B2; discriminate).
    all: apply core_mono; apply (i_core _ _ _ INV i); rewrite <- Ci; symmetry;
      apply (a_c _ _ _ _ _ _ _ _ _ _ _ _ _ _ _ AF); auto; intros up ->; apply NI; destruct up; cbn; auto.
Qed.

(** The links. *)
Hypothesis HalfC : cont = true -> forall up, exists q, s_c s (Q up) = Some q /\ side (negb up) q = e /\ X (k_r q) = xl
  /\ lo w e <= X (k_l q) /\ s_r s (negb up) (Q up) = None.
Hypothesis Near : forall up, mg up = true -> s_r s up (Q up) = Some T.
Hypothesis Only : cont = true -> forall up j c, s_c s j = Some c -> side up c = e -> s_r s up j = None -> j = Q (negb up).
Hypothesis QQ : cont = true -> Q true <> Q false.

Lemma Q_ne up : cont = true -> Q up <> Q (negb up).
Proof. intros C. pose proof (QQ C). destruct up; auto. Qed.
Lemma N_ne up : N up <> N (negb up).
Proof. pose proof (a_NN _ _ _ _ _ _ _ _ _ _ _ _ _ _ _ AF). destruct up; auto. Qed.
Lemma N_Q up : cont = true -> N up <> Q (negb up).
Proof.
  intros C E. pose proof (a_N _ _ _ _ _ _ _ _ _ _ _ _ _ _ _ AF up) as AN. destruct (mg up).
  - destruct AN as (AN & _). apply (Q_ne up C). congruence.
  - destruct AN as (AN & _). destruct (HalfC C (negb up)) as (q & Cq & _). congruence.
Qed.
Lemma Q_T up : cont = true -> Q up <> T.
Proof.
  intros C E. destruct (HalfC C up) as (q & Cq & Sq & _). rewrite E, CT in Cq. injection Cq as <-.
  apply (c0_e (negb up) Sq).
Qed.
Lemma back up j c : s_c s j = Some c -> (s_r s up j = Some T <-> s_l s up T = Some j).
Proof.
  intros Cj. pose proof (i_link _ _ _ INV up) as LK.
  assert (Fj : sview s up j = Some (View (X (k_l c)) (X (k_r c)) (side up c) (s_l s up j) (s_r s up j))) by (unfold sview; rewrite Cj; auto).
  assert (FT : sview s up T = Some (View xl xr (side up c0) (s_l s up T) (s_r s up T))) by (unfold sview; rewrite CT; auto).
  split; intros E.
  - destruct (la_R _ _ _ _ (LK _ _ Fj) T E) as (b & Fb & _ & _ & Lb). rewrite FT in Fb. injection Fb as <-. exact Lb.
  - destruct (la_L _ _ _ _ (LK _ _ FT) j E) as (b & Fb & _ & _ & Lb). rewrite Fj in Fb. injection Fb as <-. exact Lb.
Qed.
Lemma forth up j c : s_c s j = Some c -> (s_l s up j = Some T <-> s_r s up T = Some j).
Proof.
  intros Cj. pose proof (i_link _ _ _ INV up) as LK.
  assert (Fj : sview s up j = Some (View (X (k_l c)) (X (k_r c)) (side up c) (s_l s up j) (s_r s up j))) by (unfold sview; rewrite Cj; auto).
  assert (FT : sview s up T = Some (View xl xr (side up c0) (s_l s up T) (s_r s up T))) by (unfold sview; rewrite CT; auto).
  split; intros E.
  - destruct (la_L _ _ _ _ (LK _ _ Fj) T E) as (b & Fb & _ & _ & Lb). rewrite FT in Fb. injection Fb as <-. exact Lb.
  - destruct (la_R _ _ _ _ (LK _ _ FT) j E) as (b & Fb & _ & _ & Lb). rewrite Fj in Fb. injection Fb as <-. exact Lb.
Qed.
Lemma l_leaf up j : s_l s up T = Some j -> exists c, s_c s j = Some c /\ side up c = side up c0 /\ X (k_r c) = xl.
Proof.
  intros E. pose proof (i_link _ _ _ INV up) as LK.
  assert (FT : sview s up T = Some (View xl xr (side up c0) (s_l s up T) (s_r s up T))) by (unfold sview; rewrite CT; auto).
  destruct (la_L _ _ _ _ (LK _ _ FT) j E) as (b & Fb & Eb & Xb' & _). unfold sview in Fb.
  destruct (s_c s j) as [c|]; [|discriminate]. injection Fb as <-. exists c. auto.
Qed.
Lemma r_leaf up j : s_r s up T = Some j -> exists c, s_c s j = Some c /\ side up c = side up c0 /\ X (k_l c) = xr.
Proof.
  intros E. pose proof (i_link _ _ _ INV up) as LK.
  assert (FT : sview s up T = Some (View xl xr (side up c0) (s_l s up T) (s_r s up T))) by (unfold sview; rewrite CT; auto).
  destruct (la_R _ _ _ _ (LK _ _ FT) j E) as (b & Fb & Eb & Xb' & _). unfold sview in Fb.
  destruct (s_c s j) as [c|]; [|discriminate]. injection Fb as <-. exists c. auto.
Qed.
Lemma oeq_no o j : o <> Some j -> oeq o j = false.
Proof. destruct o as [k|]; cbn; auto. intros E. apply Nat.eqb_neq. congruence. Qed.
Lemma oeq_yes o j : oeq o j = true <-> o = Some j.
Proof. destruct o as [k|]; cbn; [rewrite Nat.eqb_eq; split; congruence|split; discriminate]. Qed.

(** The new links of every trapezoid. *)
Lemma R_N up : s_r s' up (N up) = or_else sr (s_r s up T).
Proof.
  rewrite (a_R _ _ _ _ _ _ _ _ _ _ _ _ _ _ _ AF). pose proof (a_NT _ _ _ _ _ _ _ _ _ _ _ _ _ _ _ AF up) as E.
  apply Nat.eqb_neq in E. rewrite E, Nat.eqb_refl. auto.
Qed.
Lemma L_N up : s_l s' up (N up) = if mg up then s_l s up (Q up) else or_else sl (s_l s up T).
Proof.
  rewrite (a_L _ _ _ _ _ _ _ _ _ _ _ _ _ _ _ AF). pose proof (a_NT _ _ _ _ _ _ _ _ _ _ _ _ _ _ _ AF up) as E.
  apply Nat.eqb_neq in E. rewrite E, Nat.eqb_refl. pose proof (a_N _ _ _ _ _ _ _ _ _ _ _ _ _ _ _ AF up) as AN.
  destruct (mg up); auto. destruct AN as (-> & _). auto.
Qed.
Lemma far_leaf up c : s_c s (N (negb up)) = Some c -> side up c = e /\ cont = true /\ N (negb up) = Q (negb up).
Proof.
  intros C. pose proof (a_N _ _ _ _ _ _ _ _ _ _ _ _ _ _ _ AF (negb up)) as AN. destruct (mg (negb up)) eqn:M; [|destruct AN; congruence].
  pose proof (a_mg _ _ _ _ _ _ _ _ _ _ _ _ _ _ _ AF _ M) as Ec.
  destruct AN as (AN & q & Cq & _). destruct (HalfC Ec (negb up)) as (q' & Cq' & Sq & _). rewrite negb_involutive in Sq.
  split; [congruence|auto].
Qed.
Lemma R_far up : s_r s' up (N (negb up)) = None.
Proof.
  rewrite (a_R _ _ _ _ _ _ _ _ _ _ _ _ _ _ _ AF).
  rewrite (proj2 (Nat.eqb_neq _ _) (a_NT _ _ _ _ _ _ _ _ _ _ _ _ _ _ _ AF (negb up))).
  rewrite (proj2 (Nat.eqb_neq (N (negb up)) (N up)) (not_eq_sym (N_ne up))).
  rewrite (oeq_no sr _ (a_Nr _ _ _ _ _ _ _ _ _ _ _ _ _ _ _ AF _)), (oeq_no sl _ (a_Nl _ _ _ _ _ _ _ _ _ _ _ _ _ _ _ AF _)).
  assert (E1 : cont && negb (mg (negb up)) && (N (negb up) =? Q (negb up))%nat = false).
  { destruct cont eqn:Ec; auto. pose proof (a_N _ _ _ _ _ _ _ _ _ _ _ _ _ _ _ AF (negb up)) as AN. destruct (mg (negb up)); auto.
    cbn. apply Nat.eqb_neq. intros E. destruct AN as [AN _]. destruct (HalfC eq_refl (negb up)) as (q & Cq & _). congruence. }
  assert (E2 : oeq (s_l s up T) (N (negb up)) = false).
  { apply oeq_no. intros E. destruct (l_leaf up _ E) as (c & Cc & Sc & _). destruct (far_leaf up c Cc) as (Sc' & _).
    apply (c0_e up). congruence. }
  rewrite E1, E2, andb_false_r. destruct (s_c s (N (negb up))) as [c|] eqn:Cc.
  - destruct (far_leaf up c Cc) as (_ & Ec & ->). destruct (HalfC Ec (negb up)) as (q & _ & _ & _ & _ & Rq).
    rewrite negb_involutive in Rq. auto.
  - apply (i_none _ _ _ INV _ Cc up).
Qed.
Lemma L_far up : s_l s' up (N (negb up)) = if mg (negb up) then s_l s up (Q (negb up)) else if cont then Some (Q (negb up)) else None.
Proof.
  rewrite (a_L _ _ _ _ _ _ _ _ _ _ _ _ _ _ _ AF).
  rewrite (proj2 (Nat.eqb_neq _ _) (a_NT _ _ _ _ _ _ _ _ _ _ _ _ _ _ _ AF (negb up))).
  rewrite (proj2 (Nat.eqb_neq (N (negb up)) (N up)) (not_eq_sym (N_ne up))).
  rewrite (oeq_no sr _ (a_Nr _ _ _ _ _ _ _ _ _ _ _ _ _ _ _ AF _)), (oeq_no sl _ (a_Nl _ _ _ _ _ _ _ _ _ _ _ _ _ _ _ AF _)).
  rewrite Nat.eqb_refl. pose proof (a_N _ _ _ _ _ _ _ _ _ _ _ _ _ _ _ AF (negb up)) as AN.
  destruct (mg (negb up)) eqn:M; cbn.
  - rewrite andb_false_r. destruct AN as (-> & _). auto.
  - destruct cont; cbn; auto. destruct AN as (Cn & _). apply (i_none _ _ _ INV _ Cn up).
Qed.
(** A trapezoid that is not touched. *)
Definition other (j : nat) : Prop := j <> T /\ (forall up, j <> N up) /\ sl <> Some j /\ sr <> Some j.
Lemma R_other up j : other j -> (cont = true -> j <> Q (negb up)) ->
  s_r s' up j = if negb (mg up) && oeq (s_l s up T) j then or_else sl (Some (N up)) else s_r s up j.
Proof.
  intros (O1 & O2 & O3 & O4) O5. rewrite (a_R _ _ _ _ _ _ _ _ _ _ _ _ _ _ _ AF).
  rewrite (proj2 (Nat.eqb_neq _ _) O1), (proj2 (Nat.eqb_neq _ _) (O2 up)), (oeq_no _ _ O3), (oeq_no _ _ O4).
  destruct cont; auto. rewrite (proj2 (Nat.eqb_neq _ _) (O5 eq_refl)), andb_false_r. auto.
Qed.
Lemma L_other up j : other j -> s_l s' up j = if oeq (s_r s up T) j then or_else sr (Some (N up)) else s_l s up j.
Proof.
  intros (O1 & O2 & O3 & O4). rewrite (a_L _ _ _ _ _ _ _ _ _ _ _ _ _ _ _ AF).
  rewrite (proj2 (Nat.eqb_neq _ _) O1), (proj2 (Nat.eqb_neq _ _) (O2 up)), (oeq_no _ _ O3), (oeq_no _ _ O4),
    (proj2 (Nat.eqb_neq _ _) (O2 (negb up))). auto.
Qed.
Lemma c_other j : other j -> s_c s' j = s_c s j.
Proof. intros (O1 & O2 & O3 & O4). apply (a_c _ _ _ _ _ _ _ _ _ _ _ _ _ _ _ AF); auto. Qed.
Lemma R_sl up l : sl = Some l -> s_r s' up l = Some (N up) /\ s_l s' up l = s_l s up T.
Proof.
  intros E. destruct (a_sl _ _ _ _ _ _ _ _ _ _ _ _ _ _ _ AF l E) as [C _].
  assert (N1 : l <> T) by congruence. assert (N2 : forall u, l <> N u) by (intros u ->; apply (a_Nl _ _ _ _ _ _ _ _ _ _ _ _ _ _ _ AF u E)).
  assert (N3 : sr <> Some l) by (apply (a_lr _ _ _ _ _ _ _ _ _ _ _ _ _ _ _ AF l E)).
  rewrite (a_R _ _ _ _ _ _ _ _ _ _ _ _ _ _ _ AF), (a_L _ _ _ _ _ _ _ _ _ _ _ _ _ _ _ AF).
  rewrite (proj2 (Nat.eqb_neq _ _) N1), (proj2 (Nat.eqb_neq _ _) (N2 up)), (oeq_no _ _ N3).
  rewrite E. cbn [oeq]. rewrite Nat.eqb_refl. auto.
Qed.
Lemma R_sr up r : sr = Some r -> s_r s' up r = s_r s up T /\ s_l s' up r = Some (N up).
Proof.
  intros E. destruct (a_sr _ _ _ _ _ _ _ _ _ _ _ _ _ _ _ AF r E) as [C _].
  assert (N1 : r <> T) by congruence. assert (N2 : forall u, r <> N u) by (intros u ->; apply (a_Nr _ _ _ _ _ _ _ _ _ _ _ _ _ _ _ AF u E)).
  rewrite (a_R _ _ _ _ _ _ _ _ _ _ _ _ _ _ _ AF), (a_L _ _ _ _ _ _ _ _ _ _ _ _ _ _ _ AF).
  rewrite (proj2 (Nat.eqb_neq _ _) N1), (proj2 (Nat.eqb_neq _ _) (N2 up)).
  rewrite E. cbn [oeq]. rewrite Nat.eqb_refl. auto.
Qed.
Lemma other_dec j : other j \/ j = T \/ (exists up, j = N up) \/ sl = Some j \/ sr = Some j.
Proof.
  destruct (Nat.eq_dec j T); auto. destruct (Nat.eq_dec j (N true)); eauto 6. destruct (Nat.eq_dec j (N false)); eauto 6.
  destruct (oeq sl j) eqn:E1; [apply oeq_yes in E1; auto|]. destruct (oeq sr j) eqn:E2; [apply oeq_yes in E2; auto 6|].
  left. repeat split; auto; [intros []; auto|intros E; apply oeq_yes in E; congruence|intros E; apply oeq_yes in E; congruence].
Qed.

Lemma only_new up j c : s_c s' j = Some c -> side up c = e -> s_r s' up j = None -> j = N (negb up).
Proof.
  intros Cj Sj Rj. destruct (other_dec j) as [O|[->|[[u ->]|[E|E]]]].
  - rewrite (c_other j O) in Cj.
    assert (De : D e).
    { pose proof (i_core _ _ _ INV j c Cj) as G. destruct e_top. destruct up; cbn in Sj;
        [destruct (g_a _ _ _ G)|destruct (g_b _ _ _ G)]; congruence. }
    destruct (e_new e De) as [|Ec]; [congruence|].
    destruct (Nat.eq_dec j (Q (negb up))) as [->|NQ].
    + destruct (mg (negb up)) eqn:M.
      * pose proof (a_N _ _ _ _ _ _ _ _ _ _ _ _ _ _ _ AF (negb up)) as AN. rewrite M in AN. destruct AN; auto.
      * exfalso. destruct O as (O1 & O2 & O3 & O4). rewrite (a_R _ _ _ _ _ _ _ _ _ _ _ _ _ _ _ AF) in Rj.
        rewrite (proj2 (Nat.eqb_neq _ _) O1), (proj2 (Nat.eqb_neq _ _) (O2 up)), (oeq_no _ _ O3), (oeq_no _ _ O4) in Rj.
        rewrite M, Ec, Nat.eqb_refl in Rj. discriminate.
    + rewrite (R_other up j O) in Rj by auto.
      destruct (oeq (s_l s up T) j) eqn:B.
      * apply oeq_yes in B. destruct (l_leaf up j B) as (c' & Cc' & Sc' & _). exfalso. apply (c0_e up). congruence.
      * rewrite andb_false_r in Rj. exfalso. apply NQ. apply (Only Ec up j c); auto.
  - rewrite (a_T _ _ _ _ _ _ _ _ _ _ _ _ _ _ _ AF) in Cj. discriminate.
  - destruct (Bool.bool_dec u up) as [->|Nu]; [|f_equal; destruct u, up; auto; congruence].
    exfalso. pose proof (a_N _ _ _ _ _ _ _ _ _ _ _ _ _ _ _ AF up) as AN. apply (c0_e up). destruct (mg up).
    + destruct AN as (_ & q & _ & Sq & Cq). rewrite Cq in Cj. injection Cj as <-. rewrite <- Sj, <- Sq. destruct up; auto.
    + destruct AN as (_ & Cq). rewrite Cq in Cj. injection Cj as <-. rewrite <- Sj. destruct up; auto.
  - destruct (R_sl up j E) as [E' _]. congruence.
  - destruct (a_sr _ _ _ _ _ _ _ _ _ _ _ _ _ _ _ AF j E) as [_ C]. rewrite C in Cj. injection Cj as <-.
    exfalso. apply (c0_e up). rewrite <- Sj. destruct up; auto.
Qed.
Lemma none_new j : s_c s' j = None -> forall up, s_l s' up j = None /\ s_r s' up j = None.
Proof.
  intros Cj up. destruct (other_dec j) as [O|[->|[[u ->]|[E|E]]]].
  - rewrite (c_other j O) in Cj. destruct (i_none _ _ _ INV j Cj up) as [N1 N2].
    rewrite (L_other up j O), (R_other up j O).
    + destruct (oeq (s_r s up T) j) eqn:B.
      { apply oeq_yes in B. destruct (r_leaf up j B) as (c' & Cc' & _). congruence. }
      destruct (oeq (s_l s up T) j) eqn:B'.
      { apply oeq_yes in B'. destruct (l_leaf up j B') as (c' & Cc' & _). congruence. }
      rewrite andb_false_r. auto.
    + intros Ec ->. destruct (HalfC Ec (negb up)) as (q & Cq & _). congruence.
  - rewrite (a_R _ _ _ _ _ _ _ _ _ _ _ _ _ _ _ AF), (a_L _ _ _ _ _ _ _ _ _ _ _ _ _ _ _ AF), Nat.eqb_refl. auto.
  - exfalso. pose proof (a_N _ _ _ _ _ _ _ _ _ _ _ _ _ _ _ AF u) as AN. destruct (mg u).
    + destruct AN as (_ & q & _ & Sq & Cq). congruence.
    + destruct AN as (_ & Cq). congruence.
  - destruct (a_sl _ _ _ _ _ _ _ _ _ _ _ _ _ _ _ AF j E) as [_ C]. congruence.
  - destruct (a_sr _ _ _ _ _ _ _ _ _ _ _ _ _ _ _ AF j E) as [_ C]. congruence.
Qed.

Section Links.
Variable up : bool.
Notation o := (negb up).
Notation F := (sview s up).
Notation F' := (sview s' up).
Let G (j : nat) : option view :=
  if (j =? N o)%nat then F j else if cont && (j =? Q o)%nat then F j else F' j.
Let vN := View (if mg up then match s_c s (Q up) with Some q => X (k_l q) | None => 0 end else xa) xb (side up c0)
  (if mg up then s_l s up (Q up) else or_else sl (s_l s up T)) (or_else sr (s_r s up T)).
Let vl := View xl xa (side up c0) (s_l s up T) (Some (N up)).
Let vr := View xb xr (side up c0) (Some (N up)) (s_r s up T).
Let c : list (nat * view) :=
  match sl with Some l => [(l, vl)] | None => [] end ++ (N up, vN) :: match sr with Some r => [(r, vr)] | None => [] end.
Let aT := View xl xr (side up c0) (s_l s up T) (s_r s up T).

Lemma F_T : F T = Some aT.
Proof. unfold sview. rewrite CT. auto. Qed.
Lemma F_N : F' (N up) = Some vN.
Proof.
  unfold sview. rewrite R_N, L_N. pose proof (a_N _ _ _ _ _ _ _ _ _ _ _ _ _ _ _ AF up) as AN. unfold vN. destruct (mg up) eqn:M.
  - destruct AN as (_ & q & Cq & Sq & ->). rewrite Cq. cbn. rewrite <- Xb. f_equal. f_equal. rewrite <- Sq. destruct up; auto.
  - destruct AN as (_ & ->). cbn. rewrite <- Xb. f_equal.
    assert (KL : X (if cont then k_l c0 else lp w e) = xa).
    { destruct cont; [destruct Cont as (_ & ? & _)|destruct Start as (_ & ? & _)]; auto. destruct (w_real w e Re) as (L & _). qlra. }
    rewrite KL. f_equal. destruct up; auto.
Qed.
Lemma F_l l : sl = Some l -> F' l = Some vl.
Proof.
  intros E. unfold sview. destruct (R_sl up l E) as [-> ->]. destruct (a_sl _ _ _ _ _ _ _ _ _ _ _ _ _ _ _ AF l E) as [_ ->].
  unfold vl. cbn. assert (KL : X (lp w e) = xa); [|rewrite KL; destruct up; auto].
  destruct cont eqn:Ec; [destruct (Cont eq_refl) as (_ & _ & _ & ?); congruence|].
  destruct (Start eq_refl) as (_ & Ea & _). destruct (w_real w e Re) as (L & _). qlra.
Qed.
Lemma F_r r : sr = Some r -> F' r = Some vr.
Proof.
  intros E. unfold sview. destruct (R_sr up r E) as [-> ->]. destruct (a_sr _ _ _ _ _ _ _ _ _ _ _ _ _ _ _ AF r E) as [_ ->].
  unfold vr. cbn. assert (KL : X (rp w e) = xb); [|rewrite KL; destruct up; auto].
  destruct Rpt as [(Er & _)|(_ & ? & _)]; [|congruence]. rewrite Xb, Er. auto.
Qed.
Lemma in_c i v : In (i, v) c -> (sl = Some i /\ v = vl) \/ (i = N up /\ v = vN) \/ (sr = Some i /\ v = vr).
Proof.
  unfold c. rewrite in_app_iff. intros [I|[I|I]].
  - destruct sl as [l|]; [|destruct I]. destruct I as [I|[]]. injection I as <- <-. auto.
  - injection I as <- <-. auto.
  - destruct sr as [r|]; [|destruct I]. destruct I as [I|[]]. injection I as <- <-. auto.
Qed.
Lemma c_in i : (i = N up \/ sl = Some i \/ sr = Some i) -> exists v, In (i, v) c.
Proof.
  unfold c. intros [->|[->| ->]].
  - exists vN. rewrite in_app_iff. cbn. auto.
  - exists vl. cbn. auto.
  - exists vr. rewrite in_app_iff. cbn. auto.
Qed.
Lemma c_fresh i v : In (i, v) c -> i <> T /\ (s_c s i = None \/ (i = Q up /\ mg up = true)) /\ i <> N o /\ (cont = true -> i <> Q o) /\ F' i = Some v.
Proof.
  intros I. destruct (in_c i v I) as [[E ->]|[[-> ->]|[E ->]]].
  - destruct (a_sl _ _ _ _ _ _ _ _ _ _ _ _ _ _ _ AF i E) as [C _]. repeat split; auto.
    + congruence.
    + intros ->. apply (a_Nl _ _ _ _ _ _ _ _ _ _ _ _ _ _ _ AF _ E).
    + intros Ec ->. destruct (HalfC Ec o) as (q & Cq & _). congruence.
    + apply F_l; auto.
  - repeat split.
    + apply (a_NT _ _ _ _ _ _ _ _ _ _ _ _ _ _ _ AF).
    + pose proof (a_N _ _ _ _ _ _ _ _ _ _ _ _ _ _ _ AF up) as AN. destruct (mg up); [right; destruct AN; auto|left; destruct AN; auto].
    + apply N_ne.
    + apply N_Q.
    + apply F_N.
  - destruct (a_sr _ _ _ _ _ _ _ _ _ _ _ _ _ _ _ AF i E) as [C _]. repeat split; auto.
    + congruence.
    + intros ->. apply (a_Nr _ _ _ _ _ _ _ _ _ _ _ _ _ _ _ AF _ E).
    + intros Ec ->. destruct (HalfC Ec o) as (q & Cq & _). congruence.
    + apply F_r; auto.
Qed.
Lemma first_c : first_of c = match sl with Some l => l | None => N up end.
Proof. unfold c. destruct sl; auto. Qed.
Lemma last_c : last_of c = match sr with Some r => r | None => N up end.
Proof. unfold c. destruct sl, sr; auto. Qed.

Lemma G_linked : linked hi' G.
Proof.
  set (P := if mg up then Q up else T).
  assert (EP : exists p, F P = Some p /\ v_e p = side up c0 /\ ((P = T /\ p = aT) \/ v_R p = Some T)
    /\ run (side up c0) (v_L p) (v_l p) c (s_r s up T) xr).
  { assert (RL : forall x0, x0 < xb -> forall v, v_l v = x0 -> v_r v = xb -> v_e v = side up c0 -> v_R v = or_else sr (s_r s up T) ->
      run (side up c0) (v_L v) x0 ((N up, v) :: match sr with Some r => [(r, vr)] | None => [] end) (s_r s up T) xr).
    { intros x0 L0 v V1 V2 V3 V4. cbn. repeat split; auto; [qlra|]. destruct sr as [r|] eqn:Er; cbn.
      - split; auto. repeat split; auto. destruct Rpt as [(_ & B & _)|(_ & ? & _)]; [apply (B r eq_refl)|congruence].
      - split; auto. rewrite V2. destruct Rpt as [(_ & _ & B)|(B & _)]; [auto|rewrite Xb, B; auto]. }
    unfold P. destruct (mg up) eqn:M.
    - pose proof (a_N _ _ _ _ _ _ _ _ _ _ _ _ _ _ _ AF up) as AN. rewrite M in AN. destruct AN as (_ & q & Cq & Sq & _).
      destruct (Half up M) as (q' & Cq' & _ & Xq & _). rewrite Cq in Cq'. injection Cq' as <-.
      destruct (Cont (a_mg _ _ _ _ _ _ _ _ _ _ _ _ _ _ _ AF up M)) as (_ & _ & _ & Es).
      exists (View (X (k_l q)) (X (k_r q)) (side up q) (s_l s up (Q up)) (s_r s up (Q up))).
      split; [unfold sview; rewrite Cq; auto|]. split; [exact Sq|]. split; [right; apply Near; auto|].
      unfold c. rewrite Es. cbn [app v_L v_l]. pose proof (g_lt _ _ _ (i_core _ _ _ INV _ _ Cq)). pose proof xl_le.
      assert (EL : v_L vN = s_l s up (Q up)) by (unfold vN; rewrite ?M; auto). rewrite <- EL.
      apply RL; unfold vN; rewrite ?M, ?Cq; cbn; auto. qlra.
    - exists aT. split; [apply F_T|]. split; [auto|]. split; [left; auto|]. unfold c. unfold aT at 1 2. cbn [v_L v_l].
      destruct sl as [l|] eqn:El; cbn [app].
      + assert (Lx : xl < xa).
        { destruct cont eqn:Ec; [destruct (Cont eq_refl) as (_ & _ & _ & ?); congruence|].
          destruct (Start eq_refl) as (_ & _ & _ & B). apply (B l eq_refl). }
        change (run (side up c0) (s_l s up T) xl ((l, vl) :: (N up, vN) :: match sr with Some r => [(r, vr)] | None => [] end) (s_r s up T) xr)
          with (v_e vl = side up c0 /\ v_L vl = s_l s up T /\ v_l vl = xl /\ v_l vl < v_r vl /\ v_R vl = Some (N up) /\
            run (side up c0) (Some l) (v_r vl) ((N up, vN) :: match sr with Some r => [(r, vr)] | None => [] end) (s_r s up T) xr).
        split; [auto|]. split; [auto|]. split; [auto|]. split; [auto|]. split; [auto|].
        assert (EL : v_L vN = Some l) by (unfold vN; rewrite ?M, ?El; auto). rewrite <- EL.
        apply (RL xa Lt vN); unfold vN; rewrite ?M; cbn; auto.
      + assert (Ex : xl = xa).
        { destruct cont eqn:Ec; [destruct (Cont eq_refl) as (_ & ? & _); auto|].
          destruct (Start eq_refl) as (_ & _ & B & _). auto. }
        assert (EL : v_L vN = s_l s up T) by (unfold vN; rewrite ?M, ?El; auto). rewrite <- EL.
        rewrite Ex. apply (RL xa Lt vN); unfold vN; rewrite ?M; cbn; auto. }
  destruct EP as (p & FP & Ep & NR & RUN).
  assert (PT : P <> T -> mg up = true /\ P = Q up) by (unfold P; destruct (mg up); auto; congruence).
  assert (NoE : forall j b, F j = Some b -> v_e b = e -> v_L b <> Some T /\ v_R b <> Some P).
  { intros j b Fj Ej. destruct (i_link _ _ _ INV up j b Fj) as [_ A B _]. split; intros E.
    - destruct (B T E) as (d & Fd & Ed & _). rewrite F_T in Fd. injection Fd as <-. apply (c0_e up). cbn in Ed. congruence.
    - destruct (A P E) as (d & Fd & Ed & _). rewrite FP in Fd. injection Fd as <-. apply (c0_e up). congruence. }
  assert (Aim : forall x k j, x <> Some k -> aim x k j = x).
  { intros [x|] k j N1; cbn; auto. destruct (Nat.eqb_spec x k); congruence. }
  assert (Keep : forall j b, F j = Some b -> v_e b = e ->
    Some b = Some (View (v_l b) (v_r b) (v_e b) (aim (v_L b) T (last_of c)) (aim (v_R b) P (first_of c)))).
  { intros j b Fj Ej. destruct (NoE j b Fj Ej) as [N1 N2]. rewrite !Aim by auto. destruct b; auto. }
  apply (replace_linked hi' F G P T p aT c (i_link _ _ _ INV up) FP F_T Ep); auto.
  - intros i v I. destruct (c_fresh i v I) as (_ & _ & C1 & C2 & C3). unfold G. rewrite (proj2 (Nat.eqb_neq _ _) C1).
    destruct cont; [rewrite (proj2 (Nat.eqb_neq _ _) (C2 eq_refl))|]; auto.
  - intros i v I. destruct (c_fresh i v I) as (C1 & C2 & _). split; auto. destruct C2 as [C2|[-> M]].
    + left. unfold sview. rewrite C2. auto.
    + right. unfold P. rewrite M. auto.
  - unfold G. rewrite (proj2 (Nat.eqb_neq _ _) (not_eq_sym (a_NT _ _ _ _ _ _ _ _ _ _ _ _ _ _ _ AF o))).
    assert (E : cont && (T =? Q o)%nat = false).
    { apply not_true_iff_false. rewrite andb_true_iff, Nat.eqb_eq. intros [Ec Eq]. apply (Q_T o Ec). auto. }
    rewrite E. unfold sview. rewrite (a_T _ _ _ _ _ _ _ _ _ _ _ _ _ _ _ AF). auto.
  - intros N1 _. destruct (PT N1) as [M ->]. pose proof (a_N _ _ _ _ _ _ _ _ _ _ _ _ _ _ _ AF up) as AN. rewrite M in AN. destruct AN as (<- & _).
    apply c_in. auto.
  - intros j J1 J2 J3. unfold G. destruct (Nat.eqb_spec j (N o)) as [->|JN].
    { destruct (F (N o)) as [b|] eqn:Fb; auto. apply (Keep (N o) b Fb). unfold sview in Fb. destruct (s_c s (N o)) as [d|] eqn:Cd; [|discriminate].
      injection Fb as <-. apply (far_leaf up d Cd). }
    destruct (cont && (j =? Q o)%nat) eqn:B.
    { apply andb_true_iff in B as [Ec B]. apply Nat.eqb_eq in B. subst j. destruct (HalfC Ec o) as (q & Cq & Sq & _). rewrite negb_involutive in Sq.
      destruct (F (Q o)) as [b|] eqn:Fb; auto. apply (Keep (Q o) b Fb). unfold sview in Fb. rewrite Cq in Fb. injection Fb as <-. exact Sq. }
    assert (O : other j).
    { repeat split; auto.
      - intros u ->. destruct (Bool.bool_dec u up) as [->|Nu]; [|apply JN; f_equal; destruct u, up; auto; congruence].
        destruct (c_in (N up)) as [v I]; auto. apply (J3 v I).
      - intros E. destruct (c_in j) as [v I]; auto. apply (J3 v I).
      - intros E. destruct (c_in j) as [v I]; auto. apply (J3 v I). }
    assert (JQ : cont = true -> j <> Q o).
    { intros Ec ->. rewrite Ec, Nat.eqb_refl in B. discriminate. }
    unfold sview. rewrite (c_other j O). destruct (s_c s j) as [d|] eqn:Cd; auto. cbn. f_equal. f_equal.
    + rewrite (L_other up j O), last_c. destruct (oeq (s_r s up T) j) eqn:B'.
      * apply oeq_yes in B'. apply (forth up j d Cd) in B'. rewrite B'. cbn. rewrite Nat.eqb_refl. destruct sr; auto.
      * rewrite Aim; auto. intros E. apply (forth up j d Cd) in E. apply oeq_yes in E. congruence.
    + rewrite (R_other up j O JQ), first_c. unfold P. destruct (mg up) eqn:M; cbn [negb andb].
      * destruct (Cont (a_mg _ _ _ _ _ _ _ _ _ _ _ _ _ _ _ AF up M)) as (_ & _ & _ & ->).
        pose proof (a_N _ _ _ _ _ _ _ _ _ _ _ _ _ _ _ AF up) as AN. rewrite M in AN. destruct AN as (-> & _).
        destruct (s_r s up j) as [k|]; cbn; auto. destruct (Nat.eqb_spec k (Q up)); congruence.
      * destruct (oeq (s_l s up T) j) eqn:B'.
        -- apply oeq_yes in B'. apply (back up j d Cd) in B'. rewrite B'. cbn. rewrite Nat.eqb_refl. destruct sl; auto.
        -- rewrite Aim; auto. intros E. apply (back up j d Cd) in E. apply oeq_yes in E. congruence.
Qed.

Lemma F_far : exists v, F' (N o) = Some v /\ v_e v = e /\ v_L v = (if mg o then s_l s up (Q o) else if cont then Some (Q o) else None) /\
  v_R v = None /\ v_r v = xb /\ v_l v = if mg o then match s_c s (Q o) with Some q => X (k_l q) | None => 0 end else xa.
Proof.
  unfold sview. rewrite R_far, L_far. pose proof (a_N _ _ _ _ _ _ _ _ _ _ _ _ _ _ _ AF o) as AN. destruct (mg o) eqn:M.
  - destruct AN as (_ & q & Cq & Sq & ->). eexists. split; [reflexivity|]. cbn. rewrite Cq. repeat split; auto.
    destruct (Half o M) as (q' & Cq' & Eq & _). rewrite Cq in Cq'. injection Cq' as <-. rewrite negb_involutive in Eq. rewrite <- Eq. destruct up; auto.
  - destruct AN as (_ & ->). eexists. split; [reflexivity|]. cbn. repeat split; auto.
    + destruct up; auto.
    + destruct cont; [destruct Cont as (_ & ? & _)|destruct Start as (_ & ? & _)]; auto. destruct (w_real w e Re) as (L & _). qlra.
Qed.
Lemma G_e j b : G j = Some b -> v_e b = e -> F j = Some b /\ cont = true.
Proof.
  intros Gj Ej.
  assert (Old : F j = Some b -> F j = Some b /\ cont = true).
  { intros Fj. split; auto. unfold sview in Fj. destruct (s_c s j) as [d|] eqn:Cd; [|discriminate]. injection Fj as <-. cbn in Ej.
    assert (De : D e).
    { pose proof (i_core _ _ _ INV j d Cd) as Gd. destruct e_top. destruct up; cbn in Ej; [destruct (g_a _ _ _ Gd)|destruct (g_b _ _ _ Gd)]; congruence. }
    destruct (e_new e De) as [|Ec]; [congruence|auto]. }
  unfold G in Gj. destruct (Nat.eqb_spec j (N o)) as [->|JN]; [auto|].
  destruct (cont && (j =? Q o)%nat) eqn:B; [auto|].
  assert (JQ : cont = true -> j <> Q o) by (intros Ec ->; rewrite Ec, Nat.eqb_refl in B; discriminate).
  destruct (in_run_dec c j) as [[v I]|NI].
  - destruct (c_fresh j v I) as (_ & _ & _ & _ & Fv). rewrite Fv in Gj. injection Gj as <-.
    exfalso. apply (c0_e up). rewrite <- Ej. destruct (in_c j v I) as [[_ ->]|[[_ ->]|[_ ->]]]; auto.
  - assert (O : j = T \/ other j).
    { destruct (other_dec j) as [O|[->|[[u ->]|[E|E]]]]; auto.
      - destruct (Bool.bool_dec u up) as [->|Nu]; [|exfalso; apply JN; f_equal; destruct u, up; auto; congruence].
        destruct (c_in (N up)) as [v I]; auto. destruct (NI v I).
      - destruct (c_in j) as [v I]; auto. destruct (NI v I).
      - destruct (c_in j) as [v I]; auto. destruct (NI v I). }
    destruct O as [->|O]; [unfold sview in Gj; rewrite (a_T _ _ _ _ _ _ _ _ _ _ _ _ _ _ _ AF) in Gj; discriminate|].
    unfold sview in Gj |- *. rewrite (c_other j O) in Gj. destruct (s_c s j) as [d|] eqn:Cd; [|discriminate].
    assert (NT : side up d <> side up c0) by (injection Gj as <-; cbn in Ej; rewrite Ej; apply not_eq_sym; apply c0_e).
    rewrite (L_other up j O), (R_other up j O JQ) in Gj.
    rewrite oeq_no in Gj by (intros E; destruct (r_leaf up j E) as (d' & Cd' & Sd & _); congruence).
    rewrite (oeq_no (s_l s up T)) in Gj by (intros E; destruct (l_leaf up j E) as (d' & Cd' & Sd & _); congruence).
    rewrite andb_false_r in Gj. assert (Fj : F j = Some b) by (unfold sview; rewrite Cd; exact Gj). split; [exact Gj|].
    apply Old. exact Fj.
Qed.
Lemma new_link : linked hi2 F'.
Proof.
  assert (HI : forall i, i <> e -> hi2 i = hi' i).
  { intros i Ni. unfold hi2. rewrite (proj2 (Nat.eqb_neq _ _) Ni). auto. }
  assert (He : hi2 e = xb) by (unfold hi2; rewrite Nat.eqb_refl; auto).
  destruct F_far as (v & FN & V1 & V2 & V3 & V4 & V5). pose proof xl_le as XL.
  assert (GO : forall j, j <> N o -> (cont = true -> j <> Q o) -> F' j = G j).
  { intros j J1 J2. unfold G. rewrite (proj2 (Nat.eqb_neq _ _) J1). destruct cont; auto. rewrite (proj2 (Nat.eqb_neq _ _) (J2 eq_refl)). auto. }
  assert (GN : G (N o) = F (N o)) by (unfold G; rewrite Nat.eqb_refl; auto).
  pose proof (a_N _ _ _ _ _ _ _ _ _ _ _ _ _ _ _ AF o) as AN. pose proof G_linked as GL. pose proof G_e as GE.
  destruct (Bool.bool_dec cont true) as [Ec|Ec]; [|apply not_true_is_false in Ec].
  - destruct (HalfC Ec o) as (q & Cq & Sq & Xq & Lq & Rq). rewrite negb_involutive in Sq, Rq.
    set (b := View (X (k_l q)) (X (k_r q)) e (s_l s up (Q o)) None).
    assert (FQ : F (Q o) = Some b) by (unfold sview, b; rewrite Cq, Sq, Rq; auto).
    assert (GQ : G (Q o) = Some b).
    { unfold G. destruct (Nat.eqb_spec (Q o) (N o)) as [E|E]; auto. rewrite Ec, Nat.eqb_refl. auto. }
    assert (OnlyG : forall j d, G j = Some d -> v_e d = e -> v_R d = None -> j = Q o).
    { intros j d Gj Ej Rj. destruct (GE j d Gj Ej) as [Fj _]. unfold sview in Fj. destruct (s_c s j) as [k|] eqn:Ck; [|discriminate].
      injection Fj as <-. apply (Only Ec up j k Ck Ej Rj). }
    pose proof (g_lt _ _ _ (i_core _ _ _ INV _ _ Cq)) as Lq'.
    destruct (mg o) eqn:M.
    + destruct AN as (AN & _). rewrite AN in *.
      apply (extend_linked hi' hi2 G F' e GL HI (Q o) b GQ eq_refl eq_refl OnlyG v); auto.
      * rewrite V5, Cq. auto.
      * rewrite V5, Cq, V4. qlra.
      * rewrite He, V4. qlra.
    + destruct AN as (AN & _). assert (NQ : N o <> Q o) by congruence.
      destruct (Cont Ec) as (_ & Xa & _ & Es). rewrite Ec in V2.
      apply (append_linked hi' hi2 G F' e GL HI (Q o) b GQ eq_refl eq_refl OnlyG (N o) v); auto.
      * rewrite GN. unfold sview. rewrite AN. auto.
      * rewrite V5, Xa. auto.
      * rewrite V5, V4. auto.
      * rewrite He, V4. qlra.
      * assert (O : other (Q o)).
        { repeat split; auto.
          - apply Q_T; auto.
          - intros u E. destruct (Bool.bool_dec u up) as [->|Nu]; [apply (N_Q up Ec); auto|].
            replace u with o in E by (destruct u, up; auto; congruence). auto.
          - rewrite Es. discriminate.
          - intros E. destruct (a_sr _ _ _ _ _ _ _ _ _ _ _ _ _ _ _ AF _ E). congruence. }
        unfold sview. rewrite (c_other _ O), Cq. cbn. f_equal. f_equal; auto.
        -- rewrite (L_other up _ O). rewrite oeq_no; auto.
           intros E. destruct (r_leaf up _ E) as (d' & Cd' & Sd & _). apply (c0_e up). congruence.
        -- destruct O as (O1 & O2 & O3 & O4). rewrite (a_R _ _ _ _ _ _ _ _ _ _ _ _ _ _ _ AF).
           rewrite (proj2 (Nat.eqb_neq _ _) O1), (proj2 (Nat.eqb_neq _ _) (O2 up)), (oeq_no _ _ O3), (oeq_no _ _ O4).
           rewrite M, Ec, Nat.eqb_refl. auto.
  - assert (M : mg o = false).
    { destruct (mg o) eqn:M; auto. pose proof (a_mg _ _ _ _ _ _ _ _ _ _ _ _ _ _ _ AF o M). congruence. }
    rewrite M in *. rewrite Ec in V2. destruct AN as (AN & _).
    apply (fresh_linked hi' hi2 G F' e GL HI (N o) v); auto.
    + rewrite GN. unfold sview. rewrite AN. auto.
    + rewrite V5, V4. auto.
    + rewrite He, V4. qlra.
    + intros j b Gj Ej. destruct (GE j b Gj Ej). congruence.
    + intros j Nj. apply GO; auto. congruence.
Qed.
End Links.

(** Trapezoids to the right keep their right links. *)
Lemma right_same j d : s_c s j = Some d -> xr <= X (k_l d) -> s_c s' j = Some d /\ forall up, s_r s' up j = s_r s up j.
Proof.
  intros Cj Lj. pose proof (g_lt _ _ _ Gc0) as L0.
  assert (NQ : cont = true -> forall u, j <> Q u).
  { intros Ec u ->. destruct (HalfC Ec u) as (q & Cq & _ & Xq & _). rewrite Cj in Cq. injection Cq as <-.
    pose proof (g_lt _ _ _ (i_core _ _ _ INV _ _ Cj)). qlra. }
  assert (O : other j).
  { repeat split.
    - intros ->. rewrite CT in Cj. injection Cj as <-. qlra.
    - intros u E. pose proof (a_N _ _ _ _ _ _ _ _ _ _ _ _ _ _ _ AF u) as AN. destruct (mg u) eqn:Mu.
      + destruct AN as (AN & _). apply (NQ (a_mg _ _ _ _ _ _ _ _ _ _ _ _ _ _ _ AF u Mu) u). congruence.
      + destruct AN as (AN & _). congruence.
    - intros E. destruct (a_sl _ _ _ _ _ _ _ _ _ _ _ _ _ _ _ AF j E). congruence.
    - intros E. destruct (a_sr _ _ _ _ _ _ _ _ _ _ _ _ _ _ _ AF j E). congruence. }
  split; [rewrite (c_other j O); auto|]. intros up. rewrite (R_other up j O); [|intros Ec; apply NQ; auto].
  rewrite (oeq_no (s_l s up T)), andb_false_r; auto. intros E. destruct (l_leaf up j E) as (d' & Cd & _ & Xd).
  rewrite Cj in Cd. injection Cd as <-. pose proof (g_lt _ _ _ (i_core _ _ _ INV _ _ Cj)). qlra.
Qed.
(** ** All of it *)
Lemma step_inv : inv D' hi2 s'.
Proof.
  destruct (w_real w e Re) as (L1 & L2 & L3 & _). pose proof lo_le. pose proof xb_hi. destruct e_top as [E1 E2].
  constructor.
  - intros g [G| ->]; auto. apply (i_real _ _ _ INV); auto.
  - intros g G. unfold hi2. destruct (Nat.eqb_spec g e) as [->|Ne]; [split; qlra|]. destruct G as [G|]; [|congruence]. apply (i_hi _ _ _ INV); auto.
  - destruct (i_box _ _ _ INV). unfold hi2. rewrite (proj2 (Nat.eqb_neq _ _) (not_eq_sym E1)), (proj2 (Nat.eqb_neq _ _) (not_eq_sym E2)). auto.
  - apply none_new.
  - apply new_core.
  - intros t y B. destruct (i_path _ _ _ INV t y B) as (l & o & P). eapply path_mono; eauto.
  - intros i g t. apply new_free.
  - intros i j t y. apply new_one.
  - apply new_link.
Qed.
Lemma halves up : exists q, s_c s' (N up) = Some q /\ side (negb up) q = e /\ side up q = side up c0 /\ X (k_r q) = xb /\ lo w e <= X (k_l q).
Proof.
  pose proof lo_le as LL. pose proof (a_N _ _ _ _ _ _ _ _ _ _ _ _ _ _ _ AF up) as AN. destruct (mg up) eqn:Mu.
  - destruct AN as (_ & q & Cq & Sq & C'). destruct (Half up Mu) as (q' & Cq' & Eq & _ & Lq). rewrite Cq in Cq'. injection Cq' as <-.
    eexists. split; [exact C'|]. cbn. repeat split; auto; try (rewrite <- Eq; destruct up; auto; fail); try (rewrite <- Sq; destruct up; auto; fail).
  - destruct AN as (_ & C'). eexists. split; [exact C'|]. cbn. repeat split; auto; try (destruct up; auto; fail).
    destruct cont; [destruct Cont as (_ & Ea & _); auto; rewrite <- Ea; auto|]. destruct (w_real w e Re) as (L & _). rewrite L. qlra.
Qed.
Lemma step_all : inv D' hi2 s'
  /\ (forall up j d, s_c s' j = Some d -> side up d = e -> s_r s' up j = None -> j = N (negb up))
  /\ (forall up, s_r s' up (N up) = or_else sr (s_r s up T))
  /\ (forall up, s_r s' up (N (negb up)) = None)
  /\ (forall up, exists q, s_c s' (N up) = Some q /\ side (negb up) q = e /\ side up q = side up c0 /\ X (k_r q) = xb /\ lo w e <= X (k_l q))
  /\ (forall j d, s_c s j = Some d -> xr <= X (k_l d) -> s_c s' j = Some d /\ forall up, s_r s' up j = s_r s up j).
Proof.
  split; [apply step_inv|]. split; [intros up j d; apply only_new|]. split; [apply R_N|]. split; [apply R_far|]. split; [apply halves|]. apply right_same.
Qed.
End Step.
End Inv.
