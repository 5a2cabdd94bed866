(** Relating polygons, part 3: the handled pieces and the areas between them. *)
From Coq Require Import QArith Qcanon Bool List Arith Lia.
From Verif Require Import QcTac Model_Base Model_Utils Model_Linear Model_Mixed Model_Shaped Model_RelateLinear Model_RelateShaped
  Spec_Base Spec_Sweep
  Proof_Base Proof_Line Proof_Sweep Proof_Sweep2 Proof_Sweep3 Proof_Sweep5 Proof_Sweep7
  Proof_Sweep8 Proof_Sweep9 Proof_Sweep10 Proof_Sweep11 Proof_Sweep12 Proof_Sweep13 Proof_Sweep14 Proof_Parity
  Proof_Flags Proof_Flags2 Proof_Flags3 Proof_Corner Proof_Region Proof_Select Proof_Nested Proof_Polygons
  Proof_RelSweep Proof_RelSweep2 Proof_RelSweep3 Proof_RelSweep4 Proof_RelShaped1 Proof_RelShaped2.
Import ListNotations.
Local Open Scope Qc_scope.

Definition minus (b : bool) (x y : bool) : bool := if b then x && negb y else negb x && y.
Definition sel_minus (b : bool) (first other : bool) (q : overlap_kind) : bool :=
  if b then sel_difference first other q
  else if first then other && kind_is q NO_OVERLAP
  else (negb other && kind_is q NO_OVERLAP) || kind_is q DIFFERENT_ORIENTATION.
Lemma selects_minus b : selects (minus b) (sel_minus b).
Proof.
  destruct b; [exact selects_difference|].
  constructor; unfold minus, sel_minus; cbn; try (intros [] []; reflexivity); try reflexivity.
  - intros [] [] []; reflexivity.
  - intros [] []; try reflexivity; congruence.
Qed.
Lemma xsum_some {A} (f : A -> bool) l : xsum f l = true -> exists x, In x l /\ f x = true.
Proof.
  induction l as [|a l IH]; cbn [xsum]; [discriminate|]. intros E. destruct (f a) eqn:Fa.
  - exists a. split; [left; auto|auto].
  - destruct IH as (x & Ix & Fx); [rewrite xorb_false_l in E; exact E|]. exists x. split; [right; auto|auto].
Qed.

Section Columns.
Variable c : ctx.
Hypothesis G : good c.
Hypothesis N : nc c.
Variable int : list bool.
Variable sel : bool -> bool -> overlap_kind -> bool.
Hypothesis Ee : evn c.
Hypothesis Or : ori c int.
Notation S' := (SX c). Notation E' := (EX c). Notation h := (hh c). Notation k := (kk c).
Notation EV := (EVX c).
Notation core := (core c). Notation mates := (mates c).
Variables (o : operation) (T : Qc) (v : view).
Hypothesis V : inv c o T.
Hypothesis Fl : flags c int sel o nobody v.
Let C : core o T := v_core c o T V.
Let W : wf c o := i_wf _ _ _ C.

Definition chosen_by (sel' : bool -> bool -> overlap_kind -> bool) (l : event) : bool := sel' (firstop o l) (vo v l) (vk v l).
Definition reselect (sel' : bool -> bool -> overlap_kind -> bool) : view := View (vo v) (vk v) (chosen_by sel') (fun _ => None).
Lemma reselect_flags sel' : flags c int sel' o nobody (reselect sel').
Proof.
  destruct Fl as [D K1 K2 Ot R B P]. constructor; cbn [vo vk vr vb reselect]; auto.
  - intros l Ll Nl. destruct (D l Ll Nl) as (A & A' & _). auto.
  - intros l f _ Q. discriminate.
  - intros a l _ _ _ Q. discriminate.
Qed.
(** A column just after the start of a piece. *)
Lemma column_after l : popped o l -> S' o l < T -> exists t, generic c t /\ t < T /\ S' o l < t
  /\ forall m, left_of o m -> S' o m = S' o l -> sp c o m t = true.
Proof.
  intros P L. destruct (free_start (map (X c) (c_pts c)) _ _ L) as (t & A & B & F). exists t.
  assert (Gt : generic c t).
  { intros p Ip Q. assert (U : S' o l < X c p) by (rewrite Q; auto). pose proof (F _ (in_map _ _ _ Ip) U). qlra. }
  split; auto. split; auto. split; auto. intros m Lm Sm. apply sp_true. split; [qlra|].
  pose proof (w_lt c o W m Lm) as Lt. apply F; [exact (in_map (X c) _ _ (w_ptE c o W m Lm))|]. rewrite <- Sm. exact Lt.
Qed.
(** The companion of an overlapping piece. *)
Lemma twin l : popped o l -> vk v l <> NO_OVERLAP -> exists m, popped o m /\ firstop o m = negb (firstop o l)
  /\ vk v m = vk v l /\ S' o m = S' o l.
Proof.
  intros P K. destruct (mate_dec c o l) as [(m & Pm & Nm & M)|A].
  - exists m. assert (M' : mates o m l) by (destruct M as [[M1 M2] M3]; split; [split; [auto|intros z; symmetry; auto]|auto]).
    split; auto. split.
    + assert (Q : firstop o l <> firstop o m).
      { pose proof (w_lt c o W l (proj1 P)) as L1. pose proof (w_lt c o W m (proj1 Pm)) as L2. destruct M as [M1 M2].
        apply (col_overlap c N o l m W); auto; try (apply P); try (apply Pm); qlra. }
      destruct (firstop o l), (firstop o m); try reflexivity; exfalso; apply Q; reflexivity.
    + split; [|symmetry; apply M]. rewrite (fl_kind1 _ _ _ _ _ _ Fl l m), (fl_kind1 _ _ _ _ _ _ Fl m l); auto. apply kind_at_sym.
  - exfalso. apply K. apply (fl_kind2 _ _ _ _ _ _ Fl l P A).
Qed.

Section Selected.
Variable op2 : bool -> bool -> bool.
Variable sel' : bool -> bool -> overlap_kind -> bool.
Hypothesis Se : selects op2 sel'.
Lemma mates_once t x y : t < T -> left_of o x -> left_of o y -> x <> y -> sp c o x t = true -> sp c o y t = true ->
  h o x t = h o y t -> chosen_by sel' x = true -> chosen_by sel' y = true -> False.
Proof.
  intros Lt Lx Ly Ne Sx Sy Q Rx Ry. destruct (sp_same c N o T V t Lt x y Lx Ly Ne Sx Sy Q) as [M F].
  apply sp_true in Sx. apply sp_true in Sy.
  assert (Px : popped o x) by (apply (sp_popped c o T V t Lt); auto; qlra).
  assert (Py : popped o y) by (apply (sp_popped c o T V t Lt); auto; qlra).
  assert (M' : mates o y x) by (destruct M as [[M1 M2] M3]; split; [split; [auto|intros z; symmetry; auto]|auto]).
  assert (K : forall x y, popped o x -> popped o y -> x <> y -> mates o x y -> firstop o x = true -> chosen_by sel' x = true -> False).
  { clear - Fl Se. intros x y Px Py Nxy Mxy Fx Rx. unfold chosen_by in Rx. rewrite Fx in Rx.
    rewrite (se_once _ _ Se) in Rx; [discriminate|]. rewrite (fl_kind1 _ _ _ _ _ _ Fl x y) by auto. unfold kind_at.
    destruct (Bool.eqb _ _); discriminate. }
  destruct (firstop o x) eqn:Fx.
  - apply (K x y); auto.
  - destruct (firstop o y) eqn:Fy; [apply (K y x); auto|congruence].
Qed.
Lemma chosen_area t l : generic c t -> t < T -> left_of o l -> sp c o l t = true -> chosen_by sel' l = true ->
  exists y, op2 (inp c t true y) (inp c t false y) = true.
Proof.
  intros Gt Lt Ll Sl Rl. set (z := h o l t).
  destruct (gap_round (map (fun m => h o m t) (lefts o)) z) as (d & Pd & Gp).
  assert (Gp' : forall m, left_of o m -> h o m t < z + d -> h o m t <= z).
  { intros m Lm Q. destruct (Qc_eq_dec (h o m t) z) as [E|Ne]; [rewrite E; apply Qcle_refl|].
    destruct (Gp (h o m t)) as [B|B]; auto; try qlra. apply in_map_iff. exists m. split; auto. apply lefts_In; auto. }
  pose proof (chosen_region c G N int sel' op2 Se Ee Or o T (reselect sel') V (reselect_flags sel') t Gt Lt) as Ch.
  assert (Lz : z < z + d) by qlra.
  pose proof (low_split c o T t Lt (chosen_by sel') (z + d) z Lz (fun m Lm _ Q => Gp' m Lm Q)) as Sp.
  pose proof (Ch (z + d)) as C1. pose proof (Ch z) as C2. unfold chosen in C1, C2. cbn [vr reselect] in C1, C2.
  rewrite (xsum_one _ (lefts o) l) in Sp.
  - rewrite Sl, Rl in Sp. cbn [andb] in Sp. rewrite andb_true_r in Sp. assert (E : qeqb (h o l t) z = true) by (apply qeqb_true; auto).
    rewrite E, C1, C2 in Sp. destruct (op2 (inp c t true z) (inp c t false z)) eqn:Q; [exists z; auto|].
    exists (z + d). rewrite Sp. reflexivity.
  - apply lefts_NoDup.
  - apply lefts_In; auto.
  - intros m Im Nm. apply lefts_In in Im. destruct (sp c o m t) eqn:Sm; auto. destruct (qeqb_spec (h o m t) z) as [Q|Q]; auto. cbn [andb].
    destruct (chosen_by sel' m) eqn:Rm; auto. exfalso. apply (mates_once t l m); auto.
Qed.
Lemma area_chosen t y : generic c t -> t < T -> op2 (inp c t true y) (inp c t false y) = true ->
  exists l, popped o l /\ S' o l < t /\ chosen_by sel' l = true.
Proof.
  intros Gt Lt Q.
  pose proof (chosen_region c G N int sel' op2 Se Ee Or o T (reselect sel') V (reselect_flags sel') t Gt Lt y) as Ch.
  rewrite Q in Ch. unfold chosen, low_of in Ch. apply xsum_some in Ch. destruct Ch as (l & Il & A).
  apply lefts_In in Il. cbn [vr reselect] in A. apply andb_true_iff in A. destruct A as [A R]. apply andb_true_iff in A.
  destruct A as [A _]. apply sp_true in A. exists l. split; [apply (sp_popped c o T V t Lt); auto; qlra|]. split; [apply A|auto].
Qed.
(** Pieces that satisfy [P], up to companions, are those that are selected. *)
Variable P : event -> bool.
Hypothesis P1 : forall l, popped o l -> P l = true -> chosen_by sel' l = true
  \/ exists m, popped o m /\ S' o m = S' o l /\ chosen_by sel' m = true.
Hypothesis P2 : forall l, popped o l -> chosen_by sel' l = true -> P l = true
  \/ exists m, popped o m /\ S' o m = S' o l /\ P m = true.
Lemma pieces_area l : popped o l -> S' o l < T -> P l = true ->
  exists t y, generic c t /\ t < T /\ op2 (inp c t true y) (inp c t false y) = true.
Proof.
  intros Pl Ls Q. destruct (column_after l Pl Ls) as (t & Gt & Lt & L1 & Sp).
  assert (Ex : exists m, popped o m /\ S' o m = S' o l /\ chosen_by sel' m = true).
  { destruct (P1 l Pl Q) as [A|A]; [exists l; auto|exact A]. }
  destruct Ex as (m & Pm & Sm & Cm).
  destruct (chosen_area t m Gt Lt (proj1 Pm) (Sp m (proj1 Pm) Sm) Cm) as (y & Y). exists t, y. auto.
Qed.
Lemma area_pieces t y : generic c t -> t < T -> op2 (inp c t true y) (inp c t false y) = true ->
  exists l, popped o l /\ S' o l < T /\ P l = true.
Proof.
  intros Gt Lt Q. destruct (area_chosen t y Gt Lt Q) as (l & Pl & Ls & Cl).
  destruct (P2 l Pl Cl) as [A|(m & Pm & Sm & A)]; [exists l|exists m]; split; auto; split; auto; qlra.
Qed.
End Selected.

Lemma kinds3 q : kind_is q NO_OVERLAP = true /\ q = NO_OVERLAP \/ kind_is q SAME_ORIENTATION = true /\ q = SAME_ORIENTATION
  \/ kind_is q DIFFERENT_ORIENTATION = true /\ q = DIFFERENT_ORIENTATION.
Proof. destruct q; auto. Qed.
Lemma bad_area b : (exists l, popped o l /\ S' o l < T /\ bad o v b l = true) <->
  exists t y, generic c t /\ t < T /\ minus b (inp c t true y) (inp c t false y) = true.
Proof.
  assert (A1 : forall l, popped o l -> bad o v b l = true -> chosen_by (sel_minus b) l = true
    \/ exists m, popped o m /\ S' o m = S' o l /\ chosen_by (sel_minus b) m = true).
  { intros l Pl B. unfold bad, within, without in B. unfold chosen_by, sel_minus, sel_difference.
    destruct (Bool.eqb_spec (firstop o l) b) as [E|E].
    - apply orb_true_iff in B. destruct B as [B|B].
      + left. rewrite andb_comm in B. destruct b; rewrite E, B; reflexivity.
      + assert (K : vk v l <> NO_OVERLAP) by (intros Q; rewrite Q in B; discriminate).
        destruct b.
        * right. destruct (twin l Pl K) as (m & Pm & Fm & Km & Sm). exists m. split; auto. split; auto.
          rewrite Fm, E, Km, B. cbn. rewrite orb_true_r. reflexivity.
        * left. rewrite E, B, orb_true_r. reflexivity.
    - left. rewrite andb_comm in B. destruct b, (firstop o l); try (exfalso; apply E; reflexivity); rewrite B; reflexivity. }
  assert (A2 : forall l, popped o l -> chosen_by (sel_minus b) l = true -> bad o v b l = true
    \/ exists m, popped o m /\ S' o m = S' o l /\ bad o v b m = true).
  { intros l Pl B. unfold chosen_by, sel_minus, sel_difference in B. unfold bad, within, without.
    destruct b, (firstop o l) eqn:F; cbn [Bool.eqb].
    - left. rewrite andb_comm, B. reflexivity.
    - apply orb_true_iff in B. destruct B as [B|B]; [left; rewrite andb_comm; exact B|right].
      assert (K : vk v l <> NO_OVERLAP) by (intros Q; rewrite Q in B; discriminate).
      destruct (twin l Pl K) as (m & Pm & Fm & Km & Sm). exists m. split; auto. split; auto.
      rewrite Fm, F, Km, B. cbn. rewrite orb_true_r. reflexivity.
    - left. rewrite andb_comm. exact B.
    - apply orb_true_iff in B. left. apply orb_true_iff. rewrite (andb_comm (kind_is _ _)). exact B. }
  split.
  - intros (l & Pl & Ls & B). apply (pieces_area (minus b) (sel_minus b) (selects_minus b) (bad o v b) A1 l); auto.
  - intros (t & y & Gt & Lt & Q). apply (area_pieces (minus b) (sel_minus b) (selects_minus b) (bad o v b) A2 t y); auto.
Qed.
Lemma meet_area : (exists l, popped o l /\ S' o l < T /\ meet v l = true) <->
  exists t y, generic c t /\ t < T /\ inp c t true y && inp c t false y = true.
Proof.
  assert (A1 : forall l, popped o l -> meet v l = true -> chosen_by sel_intersection l = true
    \/ exists m, popped o m /\ S' o m = S' o l /\ chosen_by sel_intersection m = true).
  { intros l Pl B. unfold meet, within in B. unfold chosen_by, sel_intersection. apply orb_true_iff in B. destruct B as [B|B].
    - left. rewrite andb_comm, B. reflexivity.
    - assert (K : vk v l <> NO_OVERLAP) by (intros Q; rewrite Q in B; discriminate).
      destruct (firstop o l) eqn:F.
      + right. destruct (twin l Pl K) as (m & Pm & Fm & Km & Sm). exists m. split; auto. split; auto.
        rewrite Fm, F, Km, B. cbn. apply orb_true_r.
      + left. rewrite B. apply orb_true_r. }
  assert (A2 : forall l, popped o l -> chosen_by sel_intersection l = true -> meet v l = true
    \/ exists m, popped o m /\ S' o m = S' o l /\ meet v m = true).
  { intros l Pl B. left. unfold chosen_by, sel_intersection in B. unfold meet, within. apply orb_true_iff in B. apply orb_true_iff.
    destruct B as [B|B]; [left; rewrite andb_comm; exact B|right]. apply andb_true_iff in B. apply B. }
  split.
  - intros (l & Pl & Ls & B). apply (pieces_area andb sel_intersection selects_intersection (meet v) A1 l); auto.
  - intros (t & y & Gt & Lt & Q). apply (area_pieces andb sel_intersection selects_intersection (meet v) A2 t y); auto.
Qed.

(** A piece within the other operand. *)
Definition wcol (b : bool) (t : Qc) (i : nat) : Prop := In i (idx c b) /\ spans c i t = true /\ oth c i t = true
  /\ forall j, In j (idx c (negb b)) -> spans c j t = true -> H c j t <> H c i t.
Lemma cover_sp i t : generic c t -> (i < length (c_ins c))%nat -> spans c i t = true -> exists l, left_of o l /\ sid o l = i /\ sp c o l t = true.
Proof.
  intros Gt Li S. apply spans_true in S. destruct (w_cover c o W i t Li) as (l & Ll & El & A & B); [qlra|qlra|].
  exists l. split; auto. split; auto. apply sp_true.
  assert (Lt : forall a b : Qc, a <= b -> a <> b -> a < b).
  { intros a b P Q. destruct (qltb_spec a b); auto. exfalso; apply Q; qlra. }
  split; apply Lt; auto; [|intros Q; apply (Gt _ (w_ptE c o W l Ll)); symmetry; exact Q]. apply Gt. apply (w_ptS c o W l Ll).
Qed.
Lemma opd_first l : opd c (sid o l) = firstop o l.
Proof. unfold opd. symmetry. apply firstop_sid. exact W. Qed.
Lemma within_column b : (exists l, popped o l /\ S' o l < T /\ firstop o l = b /\ within v l = true) <->
  exists t i, generic c t /\ t < T /\ wcol b t i.
Proof.
  split.
  - intros (l & Pl & Ls & F & B). destruct (column_after l Pl Ls) as (t & Gt & Lt & L1 & Sp).
    pose proof (Sp l (proj1 Pl) eq_refl) as Sl. unfold within in B. apply andb_true_iff in B. destruct B as [B1 B2].
    exists t, (sid o l). split; auto. split; auto. split; [apply idx_In; split; [apply (w_sid c o W); apply Pl|rewrite opd_first; auto]|].
    split.
    { apply sp_true in Sl. destruct (w_in c o W l (proj1 Pl)) as [I1 I2]. apply spans_true. split; qlra. }
    split; [rewrite <- (other_at c G int sel Ee o T v V Fl t Gt Lt l (proj1 Pl) Sl); auto|].
    intros j Ij Sj Q. apply idx_In in Ij. destruct Ij as [Lj Oj]. destruct (cover_sp j t Gt Lj Sj) as (m & Lm & Em & Sm).
    assert (Ne : l <> m) by (intros ->; rewrite <- Em, opd_first, F in Oj; destruct b; discriminate).
    assert (Eh : h o l t = h o m t) by (unfold hh; rewrite Em; auto).
    destruct (sp_same c N o T V t Lt l m (proj1 Pl) Lm Ne Sl Sm Eh) as [M _].
    assert (Pm : popped o m) by (apply sp_true in Sm; apply (sp_popped c o T V t Lt); auto; qlra).
    rewrite (fl_kind1 _ _ _ _ _ _ Fl l m) in B1 by auto. unfold kind_at in B1. destruct (Bool.eqb _ _); discriminate.
  - intros (t & i & Gt & Lt & Ii & Si & Oi & Al). apply idx_In in Ii. destruct Ii as [Li Opi].
    destruct (cover_sp i t Gt Li Si) as (l & Ll & El & Sl).
    assert (Pl : popped o l) by (apply sp_true in Sl; apply (sp_popped c o T V t Lt); auto; qlra).
    exists l. split; auto. split; [apply sp_true in Sl; qlra|]. split; [rewrite <- opd_first, El; auto|].
    unfold within. rewrite (other_at c G int sel Ee o T v V Fl t Gt Lt l Ll Sl), El, Oi.
    rewrite (kinds_no c int sel o T v V Fl t Lt l Ll Sl); [reflexivity|].
    intros m Lm Nm Sm Q. destruct (sp_same c N o T V t Lt l m Ll Lm (fun q => Nm (eq_sym q)) Sl Sm (eq_sym Q)) as [_ F].
    apply (Al (sid o m)).
    + apply idx_In. split; [apply (w_sid c o W); auto|]. rewrite opd_first. rewrite <- opd_first, El, Opi in F.
      destruct b, (firstop o m); try reflexivity; exfalso; apply F; reflexivity.
    + apply sp_true in Sm. destruct (w_in c o W m Lm) as [I1 I2]. apply spans_true. split; qlra.
    + unfold hh in Q. rewrite El in Q. exact Q.
Qed.
End Columns.
