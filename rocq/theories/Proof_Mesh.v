(** The quad-edge structure, part 1: arithmetic, accesses, new edges, splicing. *)
From Coq Require Import QArith Qcanon Bool List Arith Lia.
From Verif Require Import Model_Base Model_Utils Model_Mesh Spec_Base Spec_Mesh.
Import ListNotations.
Local Open Scope nat_scope.
Global Arguments rot : simpl never.
Global Arguments sym : simpl never.
Global Arguments onext : simpl never.
Global Arguments oprev : simpl never.
Global Arguments start : simpl never.
Global Arguments end_of : simpl never.
Global Arguments size : simpl never.
Global Arguments Nat.div : simpl never.

Lemma mod4 e : e mod 4 = 0 \/ e mod 4 = 1 \/ e mod 4 = 2 \/ e mod 4 = 3.
Proof. pose proof (Nat.mod_upper_bound e 4). lia. Qed.
Lemma div_mod4 e : e = 4 * (e / 4) + e mod 4.
Proof. apply Nat.div_mod. lia. Qed.
Lemma group_div k r : r < 4 -> (4 * k + r) / 4 = k.
Proof. intros H. rewrite Nat.mul_comm, Nat.div_add_l by lia. rewrite Nat.div_small by lia. lia. Qed.
Lemma group_mod k r : r < 4 -> (4 * k + r) mod 4 = r.
Proof. intros H. rewrite Nat.add_comm, Nat.mul_comm, Nat.mod_add by lia. apply Nat.mod_small; lia. Qed.
Ltac split4 e := let k := fresh "k" in let r := fresh "r" in let E := fresh "E" in
  pose proof (mod4 e) as E; rewrite (div_mod4 e) in *; set (k := e / 4) in *; clearbody k;
  destruct E as [E|[E|[E|E]]]; rewrite ?E in *; clear E e.
Lemma rot_0 k : rot (4 * k) = 4 * k + 1.
Proof. unfold rot. pose proof (group_div k 0). pose proof (group_mod k 0). rewrite Nat.add_0_r in *. rewrite H, H0 by lia. reflexivity. Qed.
Lemma rot_1 k : rot (4 * k + 1) = 4 * k + 2.
Proof. unfold rot. rewrite group_div, group_mod by lia. reflexivity. Qed.
Lemma rot_2 k : rot (4 * k + 2) = 4 * k + 3.
Proof. unfold rot. rewrite group_div, group_mod by lia. reflexivity. Qed.
Lemma rot_3 k : rot (4 * k + 3) = 4 * k.
Proof. unfold rot. rewrite group_div, group_mod by lia. lia. Qed.
Lemma four_cases e : exists k, e = 4 * k \/ e = 4 * k + 1 \/ e = 4 * k + 2 \/ e = 4 * k + 3.
Proof. exists (e / 4). pose proof (div_mod4 e). pose proof (mod4 e). lia. Qed.
Ltac four e := let k := fresh "k" in destruct (four_cases e) as (k & [?|[?|[?|?]]]); subst e;
  unfold sym; repeat (rewrite ?rot_0, ?rot_1, ?rot_2, ?rot_3).
Lemma rotated_rot e : to_rotated_edge e = rot e.
Proof.
  unfold to_rotated_edge. pose proof (div_mod4 e). pose proof (mod4 e) as M. unfold rot.
  set (k := e / 4) in *. destruct M as [M|[M|[M|M]]]; rewrite M in *;
  replace (e + 1) with (4 * k + (e mod 4 + 1)) by lia; rewrite M.
  1-3: rewrite group_mod by lia; lia.
  replace (4 * k + (3 + 1)) with (4 * (k + 1) + 0) by lia. rewrite group_mod by lia. lia.
Qed.
Lemma opposite_sym e : to_opposite_edge e = sym e.
Proof.
  unfold to_opposite_edge. four e.
  - rewrite (Nat.mul_comm 4 k), Nat.div_mul by lia. rewrite (Nat.mul_comm k 4).
    rewrite group_mod by lia. reflexivity.
  - rewrite group_div by lia. replace (4 * k + 1 + 2) with (4 * k + 3) by lia.
    rewrite group_mod by lia. lia.
  - rewrite group_div by lia. replace (4 * k + 2 + 2) with (4 * (k + 1) + 0) by lia.
    rewrite group_mod by lia. lia.
  - rewrite group_div by lia. replace (4 * k + 3 + 2) with (4 * (k + 1) + 1) by lia.
    rewrite group_mod by lia. lia.
Qed.
Lemma rot4 e : rot (rot (rot (rot e))) = e.
Proof. four e; reflexivity. Qed.
Lemma sym_sym e : sym (sym e) = e.
Proof. apply rot4. Qed.
Lemma rot_inj e f : rot e = rot f -> e = f.
Proof. intros H. rewrite <- (rot4 e), <- (rot4 f), H. reflexivity. Qed.
Lemma sym_inj e f : sym e = sym f -> e = f.
Proof. intros H. rewrite <- (sym_sym e), <- (sym_sym f), H. reflexivity. Qed.
Lemma sym_neq e : sym e <> e.
Proof. four e; lia. Qed.
Lemma rot_neq e : rot e <> e.
Proof. four e; lia. Qed.
Lemma rot_even e : Nat.even (rot e) = negb (Nat.even e).
Proof. four e; rewrite ?Nat.even_add, ?Nat.even_mul; reflexivity. Qed.
Lemma sym_even e : Nat.even (sym e) = Nat.even e.
Proof. unfold sym. rewrite !rot_even. apply negb_involutive. Qed.
Lemma rot_div e : rot e / 4 = e / 4.
Proof.
  four e; rewrite ?group_div by lia; auto.
  - pose proof (group_div k 0). rewrite Nat.add_0_r in H. rewrite H; lia.
  - pose proof (group_div k 0). rewrite Nat.add_0_r in H. rewrite H; lia.
Qed.
Lemma sym_div e : sym e / 4 = e / 4.
Proof. unfold sym. rewrite !rot_div. reflexivity. Qed.
Lemma rot_below e k : e < 4 * k -> rot e < 4 * k.
Proof. four e; lia. Qed.
Lemma sym_below e k : e < 4 * k -> sym e < 4 * k.
Proof. intros. unfold sym. apply rot_below, rot_below; auto. Qed.
Lemma same_group e f : Nat.even e = true -> Nat.even f = true -> e / 4 = f / 4 -> f = e \/ f = sym e.
Proof.
  intros He Hf H. pose proof (div_mod4 e) as De. pose proof (div_mod4 f) as Df. rewrite <- H in Df.
  assert (Ee : e mod 4 = 0 \/ e mod 4 = 2).
  { destruct (mod4 e) as [M|[M|[M|M]]]; auto; rewrite M in De; rewrite De, Nat.even_add, Nat.even_mul in He; discriminate. }
  assert (Ef : f mod 4 = 0 \/ f mod 4 = 2).
  { destruct (mod4 f) as [M|[M|[M|M]]]; auto; rewrite M in Df; rewrite Df, Nat.even_add, Nat.even_mul in Hf; discriminate. }
  assert (S : sym e = if e mod 4 =? 0 then 4 * (e / 4) + 2 else 4 * (e / 4)).
  { set (k := e / 4) in *. destruct Ee as [M|M]; rewrite M in *; rewrite De; cbn [Nat.eqb]; unfold sym;
    rewrite ?Nat.add_0_r, ?rot_0, ?rot_1, ?rot_2, ?rot_3; reflexivity. }
  rewrite S. destruct Ee as [M|M], Ef as [M'|M']; rewrite M in *; rewrite M' in *; cbn [Nat.eqb]; lia.
Qed.
Lemma half_sym e : Nat.even e = true -> sym e / 2 <> e / 2.
Proof.
  intros He. four e; rewrite ?Nat.even_add, ?Nat.even_mul in *; cbn in He; try discriminate.
  - replace (4 * k + 2) with ((2 * k + 1) * 2) by lia. replace (4 * k) with (2 * k * 2) by lia.
    rewrite !Nat.div_mul by lia. lia.
  - replace (4 * k + 2) with ((2 * k + 1) * 2) by lia. replace (4 * k) with (2 * k * 2) by lia.
    rewrite !Nat.div_mul by lia. lia.
Qed.
Lemma half_inj e f : Nat.even e = true -> Nat.even f = true -> e / 2 = f / 2 -> e = f.
Proof.
  intros He Hf H. apply Nat.even_spec in He. apply Nat.even_spec in Hf.
  destruct He as (a & ->). destruct Hf as (b & ->).
  rewrite (Nat.mul_comm 2 a), (Nat.mul_comm 2 b), !Nat.div_mul in H by lia. lia.
Qed.

(** Lists. *)
Lemma nth_set_nth {A} (l : list A) i v j d :
  nth j (set_nth l i v) d = if (i =? j)%nat then (if j <? length l then v else d) else nth j l d.
Proof.
  revert i j. induction l as [|x l IH]; intros [|i] [|j]; cbn; auto.
  - destruct (i =? j); auto.
  - rewrite IH. reflexivity.
Qed.
Lemma set_nth_len {A} (l : list A) i v : length (set_nth l i v) = length l.
Proof. revert i; induction l; intros [|i]; cbn; auto. Qed.
Lemma get_nth {A} (l : list A) i d : i < length l -> get l i = Ok (nth i l d).
Proof.
  intros H. unfold get. rewrite (nth_error_nth' l d H). reflexivity.
Qed.
Lemma put_ok {A} (l : list A) i v : i < length l -> put l i v = Ok (set_nth l i v).
Proof. intros H. unfold put. apply Nat.ltb_lt in H. rewrite H. reflexivity. Qed.

(** ** Facts about a structure *)
Section Structure.
Variable m : mesh.
Hypothesis Q : quad_structure m.

Lemma size_rot e : e < size m -> rot e < size m.
Proof. destruct (qs_groups m Q) as (k & -> & _). apply rot_below. Qed.
Lemma size_sym e : e < size m -> sym e < size m.
Proof. intros. unfold sym. apply size_rot, size_rot; auto. Qed.
Lemma edge_sym e : edge m e -> edge m (sym e).
Proof. intros (H & L). split; [rewrite sym_even; auto|apply size_sym; auto]. Qed.
Lemma edge_onext e : edge m e -> edge m (onext m e).
Proof. intros (H & L). destruct (qs_range m Q e L) as (H1 & H2). split; congruence. Qed.
Lemma onext_size e : e < size m -> onext m e < size m.
Proof. intros L. apply (qs_range m Q e L). Qed.
Lemma edge_oprev e : edge m e -> edge m (oprev m e).
Proof.
  intros (H & L). unfold oprev. pose proof (size_rot e L) as L'.
  destruct (qs_range m Q _ L') as (H1 & H2). split; [|apply size_rot; auto].
  rewrite rot_even, H2, rot_even, H. reflexivity.
Qed.
Lemma onext_oprev e : e < size m -> onext m (oprev m e) = e.
Proof. apply (qs_turn m Q). Qed.
Lemma oprev_onext e : e < size m -> oprev m (onext m e) = e.
Proof.
  intros L. unfold oprev.
  assert (L3 : rot (rot (rot e)) < size m) by (do 3 apply size_rot; auto).
  pose proof (qs_turn m Q _ L3) as T. rewrite rot4 in T. rewrite T. apply rot4.
Qed.
Lemma onext_inj e f : e < size m -> f < size m -> onext m e = onext m f -> e = f.
Proof. intros Le Lf H. rewrite <- (oprev_onext e Le), <- (oprev_onext f Lf), H. reflexivity. Qed.
Lemma oprev_size e : e < size m -> oprev m e < size m.
Proof. intros L. apply size_rot, onext_size, size_rot; auto. Qed.
Lemma start_oprev e : edge m e -> start m (oprev m e) = start m e.
Proof.
  intros E. pose proof (qs_start m Q _ (edge_oprev e E)) as S. rewrite onext_oprev in S by apply E. congruence.
Qed.
Lemma start_in e : edge m e -> In (start m e) (m_starts_indices m).
Proof.
  intros (H & L). apply nth_In. destruct (qs_groups m Q) as (k & S1 & S2). rewrite S2.
  apply Nat.div_lt_upper_bound; lia.
Qed.
Lemma start_point e : edge m e -> start m e < length (m_endpoints m).
Proof. intros E. apply (qs_points m Q), start_in; auto. Qed.

(** The accesses. *)
Lemma get_left e : e < size m -> to_left_from_start m e = Ok (onext m e).
Proof. intros L. apply get_nth; auto. Qed.
Lemma get_right e : e < size m -> to_right_from_start m e = Ok (oprev m e).
Proof.
  intros L. unfold to_right_from_start. rewrite !rotated_rot, get_left by (apply size_rot; auto).
  cbn [bind]. rewrite rotated_rot. reflexivity.
Qed.
Lemma get_left_end e : e < size m -> to_left_from_end m e = Ok (oprev m (sym e)).
Proof.
  intros L. unfold to_left_from_end. rewrite rotated_rot, opposite_sym, get_left by (apply size_sym, size_rot; auto).
  cbn [bind]. rewrite rotated_rot. reflexivity.
Qed.
Lemma get_right_end e : e < size m -> to_right_from_end m e = Ok (onext m (sym e)).
Proof. intros L. unfold to_right_from_end. rewrite opposite_sym. apply get_left, size_sym; auto. Qed.
Lemma get_start_index e : edge m e -> to_start_index m e = Ok (start m e).
Proof.
  intros (H & L). unfold to_start_index. rewrite H. apply get_nth.
  destruct (qs_groups m Q) as (k & S1 & S2). rewrite S2. apply Nat.div_lt_upper_bound; lia.
Qed.
Lemma get_end_index e : edge m e -> to_end_index m e = Ok (end_of m e).
Proof. intros E. unfold to_end_index. rewrite opposite_sym. apply get_start_index, edge_sym; auto. Qed.
Lemma get_start e : edge m e -> to_start m e = Ok (nth (start m e) (m_endpoints m) (Pt 0 0)).
Proof.
  intros E. unfold to_start. rewrite get_start_index by auto. cbn [bind]. apply get_nth, start_point; auto.
Qed.
Lemma get_end e : edge m e -> to_end m e = Ok (nth (end_of m e) (m_endpoints m) (Pt 0 0)).
Proof.
  intros E. unfold to_end. rewrite get_end_index by auto. cbn [bind]. apply get_nth, start_point, edge_sym; auto.
Qed.
End Structure.

(** ** Creating *)
Lemma no_edges_structure ps : quad_structure (mesh_from_points ps).
Proof.
  constructor; cbn.
  - exists 0. auto.
  - unfold size. cbn. intros e H. lia.
  - unfold size. cbn. intros e H. lia.
  - unfold edge, size. cbn. intros e (_ & H). lia.
  - intros i [].
Qed.

Section Create.
Variable m : mesh.
Hypothesis Q : quad_structure m.
Variables (i j : nat).
Notation m' := (fst (create_edge m i j)).
Notation n := (size m).
Lemma create_size : size m' = n + 4.
Proof. unfold size. cbn. rewrite app_length. reflexivity. Qed.
Lemma create_onext_old e : e < n -> onext m' e = onext m e.
Proof. intros L. unfold onext; cbn. apply app_nth1; auto. Qed.
Lemma create_onext_new e : n <= e -> e < n + 4 -> onext m' e = rot (rot (rot (rot (if Nat.even e then e else sym e)))).
Proof.
  intros L1 L2. rewrite rot4. unfold onext; cbn. rewrite app_nth2 by auto. fold (size m).
  destruct (qs_groups m Q) as (k & S1 & _).
  assert (C : e = n \/ e = n + 1 \/ e = n + 2 \/ e = n + 3) by lia. rewrite S1 in *.
  destruct C as [->|[->|[->| ->]]]; rewrite ?Nat.even_add, ?Nat.even_mul; cbn [Nat.even Bool.eqb orb negb andb];
  [replace (4 * k - 4 * k) with 0 by lia|replace (4 * k + 1 - 4 * k) with 1 by lia
  |replace (4 * k + 2 - 4 * k) with 2 by lia|replace (4 * k + 3 - 4 * k) with 3 by lia]; cbn [nth];
  unfold size in S1; rewrite ?S1; unfold sym; rewrite ?rot_0, ?rot_1, ?rot_2, ?rot_3, ?rot_0; auto.
Qed.
Lemma create_start_old e : e < n -> start m' e = start m e.
Proof.
  intros L. unfold start; cbn. apply app_nth1. destruct (qs_groups m Q) as (k & S1 & S2). rewrite S2.
  apply Nat.div_lt_upper_bound; lia.
Qed.
Lemma create_start_new : start m' n = i /\ start m' (sym n) = j.
Proof.
  unfold start; cbn. destruct (qs_groups m Q) as (k & S1 & S2). rewrite S1. unfold sym. rewrite rot_0, rot_1.
  replace (4 * k + 2) with ((2 * k + 1) * 2) by lia. replace (4 * k) with (2 * k * 2) by lia.
  rewrite !Nat.div_mul by lia. rewrite !app_nth2 by lia. rewrite S2.
  rewrite Nat.sub_diag. replace (2 * k + 1 - 2 * k) with 1 by lia. auto.
Qed.
Lemma create_new_edge : edge m' n /\ edge m' (sym n) /\ sym n = n + 2.
Proof.
  destruct (qs_groups m Q) as (k & S1 & _).
  assert (E : sym n = n + 2) by (rewrite S1; unfold sym; rewrite rot_0, rot_1; reflexivity).
  unfold edge. rewrite E, create_size, S1, !Nat.even_add, !Nat.even_mul. cbn. repeat split; auto; lia.
Qed.
Lemma create_new_even e : n <= e -> e < n + 4 -> Nat.even e = true -> e = n \/ e = sym n.
Proof.
  destruct (qs_groups m Q) as (k & S1 & _). intros. destruct create_new_edge as (_ & _ & ->).
  assert (C : e = n \/ e = n + 1 \/ e = n + 2 \/ e = n + 3) by lia. rewrite S1 in *.
  destruct C as [->|[->|[->| ->]]]; auto; rewrite Nat.even_add, Nat.even_mul in H1; discriminate.
Qed.
Lemma create_new_loop e : n <= e -> e < n + 4 -> Nat.even e = true -> onext m' e = e.
Proof. intros. rewrite create_onext_new by auto. rewrite H1, rot4. reflexivity. Qed.
Hypothesis Hi : i < length (m_endpoints m).
Hypothesis Hj : j < length (m_endpoints m).
Lemma create_structure : quad_structure m'.
Proof.
  destruct (qs_groups m Q) as (k & S1 & S2).
  assert (Fr : forall e, ~ e < n -> e < n + 4 -> rot e < n + 4 /\ ~ rot e < n).
  { intros e. rewrite S1. four e; lia. }
  constructor.
  - exists (k + 1). rewrite create_size. cbn. rewrite app_length, S2. cbn. lia.
  - intros e. rewrite create_size. intros L. destruct (Nat.lt_ge_cases e n) as [L'|L'].
    + rewrite create_onext_old by auto. destruct (qs_range m Q e L'). split; auto. lia.
    + rewrite create_onext_new, rot4 by auto. destruct (Nat.even e) eqn:E; auto. rewrite sym_even. split; auto.
      apply Fr; [|apply Fr; lia]; apply Fr; lia.
  - intros e. rewrite create_size. intros L. destruct (Nat.lt_ge_cases e n) as [L'|L'].
    + pose proof (size_rot m Q e L') as Lr. rewrite (create_onext_old (rot e)) by auto.
      rewrite create_onext_old by (apply size_rot, onext_size; auto). apply (qs_turn m Q); auto.
    + assert (Ls : rot e < n + 4 /\ ~ rot e < n) by (apply Fr; lia).
      rewrite (create_onext_new (rot e)), rot4, rot_even by lia.
      destruct (Nat.even e) eqn:E; cbn [negb].
      * unfold sym. rewrite rot4. apply create_new_loop; auto.
      * assert (Lq : rot (rot e) < n + 4 /\ ~ rot (rot e) < n) by (apply Fr; lia).
        rewrite create_onext_new, rot4 by lia. fold (sym e). rewrite (sym_even e), E. apply sym_sym.
  - intros e (He & L). rewrite create_size in L. destruct (Nat.lt_ge_cases e n) as [L'|L'].
    + rewrite create_onext_old by auto. rewrite !create_start_old by (auto; apply onext_size; auto).
      apply (qs_start m Q). split; auto.
    + rewrite create_new_loop by auto. reflexivity.
  - intros x I. cbn in *. apply in_app_or in I. destruct I as [I|[<-|[<-|[]]]]; auto. apply (qs_points m Q); auto.
Qed.
End Create.

(** ** Splicing *)
Section Splice.
Variable m : mesh.
Hypothesis Q : quad_structure m.
Variables (a b : nat).
Hypothesis Ea : edge m a.
Hypothesis Eb : edge m b.
Definition spliced : mesh :=
  let al := rot (onext m a) in let be := rot (onext m b) in
  let l1 := set_nth (set_nth (m_left_from_start m) a (onext m b)) b (onext m a) in
  Mesh (m_endpoints m) (set_nth (set_nth l1 al (nth be l1 0)) be (nth al l1 0)) (m_starts_indices m).
Lemma splice_ok : splice_edges m a b = Ok spliced.
Proof.
  unfold splice_edges. destruct Ea as (Ha & La), Eb as (Hb & Lb).
  rewrite !get_left by auto. cbn [bind]. rewrite !rotated_rot.
  assert (L1 : rot (onext m a) < size m) by (apply size_rot, onext_size; auto).
  assert (L2 : rot (onext m b) < size m) by (apply size_rot, onext_size; auto).
  rewrite put_ok by auto. cbn [bind]. rewrite put_ok by (rewrite set_nth_len; auto). cbn [bind].
  rewrite (get_nth _ _ 0) by (rewrite !set_nth_len; auto). cbn [bind].
  rewrite (get_nth _ _ 0) by (rewrite !set_nth_len; auto). cbn [bind].
  rewrite put_ok by (rewrite !set_nth_len; auto). cbn [bind].
  rewrite put_ok by (rewrite !set_nth_len; auto). reflexivity.
Qed.
Lemma spliced_size : size spliced = size m.
Proof. unfold size. cbn. rewrite !set_nth_len. reflexivity. Qed.
Lemma spliced_onext e : e < size m -> onext spliced e =
  if e =? a then onext m b else if e =? b then onext m a
  else if e =? rot (onext m a) then onext m (rot (onext m b))
  else if e =? rot (onext m b) then onext m (rot (onext m a)) else onext m e.
Proof.
  intros L. destruct Ea as (Ha & La), Eb as (Hb & Lb). unfold onext at 1. cbn [spliced m_left_from_start].
  set (al := rot (onext m a)). set (be := rot (onext m b)).
  assert (Oa : Nat.even al = false).
  { unfold al. rewrite rot_even. destruct (qs_range m Q a La) as (_ & ->). rewrite Ha. reflexivity. }
  assert (Ob : Nat.even be = false).
  { unfold be. rewrite rot_even. destruct (qs_range m Q b Lb) as (_ & ->). rewrite Hb. reflexivity. }
  assert (Lal : al < size m) by (apply size_rot, onext_size; auto).
  assert (Lbe : be < size m) by (apply size_rot, onext_size; auto).
  assert (N : forall x y, Nat.even x = true -> Nat.even y = false -> (x =? y) = false).
  { intros x y Hx Hy. apply Nat.eqb_neq. intros ->. congruence. }
  assert (S : forall x, x < size m -> (x <? length (m_left_from_start m)) = true) by (intros; apply Nat.ltb_lt; auto).
  rewrite !nth_set_nth, !set_nth_len, !S by auto.
  rewrite (N b be), (N a be), (N b al), (N a al) by auto.
  rewrite !(Nat.eqb_sym _ e). 
  destruct (Nat.eqb_spec e be) as [->|D1].
  - rewrite (Nat.eqb_sym be a), (Nat.eqb_sym be b), (N a be), (N b be) by auto.
    destruct (Nat.eqb_spec be al) as [E|_]; [|reflexivity].
    fold (onext m al). fold (onext m be). rewrite E. reflexivity.
  - destruct (Nat.eqb_spec e al) as [->|D2].
    + rewrite (Nat.eqb_sym al a), (Nat.eqb_sym al b), (N a al), (N b al) by auto. reflexivity.
    + destruct (Nat.eqb_spec e b) as [->|D3]; [|reflexivity].
      destruct (Nat.eqb_spec b a) as [E|_]; [|reflexivity]. rewrite E. reflexivity.
Qed.
Lemma spliced_edges e : edge m e -> onext spliced e =
  if e =? a then onext m b else if e =? b then onext m a else onext m e.
Proof.
  intros (He & L). rewrite spliced_onext by auto.
  assert (N : forall x, edge m x -> (e =? rot (onext m x)) = false).
  { intros x (Hx & Lx). apply Nat.eqb_neq. intros E. destruct (qs_range m Q x Lx) as (_ & R).
    rewrite E, rot_even, R, Hx in He. discriminate. }
  rewrite (N a), (N b) by auto. reflexivity.
Qed.
Lemma spliced_topology :
  (forall e, e < size spliced -> onext spliced e < size spliced /\ Nat.even (onext spliced e) = Nat.even e)
  /\ (forall e, e < size spliced -> onext spliced (rot (onext spliced (rot e))) = e).
Proof.
  destruct Ea as (Ha & La), Eb as (Hb & Lb).
  set (al := rot (onext m a)). set (be := rot (onext m b)).
  assert (Oa : Nat.even al = false).
  { unfold al. rewrite rot_even. destruct (qs_range m Q a La) as (_ & ->). rewrite Ha. reflexivity. }
  assert (Ob : Nat.even be = false).
  { unfold be. rewrite rot_even. destruct (qs_range m Q b Lb) as (_ & ->). rewrite Hb. reflexivity. }
  assert (Lal : al < size m) by (apply size_rot, onext_size; auto).
  assert (Lbe : be < size m) by (apply size_rot, onext_size; auto).
  pose proof (qs_range m Q) as R.
  assert (Range : forall e, e < size m -> onext spliced e < size m /\ Nat.even (onext spliced e) = Nat.even e).
  { intros e L. rewrite spliced_onext by auto. fold al. fold be.
    destruct (Nat.eqb_spec e a) as [->|]; [destruct (R b Lb); split; auto; congruence|].
    destruct (Nat.eqb_spec e b) as [->|]; [destruct (R a La); split; auto; congruence|].
    destruct (Nat.eqb_spec e al) as [->|]; [destruct (R be Lbe); split; auto; congruence|].
    destruct (Nat.eqb_spec e be) as [->|]; [destruct (R al Lal); split; auto; congruence|].
    apply R; auto. }
  rewrite spliced_size. split; [exact Range|].
  intros e L.
  (* what the structure says at the four places *)
  assert (Ta : onext m al = rot (rot (rot a))).
  { pose proof (qs_turn m Q (rot (rot (rot a)))) as T. rewrite rot4 in T. apply T. do 3 (apply (size_rot m Q)); auto. }
  assert (Tb : onext m be = rot (rot (rot b))).
  { pose proof (qs_turn m Q (rot (rot (rot b)))) as T. rewrite rot4 in T. apply T. do 3 (apply (size_rot m Q)); auto. }
  pose proof (size_rot m Q e L) as Lr.
  assert (Lx : rot (onext spliced (rot e)) < size m) by (apply size_rot; auto; apply Range; auto).
  assert (Ne : forall x y, Nat.even x = true -> Nat.even y = false -> x <> y) by (intros x y ? ? ->; congruence).
  rewrite (spliced_onext _ Lx). rewrite (spliced_onext (rot e)) by auto. fold al. fold be.
  destruct (Nat.eqb_spec (rot e) a) as [E|N1].
  { (* rot e = a *) fold be.
    rewrite (proj2 (Nat.eqb_neq be a)), (proj2 (Nat.eqb_neq be b)) by (intros X; revert X; apply not_eq_sym, Ne; auto).
    rewrite Nat.eqb_refl. destruct (Nat.eqb_spec be al) as [E'|_].
    - rewrite Tb. assert (EE : b = a).
      { unfold al, be in E'. apply rot_inj in E'. apply (onext_inj m Q) in E'; auto. }
      rewrite EE, <- E, rot4. reflexivity.
    - rewrite Ta, <- E, rot4. reflexivity. }
  destruct (Nat.eqb_spec (rot e) b) as [E|N2].
  { fold al.
    rewrite (proj2 (Nat.eqb_neq al a)), (proj2 (Nat.eqb_neq al b)) by (intros X; revert X; apply not_eq_sym, Ne; auto).
    rewrite Nat.eqb_refl. rewrite Tb, <- E, rot4. reflexivity. }
  destruct (Nat.eqb_spec (rot e) al) as [E|N3].
  { rewrite Tb, rot4. rewrite Nat.eqb_refl. unfold al in E. apply rot_inj in E.
    destruct (Nat.eqb_spec b a); [congruence|auto]. }
  destruct (Nat.eqb_spec (rot e) be) as [E|N4].
  { rewrite Ta, rot4. rewrite Nat.eqb_refl. unfold be in E. apply rot_inj in E. congruence. }
  pose proof (qs_turn m Q e L) as T.
  assert (X : forall x, x < size m -> rot (onext m (rot e)) <> rot (onext m x) \/ rot e = x).
  { intros x Hx. destruct (Nat.eq_dec (rot e) x); auto. left. intros H. apply rot_inj in H.
    apply (onext_inj m Q) in H; auto. }
  destruct (Nat.eqb_spec (rot (onext m (rot e))) a) as [E|_].
  { destruct (X al Lal) as [D|]; [|contradiction]. rewrite Ta, rot4 in D. contradiction. }
  destruct (Nat.eqb_spec (rot (onext m (rot e))) b) as [E|_].
  { destruct (X be Lbe) as [D|]; [|contradiction]. rewrite Tb, rot4 in D. contradiction. }
  destruct (Nat.eqb_spec (rot (onext m (rot e))) al) as [E|_].
  { destruct (X a La) as [D|]; [|contradiction]. contradiction. }
  destruct (Nat.eqb_spec (rot (onext m (rot e))) be) as [E|_].
  { destruct (X b Lb) as [D|]; [|contradiction]. contradiction. }
  exact T.
Qed.
Lemma spliced_start e : start spliced e = start m e.
Proof. reflexivity. Qed.
Lemma spliced_structure : start m a = start m b -> quad_structure spliced.
Proof.
  intros S. destruct spliced_topology as (T1 & T2). constructor; auto.
  - rewrite spliced_size. apply (qs_groups m Q).
  - intros e (He & L). rewrite spliced_size in L. assert (E : edge m e) by (split; auto).
    rewrite spliced_edges by auto. rewrite !spliced_start.
    pose proof (qs_start m Q) as St.
    destruct (Nat.eqb_spec e a) as [->|]; [rewrite St by auto; auto|].
    destruct (Nat.eqb_spec e b) as [->|]; [rewrite St by auto; auto|]. apply St; auto.
  - exact (qs_points m Q).
Qed.
End Splice.
