(** The circular order of the events that start at a point: what [_events_to_connectivity] and
    [_to_next_event_id] of rene/_clipping/shaped.py do. *)
From Coq Require Import QArith Qcanon Bool List Arith Lia Permutation Sorted.
From Verif Require Import QcTac Model_Base Model_Utils Model_Linear Model_Shaped Spec_Base Proof_Base Proof_Ring Proof_Loop
  Proof_Corner Proof_Corner2.
Import ListNotations.
Local Close Scope Qc_scope.
Local Open Scope nat_scope.

Lemma count_while_split {T} (P : T -> bool) l : exists a b, l = a ++ b /\ length a = count_while P l
  /\ (forall x, In x a -> P x = true) /\ (forall x b', b = x :: b' -> P x = false).
Proof.
  induction l as [|x l (a & b & E & Ln & A & B)]; cbn [count_while].
  - exists [], []. split; auto. split; auto. split; [intros x []|discriminate].
  - destruct (P x) eqn:Q.
    + exists (x :: a), b. split; [cbn; congruence|]. split; [cbn; congruence|]. split; auto. intros y [<-|I]; auto.
    + exists [], (x :: l). split; auto. split; auto. split; [intros y []|]. intros y b' Eq. congruence.
Qed.

(** One turn of the loop. *)
Section Connect.
Variable o : operation.
Variable key : point -> Qc.
Notation at_ := (to_event_start o).
Notation lft := is_event_left.
Definition comes (x y : event) : Prop := (key (at_ x) < key (at_ y))%Qc \/ (at_ x = at_ y /\ (lft x = true -> lft y = true)).

Lemma comes_le x y : comes x y -> (key (at_ x) <= key (at_ y))%Qc.
Proof. intros [Q|[Q _]]; [qlra|rewrite Q; apply Qcle_refl]. Qed.

Lemma group_head e rest0 : let rest := e :: rest0 in StronglySorted comes rest ->
  exists rs ls q, rest = rs ++ ls ++ q
    /\ count_while (fun x => point_eq (at_ x) (at_ e) && negb (lft x)) rest = length rs
    /\ count_while (fun x => point_eq (at_ x) (at_ e)) (skipn (length rs) rest) = length ls
    /\ (forall x, In x rs -> at_ x = at_ e /\ lft x = false)
    /\ (forall x, In x ls -> at_ x = at_ e /\ lft x = true)
    /\ (forall x, In x q -> (key (at_ e) < key (at_ x))%Qc).
Proof.
  intros rest So. set (P := fun x => point_eq (at_ x) (at_ e) && negb (lft x)). set (P' := fun x => point_eq (at_ x) (at_ e)).
  destruct (count_while_split P rest) as (rs & b & E & Ln & A & B).
  destruct (count_while_split P' b) as (ls & q & E2 & Ln2 & A2 & B2).
  assert (He : forall x, In x rest -> (key (at_ e) <= key (at_ x))%Qc).
  { intros x [<-|I]; [apply Qcle_refl|]. unfold rest in So. apply StronglySorted_inv in So. destruct So as [_ F].
    rewrite Forall_forall in F. apply comes_le, F; auto. }
  assert (Far : forall x, In x rest -> at_ x <> at_ e -> (key (at_ e) < key (at_ x))%Qc).
  { intros x [<-|I] Ne; [congruence|]. unfold rest in So. apply StronglySorted_inv in So. destruct So as [_ F].
    rewrite Forall_forall in F. destruct (F x I) as [|[Q _]]; auto. congruence. }
  assert (Sb : StronglySorted comes b).
  { rewrite E in So. clear - So. induction rs as [|x rs IH]; auto. apply IH. cbn in So. apply StronglySorted_inv in So. apply So. }
  assert (Ib : forall x, In x b -> In x rest) by (intros x I; rewrite E; apply in_or_app; auto).
  assert (Lb : forall x, In x b -> at_ x = at_ e -> lft x = true).
  { intros x I Q. destruct b as [|z b']; [destruct I|]. specialize (B z b' eq_refl). unfold P in B.
    destruct (point_eq (at_ z) (at_ e)) eqn:Qz; cbn [andb] in B.
    - apply point_eq_true in Qz. apply negb_false_iff in B. destruct I as [<-|I]; auto.
      apply StronglySorted_inv in Sb. destruct Sb as [_ F]. rewrite Forall_forall in F. destruct (F x I) as [D|[D1 D2]]; auto.
      exfalso. rewrite Q, Qz in D. qlra.
    - assert (Nz : at_ z <> at_ e) by (intros D; apply point_eq_true in D; congruence).
      pose proof (Far z (Ib z (or_introl eq_refl)) Nz) as K1. destruct I as [<-|I]; [congruence|].
      apply StronglySorted_inv in Sb. destruct Sb as [_ F]. rewrite Forall_forall in F. pose proof (comes_le _ _ (F x I)) as K2.
      exfalso. rewrite Q in K2. qlra. }
  exists rs, ls, q. split; [congruence|]. split; [congruence|]. split.
  { rewrite E, skipn_app, skipn_all, Nat.sub_diag. cbn [skipn app]. auto. }
  split.
  { intros x I. apply A in I. unfold P in I. apply andb_true_iff in I. destruct I as [I1 I2]. apply point_eq_true in I1. apply negb_true_iff in I2. auto. }
  split.
  { intros x I. pose proof (A2 x I) as Q. apply point_eq_true in Q. split; auto. apply Lb; auto. rewrite E2. apply in_or_app; auto. }
  intros x I. destruct q as [|z q']; [destruct I|]. specialize (B2 z q' eq_refl).
  assert (Nz : at_ z <> at_ e) by (intros D; apply point_eq_true in D; unfold P' in B2; congruence).
  assert (Iz : In z b) by (rewrite E2; apply in_or_app; right; left; auto).
  pose proof (Far z (Ib z Iz) Nz) as K1. destruct I as [<-|I]; auto.
  rewrite E2 in Sb. apply StronglySorted_split in Sb. pose proof (comes_le _ _ (proj2 Sb x I)). qlra.
Qed.

Lemma connect_group_length i r l : length (connect_group i r l) = r + l.
Proof.
  unfold connect_group. rewrite app_length. f_equal; [destruct r|destruct l]; auto; rewrite app_length, seq_length; cbn; lia.
Qed.

Lemma SS_app_r {T} (R : T -> T -> Prop) a b : StronglySorted R (a ++ b) -> StronglySorted R b.
Proof. induction a as [|x a IH]; auto. cbn. intros Q. apply StronglySorted_inv in Q. apply IH, Q. Qed.

Lemma connectivity_groups : forall fuel i rest, length rest <= fuel -> StronglySorted comes rest ->
  length (events_to_connectivity fuel o i rest) = length rest
  /\ forall x, In x rest -> exists p rs ls q cp cq, rest = p ++ rs ++ ls ++ q
     /\ (forall y, In y p \/ In y q -> at_ y <> at_ x)
     /\ (forall y, In y rs -> at_ y = at_ x /\ lft y = false)
     /\ (forall y, In y ls -> at_ y = at_ x /\ lft y = true)
     /\ events_to_connectivity fuel o i rest = cp ++ connect_group (i + length p) (length rs) (length ls) ++ cq
     /\ length cp = length p.
Proof.
  induction fuel as [|fuel IH]; intros i rest Ln So.
  - destruct rest; [|cbn in Ln; lia]. split; auto. intros x [].
  - destruct rest as [|e rest0]; [split; auto; intros x []|].
    destruct (group_head e rest0 So) as (rs & ls & q & E & C1 & C2 & A1 & A2 & A3).
    cbn [events_to_connectivity]. rewrite C1, C2.
    assert (Sk : skipn (length rs + length ls) (e :: rest0) = q).
    { rewrite E, app_assoc, skipn_app, <- app_length, skipn_all, Nat.sub_diag. auto. }
    rewrite Sk.
    assert (Lq : length (e :: rest0) = length rs + length ls + length q) by (rewrite E, !app_length; lia).
    assert (Ne : 1 <= length rs + length ls).
    { assert (I : In e (rs ++ ls ++ q)) by (rewrite <- E; left; auto). apply in_app_or in I. destruct I as [I|I]; [destruct rs; [destruct I|cbn; lia]|].
      apply in_app_or in I. destruct I as [I|I]; [destruct ls; [destruct I|cbn; lia]|]. exfalso. specialize (A3 e I). qlra. }
    assert (Sq : StronglySorted comes q).
    { rewrite E in So. apply SS_app_r in So. apply SS_app_r in So. auto. }
    destruct (IH (i + length rs + length ls) q) as [I1 I2]; auto; [cbn [length] in *; lia|].
    split; [rewrite app_length, connect_group_length, I1; lia|].
    intros x Ix. rewrite E in Ix.
    assert (D : In x (rs ++ ls) \/ In x q) by (rewrite !in_app_iff in *; tauto).
    destruct D as [D|D].
    + assert (Q : at_ x = at_ e) by (apply in_app_or in D; destruct D as [D|D]; [apply A1|apply A2]; auto).
      exists [], rs, ls, q, [], (events_to_connectivity fuel o (i + length rs + length ls) q).
      split; auto. split; [|split; [|split; [|split]]]; auto.
      * intros y [[]|I] Qy. specialize (A3 y I). rewrite Qy, Q in A3. qlra.
      * intros y I. rewrite Q. auto.
      * intros y I. rewrite Q. auto.
      * cbn [length app]. rewrite Nat.add_0_r. auto.
    + destruct (I2 x D) as (p & rs' & ls' & q' & cp & cq & E' & B1 & B2 & B3 & B4 & B5).
      exists (rs ++ ls ++ p), rs', ls', q', (connect_group i (length rs) (length ls) ++ cp), cq.
      split; [rewrite E, E', <- !app_assoc; auto|]. split; [|split; [|split; [|split]]]; auto.
      * intros y [I|I]; [|apply B1; auto]. rewrite !in_app_iff in I. specialize (A3 x D).
        destruct I as [I|[I|I]]; [| |apply B1; auto]; intros Qy.
        -- destruct (A1 y I) as [Q _]. rewrite <- Qy, Q in A3. qlra.
        -- destruct (A2 y I) as [Q _]. rewrite <- Qy, Q in A3. qlra.
      * rewrite B4, !app_length, <- app_assoc. replace (i + (length rs + (length ls + length p))) with (i + length rs + length ls + length p) by lia. auto.
      * rewrite !app_length, connect_group_length, B5. lia.
Qed.

(** The positions of the events round a point. *)
Definition ids_round (i r l : nat) : list nat := seq i r ++ rev (seq (i + r) l).
Lemma ids_round_length i r l : length (ids_round i r l) = r + l.
Proof. unfold ids_round. rewrite app_length, rev_length, !seq_length. auto. Qed.
Lemma ids_round_nth i r l m : m < r + l -> nth m (ids_round i r l) 0 = if m <? r then i + m else i + r + (l - 1 - (m - r)).
Proof.
  intros Lm. unfold ids_round. destruct (Nat.ltb_spec m r).
  - rewrite app_nth1 by (rewrite seq_length; auto). apply seq_nth; auto.
  - rewrite app_nth2 by (rewrite seq_length; auto). rewrite seq_length, rev_nth by (rewrite seq_length; lia).
    rewrite seq_length, seq_nth by lia. lia.
Qed.
Lemma connect_group_nth i r l m : m < r + l ->
  nth m (connect_group i r l) 0 =
  if m <? r then (if S m =? r then (if l =? 0 then i else i + r + (l - 1)) else i + S m)
  else (if m =? r then (if r =? 0 then i + (l - 1) else i) else i + (m - 1)).
Proof.
  intros Lm. unfold connect_group. destruct (Nat.ltb_spec m r) as [Q|Q].
  - rewrite app_nth1 by (destruct r; [lia|rewrite app_length, seq_length; cbn; lia]). destruct r as [|r]; [lia|].
    destruct (Nat.eqb_spec (S m) (S r)) as [D|D].
    + rewrite app_nth2 by (rewrite seq_length; lia). rewrite seq_length. replace (m - r) with 0 by lia. cbn [nth]. destruct l; cbn; lia.
    + rewrite app_nth1 by (rewrite seq_length; lia). rewrite seq_nth by lia. lia.
  - assert (Lr : length (match r with O => [] | S r0 => seq (S i) r0 ++ [match l with O => i | S l0 => i + r + l0 end] end) = r).
    { destruct r; auto. rewrite app_length, seq_length. cbn. lia. }
    rewrite app_nth2 by lia. rewrite Lr. destruct l as [|l]; [lia|].
    destruct (Nat.eqb_spec m r) as [D|D].
    + subst m. rewrite Nat.sub_diag. cbn [nth app]. destruct r; cbn; lia.
    + replace (m - r) with (S (m - r - 1)) by lia. cbn [nth app]. rewrite seq_nth by lia. lia.
Qed.
Lemma group_next i r l m : m < r + l ->
  nth (nth m (ids_round i r l) 0 - i) (connect_group i r l) 0 = nth (if S m =? r + l then 0 else S m) (ids_round i r l) 0.
Proof.
  intros Lm. rewrite ids_round_nth by auto.
  assert (L2 : (if S m =? r + l then 0 else S m) < r + l) by (destruct (Nat.eqb_spec (S m) (r + l)); lia).
  rewrite (ids_round_nth i r l _ L2). rewrite connect_group_nth by (destruct (Nat.ltb_spec m r); lia).
  repeat match goal with |- context [?a <? ?b] => destruct (Nat.ltb_spec a b) | |- context [?a =? ?b] => destruct (Nat.eqb_spec a b) end; lia.
Qed.

(** Walking round the ring. *)
Section Next.
Variables (conn : list nat) (processed : list bool) (R : list nat).
Hypothesis next : forall m, m < length R -> nth (nth m R 0) conn 0 = nth (if S m =? length R then 0 else S m) R 0.
Lemma next_split l1 a l2 : R = l1 ++ a :: l2 -> nth a conn 0 = hd 0 (l2 ++ l1 ++ [a]).
Proof.
  intros E. assert (Ln : length R = length l1 + S (length l2)) by (rewrite E, app_length; auto).
  assert (Q : nth (length l1) R 0 = a) by (rewrite E, app_nth2, Nat.sub_diag by lia; auto).
  rewrite <- Q at 1. rewrite next by lia. destruct (Nat.eqb_spec (S (length l1)) (length R)) as [D|D].
  - destruct l2; [|cbn in Ln; lia]. rewrite E. cbn [app]. destruct (l1 ++ [a]); auto.
  - destruct l2 as [|b l2]; [cbn in Ln; lia|]. rewrite E. rewrite app_nth2 by lia. replace (S (length l1) - length l1) with 1 by lia. auto.
Qed.
Definition unprocessed (j : nat) : bool := negb (nth j processed false).
(** [l3]: what remains before the walk returns to [x]. *)
Lemma walk_round x l1 l2 : R = l1 ++ x :: l2 -> NoDup R -> unprocessed x = true ->
  forall m2 m1 z fuel, m1 ++ z :: m2 = x :: l2 ++ l1 -> length m2 < fuel ->
  exists j, next_event_id fuel processed conn x z = Some (Some j) /\ find unprocessed (m2 ++ [x]) = Some j.
Proof.
  intros E Nd Ux. induction m2 as [|w m2 IH]; intros m1 z fuel Em Lf; (destruct fuel as [|fuel]; [lia|]); cbn [next_event_id].
  - assert (Z : nth z conn 0 = x).
    { destruct m1 as [|y m1]; cbn in Em.
      - injection Em as -> Em. symmetry in Em. apply app_eq_nil in Em. destruct Em as [E1 E2]. rewrite E1, E2 in E. rewrite (next_split [] x []); auto.
      - injection Em as -> Em. destruct l1 as [|y1 l1] using rev_ind.
        + rewrite app_nil_r in Em. subst l2. rewrite (next_split (x :: m1) z []); auto.
        + clear IHl1. rewrite app_assoc in Em. apply app_inj_tail in Em. destruct Em as [Em ->].
          rewrite <- app_assoc in E. cbn [app] in E. rewrite (next_split l1 y1 (x :: l2)); auto. }
    rewrite Z. exists x. cbn [app find]. fold (unprocessed x). rewrite Ux. auto.
  - assert (Z : nth z conn 0 = w).
    { destruct m1 as [|y m1]; cbn in Em.
      - injection Em as -> Em. rewrite (next_split l1 x l2); auto. rewrite app_assoc, <- Em. auto.
      - injection Em as -> Em. assert (D : (exists l2', l2 = m1 ++ z :: w :: l2') \/ (exists l1', l1 = l1' ++ z :: w :: m2) \/ (l2 = m1 ++ [z] /\ l1 = w :: m2)).
        { clear - Em. revert l2 Em. induction m1 as [|y m1 IH]; intros [|b l2] Em; cbn in *.
          - right. left. exists []. auto.
          - injection Em as -> Em. destruct l2 as [|b2 l2]; cbn in *; [right; right; auto|]. injection Em as -> Em. left. exists l2. auto.
          - right. left. exists (y :: m1). cbn. auto.
          - injection Em as -> Em. destruct (IH l2 Em) as [(l2' & ->)|[(l1' & ->)|(-> & ->)]].
            + left. exists l2'. auto.
            + right. left. exists l1'. auto.
            + right. right. auto. }
        destruct D as [(l2' & ->)|[(l1' & ->)|(-> & ->)]].
        + rewrite (next_split (l1 ++ x :: m1) z (w :: l2')); auto. rewrite E, <- app_assoc. auto.
        + rewrite (next_split l1' z (w :: m2 ++ x :: l2)); auto. rewrite E, <- app_assoc. auto.
        + rewrite (next_split ((w :: m2) ++ x :: m1) z []); auto. rewrite E, <- app_assoc. auto. }
    rewrite Z. cbn [app find]. fold (unprocessed w). destruct (unprocessed w) eqn:Uw; [exists w; auto|].
    assert (Nw : w <> x) by (intros ->; congruence). destruct (Nat.eqb_spec w x) as [|_]; [contradiction|].
    apply (IH (m1 ++ [z]) w fuel).
    + rewrite <- app_assoc. auto.
    + cbn in Lf. lia.
Qed.
End Next.
End Connect.
