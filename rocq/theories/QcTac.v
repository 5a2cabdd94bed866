(** Support library (no model content): linear and polynomial arithmetic on
    the canonical rationals [Qc] by transport to [Q], where the standard
    tactics [lra] and [nra] work. *)
From Coq Require Import QArith Qcanon Lqa Bool.
Local Open Scope Q_scope.

Lemma q_atom (a : Qc) : this a == this a.
Proof. reflexivity. Qed.

Lemma q_add (a b : Qc) x y :
  this a == x -> this b == y -> this (a + b)%Qc == x + y.
Proof. intros <- <-. apply Qred_correct. Qed.

Lemma q_opp (a : Qc) x : this a == x -> this (- a)%Qc == - x.
Proof. intros <-. apply Qred_correct. Qed.

Lemma q_sub (a b : Qc) x y :
  this a == x -> this b == y -> this (a - b)%Qc == x - y.
Proof.
  intros <- <-. unfold Qcminus, Qminus. apply q_add; [reflexivity|].
  apply q_opp; reflexivity.
Qed.

Lemma q_mul (a b : Qc) x y :
  this a == x -> this b == y -> this (a * b)%Qc == x * y.
Proof. intros <- <-. apply Qred_correct. Qed.

Lemma q_0 : this 0%Qc == 0.
Proof. reflexivity. Qed.
Lemma q_1 : this 1%Qc == 1.
Proof. reflexivity. Qed.
Lemma q_const q : this (Q2Qc q) == q.
Proof. apply Qred_correct. Qed.

Ltac qpf t :=
  lazymatch t with
  | (?a + ?b)%Qc => let p := qpf a in let q := qpf b in constr:(q_add a b _ _ p q)
  | (?a - ?b)%Qc => let p := qpf a in let q := qpf b in constr:(q_sub a b _ _ p q)
  | (?a * ?b)%Qc => let p := qpf a in let q := qpf b in constr:(q_mul a b _ _ p q)
  | (- ?a)%Qc => let p := qpf a in constr:(q_opp a _ p)
  | 0%Qc => constr:(q_0)
  | 1%Qc => constr:(q_1)
  | Q2Qc ?q => constr:(q_const q)
  | ?a => constr:(q_atom a)
  end.

Lemma q_lt_hyp (a b : Qc) x y : this a == x -> this b == y -> (a < b)%Qc -> x < y.
Proof. intros <- <- H; exact H. Qed.
Lemma q_le_hyp (a b : Qc) x y : this a == x -> this b == y -> (a <= b)%Qc -> x <= y.
Proof. intros <- <- H; exact H. Qed.
Lemma q_eq_hyp (a b : Qc) x y : this a == x -> this b == y -> a = b -> x == y.
Proof. intros <- <- H; subst; reflexivity. Qed.
Lemma q_ne_hyp (a b : Qc) x y : this a == x -> this b == y -> a <> b -> ~ x == y.
Proof. intros <- <- H E; apply H, Qc_is_canon, E. Qed.
Lemma q_lt_goal (a b : Qc) x y : this a == x -> this b == y -> x < y -> (a < b)%Qc.
Proof. intros <- <- H; exact H. Qed.
Lemma q_le_goal (a b : Qc) x y : this a == x -> this b == y -> x <= y -> (a <= b)%Qc.
Proof. intros <- <- H; exact H. Qed.
Lemma q_eq_goal (a b : Qc) x y : this a == x -> this b == y -> x == y -> a = b.
Proof. intros <- <- H; apply Qc_is_canon; exact H. Qed.

Ltac qc_hyps :=
  repeat
    match goal with
    | H : @eq Qc ?a ?b |- _ =>
        let p := qpf a in let q := qpf b in
        apply (q_eq_hyp a b _ _ p q) in H
    | H : Qclt ?a ?b |- _ =>
        let p := qpf a in let q := qpf b in
        apply (q_lt_hyp a b _ _ p q) in H
    | H : Qcle ?a ?b |- _ =>
        let p := qpf a in let q := qpf b in
        apply (q_le_hyp a b _ _ p q) in H
    end.

Ltac qc_goal :=
  lazymatch goal with
  | |- @eq Qc ?a ?b =>
      let p := qpf a in let q := qpf b in apply (q_eq_goal a b _ _ p q)
  | |- Qclt ?a ?b =>
      let p := qpf a in let q := qpf b in apply (q_lt_goal a b _ _ p q)
  | |- Qcle ?a ?b =>
      let p := qpf a in let q := qpf b in apply (q_le_goal a b _ _ p q)
  | |- False => idtac
  | |- _ => exfalso
  end.

(** Replace the atoms [this a] by variables (keeps lra/nra fast). *)
Ltac qc_atoms :=
  repeat match goal with
  | |- context [this ?a] => is_var a; let q := fresh "q" in set (q := this a) in *; clearbody q
  | H : context [this ?a] |- _ => is_var a; let q := fresh "q" in set (q := this a) in *; clearbody q
  end.

Ltac qc_split :=
  repeat match goal with
  | H : _ /\ _ |- _ => destruct H
  | H : ~ (Qclt ?a ?b) |- _ => apply Qcnot_lt_le in H
  | H : ~ (Qcle ?a ?b) |- _ => apply Qcnot_le_lt in H
  end.

Ltac qc_pre :=
  intros; repeat match goal with |- ~ _ => intro end; qc_split; qc_goal; qc_hyps.
Ltac qlra := qc_pre; lra.
Ltac qnra := qc_pre; nra.

Local Open Scope Qc_scope.

(** Boolean comparisons. *)
Definition qltb (a b : Qc) : bool := if Qclt_le_dec a b then true else false.
Definition qleb (a b : Qc) : bool := if Qclt_le_dec b a then false else true.
Definition qeqb (a b : Qc) : bool := if Qc_eq_dec a b then true else false.

Lemma qltb_spec a b : reflect (a < b) (qltb a b).
Proof. unfold qltb; destruct (Qclt_le_dec a b); constructor; auto; qlra. Qed.
Lemma qleb_spec a b : reflect (a <= b) (qleb a b).
Proof. unfold qleb; destruct (Qclt_le_dec b a); constructor; auto; qlra. Qed.
Lemma qeqb_spec a b : reflect (a = b) (qeqb a b).
Proof. unfold qeqb; destruct (Qc_eq_dec a b); constructor; auto. Qed.

Lemma qltb_true a b : qltb a b = true <-> a < b.
Proof. destruct (qltb_spec a b); split; intros; auto; congruence. Qed.
Lemma qltb_false a b : qltb a b = false <-> b <= a.
Proof. destruct (qltb_spec a b); split; intros; auto; try discriminate; try qlra. Qed.
Lemma qleb_true a b : qleb a b = true <-> a <= b.
Proof. destruct (qleb_spec a b); split; intros; auto; congruence. Qed.
Lemma qleb_false a b : qleb a b = false <-> b < a.
Proof. destruct (qleb_spec a b); split; intros; auto; try discriminate; try qlra. Qed.
Lemma qeqb_true a b : qeqb a b = true <-> a = b.
Proof. destruct (qeqb_spec a b); split; intros; auto; congruence. Qed.
Lemma qeqb_false a b : qeqb a b = false <-> a <> b.
Proof. destruct (qeqb_spec a b); split; intros; auto; congruence. Qed.

Lemma Qc_trichotomy (a b : Qc) : {a < b} + {a = b} + {b < a}.
Proof.
  destruct (Qclt_le_dec a b) as [|H]; [left; left; auto|].
  destruct (Qc_eq_dec a b); [left; right; auto|right].
  apply Qcle_lt_or_eq in H. destruct H; auto. congruence.
Qed.

Lemma Qc_neq (a b : Qc) : a <> b -> {a < b} + {b < a}.
Proof. intros; destruct (Qc_trichotomy a b) as [[|]|]; auto; contradiction. Qed.

(** Split disequalities of scalars into strict inequalities. *)
Ltac qne :=
  repeat match goal with
  | H : ?a <> ?b |- _ =>
      lazymatch type of a with
      | Qc => destruct (Qc_neq a b H); clear H; try (exfalso; qlra)
      end
  end.

(** Reflect all boolean scalar comparisons in the context. *)
Ltac qb :=
  repeat match goal with
  | H : qltb _ _ = true |- _ => apply qltb_true in H
  | H : qltb _ _ = false |- _ => apply qltb_false in H
  | H : qleb _ _ = true |- _ => apply qleb_true in H
  | H : qleb _ _ = false |- _ => apply qleb_false in H
  | H : qeqb _ _ = true |- _ => apply qeqb_true in H
  | H : qeqb _ _ = false |- _ => apply qeqb_false in H
  | |- qltb _ _ = true => apply qltb_true
  | |- qltb _ _ = false => apply qltb_false
  | |- qleb _ _ = true => apply qleb_true
  | |- qleb _ _ = false => apply qleb_false
  | |- qeqb _ _ = true => apply qeqb_true
  | |- qeqb _ _ = false => apply qeqb_false
  end.

Ltac qcase :=
  match goal with
  | |- context [qltb ?a ?b] => destruct (qltb_spec a b)
  | |- context [qleb ?a ?b] => destruct (qleb_spec a b)
  | |- context [qeqb ?a ?b] => destruct (qeqb_spec a b)
  | H : context [qltb ?a ?b] |- _ => destruct (qltb_spec a b)
  | H : context [qleb ?a ?b] |- _ => destruct (qleb_spec a b)
  | H : context [qeqb ?a ?b] |- _ => destruct (qeqb_spec a b)
  end.

Definition Z2Qc (z : Z) : Qc := Q2Qc (inject_Z z).
