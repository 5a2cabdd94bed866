(** Operands of a shaped operation, from lists of edges. *)
From Coq Require Import QArith Qcanon Bool List Arith Lia Permutation.
From Verif Require Import QcTac Model_Base Model_Utils Model_Linear Model_Mixed Model_Shaped Spec_Base Spec_Segment Spec_Clip
  Spec_Sweep Proof_Base Proof_Line Proof_Sweep Proof_Sweep2 Proof_Sweep4 Proof_Sweep6 Proof_Sweep15 Proof_Parity
  Proof_Flags Proof_Flags3 Proof_Corner Proof_Region Proof_Select Proof_Ray Proof_Orient Proof_Nested.
Import ListNotations.
Local Open Scope Qc_scope.

Lemma xsum_seq {A} (g : A -> bool) (f : nat -> bool) (l : list A) : forall a, (forall i x, nth_error l i = Some x -> f (a + i)%nat = g x) ->
  xsum f (seq a (length l)) = xsum g l.
Proof.
  induction l as [|x l IH]; intros a F; auto. cbn [length seq xsum]. rewrite <- (F 0%nat x eq_refl), Nat.add_0_r. f_equal.
  apply IH. intros i y E. replace (S a + i)%nat with (a + S i)%nat by lia. apply F. auto.
Qed.
Lemma filter_none {A} (f : A -> bool) l : (forall x, In x l -> f x = false) -> filter f l = [].
Proof. induction l as [|x l IH]; intros F; auto. cbn. rewrite (F x) by (left; auto). apply IH. intros; apply F; right; auto. Qed.
Lemma filter_every {A} (f : A -> bool) l : (forall x, In x l -> f x = true) -> filter f l = l.
Proof. induction l as [|x l IH]; intros F; auto. cbn. rewrite (F x) by (left; auto). f_equal. apply IH. intros; apply F; right; auto. Qed.
Lemma xsum_keep {A} (f k : A -> bool) l : (forall x, In x l -> k x = false -> f x = false) -> xsum f (filter k l) = xsum f l.
Proof. intros F. rewrite xsum_filter. apply xsum_ext. intros x I. destruct (k x) eqn:Q; auto. cbn. rewrite F; auto. Qed.

Section Bridge.
Variables (first second : list segment) (eps : Qc).
Notation inputs := (first ++ second).
Notation c := (the_ctx first second eps).
Notation X := (Xs eps).
Hypothesis G : good c.
Definition opf (f : bool) : list segment := if f then first else second.

Lemma idx_true : idx c true = seq 0 (length first).
Proof.
  unfold idx. rewrite (ins_length first second eps), app_length, seq_app, filter_app.
  rewrite filter_every, filter_none; [apply app_nil_r| |]; intros i I; apply in_seq in I; unfold opd; cbn [c_first the_ctx];
    destruct (Nat.ltb_spec i (length first)); auto; lia.
Qed.
Lemma idx_false : idx c false = seq (length first) (length second).
Proof.
  unfold idx. rewrite (ins_length first second eps), app_length, seq_app, filter_app.
  rewrite filter_none, filter_every; auto; intros i I; apply in_seq in I; unfold opd; cbn [c_first the_ctx];
    destruct (Nat.ltb_spec i (length first)); auto; lia.
Qed.
Lemma xsum_idx (g : segment -> bool) (f' : nat -> bool) f : (forall i s, nth_error inputs i = Some s -> f' i = g s) -> xsum f' (idx c f) = xsum g (opf f).
Proof.
  intros F. destruct f; cbn [opf].
  - rewrite idx_true. apply xsum_seq. intros i x E. cbn. apply F. rewrite nth_error_app1; auto. apply nth_error_Some. congruence.
  - rewrite idx_false. apply xsum_seq. intros i x E. apply F. rewrite nth_error_app2 by lia. replace (length first + i - length first)%nat with i by lia. auto.
Qed.
Lemma nth_operand i s : nth_error inputs i = Some s -> In s (opf (opd c i)).
Proof.
  intros E. unfold opd. cbn [c_first the_ctx]. destruct (Nat.ltb_spec i (length first)) as [L|L]; cbn [opf].
  - rewrite nth_error_app1 in E by auto. apply nth_error_In in E. auto.
  - rewrite nth_error_app2 in E by auto. apply nth_error_In in E. auto.
Qed.
Lemma operand_nth f s : In s (opf f) -> exists i, nth_error inputs i = Some s /\ opd c i = f.
Proof.
  intros I. apply In_nth_error in I. destruct I as (i & E). unfold opd. cbn [c_first the_ctx]. destruct f; cbn [opf] in E.
  - assert (L : (i < length first)%nat) by (apply nth_error_Some; congruence). exists i. rewrite nth_error_app1 by auto. split; auto. apply Nat.ltb_lt; auto.
  - exists (length first + i)%nat. rewrite nth_error_app2 by lia. replace (length first + i - length first)%nat with i by lia. split; auto. apply Nat.ltb_ge. lia.
Qed.
Lemma nth_some i : (i < length (c_ins c))%nat -> exists s, nth_error inputs i = Some s.
Proof. rewrite (ins_length first second eps). intros L. apply nth_error_Some in L. destruct (nth_error inputs i) as [s|]; [eauto|congruence]. Qed.
Lemma some_lt i s : nth_error inputs i = Some s -> (i < length (c_ins c))%nat.
Proof. rewrite (ins_length first second eps). intros E. apply nth_error_Some. congruence. Qed.
Lemma input_lo i s : nth_error inputs i = Some s -> fst (input c i) = lo s /\ snd (input c i) = hi s.
Proof. intros E. rewrite (input_the_ctx first second eps i s E). auto. Qed.
Lemma input_sound i s : nth_error inputs i = Some s -> sound_edge eps s.
Proof.
  intros E. pose proof (input_X c G i (some_lt i s E)) as L. destruct (input_lo i s E) as [A B]. rewrite A, B in L. exact L.
Qed.
Lemma operand_sound f s : In s (opf f) -> sound_edge eps s.
Proof. intros I. destruct (operand_nth f s I) as (i & E & _). apply (input_sound i s E). Qed.
Definition spanb (t : Qc) (s : segment) : bool := qltb (X (lo s)) t && qltb t (X (hi s)).
Lemma spanb_true t s : spanb t s = true <-> X (lo s) < t /\ t < X (hi s).
Proof. unfold spanb. rewrite andb_true_iff, !qltb_true. tauto. Qed.
Lemma spans_span i s t : nth_error inputs i = Some s -> spans c i t = spanb t s.
Proof. intros E. unfold spans. destruct (input_lo i s E) as [-> ->]. reflexivity. Qed.
Lemma H_height i s t : nth_error inputs i = Some s -> H c i t = height eps s t.
Proof.
  intros E. unfold H, K, height, line_at. destruct (input_lo i s E) as [A B]. destruct (input c i) as [a b]. cbn [fst snd] in *. rewrite A, B. reflexivity.
Qed.
Lemma bel_below i s t y : nth_error inputs i = Some s -> bel c i t y = below_seg eps (spot eps t y) s.
Proof.
  intros E. rewrite (below_height eps s _ (input_sound i s E)). rewrite spot_X. unfold bel. rewrite (spans_span i s t E), (H_height i s t E). reflexivity.
Qed.
Lemma inp_below t f y : inp c t f y = xsum (below_seg eps (spot eps t y)) (opf f).
Proof. unfold inp. apply xsum_idx. intros i s E. apply bel_below; auto. Qed.
Lemma spans_sum t f : xsum (fun i => spans c i t) (idx c f) = xsum (spanb t) (opf f).
Proof. apply xsum_idx. intros i s E. apply spans_span; auto. Qed.
Lemma end_in f s v : In s (opf f) -> v = lo s \/ v = hi s -> In v (c_pts c).
Proof.
  intros I Q. destruct (operand_nth f s I) as (i & E & _). destruct (g_ins c G i (some_lt i s E)) as (_ & A & B).
  destruct (input_lo i s E) as [E1 E2]. rewrite E1 in A. rewrite E2 in B. destruct Q as [-> | ->]; auto.
Qed.
Lemma ends_parity f v : xsum (fun p => pointb p v) (ends c f) = xsum (fun p => pointb p v) (ends_of (opf f)).
Proof.
  unfold ends, ends_of. rewrite !xsum_flat. apply (xsum_idx (fun e => xsum (fun p => pointb p v) [seg_start e; seg_end e])).
  intros i s E. destruct (input_lo i s E) as [-> ->]. cbn [xsum]. rewrite !xorb_false_r.
  destruct (lo_hi s) as [[-> ->]|[-> ->]]; auto. apply xorb_comm.
Qed.
End Bridge.

Section Full.
Variables (A B : list segment) (kA kB : segment -> bool) (eps : Qc).
Notation X := (Xs eps).
Notation first := (filter kA A). Notation second := (filter kB B).
Notation c := (the_ctx first second eps).
Notation opf := (opf first second).
Notation int := (map segment_flag first ++ map segment_flag second).
Definition full (f : bool) : list segment := if f then A else B.
Definition keep (f : bool) : segment -> bool := if f then kA else kB.
Lemma opf_filter f : opf f = filter (keep f) (full f). Proof. destruct f; auto. Qed.
Hypothesis G : good c.
Hypothesis Snd : forall f, Forall (sound_edge eps) (full f).
Hypothesis Ev : forall f, even_ends (full f).
Hypothesis Side : forall f e q, In e (full f) -> on_seg e q -> (forall v, In v (ends_of (full f)) -> X v <> X q) ->
  xsum (below_seg eps q) (full f) = negb (segment_flag e).
Hypothesis Cov : forall f e g, In e (full f) -> In g (full (negb f)) -> X (lo e) < X (hi g) -> X (lo g) < X (hi e) -> keep f e = true.

Lemma sound f e : In e (full f) -> X (lo e) < X (hi e).
Proof. intros I. pose proof (Snd f) as S. rewrite Forall_forall in S. apply (S e I). Qed.
Lemma end_of e v : (v = seg_start e \/ v = seg_end e) <-> (v = lo e \/ v = hi e).
Proof. destruct (lo_hi e) as [[-> ->]|[-> ->]]; tauto. Qed.
Lemma vertex_kept f e g v : In e (full f) -> In g (full (negb f)) -> v = lo e \/ v = hi e -> X (lo g) < X v -> X v < X (hi g) -> keep f e = true.
Proof.
  intros I J Q L1 L2. pose proof (sound f e I). apply (Cov f e g I J); destruct Q as [-> | ->]; qlra.
Qed.
Lemma full_generic f g t : In g (full (negb f)) -> spanb eps t g = true -> generic c t -> forall v, In v (ends_of (full f)) -> X v <> t.
Proof.
  intros J Sp Gt v Iv Q. apply spanb_true in Sp. apply in_flat_map in Iv. destruct Iv as (e & I & K).
  assert (Q' : v = lo e \/ v = hi e) by (apply end_of; destruct K as [<-|[<-|[]]]; auto).
  assert (Ke : keep f e = true) by (apply (vertex_kept f e g v); auto; rewrite Q; apply Sp).
  apply (Gt v); auto. apply (end_in first second eps G f e); auto. rewrite opf_filter. apply filter_In. auto.
Qed.
Lemma same_spanning f g t (fn : segment -> bool) : In g (full (negb f)) -> spanb eps t g = true ->
  (forall e, In e (full f) -> spanb eps t e = false -> fn e = false) -> xsum fn (opf f) = xsum fn (full f).
Proof.
  intros J Sp F. rewrite opf_filter. apply xsum_keep. intros e I Ke. apply F; auto. apply not_true_iff_false. intros Q.
  apply spanb_true in Sp. apply spanb_true in Q. rewrite (Cov f e g I J) in Ke; [discriminate| |]; qlra.
Qed.
Lemma below_spans e q : sound_edge eps e -> spanb eps (X q) e = false -> below_seg eps q e = false.
Proof. intros S Q. rewrite (below_height eps e q S). unfold spanb in Q. rewrite Q. auto. Qed.
Lemma below_span f t y e : In e (full f) -> spanb eps t e = false -> below_seg eps (spot eps t y) e = false.
Proof. intros I Q. pose proof (Snd f) as S. rewrite Forall_forall in S. apply below_spans; auto. rewrite spot_X. auto. Qed.
Lemma retained f s : In s (opf f) -> In s (full f).
Proof. rewrite opf_filter. intros I. apply filter_In in I. apply I. Qed.

Lemma the_evn : evn c.
Proof.
  intros i v Li L1 L2. destruct (nth_some first second eps i Li) as (g & Eg). destruct (input_lo first second eps i g Eg) as [E1 E2]. rewrite E1 in L1. rewrite E2 in L2.
  set (f := negb (opd c i)).
  assert (Ig : In g (full (negb f))) by (unfold f; rewrite negb_involutive; apply retained, nth_operand; auto).
  rewrite <- Nat.negb_odd, count_odd, ends_parity.
  assert (Z : xsum (fun p => pointb p v) (ends_of (opf f)) = xsum (fun p => pointb p v) (ends_of (full f))).
  { unfold ends_of. rewrite !xsum_flat, opf_filter. apply xsum_keep. intros e I Ke. cbn [xsum]. rewrite xorb_false_r.
    rewrite !pointb_false; auto; intros Q; rewrite (vertex_kept f e g v) in Ke; auto; try discriminate; apply end_of; auto. }
  rewrite Z, Ev. auto.
Qed.
Lemma int_flag j s : nth_error (first ++ second) j = Some s -> nth j int false = segment_flag s.
Proof.
  intros E. rewrite <- map_app. apply nth_error_nth. rewrite nth_error_map, E. auto.
Qed.
Lemma the_ori : ori c int.
Proof.
  intros i j t Li Lj Op Gt Si Sj. destruct (nth_some first second eps i Li) as (g & Eg). destruct (nth_some first second eps j Lj) as (e & Ee).
  rewrite (spans_span first second eps i g t Eg) in Si. rewrite (spans_span first second eps j e t Ee) in Sj.
  rewrite (int_flag j e Ee). set (f := opd c j).
  assert (Ie : In e (full f)) by (apply retained, nth_operand; auto).
  assert (Ig : In g (full (negb f))). { apply retained. replace (negb f) with (opd c i); [apply nth_operand; auto|]. unfold f. destruct (opd c i), (opd c j); auto; destruct Op; auto. }
  rewrite (H_height first second eps j e t Ee).
  change (xsum (fun m => bel c m t (height eps e t)) (idx c f)) with (inp c t f (height eps e t)).
  rewrite (inp_below first second eps G t f). rewrite (same_spanning f g t); auto; [|intros x I; apply (below_span f); auto].
  rewrite (Side f e (spot eps t (height eps e t))); auto; [destruct (segment_flag e); auto| |].
  - apply spanb_true in Sj. apply between_on with (eps := eps); [exact (sound f e Ie)| | |]; rewrite spot_X; try qlra. reflexivity.
  - intros v Iv. rewrite spot_X. apply (full_generic f g t); auto.
Qed.

Variable op2 : bool -> bool -> bool.
Definition at2 (f a b : bool) : bool := if f then op2 a b else op2 b a.
(** Unless all of an operand is retained, nothing is selected outside the other one. *)
Hypothesis Zero : forall f, (forall e, In e (full f) -> keep f e = true) \/ (forall a, at2 f a false = false).
Hypothesis Z00 : op2 false false = false.

Lemma span_dec f t : {g | In g (full f) /\ spanb eps t g = true} + {forall g, In g (full f) -> spanb eps t g = false}.
Proof.
  destruct (find (spanb eps t) (full f)) as [g|] eqn:Q; [left; exists g; apply find_some in Q; auto|right; intros g I; apply (find_none _ _ Q g I)].
Qed.
Lemma opf_all f : (forall e, In e (full f) -> keep f e = true) -> opf f = full f.
Proof. intros K. rewrite opf_filter. apply filter_every; auto. Qed.
Lemma none_spans f t y : (forall g, In g (full f) -> spanb eps t g = false) ->
  xsum (below_seg eps (spot eps t y)) (full f) = false /\ inp c t f y = false.
Proof.
  intros Q. rewrite (inp_below first second eps G). split; apply xsum_false; intros e I; apply (below_span f); auto using retained.
Qed.
Lemma region_full t y : op2 (inp c t true y) (inp c t false y)
  = op2 (xsum (below_seg eps (spot eps t y)) A) (xsum (below_seg eps (spot eps t y)) B).
Proof.
  change (op2 (inp c t true y) (inp c t false y) = op2 (xsum (below_seg eps (spot eps t y)) (full true)) (xsum (below_seg eps (spot eps t y)) (full false))).
  assert (Cs : forall f, inp c t f y = xsum (below_seg eps (spot eps t y)) (full f)
    \/ ((forall a, at2 f a false = false) /\ inp c t (negb f) y = false /\ xsum (below_seg eps (spot eps t y)) (full (negb f)) = false)).
  { intros f. destruct (span_dec (negb f) t) as [(g & I & Sp)|Q].
    - left. rewrite (inp_below first second eps G). apply (same_spanning f g t); auto. intros e J. apply (below_span f); auto.
    - destruct (Zero f) as [K|Z]; [left; rewrite (inp_below first second eps G), (opf_all f K); auto|]. right. split; auto. destruct (none_spans _ t y Q). auto. }
  destruct (Cs true) as [E1|(Z1 & E1 & E2)].
  - destruct (Cs false) as [E2|(Z1 & E2 & E3)]; [rewrite E1, E2; auto|]. cbn [negb] in E2, E3. rewrite E2, E3. unfold at2 in Z1. rewrite !Z1. auto.
  - cbn [negb] in E1, E2. rewrite E1, E2. unfold at2 in Z1. rewrite !Z1. auto.
Qed.
Lemma even_spans f t : (forall v, In v (ends_of (full f)) -> X v <> t) -> xsum (spanb eps t) (full f) = false.
Proof.
  intros Gn. transitivity (xsum (fun v => qltb (X v) t) (ends_of (full f))).
  - unfold ends_of. rewrite xsum_flat. apply xsum_ext. intros e I. cbn [xsum]. rewrite xorb_false_r.
    assert (N1 : X (seg_start e) <> t) by (apply Gn; apply in_flat_map; exists e; cbn; auto).
    assert (N2 : X (seg_end e) <> t) by (apply Gn; apply in_flat_map; exists e; cbn; auto).
    pose proof (sound f e I) as L. unfold spanb. destruct (lo_hi e) as [[E1 E2]|[E1 E2]]; rewrite E1, E2 in *.
    + destruct (qltb_spec (X (seg_start e)) t), (qltb_spec t (X (seg_end e))), (qltb_spec (X (seg_end e)) t); cbn; auto; exfalso; try qlra.
      apply N2. qlra.
    + destruct (qltb_spec (X (seg_end e)) t), (qltb_spec t (X (seg_start e))), (qltb_spec (X (seg_start e)) t); cbn; auto; exfalso; try qlra.
      apply N1. qlra.
  - apply xsum_even_ends. intros v _. apply Ev.
Qed.
Lemma the_top t : generic c t -> op2 (xsum (fun i => spans c i t) (idx c true)) (xsum (fun i => spans c i t) (idx c false)) = false.
Proof.
  intros Gt. rewrite !spans_sum.
  assert (Cs : forall f, xsum (spanb eps t) (opf f) = false
    \/ ((forall a, at2 f a false = false) /\ xsum (spanb eps t) (opf (negb f)) = false)).
  { intros f. destruct (span_dec (negb f) t) as [(g & I & Sp)|Q].
    - left. rewrite (same_spanning f g t); auto. apply even_spans. apply (full_generic f g t); auto.
    - destruct (Zero f) as [K|Z]; [left; rewrite (opf_all f K); auto|right; split; auto].
      + apply even_spans. intros v Iv. apply in_flat_map in Iv. destruct Iv as (e & I & J). apply Gt.
        apply (end_in first second eps G f e); [rewrite (opf_all f K); auto|]. apply end_of. destruct J as [<-|[<-|[]]]; auto.
      + apply xsum_false. intros e I. apply Q, retained, I. }
  destruct (Cs true) as [E1|(Z1 & E1)].
  - destruct (Cs false) as [E2|(Z1 & E2)]; [rewrite E1, E2; auto|]. cbn [negb] in E2. rewrite E2. unfold at2 in Z1. auto.
  - cbn [negb] in E1. rewrite E1. apply Z1.
Qed.
End Full.
