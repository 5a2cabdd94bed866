(** Proofs about seeds, permutations and bookkeeping. *)
From Coq Require Import NArith ZArith List Bool Arith Lia Permutation.
From Verif Require Import Model_Utils Spec_Utils.
Import ListNotations.

(** ** Permutations *)
Lemma set_nth_length {A} (l : list A) i v : length (set_nth l i v) = length l.
Proof. revert i; induction l; destruct i; cbn; auto. Qed.
Lemma set_nth_app {A} (l r : list A) i v : (i < length l)%nat ->
  set_nth (l ++ r) i v = set_nth l i v ++ r.
Proof. revert i; induction l; destruct i; cbn; intros; auto; try lia. rewrite IHl; auto; lia. Qed.
Lemma nth_error_set_nth {A} (l : list A) i v j :
  nth_error (set_nth l i v) j = if (i =? j)%nat then match nth_error l j with Some _ => Some v | None => None end
    else nth_error l j.
Proof.
  revert i j; induction l; destruct i, j; cbn; auto.
  - destruct (i =? j)%nat; auto.
Qed.
Lemma swap_length {A} (l : list A) i j : length (swap_items l i j) = length l.
Proof.
  unfold swap_items. destruct (nth_error l i), (nth_error l j); auto.
  rewrite !set_nth_length; auto.
Qed.
Lemma swap_app {A} (l r : list A) i j : (i < length l)%nat -> (j < length l)%nat ->
  swap_items (l ++ r) i j = swap_items l i j ++ r.
Proof.
  intros Hi Hj. unfold swap_items. rewrite !nth_error_app1 by auto.
  destruct (nth_error l i) eqn:E1, (nth_error l j) eqn:E2; auto.
  rewrite set_nth_app by auto. rewrite set_nth_app; auto. rewrite set_nth_length; auto.
Qed.
Lemma nth_error_swap {A} (l : list A) i j k : (i < length l)%nat -> (j < length l)%nat ->
  nth_error (swap_items l i j) k =
  nth_error l (if (k =? i)%nat then j else if (k =? j)%nat then i else k).
Proof.
  intros Hi Hj. unfold swap_items.
  destruct (nth_error l i) as [vi|] eqn:E1; [|apply nth_error_None in E1; lia].
  destruct (nth_error l j) as [vj|] eqn:E2; [|apply nth_error_None in E2; lia].
  rewrite !nth_error_set_nth.
  destruct (Nat.eqb_spec k i), (Nat.eqb_spec k j), (Nat.eqb_spec j k), (Nat.eqb_spec i k);
    subst; try congruence; try lia.
  - rewrite E2; congruence.
  - rewrite E1; auto.
  - rewrite E2; auto.
Qed.
Lemma swap_permutation {A} (l : list A) i j : (i < length l)%nat -> (j < length l)%nat ->
  Permutation l (swap_items l i j).
Proof.
  intros Hi Hj. apply Permutation_nth_error. split; [symmetry; apply swap_length|].
  exists (fun k => if (k =? i)%nat then j else if (k =? j)%nat then i else k). split.
  - intros x y. destruct (Nat.eqb_spec x i), (Nat.eqb_spec x j), (Nat.eqb_spec y i), (Nat.eqb_spec y j);
      subst; lia.
  - intros k. apply nth_error_swap; auto.
Qed.

Lemma mod_lt_nat seed k : (N.to_nat (seed mod N.of_nat (S k)) < S k)%nat.
Proof.
  assert (seed mod N.of_nat (S k) < N.of_nat (S k))%N by (apply N.mod_lt; lia). lia.
Qed.
Lemma permute_loop_length {A} n : forall (l : list A) seed, length (permute_loop n l seed) = length l.
Proof. induction n; intros; cbn -[N.of_nat]; auto. rewrite IHn. apply swap_length. Qed.
Lemma permute_loop_app {A} n : forall (l r : list A) seed, (n <= length l)%nat ->
  permute_loop n (l ++ r) seed = permute_loop n l seed ++ r.
Proof.
  induction n; intros l r seed H; cbn -[N.of_nat]; auto.
  pose proof (mod_lt_nat seed n).
  rewrite swap_app by lia. apply IHn. rewrite swap_length; lia.
Qed.
Lemma permute_loop_permutation {A} n : forall (l : list A) seed, (n <= length l)%nat ->
  Permutation l (permute_loop n l seed).
Proof.
  induction n; intros l seed H; cbn -[N.of_nat]; auto.
  pose proof (mod_lt_nat seed n).
  transitivity (swap_items l (N.to_nat (seed mod N.of_nat (S n))) n).
  - apply swap_permutation; lia.
  - apply IHn. rewrite swap_length; lia.
Qed.
Lemma permute_permutation {A} (l : list A) seed : Permutation l (permute l seed).
Proof. apply permute_loop_permutation; auto. Qed.

(** The last step separates the last element. *)
Lemma last_split {A} (l : list A) n : length l = S n ->
  exists r x, l = r ++ [x] /\ length r = n /\ nth_error l n = Some x.
Proof.
  intros H. destruct (exists_last (l := l)) as (r & x & E); [destruct l; discriminate|].
  exists r, x. subst. rewrite app_length in H; cbn in H.
  assert (length r = n) by lia. repeat split; auto.
  rewrite nth_error_app2 by lia. replace (n - length r)%nat with O by lia. reflexivity.
Qed.
Lemma permute_step {A} (l : list A) n i : length l = S n -> (i <= n)%nat ->
  exists r x, swap_items l i n = r ++ [x] /\ length r = n /\ nth_error l i = Some x
   /\ Permutation l (r ++ [x])
   /\ forall seed, N.to_nat (seed mod N.of_nat (S n)) = i ->
      permute l seed = permute r (seed / N.of_nat (S n)) ++ [x].
Proof.
  intros H Hi.
  destruct (last_split (swap_items l i n) n) as (r & x & E & Hr & Hx);
    [rewrite swap_length; auto|].
  rewrite nth_error_swap in Hx by lia.
  exists r, x. split; auto. split; auto. split; [|split].
  - destruct (Nat.eqb_spec n i); subst; auto. rewrite Nat.eqb_refl in Hx. auto.
  - rewrite <- E. apply swap_permutation; lia.
  - intros seed <-. unfold permute. rewrite H. cbn -[N.of_nat]. rewrite E, Hr.
    apply permute_loop_app. lia.
Qed.

Lemma factorial_pos n : (0 < factorial n)%N.
Proof. induction n; cbn -[N.of_nat]; lia. Qed.

Lemma permute_onto {A} n : forall (l l' : list A), length l = n -> Permutation l l' ->
  exists seed, (seed < factorial n)%N /\ permute l seed = l'.
Proof.
  induction n as [|n IH]; intros l l' H P.
  - destruct l; [|discriminate]. apply Permutation_nil in P. subst. exists 0%N. cbn. split; auto. lia.
  - assert (H' : length l' = S n) by (rewrite <- (Permutation_length P); auto).
    destruct (last_split l' n H') as (r' & y & E' & Hr' & _). subst l'.
    assert (I : In y l) by (apply (Permutation_in y (Permutation_sym P)), in_or_app; cbn; auto).
    destruct (In_nth_error _ _ I) as (i & Ei).
    assert (Hi : (i <= n)%nat).
    { assert (i < length l)%nat by (apply nth_error_Some; congruence). lia. }
    destruct (permute_step l n i H Hi) as (r & x & E & Hr & Hx & Pr & Step).
    assert (x = y) by congruence. subst y.
    assert (Q : Permutation r r').
    { apply (Permutation_app_inv_r [x]). rewrite <- Pr. exact P. }
    destruct (IH r r' Hr Q) as (seed & S1 & S2).
    exists (seed * N.of_nat (S n) + N.of_nat i)%N.
    assert (M : ((seed * N.of_nat (S n) + N.of_nat i) mod N.of_nat (S n) = N.of_nat i)%N).
    { rewrite N.add_comm, N.mod_add by lia. apply N.mod_small. lia. }
    assert (D : ((seed * N.of_nat (S n) + N.of_nat i) / N.of_nat (S n) = seed)%N).
    { rewrite N.div_add_l by lia. rewrite N.div_small by lia. lia. }
    split.
    + cbn -[N.of_nat]. nia.
    + rewrite Step by (rewrite M; lia). rewrite D, S2. reflexivity.
Qed.

Lemma permute_inj {A} n : forall (l : list A) s s', length l = n -> NoDup l ->
  (s < factorial n)%N -> (s' < factorial n)%N -> permute l s = permute l s' -> s = s'.
Proof.
  induction n as [|n IH]; intros l s s' H ND L L' E.
  - cbn in *; lia.
  - pose proof (mod_lt_nat s n) as B. pose proof (mod_lt_nat s' n) as B'.
    destruct (permute_step l n (N.to_nat (s mod N.of_nat (S n))) H) as (r & x & F & Hr & Hx & Pr & Step);
      [lia|].
    destruct (permute_step l n (N.to_nat (s' mod N.of_nat (S n))) H) as (r' & x' & F' & Hr' & Hx' & Pr' & Step');
      [lia|].
    rewrite Step, Step' in E by auto.
    apply app_inj_tail in E. destruct E as [E <-].
    assert (EM : N.to_nat (s mod N.of_nat (S n)) = N.to_nat (s' mod N.of_nat (S n))).
    { apply (NoDup_nth_error l); auto; try lia. congruence. }
    assert (r = r') by (rewrite EM in F; rewrite F in F'; apply app_inj_tail in F'; tauto).
    subst r'.
    assert (ED : (s / N.of_nat (S n) = s' / N.of_nat (S n))%N).
    { apply (IH r); auto.
      - assert (NoDup (r ++ [x])) by (apply (Permutation_NoDup Pr); auto).
        apply NoDup_remove_1 in H0. rewrite app_nil_r in H0. auto.
      - cbn -[N.of_nat] in L. apply N.div_lt_upper_bound; lia.
      - cbn -[N.of_nat] in L'. apply N.div_lt_upper_bound; lia. }
    rewrite (N.div_mod s (N.of_nat (S n))), (N.div_mod s' (N.of_nat (S n))) by lia.
    rewrite ED. f_equal. lia.
Qed.

Lemma permute_mod {A} n : forall (l : list A) s, length l = n ->
  permute l s = permute l (s mod factorial n).
Proof.
  induction n as [|n IH]; intros l s H.
  - destruct l; [|discriminate]. reflexivity.
  - assert (E1 : ((s mod factorial (S n)) mod N.of_nat (S n) = s mod N.of_nat (S n))%N).
    { cbn -[N.of_nat]. pose proof (factorial_pos n).
      rewrite N.mod_mul_r by lia. rewrite N.mul_comm, N.mod_add by lia. apply N.mod_mod; lia. }
    assert (E2 : ((s mod factorial (S n)) / N.of_nat (S n) = (s / N.of_nat (S n)) mod factorial n)%N).
    { cbn -[N.of_nat]. pose proof (factorial_pos n).
      rewrite N.mod_mul_r by lia. rewrite N.mul_comm, N.div_add by lia.
      rewrite N.div_small by (apply N.mod_lt; lia). lia. }
    pose proof (mod_lt_nat s n) as B.
    destruct (permute_step l n (N.to_nat (s mod N.of_nat (S n))) H) as (r & x & F & Hr & Hx & Pr & Step);
      [lia|].
    rewrite (Step s), (Step (s mod factorial (S n))%N) by (rewrite ?E1; auto).
    rewrite E2. f_equal. apply IH; auto.
Qed.
Lemma permute_period {A} (l : list A) s s' :
  (s mod factorial (length l) = s' mod factorial (length l))%N -> permute l s = permute l s'.
Proof.
  intros H. rewrite (permute_mod (length l) l s), (permute_mod (length l) l s') by auto.
  rewrite H; auto.
Qed.

Lemma validate_seed_spec m v :
  (validate_seed m v = SeedOk <-> exists z, v = PyInt z /\ (0 <= z <= m)%Z)
  /\ (validate_seed m v = RaisesTypeError <-> v = PyOther)
  /\ (validate_seed m v = RaisesValueError <-> exists z, v = PyInt z /\ (z < 0)%Z)
  /\ (validate_seed m v = RaisesOverflowError <-> exists z, v = PyInt z /\ (0 <= z)%Z /\ (m < z)%Z).
Proof.
  destruct v as [z|]; cbn.
  - destruct (Z.ltb_spec z 0).
    + repeat split; try discriminate; try (intros (w & [= <-] & ?); lia). eauto.
    + rewrite Z.gtb_ltb. destruct (Z.ltb_spec m z).
      * repeat split; try discriminate; try (intros (w & [= <-] & ?); lia). eauto.
      * repeat split; try discriminate; try (intros (w & [= <-] & ?); lia).
        intros _. exists z; split; auto; lia.
  - repeat split; try discriminate; intros (w & ? & _); discriminate.
Qed.

(** ** Divide and conquer *)
Lemma size_bounds n : (0 < n -> 2 ^ (N.size n - 1) <= n < 2 ^ N.size n)%N.
Proof.
  intros H. rewrite N.size_log2 by lia. replace (N.succ (N.log2 n) - 1)%N with (N.log2 n) by lia.
  apply N.log2_spec; auto.
Qed.
Lemma land_pred_power k : N.land (2 ^ k) (2 ^ k - 1) = 0%N.
Proof.
  rewrite <- N.pred_sub, <- N.ones_equiv.
  rewrite N.land_ones. apply N.mod_same. apply N.pow_nonzero; lia.
Qed.
Lemma land_pred_not_power n k : (2 ^ k < n < 2 ^ (k + 1))%N -> N.land n (n - 1) <> 0%N.
Proof.
  intros H E.
  assert (T : N.testbit (N.land n (n - 1)) k = true).
  { rewrite N.land_spec.
    assert (forall m, (2 ^ k <= m < 2 ^ (k + 1))%N -> N.testbit m k = true).
    { intros m B. assert (L : N.log2 m = k).
      { apply N.log2_unique; [lia|]. rewrite <- N.add_1_r. auto. }
      rewrite <- L. apply N.bit_log2. intros ->. assert (2 ^ k <> 0)%N by (apply N.pow_nonzero; lia). lia. }
    rewrite !H0 by lia. reflexivity. }
  rewrite E in T. rewrite N.bits_0 in T. discriminate.
Qed.
Lemma ceil_log2_spec n : (0 < n)%N ->
  (n <= 2 ^ ceil_log2 n)%N /\ forall c, (n <= 2 ^ c)%N -> (ceil_log2 n <= c)%N.
Proof.
  intros H. unfold ceil_log2. destruct (size_bounds n H) as [B1 B2].
  assert (Sz : (1 <= N.size n)%N) by (rewrite N.size_log2 by lia; lia).
  destruct (N.eqb_spec (N.land n (n - 1)) 0) as [E|E].
  - assert (P : n = (2 ^ (N.size n - 1))%N).
    { destruct (N.eq_dec n (2 ^ (N.size n - 1))) as [|N]; auto. exfalso.
      apply (land_pred_not_power n (N.size n - 1)); auto.
      replace (N.size n - 1 + 1)%N with (N.size n) by lia. lia. }
    split; [lia|]. intros c C. rewrite P in C at 1.
    apply N.pow_le_mono_r_iff in C; lia.
  - split; [rewrite N.sub_0_r; lia|]. intros c C.
    assert (N.size n - 1 < c)%N; [|lia].
    apply (N.pow_lt_mono_r_iff 2); [lia|].
    destruct (N.eq_dec n (2 ^ (N.size n - 1))) as [P|]; [|lia].
    exfalso. apply E. rewrite P. apply land_pred_power.
Qed.

Lemma to_base_cases_spec n : (2 <= n)%nat -> exists s t, to_base_cases n = Some (s, t)
  /\ (2 * s + 3 * t = n)%nat.
Proof.
  intros H. unfold to_base_cases. destruct (Nat.ltb_spec n 2); [lia|].
  pose proof (Nat.div_mod n 3). pose proof (Nat.mod_upper_bound n 3).
  destruct (Nat.eqb_spec (n mod 3) 0); [do 2 eexists; split; [reflexivity|lia]|].
  destruct (Nat.eqb_spec (n mod 3) 1); [do 2 eexists; split; [reflexivity|lia]|].
  do 2 eexists; split; [reflexivity|lia].
Qed.
Lemma concat_pairs a s : concat (map (fun index => [2 * index; 2 * index + 1]%nat) (seq a s))
  = seq (2 * a) (2 * s).
Proof.
  revert a; induction s as [|s IH]; intros a; auto.
  change (seq a (S s)) with (a :: seq (S a) s). cbn [map concat]. rewrite IH.
  replace (2 * S s)%nat with (S (S (2 * s))) by lia. cbn [seq app].
  replace (2 * a + 1)%nat with (S (2 * a)) by lia. replace (2 * S a)%nat with (S (S (2 * a))) by lia.
  reflexivity.
Qed.
Lemma concat_triples o a t : concat (map (fun index => [o + 3 * index; o + 3 * index + 1;
   o + 3 * index + 2]%nat) (seq a t)) = seq (o + 3 * a) (3 * t).
Proof.
  revert a; induction t as [|t IH]; intros a; auto.
  change (seq a (S t)) with (a :: seq (S a) t). cbn [map concat]. rewrite IH.
  replace (3 * S t)%nat with (S (S (S (3 * t)))) by lia. cbn [seq app].
  replace (o + 3 * a + 1)%nat with (S (o + 3 * a)) by lia.
  replace (o + 3 * a + 2)%nat with (S (S (o + 3 * a))) by lia.
  replace (o + 3 * S a)%nat with (S (S (S (o + 3 * a)))) by lia.
  reflexivity.
Qed.
Lemma base_cases_points_spec s t :
  concat (base_cases_points s t) = seq 0 (2 * s + 3 * t).
Proof.
  unfold base_cases_points. rewrite concat_app, concat_pairs, concat_triples.
  rewrite seq_app. f_equal. f_equal. lia.
Qed.

Lemma merge_round_length {A} (f : A -> A -> A) l :
  length (merge_round f l) = Nat.div2 (S (length l)).
Proof.
  revert l. fix IH 1. intros [|x [|y l]]; cbn; auto. rewrite IH. reflexivity.
Qed.
Lemma div2_le n m : (n <= 2 * m -> Nat.div2 (S n) <= m)%nat.
Proof. intros. rewrite Nat.div2_div. apply Nat.lt_succ_r, Nat.div_lt_upper_bound; lia. Qed.
Lemma merge_rounds_one {A} (f : A -> A -> A) c : forall l, (1 <= length l)%nat ->
  (length l <= 2 ^ c)%nat -> length (merge_rounds f c l) = 1%nat.
Proof.
  induction c as [|c IH]; intros l L H; cbn [merge_rounds].
  - cbn in H; lia.
  - apply IH.
    + rewrite merge_round_length. destruct l; cbn in *; lia.
    + rewrite merge_round_length. apply div2_le. cbn in H; lia.
Qed.
Lemma pow_nat c : N.to_nat (2 ^ N.of_nat c) = (2 ^ c)%nat.
Proof. rewrite N2Nat.inj_pow, Nat2N.id. reflexivity. Qed.
Lemma merge_all_total {A} (f : A -> A -> A) l : l <> [] -> exists r, merge_all f l = Some r.
Proof.
  intros N. unfold merge_all.
  assert (L : (1 <= length l)%nat) by (destruct l; cbn; [congruence|lia]).
  pose proof (proj1 (ceil_log2_spec (N.of_nat (length l)) ltac:(lia))) as C.
  set (c := ceil_log2 _) in *. rewrite <- (N2Nat.id c) in C.
  assert (K : length (merge_rounds f (N.to_nat c) l) = 1%nat).
  { apply merge_rounds_one; auto. rewrite <- pow_nat.
    generalize dependent (2 ^ N.of_nat (N.to_nat c))%N. intros m C. lia. }
  destruct (merge_rounds f (N.to_nat c) l) as [|r [|? ?]]; try discriminate. eauto.
Qed.
(** Every element is used exactly once, adjacent ones being merged in order. *)
Lemma merge_round_flatten {A B} (f : A -> A -> A) (g : A -> list B) :
  (forall x y, g (f x y) = g x ++ g y) -> forall l,
  flat_map g (merge_round f l) = flat_map g l.
Proof.
  intros H. fix IH 1. intros [|x [|y l]]; cbn; auto.
  rewrite H, IH, app_assoc. reflexivity.
Qed.
Lemma merge_all_flatten {A B} (f : A -> A -> A) (g : A -> list B) :
  (forall x y, g (f x y) = g x ++ g y) -> forall l r, merge_all f l = Some r ->
  g r = flat_map g l.
Proof.
  intros H l r E. unfold merge_all in E.
  assert (K : forall c l, flat_map g (merge_rounds f c l) = flat_map g l).
  { induction c; intros; cbn; auto. rewrite IHc. apply merge_round_flatten; auto. }
  rewrite <- (K (N.to_nat (ceil_log2 (N.of_nat (length l)))) l).
  destruct (merge_rounds _ _ l) as [|x [|? ?]]; try discriminate.
  injection E as ->. cbn. rewrite app_nil_r. auto.
Qed.

(** ** Sequences *)
Lemma getitem_spec {A} (l : list A) i v : sequence_getitem l i = Some v <->
  (exists k, nth_error l k = Some v /\ (i = Z.of_nat k \/ i = Z.of_nat k - Z.of_nat (length l))%Z).
Proof.
  unfold sequence_getitem. split.
  - intros H. destruct (Z.ltb_spec i 0) as [L|L].
    + destruct (Z.ltb_spec (i + Z.of_nat (length l)) 0); [discriminate|].
      destruct (Z.leb_spec (Z.of_nat (length l)) (i + Z.of_nat (length l))); [discriminate|].
      cbn in H. exists (Z.to_nat (i + Z.of_nat (length l))). split; auto. lia.
    + destruct (Z.leb_spec (Z.of_nat (length l)) i); [rewrite orb_true_r in H; discriminate|].
      rewrite (proj2 (Z.ltb_ge i 0) L) in H. cbn in H. exists (Z.to_nat i). split; auto. lia.
  - intros (k & E & H).
    assert (B : (k < length l)%nat) by (apply nth_error_Some; congruence).
    destruct (Z.ltb_spec i 0) as [L|L].
    + destruct H as [->|H]; [lia|].
      rewrite (proj2 (Z.ltb_ge _ 0)) by lia.
      rewrite (proj2 (Z.leb_gt _ _)) by lia. cbn.
      rewrite <- E. f_equal. lia.
    + destruct H as [->|H]; [|lia].
      rewrite (proj2 (Z.ltb_ge _ 0)) by lia.
      rewrite (proj2 (Z.leb_gt _ _)) by lia. cbn.
      rewrite <- E. f_equal. lia.
Qed.
Lemma getitem_nat {A} (l : list A) k : sequence_getitem l (Z.of_nat k) = nth_error l k.
Proof.
  unfold sequence_getitem. rewrite (proj2 (Z.ltb_ge (Z.of_nat k) 0)) by lia.
  rewrite (proj2 (Z.ltb_ge (Z.of_nat k) 0)) by lia. cbn [orb].
  destruct (Z.leb_spec (Z.of_nat (length l)) (Z.of_nat k)).
  - symmetry. apply nth_error_None. lia.
  - f_equal. lia.
Qed.
Lemma iter_from_spec {A} (l : list A) fuel : forall k, (length l < k + fuel)%nat ->
  (k <= length l)%nat ->
  sequence_iter_from l (Z.of_nat k) fuel = Some (skipn k l).
Proof.
  induction fuel as [|fuel IH]; intros k H K; [lia|]. cbn.
  rewrite getitem_nat. destruct (nth_error l k) as [v|] eqn:E.
  - replace (Z.of_nat k + 1)%Z with (Z.of_nat (S k)) by lia.
    assert (k < length l)%nat by (apply nth_error_Some; congruence).
    rewrite IH by lia. f_equal. clear - E. revert l E.
    induction k as [|k IHk]; intros [|x l] E; try discriminate; cbn [skipn nth_error] in *.
    + congruence.
    + rewrite <- (IHk l E). reflexivity.
  - apply nth_error_None in E. rewrite skipn_all2 by lia. reflexivity.
Qed.
Lemma iter_spec {A} (l : list A) fuel : (length l < fuel)%nat ->
  sequence_iter_from l 0 fuel = Some l.
Proof. intros. apply (iter_from_spec l fuel 0); cbn; lia. Qed.
Lemma map_nth_error_seq {A} (l : list A) : map (nth_error l) (seq 0 (length l)) = map Some l.
Proof.
  induction l as [|x l IH]; auto. cbn [length seq map]. f_equal.
  rewrite <- seq_shift, map_map. exact IH.
Qed.
Lemma reversed_spec {A} (l : list A) : sequence_reversed l = map Some (rev l).
Proof.
  unfold sequence_reversed. rewrite map_rev, <- map_rev, map_rev, map_rev.
  f_equal. rewrite <- map_nth_error_seq. apply map_ext. intros; apply getitem_nat.
Qed.
Lemma index_spec {A} (eq : A -> A -> bool) l v k : sequence_index eq l v = Some k <->
  (exists x, nth_error l k = Some x /\ eq x v = true)
  /\ forall j y, (j < k)%nat -> nth_error l j = Some y -> eq y v = false.
Proof.
  revert k; induction l as [|x l IH]; intros k; cbn.
  - split; [discriminate|]. intros [(y & E & _) _]. destruct k; discriminate.
  - destruct (eq x v) eqn:E.
    + split.
      * intros [= <-]. split; [exists x; auto|]. intros; lia.
      * intros [(y & N & Y) M]. destruct k; auto. specialize (M 0%nat x). cbn in M.
        rewrite M in E; auto; try lia; discriminate.
    + destruct (sequence_index eq l v) as [j|] eqn:F; cbn.
      * pose proof (proj1 (IH j) eq_refl) as [(y & N & Y) M]. split.
        -- intros [= <-]. split; [exists y; auto|]. intros [|i] z L; cbn; intros Z; [congruence|].
           apply (M i); auto; lia.
        -- intros [(z & N' & Z) M']. destruct k as [|k]; [cbn in N'; congruence|].
           f_equal. f_equal. cbn in N'.
           destruct (Nat.lt_trichotomy j k) as [L|[L|L]]; auto.
           ++ specialize (M' (S j) y). cbn in M'. rewrite M' in Y; auto; try lia; discriminate.
           ++ specialize (M k z). rewrite M in Z; auto; discriminate.
      * split; [discriminate|]. intros [(z & N' & Z) M'].
        destruct k as [|k]; [cbn in N'; congruence|]. cbn in N'. exfalso.
        assert (H : None = Some k); [|discriminate].
        apply IH. split; [exists z; auto|]. intros j y L Y. apply (M' (S j)); auto; lia.
Qed.
Lemma index_none {A} (eq : A -> A -> bool) l v : sequence_index eq l v = None <->
  forall x, In x l -> eq x v = false.
Proof.
  induction l as [|x l IH]; cbn; [intuition|].
  destruct (eq x v) eqn:E; [split; [discriminate|intros H; rewrite H in E; auto; discriminate]|].
  destruct (sequence_index eq l v); cbn.
  - split; [discriminate|]. intros H. exfalso.
    assert (K : forall x, In x l -> eq x v = false) by auto. apply IH in K. discriminate.
  - split; auto. intros _ y [<-|I]; auto. apply IH; auto.
Qed.
Lemma contains_spec {A} (eq : A -> A -> bool) l v : sequence_contains eq l v = true <->
  exists x, In x l /\ eq x v = true.
Proof. apply existsb_exists. Qed.
