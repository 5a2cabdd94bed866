(** Vocabulary for the integer and sequence helpers. *)
From Coq Require Import NArith List Permutation.
Import ListNotations.

Fixpoint factorial (n : nat) : N :=
  (match n with O => 1 | S k => N.of_nat (S k) * factorial k end)%N.
