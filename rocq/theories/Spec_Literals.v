(** Literals with integer coordinates, for concrete cases. *)
From Coq Require Import QArith Qcanon ZArith.
From Verif Require Import QcTac Model_Base.
Definition q (z : Z) : Qc := Z2Qc z.
Definition pt (x y : Z) : point := Pt (q x) (q y).
Definition sg (a b c d : Z) : segment := Seg (pt a b) (pt c d).
