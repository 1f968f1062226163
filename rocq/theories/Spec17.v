(** Specification of the remaining generators and vector helpers *)
From Coq Require Import List ZArith QArith Bool Arith.
From Verif Require Import Base Num Tensor Spec Spec5.
Import ListNotations.
Local Close Scope Q_scope.

Section S.
Context {N : num}.
Local Open Scope num_scope.
(** the sum over the d grid directions k of  I (x) .. (x) M (x) .. (x) I, with the matrix of entries M i j in position k *)
Definition grid_sum (M : nat -> nat -> N) (d : nat) (x : list nat) : N :=
  bigsum (seq 0 d) (fun k => bigprod (seq 0 d) (fun l =>
    if Nat.eqb l k then M (prow x l) (pcol x l) else delta (prow x l) (pcol x l))).
(** the matrix with 2 on the diagonal, -1 below it and -2 above it *)
Definition skew_diff (i j : nat) : N :=
  if Nat.eqb i j then n1 + n1 else if Nat.eqb i (j + 1) then - n1 else if Nat.eqb j (i + 1) then - (n1 + n1) else n0.
End S.
