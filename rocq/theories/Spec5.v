(** Specifications of the generated tensors (independent of the model). *)
From Coq Require Import List ZArith QArith Bool Arith.
From Verif Require Import Num Tensor Spec.
Import ListNotations.
Local Close Scope Q_scope.

Section S.
Context {N : num}.
Local Open Scope num_scope.

(** the identity matrix, the second-difference matrix tridiag(-1, 2, -1) *)
Definition delta (i j : nat) : N := if Nat.eqb i j then n1 else n0.
Definition second_diff (i j : nat) : N :=
  if Nat.eqb i j then n1 + n1 else if Nat.eqb i (j + 1) || Nat.eqb j (i + 1) then - n1 else n0.
(** the modes 2l and 2l+1 are the row and column of the l-th grid direction *)
Definition prow (x : list nat) (l : nat) : nat := nth (2 * l) x 0%nat.
Definition pcol (x : list nat) (l : nat) : nat := nth (2 * l + 1) x 0%nat.
(** I (x) I (x) .. (x) I with d factors *)
Definition ident_at (d : nat) (x : list nat) : N := bigprod (seq 0 d) (fun l => delta (prow x l) (pcol x l)).
(** the discrete Laplacian in d directions: the sum over k of  I (x) .. (x) D (x) .. (x) I, D in position k *)
Definition laplace_at (d : nat) (x : list nat) : N :=
  bigsum (seq 0 d) (fun k => bigprod (seq 0 d) (fun l =>
    if Nat.eqb l k then second_diff (prow x l) (pcol x l) else delta (prow x l) (pcol x l))).
Definition laplace (d s : nat) : tensor N := tabulate (repeat s (2 * d)) (laplace_at d).

(** the outer product of the vectors vs *)
Definition outer_at (vs : list (tensor N)) (x : list nat) : N :=
  bigprod (seq 0 (length vs)) (fun j => at_ (nth j vs tnil) [nth j x 0%nat]).
Definition outer (vs : list (tensor N)) : tensor N := tabulate (map (fun v => nth 0 (lens v) 0%nat) vs) (outer_at vs).
(** collinearity of two vectors *)
Definition dotp (v w : tensor N) : N := bigsum (seq 0 (nth 0 (lens v) 0%nat)) (fun i => at_ v [i] * at_ w [i]).
Definition collin (v w : tensor N) : N := dotp v w / (norm2 v * norm2 w).
(** the weight of component i (from 0) of R: 0.2 + 0.6/R (i+1) *)
Definition weight (R i : nat) : N :=
  nlit (2 # 10) + nlit (6 # 10) / nlit (inject_Z (Z.of_nat R)) * nlit (inject_Z (Z.of_nat (i + 1))).
End S.
