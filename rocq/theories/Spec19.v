(** Specification of convergence of the CP drivers over the reals *)
From Coq Require Import List ZArith Bool Arith Reals.
From Verif Require Import Base Num NumR Tensor Spec Spec3 Spec10 Spec11.
Import ListNotations.
Local Open Scope R_scope.

(** the external routine returns a singular value decomposition of the matrix S (singular values of any sign) *)
Definition svd_valid (svd : tensor Rnum -> nat -> tensor Rnum * tensor Rnum * tensor Rnum) (S : tensor Rnum) (k : nat) : Prop :=
  let '(U, s, VT) := svd S k in is_svd S U s VT k.
(** the factors that alsCP_DT has after k sweeps *)
Definition als_factors (svd : tensor Rnum -> nat -> tensor Rnum * tensor Rnum * tensor Rnum) (lambda : R) (V : tensor Rnum)
  (F : list (tensor Rnum)) (rk : nat) (W : list (tensor Rnum)) (k : nat) : list (tensor Rnum) :=
  Nat.iter k (fun W => rescaled (als_sweep (pinv_solve svd rk) (lambda : Rnum) V F rk W)) W.
(** along these sweeps the decomposition is right, and no factor becomes zero (Normalize would divide by its norm) *)
Definition svd_valid_along (svd : tensor Rnum -> nat -> tensor Rnum * tensor Rnum * tensor Rnum) (lambda : R) (V : tensor Rnum)
  (F : list (tensor Rnum)) (rk : nat) (W : list (tensor Rnum)) : Prop :=
  forall k n, (n < order V)%nat ->
  svd_valid svd (als_lhs (lambda : Rnum) (als_upto (pinv_solve svd rk) (lambda : Rnum) V F rk n (als_factors svd lambda V F rk W k)) rk n) rk.
Definition svd_solvable_along (svd : tensor Rnum -> nat -> tensor Rnum * tensor Rnum * tensor Rnum) (lambda : R) (V : tensor Rnum)
  (F : list (tensor Rnum)) (rk : nat) (W : list (tensor Rnum)) : Prop :=
  forall k n, (n < order V)%nat ->
  svd_solvable svd (als_lhs (lambda : Rnum) (als_upto (pinv_solve svd rk) (lambda : Rnum) V F rk n (als_factors svd lambda V F rk W k)) rk n) rk.
Definition factors_stay_nonzero (svd : tensor Rnum -> nat -> tensor Rnum * tensor Rnum * tensor Rnum) (lambda : R) (V : tensor Rnum)
  (F : list (tensor Rnum)) (rk : nat) (W : list (tensor Rnum)) : Prop :=
  forall k m, (m < order V)%nat ->
  norm2 (fac (als_sweep (pinv_solve svd rk) (lambda : Rnum) V F rk (als_factors svd lambda V F rk W k)) m) <> 0.
(** a bound for the ratio of the squared gradient and the decrease of the objective, when the objective is at most c:
    the trace of a system matrix is at most this *)
Definition trace_bound (lambda c : R) (rk o : nat) : R := INR rk * lambda + (c / lambda) ^ (o - 1).
(** u S u > 0 unless u = 0 *)
Definition positive_definite (S : tensor Rnum) (k : nat) : Prop :=
  forall u : nat -> R, (exists i, (i < k)%nat /\ u i <> 0) ->
  0 < bigsum (N:=Rnum) (seq 0 k) (fun l => bigsum (N:=Rnum) (seq 0 k) (fun r => u r * el S r l) * u l).
(** the Cholesky factorisation and the triangular solves are right for every symmetric positive definite k x k matrix *)
Definition cholesky_works (chol : tensor Rnum -> tensor Rnum) (solve_tri : tensor Rnum -> tensor Rnum -> bool -> bool -> bool -> tensor Rnum) (k : nat) : Prop :=
  forall S, is_mat S k k -> symmetric S k -> positive_definite S k -> chol_exact chol solve_tri S k.
