(** Specification: how far a pairwise-perturbation sweep that stays within the guard may be from an exact one *)
From Coq Require Import List ZArith Bool Arith Reals.
From Verif Require Import Base Num NumR Tensor Spec Spec19 Spec20.
Import ListNotations.
Local Open Scope R_scope.

(** a bound, relative to |V| times the norms of the p other factors, for the error of the MTTKRP when every perturbation is at most h
    times its factor: the rescaling of the factors by Normalize, of which the operators know nothing, and the terms of second order *)
Definition pp_gap (p : nat) (h : R) : R :=
  (1 + h) ^ p * (((1 + h) / (1 - h)) ^ p - 1) + INR p * (INR p - 1) / 2 * (h * h) * (1 + h) ^ p.
(** the decomposition is right for every system that the sweep around W0, started with the factors W and the perturbations dW, solves *)
Definition pp_systems_valid (svd : tensor Rnum -> nat -> tensor Rnum * tensor Rnum * tensor Rnum) (lambda ratio : R) (V : tensor Rnum)
  (W0 : list (tensor Rnum)) (rk : nat) (W dW : list (tensor Rnum)) : Prop :=
  forall n, (n < order V)%nat ->
  svd_valid svd (als_lhs (lambda : Rnum) (fst (pp_upto (pinv_solve svd rk) (lambda : Rnum) (ratio : Rnum) V W0 rk n (W, dW))) rk n) rk.
