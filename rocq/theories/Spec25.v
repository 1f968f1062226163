(** Specification: what the two phases of the pairwise-perturbation CP driver do to the regularised objective *)
From Coq Require Import List ZArith Bool Arith Reals.
From Verif Require Import Base Num NumR Tensor Spec Spec2 Spec3 Spec10 Spec11 Spec19 Spec22.
Import ListNotations.
Local Open Scope R_scope.

(** the routine decomposes every symmetric positive definite k x k matrix *)
Definition svd_works (svd : tensor Rnum -> nat -> tensor Rnum * tensor Rnum * tensor Rnum) (k : nat) : Prop :=
  forall S, is_mat S k k -> symmetric S k -> positive_definite S k -> svd_valid svd S k.
(** the regularised fit is better than that of the zero tensor *)
Definition better_than_zero (lambda : R) (V : tensor Rnum) (W : list (tensor Rnum)) (rk : nat) : Prop :=
  objective (lambda : Rnum) V W rk < norm2 V * norm2 V.
(** factors and perturbations after j undamped approximate sweeps around the checkpoint W0 *)
Definition pp_after (svd : tensor Rnum -> nat -> tensor Rnum * tensor Rnum * tensor Rnum) (lambda : R) (V : tensor Rnum) (W0 : list (tensor Rnum)) (rk j : nat)
  : list (tensor Rnum) * list (tensor Rnum) :=
  Nat.iter j (pp_sweep (pinv_solve svd rk) (lambda : Rnum) (1 : Rnum) V W0 rk) (W0, zmats V rk).
(** no factor becomes zero in the first n of these sweeps (Normalize would divide by its norm) *)
Definition pp_stays_nonzero (svd : tensor Rnum -> nat -> tensor Rnum * tensor Rnum * tensor Rnum) (lambda : R) (V : tensor Rnum) (W0 : list (tensor Rnum)) (rk n : nat) : Prop :=
  forall j m, (j <= n)%nat -> (m < order V)%nat -> norm2 (madd (fac W0 m) (fac (snd (pp_after svd lambda V W0 rk j)) m)) <> 0.
(** what one approximate sweep may add to the objective: checkpoint factors of norm a, guard e *)
Definition pp_loss (V : tensor Rnum) (lambda a e : R) : R :=
  INR (order V) * (norm2 V * (a ^ (order V - 1) * pp_gap (order V - 1) (e / (1 - e)))) ^ 2 / lambda.
