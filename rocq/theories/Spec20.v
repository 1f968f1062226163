(** Specification: how large the error of a pairwise-perturbation expansion may be.
    The exact product of p quantities a_m + d_m is a polynomial in the d_m; the expansion keeps the terms without and with one d.
    [second_order ms a d] is what it leaves out when all quantities are non-negative numbers. *)
From Coq Require Import List ZArith Bool Arith Reals.
From Verif Require Import Base Num NumR Tensor Spec.
Import ListNotations.

Definition second_order (ms : list nat) (a d : nat -> R) : R :=
  (bigprod (N:=Rnum) ms (fun m => a m + d m) - bigprod (N:=Rnum) ms a
   - bigsum (N:=Rnum) ms (fun m => bigprod (N:=Rnum) ms (fun q => if Nat.eqb q m then d q else a q)))%R.
(** the factors W0 + dW *)
Definition perturbed (W0 dW : list (tensor Rnum)) : list (tensor Rnum) :=
  map (fun m => madd (fac W0 m) (fac dW m)) (seq 0 (length W0)).
