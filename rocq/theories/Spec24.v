(** Specification: the quality of the pairwise-perturbation Tucker decomposition over the reals *)
From Coq Require Import List ZArith Bool Arith Reals.
From Verif Require Import Base Num NumR Tensor Spec Spec7 Spec18 Spec20 MCP.
Import ListNotations.
Local Open Scope R_scope.

(** the requests that the approximate sweep around W0, started with the factors W and the perturbations dW, makes are answered with
    leading singular vectors *)
Definition tpp_leading (svd : tensor Rnum -> nat -> tensor Rnum * tensor Rnum * tensor Rnum) (V : tensor Rnum) (ranks : list nat)
  (W0 W dW : list (tensor Rnum)) : Prop :=
  forall n, (n < order V)%nat ->
  leading_svd svd (unfold_gram (pp_ttmc V W0 (snd (tpp_upto svd V ranks W0 n (W, dW))) n) n) (nth n (lens V) 0%nat) (nth n ranks 0%nat).
(** the routine answers the Gram matrix of every unfolding of a tensor with leading singular vectors (the unfoldings a run may meet) *)
Definition svd_leading (svd : tensor Rnum -> nat -> tensor Rnum * tensor Rnum * tensor Rnum) (ls ranks : list nat) : Prop :=
  forall T n, (n < length ls)%nat -> order T = length ls -> nth n (lens T) 0%nat = nth n ls 0%nat ->
  leading_svd svd (unfold_gram T n) (nth n ls 0%nat) (nth n ranks 0%nat).
(** the perturbation of mode m that the update of mode n works with: new for the modes before n, old for those after *)
Definition in_effect (dW dW' : list (tensor Rnum)) (n m : nat) : R := norm2 (fac (if (m <? n)%nat then dW' else dW) m).
(** what a sweep with orthonormal factors that turns the perturbations dW into dW' may lose, relative to |V|: for each mode the terms of
    second and higher order of the product of (1 + size of the perturbation) over the other modes *)
Definition sweep_loss (o : nat) (dW dW' : list (tensor Rnum)) : R :=
  bigsum (N:=Rnum) (seq 0 o) (fun n => second_order (others n o) (fun _ => 1) (in_effect dW dW' n)).
(** the same when every perturbation is at most h: (1+h)^p - 1 - p h, p other modes *)
Definition guard_loss (o : nat) (h : R) : R := (1 + h) ^ (o - 1) - 1 - INR (o - 1) * h.
(** rows of a log: the residual in a row that follows a row of the exact phase is not larger *)
Definition never_up_after_exact (l : list (row (N:=Rnum))) : Prop :=
  forall i d it g t e s d' it' g' t' ph' e' s',
  nth_error l i = Some (Row (N:=Rnum) d it g t 0 e s) -> nth_error l (S i) = Some (Row (N:=Rnum) d' it' g' t' ph' e' s') -> e' <= e.
