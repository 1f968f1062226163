(** Specification of the objective the optimizers minimise, and of the contracts of one exact step *)
From Coq Require Import List ZArith Bool Arith.
From Verif Require Import Base Num Tensor Spec Spec3 Spec10.
Import ListNotations.

Section S.
Context {N : num}.
Local Open Scope num_scope.
(** squared Frobenius norm *)
Definition fro2 (A : tensor N) : N := minner (nrow A) (ncol A) A A.
(** squared residual plus lambda times the squared norms of the factors *)
Definition objective (lambda : N) (V : tensor N) (W : list (tensor N)) (R : nat) : N :=
  residual2 V W R + lambda * bigsum (seq 0 (length W)) (fun m => fro2 (fac W m)).
(** the Cholesky factor of S is one, and the triangular solves with it are exact *)
Definition chol_exact (chol : tensor N -> tensor N) (solve_tri : tensor N -> tensor N -> bool -> bool -> bool -> tensor N) (S : tensor N) (R : nat) : Prop :=
  is_cholesky S (chol S) R /\ tri_solves solve_tri (chol S) R.
(** at each mode of the list the system matrix met there is handled exactly *)
Definition exact_along (chol : tensor N -> tensor N) (solve_tri : tensor N -> tensor N -> bool -> bool -> bool -> tensor N)
  (lambda : N) (V : tensor N) (R : nat) (modes : list nat) (st : list (tensor N) * list (tensor N)) : Prop :=
  forall a n b, modes = a ++ n :: b ->
    chol_exact chol solve_tri (als_lhs lambda (fst (ls_modes (chol_solve chol solve_tri) lambda V R a st)) R n) R.
(** the same for a list of actions; at the low-rank ones the truncated decomposition is a best approximation *)
Definition act_mode (a : action) : nat := match a with Full n => n | Snap n => n | LowRank n => n end.
Definition acts_exact (chol : tensor N -> tensor N) (solve_tri : tensor N -> tensor N -> bool -> bool -> bool -> tensor N)
  (trunc : nat -> tensor N -> nat -> tensor N * tensor N * tensor N) (k : nat)
  (lambda : N) (V : tensor N) (R : nat) (acts : list action) (st : lrst N) : Prop :=
  forall l a b, acts = l ++ a :: b ->
    let r := lr_acts (chol_solve chol solve_tri) (lr_inc trunc chol solve_tri k) lambda V R l st in
    let n := act_mode a in
    let Sm := als_lhs lambda (rW r) R n in
    match a with
    | Snap _ => True
    | Full _ => chol_exact chol solve_tri Sm R
    | LowRank _ => chol_exact chol solve_tri Sm R /\
        let X := solve_tri (msub (mttkrp V (rW r) n R) (mmul (fac (rRef r) n) Sm)) (chol Sm) true false true in
        let '(U, s, VT) := trunc (rCnt r) X k in best_rank (nth n (lens V) 0%nat) R k X (usv k U s VT)
    end.
End S.
