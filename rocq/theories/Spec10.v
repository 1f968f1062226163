(** Specification of the helper functions: Khatri-Rao product, quadratic objective of the normal equations, splitting, projection. *)
From Coq Require Import List ZArith Bool Arith.
From Verif Require Import Base Num Tensor Spec.
Import ListNotations.

Section S.
Context {N : num}.
Local Open Scope num_scope.
(** Khatri-Rao product of matrices with K columns, kept as a tensor: entry (x_0,...,x_{p-1},k) is the product of the A_m(x_m,k) *)
Definition khatri_rao (As : list (tensor N)) (K : nat) : tensor N :=
  tabulate (map nrow As ++ [K])
           (fun x => bigprod (seq 0 (length As)) (fun m => el (fac As m) (nth m x 0%nat) (nth (length As) x 0%nat))).
(** the objective whose minimiser over A solves A G = M (G symmetric): <A G, A> - 2 <A, M> *)
Definition quad (r k : nat) (G M A : tensor N) : N :=
  minner r k (mmul A G) A - (n1 + n1) * minner r k A M.
Definition symmetric (G : tensor N) (k : nat) : Prop := forall i j, (i < k)%nat -> (j < k)%nat -> el G i j = el G j i.
(** squared Frobenius distance *)
Definition dist2 (r k : nat) (X Y : tensor N) : N := minner r k (msub X Y) (msub X Y).
(** inner product of vectors *)
Definition dot (A B : tensor N) (n : nat) : N := bigsum (seq 0 n) (fun i => at_ A [i] * at_ B [i]).
End S.
(** contract of the triangular solves with the factor L: X L^T = B and X L = B *)
Definition tri_solves {N : num} (solve_tri : tensor N -> tensor N -> bool -> bool -> bool -> tensor N) (L : tensor N) (k : nat) : Prop :=
  forall B q, is_mat B q k ->
    (is_mat (solve_tri B L true false true) q k /\ mmul (solve_tri B L true false true) (mtrans L) = B) /\
    (is_mat (solve_tri B L true false false) q k /\ mmul (solve_tri B L true false false) L = B).
(** Y is a best approximation of X among the products of an r x k and a k x R matrix *)
Definition best_rank {N : num} (r R k : nat) (X Y : tensor N) : Prop :=
  forall P Q, is_mat P r k -> is_mat Q k R -> nle n0 (nsub (dist2 r R X (mmul P Q)) (dist2 r R X Y)).
(** contract of an exact decomposition: the truncated decomposition with k terms reproduces X *)
Definition decomposes {N : num} (d : tensor N * tensor N * tensor N) (k : nat) (X : tensor N) : Prop :=
  let '(U, s, VT) := d in mmul (mmul U (mdiag k (fun i => at_ s [i]))) VT = X.
(** the lower triangle, diagonal included *)
Definition lower {N : num} (G : tensor N) (k : nat) : tensor N :=
  tabulate [k; k] (fun x => if (nth 1 x 0 <=? nth 0 x 0)%nat then el G (nth 0 x 0%nat) (nth 1 x 0%nat) else n0).
(** one Gauss-Seidel sweep for A G = F: the new columns are determined in the order 0, 1, ..., each from the equation of
    its own column, with the new values of the columns before it and the old values of the columns after it *)
Definition gs_sweep {N : num} (r k : nat) (G F A A' : tensor N) : Prop :=
  is_mat A' r k /\ forall i j, (i < r)%nat -> (j < k)%nat ->
    nadd (bigsum (seq 0 (S j)) (fun l => nmul (el A' i l) (el G l j)))
         (bigsum (seq (S j) (k - S j)) (fun l => nmul (el A i l) (el G l j))) = el F i j.
Fixpoint gs_sweeps {N : num} (r k : nat) (G F : tensor N) (m : nat) (A A' : tensor N) : Prop :=
  match m with O => A' = A | S m => exists B, gs_sweep r k G F A B /\ gs_sweeps r k G F m B A' end.
