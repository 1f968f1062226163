(** Specification for the rounding-error theorems, part 3: one update of alternating least squares *)
From Coq Require Import List ZArith Reals.
From Verif Require Import Num NumR Tensor Spec Spec27 Spec28.
Import ListNotations.
Local Open Scope R_scope.

(** A is X up to k roundings: entry by entry the error is at most (1+u)^k - 1 times Y *)
Definition mat_within {rnd} (u : R) (k r c : nat) (A : tensor (Fl rnd)) (X Y : tensor Rnum) : Prop :=
  is_mat A r c /\
  forall i j, (i < r)%nat -> (j < c)%nat -> Rabs (el A i j - @el Rnum X i j) <= gam u k * @el Rnum Y i j.

(** roundings of a Hadamard product of Gram matrices: for each mode but n its length and four more *)
Definition gram_roundings (ls : list nat) (n : nat) : nat :=
  fold_right Nat.add 0%nat (map (fun m => nth m ls 0 + 4)%nat (others n (length ls))).

(** W' is W after a rounded update of mode n.  There are a right-hand side M and a system matrix S, within rounding of
    the exact ones AT THE FACTORS W; the new factor is the solution through the decomposition that [svd] returns
    for S, within rounding; the other factors are untouched.  kM: roundings of the MTTKRP method.
    The yardsticks (second tensor of mat_within) are the same expressions of the absolute values. *)
Definition als_solve_within {rnd} (u : R) (kM : nat)
  (svd : tensor (Fl rnd) -> nat -> tensor (Fl rnd) * tensor (Fl rnd) * tensor (Fl rnd)) (lambda : R)
  (V : tensor (Fl rnd)) (F : list (tensor (Fl rnd))) (rk : nat) (W : list (tensor (Fl rnd))) (n : nat)
  (W' : list (tensor (Fl rnd))) : Prop :=
  let s := nth n (lens V) 0%nat in
  exists M S A : tensor (Fl rnd),
    mat_within u (kM + 1) s rk M
      (@als_rhs Rnum (reals V) (map reals F) (map reals W) rk n)
      (@als_rhs Rnum (absols V) (map absols F) (map absols W) rk n) /\
    mat_within u (gram_roundings (lens V) n + 1) rk rk S
      (@als_lhs Rnum lambda (map reals W) rk n)
      (@als_lhs Rnum (Rabs lambda) (map absols W) rk n) /\
    (let '(U, sv, VT) := svd S rk in
     mat_within u (2 * rk + 8) s rk A
       (@pinv_solve Rnum (fun _ _ => (reals U, reals sv, reals VT)) rk (reals M) (reals S))
       (@pinv_solve Rnum (fun _ _ => (absols U, absols sv, absols VT)) rk (absols M) (absols S))) /\
    W' = setf W n A.
(** G is the gradient of the regularised problem with respect to factor n at W:
    (factor) (exact system) - (exact right-hand side), within rounding *)
Definition als_grad_within {rnd} (u : R) (lambda : R)
  (V : tensor (Fl rnd)) (F : list (tensor (Fl rnd))) (rk : nat) (W : list (tensor (Fl rnd))) (n : nat) (G : tensor (Fl rnd)) : Prop :=
  mat_within u (gram_roundings (lens V) n + rk + 6) (nth n (lens V) 0%nat) rk G
    (msub (mmul (fac (map reals W) n) (@als_lhs Rnum lambda (map reals W) rk n))
          (@als_rhs Rnum (reals V) (map reals F) (map reals W) rk n))
    (madd (mmul (fac (map absols W) n) (@als_lhs Rnum (Rabs lambda) (map absols W) rk n))
          (@als_rhs Rnum (absols V) (map absols F) (map absols W) rk n)).
