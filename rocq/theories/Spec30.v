(** Specification for the rounding-error theorems, part 4: how nearly an updated factor solves the normal equations *)
From Coq Require Import List ZArith Reals.
From Verif Require Import Num NumR Tensor Spec Spec27 Spec28 Spec29.
Import ListNotations.
Local Open Scope R_scope.

(** the matrix that the decomposition U diag(s) VT inverts with: VT^T diag(1/s) U^T *)
Definition pinv_matrix (U s VT : tensor Rnum) (k : nat) : tensor Rnum :=
  mmul (mmul (mtrans VT) (mdiag k (fun i => @ndiv Rnum n1 (at_ s [i])))) (mtrans U).
(** entrywise absolute value *)
Definition mabs (A : tensor Rnum) : tensor Rnum := @mkT Rnum (lens A) (map Rabs (data A)).
(** The gradient of the (regularised) objective with respect to factor n, AT THE NEW FACTORS W', is no larger, entry by
    entry, than rounding (the three gam terms, each a product of absolute values) plus what the decomposition
    itself gets wrong: |M| |P S - I| where P is the matrix it inverts S with.
    M and S are the right-hand side and system of the update. *)
Definition normal_residual_within {rnd} (u : R) (kM : nat)
  (svd : tensor (Fl rnd) -> nat -> tensor (Fl rnd) * tensor (Fl rnd) * tensor (Fl rnd)) (lambda : R)
  (V : tensor (Fl rnd)) (F : list (tensor (Fl rnd))) (rk : nat) (n : nat) (W' : list (tensor (Fl rnd))) : Prop :=
  let lhs := @als_lhs Rnum lambda (map reals W') rk n in
  let rhs := @als_rhs Rnum (reals V) (map reals F) (map reals W') rk n in
  let lhs_abs := @als_lhs Rnum (Rabs lambda) (map absols W') rk n in
  let rhs_abs := @als_rhs Rnum (absols V) (map absols F) (map absols W') rk n in
  let g := gram_roundings (lens V) n in
  exists M S : tensor (Fl rnd),
    mat_within u (kM + 1) (nth n (lens V) 0%nat) rk M rhs rhs_abs /\
    mat_within u (g + 1) rk rk S lhs lhs_abs /\
    let '(U, sv, VT) := svd S rk in
    let P := pinv_matrix (reals U) (reals sv) (reals VT) rk in
    let Pabs := pinv_matrix (absols U) (absols sv) (absols VT) rk in
    forall i j, (i < nth n (lens V) 0)%nat -> (j < rk)%nat ->
      Rabs (el (msub (mmul (reals (fac W' n)) lhs) rhs) i j)
      <= gam u (g + 1) * el (mmul (absols (fac W' n)) lhs_abs) i j
         + gam u (kM + 1) * el rhs_abs i j
         + gam u (2 * rk + 8) * el (mmul (mmul (absols M) Pabs) (absols S)) i j
         + el (mmul (absols M) (mabs (msub (mmul P (reals S)) (mid rk)))) i j.
