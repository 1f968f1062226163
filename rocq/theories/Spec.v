(** Mathematical specification, independent of the model: no buffers, no index strings. *)
From Coq Require Import List ZArith Bool Arith.
From Verif Require Import Base Num Tensor.
Import ListNotations.

Section S.
Context {N : num}.
Local Open Scope num_scope.

(** entry (i,j) of a matrix; factor m of a list of factors; the modes other than n *)
Definition el (M : tensor N) (i j : nat) : N := at_ M [i; j].
Definition fac (W : list (tensor N)) (m : nat) : tensor N := nth m W tnil.
Definition others (n ord : nat) : list nat := filter (fun m => negb (Nat.eqb m n)) (seq 0 ord).
Definition is_mat (M : tensor N) (r c : nat) : Prop := lens M = [r; c] /\ wf M.

(** V has the given lengths; W is one matrix per mode, with as many rows as the mode is long and
    R columns *)
Definition factors_ok (V : tensor N) (W : list (tensor N)) (R : nat) : Prop :=
  wf V /\ length W = order V /\
  forall m, m < order V -> is_mat (fac W m) (nth m (lens V) 0%nat) R.

(** MTTKRP: M(i,k) = sum over multi-indices x with x_n = i of V(x) * prod_{m<>n} W_m(x_m,k) *)
Definition mttkrp_at (V : tensor N) (W : list (tensor N)) (n i k : nat) : N :=
  bigsum (filter (fun x => Nat.eqb (nth n x 0%nat) i) (all_idx (lens V)))
         (fun x => at_ V x * bigprod (others n (order V)) (fun m => el (fac W m) (nth m x 0%nat) k)).
Definition mttkrp (V : tensor N) (W : list (tensor N)) (n R : nat) : tensor N :=
  tabulate [nth n (lens V) 0%nat; R]
           (fun idx => mttkrp_at V W n (nth 0 idx 0%nat) (nth 1 idx 0%nat)).

(** partial MTTKRP: every mode outside [rest] is contracted with its factor; what remains is indexed by
    the modes of [rest], in this order, and the rank index *)
Definition outside (rest : list nat) (ord : nat) : list nat :=
  filter (fun m => negb (existsb (Nat.eqb m) rest)) (seq 0 ord).
Definition partial_at (V : tensor N) (W : list (tensor N)) (rest y : list nat) (k : nat) : N :=
  bigsum (filter (fun x => forallb (fun p => Nat.eqb (nth (fst p) x 0%nat) (snd p)) (combine rest y)) (all_idx (lens V)))
         (fun x => at_ V x * bigprod (outside rest (order V)) (fun m => el (fac W m) (nth m x 0%nat) k)).
Definition partial_mttkrp (V : tensor N) (W : list (tensor N)) (rest : list nat) (R : nat) : tensor N :=
  tabulate (map (fun m => nth m (lens V) 0%nat) rest ++ [R])
           (fun idx => partial_at V W rest (firstn (length rest) idx) (nth (length rest) idx 0%nat)).

(** Gram matrix entry and the Hadamard product of the Gram matrices of the modes other than n *)
Definition gram_at (A : tensor N) (k l : nat) : N :=
  bigsum (seq 0 (nrow A)) (fun i => el A i k * el A i l).
Definition hgram_at (W : list (tensor N)) (n k l : nat) : N :=
  bigprod (others n (length W)) (fun m => gram_at (fac W m) k l).
Definition hgram (W : list (tensor N)) (n R : nat) : tensor N :=
  tabulate [R; R] (fun idx => hgram_at W n (nth 0 idx 0%nat) (nth 1 idx 0%nat)).

(** the tensor represented by the factors *)
Definition cp_at (W : list (tensor N)) (R : nat) (x : list nat) : N :=
  bigsum (seq 0 R) (fun r => bigprod (seq 0 (length W)) (fun m => el (fac W m) (nth m x 0%nat) r)).
Definition cp_full (W : list (tensor N)) (R : nat) : tensor N :=
  tabulate (map nrow W) (cp_at W R).

(** matrix product, sum, identity *)
Definition mmul (A B : tensor N) : tensor N :=
  tabulate [nrow A; ncol B]
    (fun idx => bigsum (seq 0 (ncol A)) (fun k => el A (nth 0 idx 0%nat) k * el B k (nth 1 idx 0%nat))).
Definition madd (A B : tensor N) : tensor N :=
  tabulate (lens A) (fun idx => at_ A idx + at_ B idx).
Definition msub (A B : tensor N) : tensor N :=
  tabulate (lens A) (fun idx => at_ A idx - at_ B idx).
Definition mscal (a : N) (A : tensor N) : tensor N := tabulate (lens A) (fun idx => a * at_ A idx).
Definition mtrans (A : tensor N) : tensor N :=
  tabulate [ncol A; nrow A] (fun idx => el A (nth 1 idx 0%nat) (nth 0 idx 0%nat)).
Definition mdiag (n : nat) (f : nat -> N) : tensor N :=
  tabulate [n; n] (fun idx => if Nat.eqb (nth 0 idx 0%nat) (nth 1 idx 0%nat) then f (nth 0 idx 0%nat) else n0).
Definition mid (n : nat) : tensor N := mdiag n (fun _ => n1).

(** ** contracts of the external linear-algebra routines
    full SVD of a square matrix: S = U diag(s) VT with U and VT orthogonal *)
Definition is_svd (S U s VT : tensor N) (k : nat) : Prop :=
  is_mat U k k /\ lens s = [k] /\ wf s /\ is_mat VT k k /\
  S = mmul (mmul U (mdiag k (fun i => at_ s [i]))) VT /\
  mmul (mtrans U) U = mid k /\ mmul U (mtrans U) = mid k /\
  mmul VT (mtrans VT) = mid k /\ mmul (mtrans VT) VT = mid k.
Definition is_cholesky (S L : tensor N) (k : nat) : Prop := is_mat L k k /\ S = mmul L (mtrans L).

(** partial TTM chain: V contracted with W_m in every mode m of [ms];
    y gives the output index of each mode *)
Definition ttmc_at (V : tensor N) (W : list (tensor N)) (ms : list nat) (y : list nat) : N :=
  bigsum (filter (fun x => forallb (fun m => existsb (Nat.eqb m) ms || Nat.eqb (nth m x 0%nat) (nth m y 0%nat))
                                   (seq 0 (order V)))
                 (all_idx (lens V)))
         (fun x => at_ V x * bigprod ms (fun m => el (fac W m) (nth m x 0%nat) (nth m y 0%nat))).
Definition ttmc_lens (V : tensor N) (W : list (tensor N)) (ms : list nat) : list nat :=
  map (fun m => if existsb (Nat.eqb m) ms then ncol (fac W m) else nth m (lens V) 0%nat) (seq 0 (order V)).
Definition ttmc (V : tensor N) (W : list (tensor N)) (ms : list nat) : tensor N :=
  tabulate (ttmc_lens V W ms) (ttmc_at V W ms).

(** squared Frobenius norm of V - [[W]] *)
Definition residual2 (V : tensor N) (W : list (tensor N)) (R : nat) : N :=
  bigsum (all_idx (lens V)) (fun x => (at_ V x - cp_at W R x) * (at_ V x - cp_at W R x)).

(** the gradient with respect to factor n of half the squared residual: W_n S_n - M_n
    (that it is the gradient is theorem C03_gradient_is_derivative) *)
Definition grad_spec (V : tensor N) (W : list (tensor N)) (R n : nat) : tensor N :=
  msub (mmul (fac W n) (hgram W n R)) (mttkrp V W n R).

(** inner product of two matrices of the same shape *)
Definition minner (r c : nat) (A B : tensor N) : N :=
  bigsum (seq 0 r) (fun i => bigsum (seq 0 c) (fun j => el A i j * el B i j)).

(** replacing factor n *)
Definition setf (W : list (tensor N)) (n : nat) (A : tensor N) : list (tensor N) := lset W n A.

(** ** alternating least squares, textbook form.
    [solve M S] is the solver of the normal equations X S = M.
    Right-hand side and system matrix of the update of mode n: *)
Definition als_rhs (V : tensor N) (F W : list (tensor N)) (R n : nat) : tensor N :=
  madd (mttkrp V W n R) (fac F n).
Definition als_lhs (lambda : N) (W : list (tensor N)) (R n : nat) : tensor N :=
  madd (hgram W n R) (mscal lambda (mid R)).
(** mode n is replaced by the solution; a sweep does this for modes 0, 1, ..., order-1, each time with
    the factors already updated *)
Definition als_update (solve : tensor N -> tensor N -> tensor N) (lambda : N) (V : tensor N) (F : list (tensor N))
  (R : nat) (W : list (tensor N)) (n : nat) : list (tensor N) :=
  setf W n (solve (als_rhs V F W R n) (als_lhs lambda W R n)).
Definition als_upto (solve : tensor N -> tensor N -> tensor N) (lambda : N) (V : tensor N) (F : list (tensor N))
  (R n : nat) (W : list (tensor N)) : list (tensor N) :=
  fold_left (als_update solve lambda V F R) (seq 0 n) W.
Definition als_sweep (solve : tensor N -> tensor N -> tensor N) (lambda : N) (V : tensor N) (F : list (tensor N))
  (R : nat) (W : list (tensor N)) : list (tensor N) := als_upto solve lambda V F R (order V) W.
(** the gradients met during a sweep: that of mode n at the factors just before mode n is updated *)
Definition als_grads (solve : tensor N -> tensor N -> tensor N) (lambda : N) (V : tensor N) (F : list (tensor N))
  (R : nat) (W : list (tensor N)) : list (tensor N) :=
  map (fun n => let W' := als_upto solve lambda V F R n W in
         msub (mmul (fac W' n) (als_lhs lambda W' R n)) (als_rhs V F W' R n)) (seq 0 (order V)).
(** the solver through a singular value decomposition S = U diag(s) VT:  X = M VT^T diag(1/s) U^T *)
Definition pinv_solve (svd : tensor N -> nat -> tensor N * tensor N * tensor N) (R : nat) (M S : tensor N) : tensor N :=
  let '(U, s, VT) := svd S R in
  mmul M (mmul (mmul (mtrans VT) (mdiag R (fun i => n1 / at_ s [i]))) (mtrans U)).
(** the decomposition returns matrices of the right shapes (nothing about their values) *)
Definition svd_shaped (svd : tensor N -> nat -> tensor N * tensor N * tensor N) : Prop :=
  forall S k, is_mat S k k ->
  let '(U, s, VT) := svd S k in is_mat U k k /\ lens s = [k] /\ wf s /\ is_mat VT k k.
(** the decomposition of S is a valid one with invertible singular values *)
Definition svd_solvable (svd : tensor N -> nat -> tensor N * tensor N * tensor N) (S : tensor N) (k : nat) : Prop :=
  let '(U, s, VT) := svd S k in
  is_svd S U s VT k /\ forall i, (i < k)%nat -> at_ s [i] * (n1 / at_ s [i]) = n1.
(** every entry of every matrix of F is zero *)
Definition zero_mats (V : tensor N) (F : list (tensor N)) (R : nat) : Prop :=
  forall m i j, (m < order V)%nat -> (i < nth m (lens V) 0)%nat -> (j < R)%nat -> el (fac F m) i j = n0.
(** ** pairwise perturbation.
    first-order expansion of the MTTKRP of mode n around the checkpoint factors W0 in the directions dW *)
Definition pp_mttkrp (V : tensor N) (W0 dW : list (tensor N)) (n R : nat) : tensor N :=
  tabulate [nth n (lens V) 0%nat; R]
    (fun idx => at_ (mttkrp V W0 n R) idx +
       bigsum (others n (order V)) (fun m => at_ (mttkrp V (setf W0 m (fac dW m)) n R) idx)).
(** one mode of a pairwise-perturbation sweep: X solves the normal equations with the expanded MTTKRP and the
    Gram matrices of the current factors; the step from the checkpoint is damped by ratio *)
Definition pp_step (solve : tensor N -> tensor N -> tensor N) (lambda ratio : N) (V : tensor N) (W0 : list (tensor N))
  (R : nat) (W dW : list (tensor N)) (n : nat) : tensor N :=
  mscal ratio (msub (solve (pp_mttkrp V W0 dW n R) (als_lhs lambda W R n)) (fac W0 n)).
Definition pp_update (solve : tensor N -> tensor N -> tensor N) (lambda ratio : N) (V : tensor N) (W0 : list (tensor N))
  (R : nat) (st : list (tensor N) * list (tensor N)) (n : nat) : list (tensor N) * list (tensor N) :=
  let '(W, dW) := st in
  let D := pp_step solve lambda ratio V W0 R W dW n in
  (setf W n (madd (fac W0 n) D), setf dW n D).
Definition pp_upto (solve : tensor N -> tensor N -> tensor N) (lambda ratio : N) (V : tensor N) (W0 : list (tensor N))
  (R n : nat) (st : list (tensor N) * list (tensor N)) : list (tensor N) * list (tensor N) :=
  fold_left (pp_update solve lambda ratio V W0 R) (seq 0 n) st.
(** the gradients recorded during such a sweep *)
Definition pp_grads (solve : tensor N -> tensor N -> tensor N) (lambda ratio : N) (V : tensor N) (W0 : list (tensor N))
  (R : nat) (st : list (tensor N) * list (tensor N)) : list (tensor N) :=
  map (fun n => let '(W, dW) := pp_upto solve lambda ratio V W0 R n st in
         msub (mmul (fac W n) (als_lhs lambda W R n)) (pp_mttkrp V W0 dW n R)) (seq 0 (order V)).
(** all factors rescaled to the geometric mean of their norms *)
Definition rescaled (W : list (tensor N)) : list (tensor N) :=
  map (fun A => mscal (nroot (length W) (bigprod W norm2) / norm2 A) A) W.
(** norm of a list of gradient matrices, and Frobenius norm of the residual V - [[W]] *)
Definition grad_norm (G : list (tensor N)) : N := nsqrt (bigsum G (fun g => norm2 g * norm2 g)).
Definition resid_norm (V : tensor N) (W : list (tensor N)) (R : nat) : N := norm2 (msub V (cp_full W R)).
(** F and G hold one matrix per mode, shaped like the factors *)
Definition mats_ok (V : tensor N) (F : list (tensor N)) (R : nat) : Prop :=
  length F = order V /\ forall m, m < order V -> is_mat (fac F m) (nth m (lens V) 0%nat) R.
End S.
