(** Specification of the Tucker part: tensor-times-matrix products, HOOI, its pairwise perturbation.
    Independent of the model: no buffers, no index strings. *)
From Coq Require Import List ZArith Bool Arith.
From Verif Require Import Base Num Tensor Spec.
Import ListNotations.

Section S.
Context {N : num}.
Local Open Scope num_scope.

(** tensor-times-matrix product in mode m: (T x_m A)(y) = sum over x of T(y with y_m := x) * A(x, y_m) *)
Definition ttm (T A : tensor N) (m : nat) : tensor N :=
  tabulate (lset (lens T) m (ncol A))
    (fun y => bigsum (seq 0 (nth m (lens T) 0%nat)) (fun x => at_ T (lset y m x) * el A x (nth m y 0%nat))).

(** Gram matrix of the mode-n unfolding: G(a,b) = sum over multi-indices x with x_n = 0 of
    T(x with x_n := a) * T(x with x_n := b) *)
Definition unfold_gram_at (T : tensor N) (n a b : nat) : N :=
  bigsum (all_idx (lset (lens T) n 1%nat)) (fun x => at_ T (lset x n a) * at_ T (lset x n b)).
Definition unfold_gram (T : tensor N) (n : nat) : tensor N :=
  tabulate [nth n (lens T) 0%nat; nth n (lens T) 0%nat]
    (fun idx => unfold_gram_at T n (nth 0 idx 0%nat) (nth 1 idx 0%nat)).

(** V has one factor per mode, ranks = column counts *)
Definition tucker_ok (V : tensor N) (W : list (tensor N)) (ranks : list nat) : Prop :=
  wf V /\ length W = order V /\ length ranks = order V /\
  forall m, m < order V -> is_mat (fac W m) (nth m (lens V) 0%nat) (nth m ranks 0%nat).
(** the truncated decomposition returns matrices of the right shapes (nothing about their values) *)
Definition svd_trunc_shaped (svd : tensor N -> nat -> tensor N * tensor N * tensor N) : Prop :=
  forall G n k, is_mat G n n -> 1 <= k <= n ->
  let '(U, s, VT) := svd G k in is_mat U n k /\ lens s = [k] /\ wf s.
(** ranks between 1 and the length of the mode *)
Definition ranks_ok (ls ranks : list nat) : Prop :=
  length ranks = length ls /\ forall m, m < length ls -> 1 <= nth m ranks 0%nat <= nth m ls 0%nat.

(** the leading left singular vectors, as returned by the external routine *)
Definition lsv (svd : tensor N -> nat -> tensor N * tensor N * tensor N) (G : tensor N) (k : nat) : tensor N :=
  let '(U, _, _) := svd G k in U.

(** ** higher-order orthogonal iteration.
    The update of mode n: the k_n leading left singular vectors of the mode-n unfolding of V contracted with the
    other factors (through its Gram matrix) *)
Definition hooi_factor (svd : tensor N -> nat -> tensor N * tensor N * tensor N) (V : tensor N) (ranks : list nat)
  (W : list (tensor N)) (n : nat) : tensor N :=
  lsv svd (unfold_gram (ttmc V W (others n (order V))) n) (nth n ranks 0%nat).
Definition hooi_update (svd : tensor N -> nat -> tensor N * tensor N * tensor N) (V : tensor N) (ranks : list nat)
  (W : list (tensor N)) (n : nat) : list (tensor N) :=
  setf W n (hooi_factor svd V ranks W n).
Definition hooi_upto (svd : tensor N -> nat -> tensor N * tensor N * tensor N) (V : tensor N) (ranks : list nat)
  (n : nat) (W : list (tensor N)) : list (tensor N) := fold_left (hooi_update svd V ranks) (seq 0 n) W.
Definition hooi_sweep (svd : tensor N -> nat -> tensor N * tensor N * tensor N) (V : tensor N) (ranks : list nat)
  (W : list (tensor N)) : list (tensor N) := hooi_upto svd V ranks (order V) W.
(** the core: V contracted with every factor *)
Definition tucker_core (V : tensor N) (W : list (tensor N)) : tensor N := ttmc V W (seq 0 (order V)).
(** the tensor represented by a core and factors *)
Definition tucker_full (core : tensor N) (W : list (tensor N)) : tensor N :=
  ttmc core (map mtrans W) (seq 0 (order core)).

(** ** sign alignment: column j of U is kept if its inner product with column j of P is positive, negated otherwise *)
Definition col_inner (U P : tensor N) (j : nat) : N :=
  bigsum (seq 0 (nrow U)) (fun i => el U i j * el P i j).
Definition aligned (U P : tensor N) : tensor N :=
  tabulate (lens U) (fun idx => el U (nth 0 idx 0%nat) (nth 1 idx 0%nat) *
     (if nltb n0 (col_inner U P (nth 1 idx 0%nat)) then n1 else - n1)).
Definition hooi_aligned_upto (svd : tensor N -> nat -> tensor N * tensor N * tensor N) (V : tensor N) (ranks : list nat)
  (P : list (tensor N)) (n : nat) (W : list (tensor N)) : list (tensor N) :=
  fold_left (fun W n => setf W n (aligned (hooi_factor svd V ranks W n) (fac P n))) (seq 0 n) W.

(** ** pairwise perturbation: first-order expansion of the TTMc of mode n around the checkpoint factors W0 *)
Definition tadd (A B : tensor N) : tensor N := tabulate (lens A) (fun idx => at_ A idx + at_ B idx).
Definition pp_ttmc (V : tensor N) (W0 dW : list (tensor N)) (n : nat) : tensor N :=
  tabulate (ttmc_lens V W0 (others n (order V)))
    (fun idx => at_ (ttmc V W0 (others n (order V))) idx +
       bigsum (others n (order V)) (fun m => at_ (ttmc V (setf W0 m (fac dW m)) (others n (order V))) idx)).
Definition tpp_update (svd : tensor N -> nat -> tensor N * tensor N * tensor N) (V : tensor N) (ranks : list nat)
  (W0 : list (tensor N)) (st : list (tensor N) * list (tensor N)) (n : nat) : list (tensor N) * list (tensor N) :=
  let '(W, dW) := st in
  let U := aligned (lsv svd (unfold_gram (pp_ttmc V W0 dW n) n) (nth n ranks 0%nat)) (fac W0 n) in
  (setf W n U, setf dW n (msub U (fac W0 n))).
Definition tpp_upto (svd : tensor N -> nat -> tensor N * tensor N * tensor N) (V : tensor N) (ranks : list nat)
  (W0 : list (tensor N)) (n : nat) (st : list (tensor N) * list (tensor N)) : list (tensor N) * list (tensor N) :=
  fold_left (tpp_update svd V ranks W0) (seq 0 n) st.
End S.
