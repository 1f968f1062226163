(** Specification of the quality of a Tucker decomposition *)
From Coq Require Import List ZArith QArith Bool Arith.
From Verif Require Import Base Num Tensor Spec Spec7.
Import ListNotations.
Local Close Scope Q_scope.

Section S.
Context {N : num}.
Local Open Scope num_scope.
(** the sum of the squares of the entries *)
Definition sumsq (T : tensor N) : N := bigsum (all_idx (lens T)) (fun x => at_ T x * at_ T x).
(** orthonormal columns *)
Definition ortho_cols (U : tensor N) (k : nat) : Prop := mmul (mtrans U) U = mid k.
Definition ortho_factors (W : list (tensor N)) (ranks : list nat) : Prop :=
  forall m, m < length W -> ortho_cols (fac W m) (nth m ranks 0%nat).
(** the external routine answers the request (G, k) with the first k left singular vectors of a singular value decomposition of the
    n x n matrix G: singular values not negative and not increasing *)
Definition leading_svd (svd : tensor N -> nat -> tensor N * tensor N * tensor N) (G : tensor N) (n k : nat) : Prop :=
  exists U s VT, is_svd G U s VT n /\
    (forall i, i < n -> nle n0 (at_ s [i])) /\ (forall i j, i <= j < n -> nle (at_ s [j]) (at_ s [i])) /\
    is_mat (lsv svd G k) n k /\ forall a j, a < n -> j < k -> el (lsv svd G k) a j = el U a j.
(** the matrix whose singular vectors the update of mode n asks for *)
Definition hooi_request (V : tensor N) (W : list (tensor N)) (n : nat) : tensor N :=
  unfold_gram (ttmc V W (others n (order V))) n.
(** the squared distance between V and the tensor represented by the factors and their core *)
Definition tucker_resid2 (V : tensor N) (W : list (tensor N)) : N :=
  sumsq (msub (tucker_full (tucker_core V W) W) V).
(** along the sweeps that start from W, every request is answered with leading singular vectors *)
Definition leading_along (svd : tensor N -> nat -> tensor N * tensor N * tensor N) (V : tensor N) (ranks : list nat) (W : list (tensor N)) : Prop :=
  forall j n, n < order V ->
  leading_svd svd (hooi_request V (hooi_upto svd V ranks n (Nat.iter j (hooi_sweep svd V ranks) W)) n) (nth n (lens V) 0%nat) (nth n ranks 0%nat).
End S.
