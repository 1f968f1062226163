(** Property theorems: gradient as derivative, reconstruction, normalisation, solvers
    (C03, C04, C13, C14, C15, C16, C17, C18) *)
From Coq Require Import List ZArith Lia Bool Arith Permutation Reals Lra.
From Verif Require Import Base Num NumR Tensor Spec MCommon PBase PTensor PMat PMatAlg PResid PSolve PNormalize PBuildV.
From Verif Require PropMttkrp.
Import ListNotations.
Local Open Scope num_scope.

(** C03: W_n S_n - M_n (what gradient_CP stores, theorem C03_gradient_exact) is the gradient of half
    the squared residual: moving factor n by H changes the squared residual by exactly twice the inner
    product with the gradient plus a term quadratic in H. *)
Theorem C03_gradient_is_derivative :
  forall (N : num), ring_laws N ->
  forall (V : tensor N) (W : list (tensor N)) (R n : nat) (A H : tensor N),
  factors_ok V W R -> (n < order V)%nat ->
  is_mat A (nth n (lens V) 0%nat) R -> is_mat H (nth n (lens V) 0%nat) R ->
  residual2 V (setf W n (madd A H)) R
  = residual2 V (setf W n A) R
    + (n1 + n1) * minner (nth n (lens V) 0%nat) R (msub (mmul A (hgram W n R)) (mttkrp V W n R)) H
    + bigsum (all_idx (lens V)) (fun x => cp_at (setf W n H) R x * cp_at (setf W n H) R x).
Proof. intros N RL V W R n A H H1 H2 H3 H4. exact (residual_expansion RL V W R n A H H1 H2 H3 H4). Qed.
Print Assumptions C03_gradient_is_derivative.
Theorem C03_derivative_case :
  (1 < order PropMttkrp.exV)%nat /\ is_mat (fac PropMttkrp.exW 1) (nth 1 (lens PropMttkrp.exV) 0%nat) 3 /\
  minner 2 3 (msub (mmul (fac PropMttkrp.exW 1) (hgram PropMttkrp.exW 1 3)) (mttkrp PropMttkrp.exV PropMttkrp.exW 1 3)) (fac PropMttkrp.exW 0) <> (0%Z : Znum).
Proof. split; [cbn; lia|]. split; [split; reflexivity|]. vm_compute. discriminate. Qed.

(** C04 *)
Theorem C04_build_V_exact :
  forall (N : num), ring_laws N ->
  forall (W : list (tensor N)) (R o : nat),
  (2 <= o <= 19)%nat -> length W = o -> (forall m, (m < o)%nat -> exists r, is_mat (fac W m) r R) ->
  build_V W o = Ok (cp_full W R).
Proof. intros N RL W R o [H1 H2] H3 H4. exact (build_V_ok RL W R o H1 H3 H4 H2). Qed.
Print Assumptions C04_build_V_exact.
Theorem C04_build_V_order20_ub :
  forall (N : num), ring_laws N ->
  forall (W : list (tensor N)) (R o : nat),
  (20 <= o)%nat -> length W = o -> (forall m, (m < o)%nat -> exists r, is_mat (fac W m) r R) ->
  build_V W o = Err UB.
Proof. intros N RL W R o H1 H3 H4. exact (build_V_ub RL W R o (Nat.le_trans 2 20 o ltac:(lia) H1) H3 H4 H1). Qed.
Print Assumptions C04_build_V_order20_ub.
Theorem C04_build_V_order1_ub :
  forall (N : num) (W : list (tensor N)) (o r R : nat),
  (o <= 1)%nat -> (1 <= length W)%nat -> is_mat (fac W 0) r R -> build_V W o = Err UB.
Proof. exact @build_V_small. Qed.
Print Assumptions C04_build_V_order1_ub.
Theorem C04_case : match build_V PropMttkrp.exW 3 with
  | Ok V => data V = data (cp_full PropMttkrp.exW 3) /\ nth 5 (data V) 0%Z <> 0%Z | _ => False end.
Proof. vm_compute. split; [reflexivity|discriminate]. Qed.

(** C13, C14: over the reals, for factors with non-zero norms *)
Theorem C13_normalize_preserves_tensor :
  forall (W : list (tensor Rnum)) (R : nat),
  (1 <= length W)%nat -> (forall m, (m < length W)%nat -> exists r, is_mat (fac W m) r R) ->
  (forall m, (m < length W)%nat -> norm2 (fac W m) <> 0%R) ->
  exists W', Normalize W (length W) = Ok W' /\ length W' = length W /\ cp_full W' R = cp_full W R.
Proof.
  intros W R H1 H2 H3. destruct (Normalize_R W R H1 H2 H3) as (W' & E1 & E2 & _ & E3 & _).
  exact (ex_intro _ W' (conj E1 (conj E2 E3))).
Qed.
Print Assumptions C13_normalize_preserves_tensor.
Theorem C14_normalize_equal_norms :
  forall (W : list (tensor Rnum)) (R : nat),
  (1 <= length W)%nat -> (forall m, (m < length W)%nat -> exists r, is_mat (fac W m) r R) ->
  (forall m, (m < length W)%nat -> norm2 (fac W m) <> 0%R) ->
  exists W', Normalize W (length W) = Ok W' /\
    forall m, (m < length W)%nat ->
      (0 <= norm2 (fac W' m))%R /\
      (norm2 (fac W' m) ^ length W)%R = @bigprod Rnum nat (seq 0 (length W)) (fun k => norm2 (fac W k)).
Proof. exact Normalize_norms. Qed.
Print Assumptions C14_normalize_equal_norms.
Theorem C13_case : exists W : list (tensor Rnum), (2 <= length W)%nat /\
  (forall m, (m < length W)%nat -> exists r, is_mat (fac W m) r 1) /\
  (forall m, (m < length W)%nat -> norm2 (fac W m) <> 0%R) /\ norm2 (fac W 0) <> norm2 (fac W 1).
Proof. exact normalize_example. Qed.

(** C15 *)
Theorem C15_svd_solve :
  forall (N : num), ring_laws N ->
  forall (LA : lapack N) (M W S : tensor N) (r k : nat),
  is_mat M r k -> lens W = [r; k] -> is_mat S k k ->
  (let '(U, s, VT) := svd LA S k in is_svd S U s VT k /\
     forall i, (i < k)%nat -> at_ s [i] * (n1 / at_ s [i]) = n1) ->
  exists W', SVD_solve LA M W S = Ok W' /\ is_mat W' r k /\ mmul W' S = M.
Proof. exact @SVD_solve_ok. Qed.
Print Assumptions C15_svd_solve.

(** C16 *)
Theorem C16_cholesky_solve :
  forall (N : num), ring_laws N ->
  forall (LA : lapack N) (M S : tensor N) (r k : nat),
  is_mat M r k -> is_mat S k k ->
  is_cholesky S (cholesky LA S) k ->
  (forall B, is_mat B r k -> let X := solve_tri LA B (cholesky LA S) true false true in
      is_mat X r k /\ mmul X (mtrans (cholesky LA S)) = B) ->
  (forall B, is_mat B r k -> let X := solve_tri LA B (cholesky LA S) true false false in
      is_mat X r k /\ mmul X (cholesky LA S) = B) ->
  exists W', cholesky_solve LA M S = Ok W' /\ is_mat W' r k /\ mmul W' S = M.
Proof. exact @cholesky_solve_ok. Qed.
Print Assumptions C16_cholesky_solve.

(** the contracts of C15 and C16 are met by a concrete oracle on a concrete symmetric matrix *)
Theorem C15_case : exists LA : lapack Znum, let S := zt [2;2]%nat [0%Z; 1%Z; 1%Z; 0%Z] in
  let '(U, s, VT) := svd LA S 2 in is_svd S U s VT 2 /\
     forall i, (i < 2)%nat -> at_ s [i] * (n1 / at_ s [i]) = n1.
Proof. exact svd_example. Qed.
Theorem C16_case : exists LA : lapack Znum, let S := zt [2;2]%nat [1%Z; 3%Z; 3%Z; 10%Z] in
  is_cholesky S (cholesky LA S) 2 /\
  (forall B, is_mat B 1 2 -> let X := solve_tri LA B (cholesky LA S) true false true in
      is_mat X 1 2 /\ mmul X (mtrans (cholesky LA S)) = B) /\
  (forall B, is_mat B 1 2 -> let X := solve_tri LA B (cholesky LA S) true false false in
      is_mat X 1 2 /\ mmul X (cholesky LA S) = B).
Proof. exact chol_example. Qed.

(** C17: Ws is the full solution *)
Theorem C17_damped_solve :
  forall (N : num), ring_laws N ->
  forall (LA : lapack N) (M W W_init dW S : tensor N) (r k : nat) (ratio : N) (Ws : tensor N),
  lens W = [r; k] -> is_mat W_init r k -> lens dW = [r; k] ->
  SVD_solve LA M W S = Ok Ws -> is_mat Ws r k ->
  (neqb ratio n1 = true -> ratio = n1) ->
  SVD_solve_mod LA M W W_init dW S ratio =
    Ok (madd W_init (mscal ratio (msub Ws W_init)), mscal ratio (msub Ws W_init)).
Proof. exact @SVD_solve_mod_ok. Qed.
Print Assumptions C17_damped_solve.

(** C18, one mode: any solution of the normal equations is a global minimiser of the squared residual
    over all values of that factor *)
Theorem C18_normal_equations_minimise :
  forall (N : num), ring_laws N -> ord_laws N ->
  forall (V : tensor N) (W : list (tensor N)) (R n : nat) (A B : tensor N),
  factors_ok V W R -> (n < order V)%nat ->
  is_mat A (nth n (lens V) 0%nat) R -> is_mat B (nth n (lens V) 0%nat) R ->
  mmul A (hgram W n R) = mttkrp V W n R ->
  nle (residual2 V (setf W n A) R) (residual2 V (setf W n B) R).
Proof. intros N RL OL V W R n A B H1 H2 H3 H4 H5. exact (normal_eq_minimises RL OL V W R n A B H1 H2 H3 H4 H5). Qed.
Print Assumptions C18_normal_equations_minimise.
Theorem C18_case : ord_laws Rnum /\ ord_laws Znum.
Proof. split; [exact Rnum_ord|exact Znum_ord]. Qed.
