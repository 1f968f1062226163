(** Specification of the dimension-tree drivers (alsCP_DT, alsTucker_DT) as algorithms on factor matrices, with clock and log *)
From Coq Require Import List ZArith QArith Bool Arith.
From Verif Require Import Base Num Tensor Spec Spec2 Spec7 Spec8 Spec9 Spec12 Spec13 MCP MTucker.
Import ListNotations.
Local Close Scope Q_scope.

Section S.
Context {N : num} (clk : nat -> N) (rank0 : bool) (V : tensor N) (tol limit : N) (maxiter resprint : Z) (bench : bool).
Local Open Scope num_scope.

(** factors, gradients, the gradient norm of the last check, clock and log *)
Record cp_state := mkCp { cpW : list (tensor N); cpG : list (tensor N); cpn : N; cpio : io (N:=N) }.

(** ** alsCP_DT *)
(** a check: one row; a benchmark does not report the first check *)
Definition dt_check (R : nat) (iter : Z) (s : cp_state) : bool * cp_state :=
  let g := grad_norm (cpG s) in
  let '(dtime, x) := timed clk (cpio s) in
  let x := if bench then if Z.eqb iter 0 then x else written rank0 (RowDT dtime) x
           else written rank0 (Row (nth 0 (lens V) 0%nat) iter g tol 0 (resid_norm V (cpW s) R) dtime) x in
  let '(stop, x) := finished clk g tol limit x in
  (stop, mkCp (cpW s) (cpG s) g x).
Fixpoint dt_loop (R : nat) (sweep grads : list (tensor N) -> list (tensor N)) (n : nat) (iter : Z) (s : cp_state) : Z * cp_state :=
  match n with
  | O => (iter, s)
  | S n =>
    let '(stop, s) := if check_due maxiter resprint iter then dt_check R iter s else (false, s) in
    if stop then (iter, s) else dt_loop R sweep grads n (iter + 1) (mkCp (sweep (cpW s)) (grads (cpW s)) (cpn s) (cpio s))
  end.
(** F: the correction terms; one sweep is an ALS sweep over all modes, after which the columns are rescaled *)
Definition dt_algorithm (solve : tensor N -> tensor N -> tensor N) (R : nat) (lambda : N) (F W G : list (tensor N)) (x : io (N:=N)) : bool * cp_state :=
  let '(iter, s) := dt_loop R (fun W => rescaled (als_sweep solve lambda V F R W)) (als_grads solve lambda V F R) (Z.to_nat (maxiter + 1)) 0
                      (mkCp W G n0 (mkIo (ck x + 1) (clk (ck x)) (rows x))) in
  (negb (Z.eqb iter (maxiter + 1)), s).

(** ** alsTucker_DT *)
Definition tdt_check (iter : Z) (k : tk_state (N:=N)) : bool * tk_state (N:=N) :=
  let core := tucker_core V (kW k) in
  let change := core_dist V (kW k) (kprev k) in
  let '(dtime, x) := timed clk (kio k) in
  let x := written rank0 (if bench then RowDT dtime else Row (nth 0 (lens V) 0%nat) iter change tol 0 (tucker_resid V (kW k)) dtime) x in
  let '(stop, x) := finished clk change tol limit x in
  (stop, mkTk (kW k) core (if stop then kprev k else core) (kdW k) change x).
Fixpoint tdt_loop (sweep : list (tensor N) -> list (tensor N)) (n : nat) (iter : Z) (k : tk_state (N:=N)) : Z * tk_state (N:=N) :=
  match n with
  | O => (iter, k)
  | S n =>
    let '(stop, k) := if tk_due maxiter resprint iter then tdt_check iter k else (false, k) in
    if stop then (iter, k)
    else tdt_loop sweep n (iter + 1) (mkTk (sweep (kW k)) (tucker_core V (sweep (kW k))) (kprev k) (kdW k) (kdn k) (kio k))
  end.
Definition tdt_algorithm (svd : tensor N -> nat -> tensor N * tensor N * tensor N) (ranks : list nat) (core : tensor N) (W : list (tensor N)) (x : io (N:=N))
  : bool * tk_state (N:=N) :=
  let '(iter, k) := tdt_loop (hooi_sweep svd V ranks) (Z.to_nat (maxiter + 1)) 0
                      (mkTk W core core [] (nlit (1000 # 1)) (mkIo (ck x + 1) (clk (ck x)) (rows x))) in
  (negb (Z.eqb iter (maxiter + 1)), k).
End S.
Arguments cp_state _ : clear implicits.
