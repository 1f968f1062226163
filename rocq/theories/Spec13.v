(** Specification of the pairwise-perturbation Tucker driver: the whole algorithm on factor matrices, with its log *)
From Coq Require Import List ZArith QArith Bool Arith.
From Verif Require Import Base Num Tensor Spec Spec2 Spec7 Spec8 Spec9 Spec12 MCP MTucker.
Import ListNotations.
Local Close Scope Q_scope.

Section S.
Context {N : num} (clk : nat -> N) (rank0 : bool) (svd : tensor N -> nat -> tensor N * tensor N * tensor N)
  (V : tensor N) (ranks : list nat) (tol limit : N) (maxiter resprint : Z) (bench : bool).
Local Open Scope num_scope.

Definition tk_due (iter : Z) : bool := (Z.eqb (Z.rem iter resprint) 0 && negb (Z.eqb iter 0)) || Z.eqb iter 1 || Z.eqb iter maxiter.
(** a check computes the core of the current factors and compares its norm with that of the core of the last check that did not stop *)
Definition tk_exact_check (iter : Z) (k : tk_state (N:=N)) : bool * tk_state (N:=N) :=
  let core := tucker_core V (kW k) in
  let change := core_dist V (kW k) (kprev k) in
  let '(dtime, x) := timed clk (kio k) in
  let '(stop, x) := finished clk change tol limit (written rank0 (Row (nth 0 (lens V) 0%nat) iter change tol 0 (tucker_resid V (kW k)) dtime) x) in
  (stop, mkTk (kW k) core (if stop then kprev k else core) (kdW k) change x).
(** the exact phase: sweeps of HOOI whose columns keep the signs of the previous sweep *)
Fixpoint tk_exact_phase (tol_init : N) (n : nat) (iter : Z) (prev : list (tensor N)) (k : tk_state (N:=N)) : Z * tk_state (N:=N) :=
  match n with
  | O => (iter, k)
  | S n =>
    let '(stop, k) := if tk_due iter then tk_exact_check iter k else (false, k) in
    if stop then (iter, k)
    else
      let W := hooi_aligned_upto svd V ranks prev (order V) (kW k) in
      let k := mkTk W (tucker_core V W) (kprev k) (differences V W prev) (kdn k) (kio k) in
      if settled V tol_init W (kdW k) then (iter, k) else tk_exact_phase tol_init n (iter + 1) W k
  end.
Definition tk_approx_check (iter : Z) (first : N) (k : tk_state (N:=N)) : bool * N * tk_state (N:=N) :=
  let core := tucker_core V (kW k) in
  let change := core_dist V (kW k) (kprev k) in
  let '(dtime, x) := timed clk (kio k) in
  let '(first, x) :=
    if bench then
      if rank0 then
        if Z.eqb iter maxiter then (first + dtime, written rank0 (RowPP (first + dtime) dtime) x)
        else (dtime, mkIo (ck x + 1) (clk (ck x)) (rows x))
      else (first, x)
    else (first, written rank0 (Row (nth 0 (lens V) 0%nat) iter change tol 1 (tucker_resid V (kW k)) dtime) x) in
  let '(stop, x) := finished clk change tol limit x in
  let stop := stop || Z.eqb iter maxiter in
  (stop, first, mkTk (kW k) core (if stop then kprev k else core) (kdW k) change x).
(** one sweep around the checkpoint W0.  The core it leaves is the expansion around the checkpoint of the product of V with all factors but
    the last, times the last factor *)
Definition tk_step (W0 : list (tensor N)) (k : tk_state (N:=N)) : tk_state (N:=N) :=
  let '(W, dW) := tpp_sweep svd V ranks W0 (kW k, kdW k) in
  let dW' := snd (tpp_upto svd V ranks W0 (order V - 1) (kW k, kdW k)) in
  mkTk W (ttm (pp_ttmc V W0 dW' (order V - 1)) (fac W (order V - 1)) (order V - 1)) (kprev k) dW (kdn k) (kio k).
(** the approximate phase, j sweeps done; it is left when some factor is too far away (not in benchmarks); it ends with iteration maxiter *)
Fixpoint tk_approx_loop (tol_init : N) (W0 : list (tensor N)) (n j : nat) (iter : Z) (first : N) (k : tk_state (N:=N)) : Z * tk_state (N:=N) :=
  let ended := if bench then (iter + 1)%Z else iter in
  match n with
  | O => (ended, k)
  | S n =>
    if negb (Nat.eqb j 0) && negb bench && too_far V tol_init (kW k) (kdW k) then (iter, k)
    else
      let '(stop, first, k) := if tk_due iter || Nat.eqb j 0 then tk_approx_check iter first k else (false, first, k) in
      if stop then (ended, k) else tk_approx_loop tol_init W0 n (S j) (iter + 1) first (tk_step W0 k)
  end.
Definition tk_approx_phase (tol_init : N) (iter : Z) (k : tk_state (N:=N)) : Z * tk_state (N:=N) :=
  if (iter <=? maxiter)%Z then
    if negb bench && too_far V tol_init (kW k) (kdW k) then (iter, k)
    else tk_approx_loop tol_init (kW k) (Z.to_nat (maxiter + 1 - iter)) 0 iter n0
           (mkTk (kW k) (kcore k) (kprev k) (zfacs V ranks) (kdn k) (kio k))
  else ((if bench then iter + 1 else iter)%Z, k).
(** after each round tol_init is reduced by a tenth as long as it exceeds 0.005 *)
Fixpoint tk_driver_loop (rounds : nat) (tol_init : N) (iter : Z) (k : tk_state (N:=N)) : option (Z * tk_state (N:=N)) :=
  if nltb tol (kdn k) && (iter <=? maxiter)%Z then
    match rounds with
    | O => None
    | S rounds =>
      let '(iter, k) := if bench then (iter, k) else tk_exact_phase tol_init (Z.to_nat (maxiter + 1 - iter)) iter (zfacs V ranks) k in
      let '(iter, k) := tk_approx_phase tol_init iter k in
      tk_driver_loop rounds (if nltb (nlit (5 # 1000)) tol_init then tol_init * nlit (9 # 10) else tol_init) iter k
    end
  else Some (iter, k).
Definition tk_algorithm (tol_init : N) (rounds : nat) (core : tensor N) (W : list (tensor N)) (x : io (N:=N)) : option (bool * tk_state (N:=N)) :=
  match tk_driver_loop rounds tol_init 0 (mkTk W core core (zfacs V ranks) (nlit 10) (mkIo (ck x + 1) (clk (ck x)) (rows x))) with
  | Some (iter, k) => Some (negb (Z.eqb iter (maxiter + 1)), k)
  | None => None
  end.
End S.
