(** Specification of the pairwise-perturbation drivers: the whole algorithm on factor matrices, with its log.
    No index strings, trees, operator tables or buffers: an exact phase of ALS sweeps and an approximate phase of sweeps around
    a checkpoint alternate until the gradient norm is at most tol or the iterations are used up. *)
From Coq Require Import List ZArith QArith Bool Arith.
From Verif Require Import Base Num Tensor Spec Spec2 MCP.
Import ListNotations.
Local Close Scope Q_scope.

Section S.
Context {N : num} (clk : nat -> N) (rank0 : bool).
Local Open Scope num_scope.

(** ** time and log.  [ck x]: number of the next clock reading; [st_time x]: the start time, moved by the duration of the checks. *)
(** a check reads the clock when it starts and when it is done, and a third time for the reported time *)
Definition timed (x : io (N:=N)) : N * io (N:=N) :=
  let c := ck x in
  let start := st_time x + (clk (c + 1) - clk c) in
  (clk (c + 2) - start, mkIo (c + 3) start (rows x)).
(** the test at the end of a check: converged, or (one more reading) over the time limit *)
Definition finished (norm tol limit : N) (x : io (N:=N)) : bool * io (N:=N) :=
  if nltb norm tol then (true, x) else (nltb limit (clk (ck x) - st_time x), mkIo (ck x + 1) (st_time x) (rows x)).
(** rank 0 writes a row *)
Definition written (r : row) (x : io (N:=N)) : io (N:=N) := if rank0 then mkIo (ck x) (st_time x) (rows x ++ [r]) else x.

Section CP.
Context (V : tensor N) (R : nat) (tol tol_init limit : N) (maxiter resprint : Z) (bench : bool).
Definition check_due (iter : Z) : bool := Z.eqb (Z.rem iter resprint) 0 || Z.eqb iter maxiter.
(** every factor changed by less than tol_init; some factor is more than tol_init away *)
Definition settled (W dW : list (tensor N)) : bool := forallb (fun m => nltb (rel_change W dW m) tol_init) (seq 0 (order V)).
Definition too_far (W dW : list (tensor N)) : bool := existsb (fun m => nltb tol_init (rel_change W dW m)) (seq 0 (order V)).
Definition differences (W P : list (tensor N)) : list (tensor N) := map (fun m => msub (fac W m) (fac P m)) (seq 0 (order V)).

(** ** a check of the exact phase: row with phase 0 *)
Definition exact_check (iter : Z) (p : pp_state (N:=N)) : bool * pp_state (N:=N) :=
  let g := grad_norm (pG p) in
  let '(dtime, x) := timed (pio p) in
  let '(stop, x) := finished g tol limit (written (Row (nth 0 (lens V) 0%nat) iter g tol 0 (resid_norm V (pW p) R) dtime) x) in
  (stop, mkPP (pW p) (pG p) (pdW p) g x).
(** the exact phase: at most n sweeps; dW is the difference of the last two factors; it ends when every factor has settled *)
Fixpoint exact_phase (sweep grads : list (tensor N) -> list (tensor N)) (n : nat) (iter : Z) (prev : list (tensor N)) (p : pp_state (N:=N))
  : Z * pp_state (N:=N) :=
  match n with
  | O => (iter, p)
  | S n =>
    let '(stop, p) := if check_due iter then exact_check iter p else (false, p) in
    if stop then (iter, p)
    else
      let W := sweep (pW p) in
      let p := mkPP W (grads (pW p)) (differences W prev) (ppn p) (pio p) in
      if settled W (pdW p) then (iter, p) else exact_phase sweep grads n (iter + 1) W p
  end.

(** ** a check of the approximate phase: row with phase 1.  Benchmark: rank 0 keeps the time of the first part [first] and
    restarts the clock, and writes both times at the last iteration *)
Definition approx_check (iter : Z) (first : N) (p : pp_state (N:=N)) : bool * N * pp_state (N:=N) :=
  let g := grad_norm (pG p) in
  let '(dtime, x) := timed (pio p) in
  let '(first, x) :=
    if bench then
      if rank0 then
        if Z.eqb iter maxiter then (first + dtime, written (RowPP (first + dtime) dtime) x)
        else (dtime, mkIo (ck x + 1) (clk (ck x)) (rows x))
      else (first, x)
    else (first, written (Row (nth 0 (lens V) 0%nat) iter g tol 1 (resid_norm V (pW p) R) dtime) x) in
  let '(stop, x) := finished g tol limit x in
  (stop, first, mkPP (pW p) (pG p) (pdW p) g x).
(** the approximate phase.  [step] is one sweep around the checkpoint (A: what else it keeps); k sweeps are done.
    It is left after 15 sweeps or (not in benchmarks) when some factor is too far from the checkpoint.
    In benchmarks the iteration number is advanced once more at the end, except when it is left. *)
Fixpoint approx_loop {A : Type} (step : A * pp_state (N:=N) -> A * pp_state (N:=N)) (n k : nat) (iter : Z) (first : N) (a : A * pp_state (N:=N))
  : Z * pp_state (N:=N) :=
  let ended := if bench then (iter + 1)%Z else iter in
  match n with
  | O => (ended, snd a)
  | S n =>
    if negb (Nat.eqb k 0) && (Nat.eqb (Nat.modulo k 15) 0 || (negb bench && too_far (pW (snd a)) (pdW (snd a)))) then (iter, snd a)
    else
      let '(stop, first, p) := if check_due iter || Nat.eqb k 0 then approx_check iter first (snd a) else (false, first, snd a) in
      if stop then (ended, p) else approx_loop step n (S k) (iter + 1) first (step (fst a, p))
  end.
(** it is not entered when some factor is already too far; otherwise the current factors become the checkpoint *)
Definition approx_phase {A : Type} (step : list (tensor N) -> A * pp_state (N:=N) -> A * pp_state (N:=N)) (a0 : A) (iter : Z) (p : pp_state (N:=N))
  : Z * pp_state (N:=N) :=
  if (iter <=? maxiter)%Z then
    if negb bench && too_far (pW p) (pdW p) then (iter, p)
    else approx_loop (step (pW p)) (Z.to_nat (maxiter + 1 - iter)) 0 iter n0 (a0, mkPP (pW p) (pG p) (zmats V R) (ppn p) (pio p))
  else ((if bench then iter + 1 else iter)%Z, p).

(** ** the driver: None means that it is still running after [rounds] rounds *)
Fixpoint driver_loop (exact approx : Z -> pp_state (N:=N) -> Z * pp_state (N:=N)) (rounds : nat) (iter : Z) (p : pp_state (N:=N))
  : option (Z * pp_state (N:=N)) :=
  if nltb tol (ppn p) && (iter <=? maxiter)%Z then
    match rounds with
    | O => None
    | S rounds =>
      let '(iter, p) := if bench then (iter, p) else exact iter p in
      let '(iter, p) := approx iter p in
      driver_loop exact approx rounds iter p
    end
  else Some (iter, p).
(** the returned flag says only that the loop ended with an iteration number other than maxiter+1 *)
Definition driver {A : Type} (sweep grads : list (tensor N) -> list (tensor N))
  (step : list (tensor N) -> A * pp_state (N:=N) -> A * pp_state (N:=N)) (a0 : A) (rounds : nat) (W G : list (tensor N)) (x : io (N:=N))
  : option (bool * pp_state (N:=N)) :=
  let x := mkIo (ck x + 1) (clk (ck x)) (rows x) in
  match driver_loop (fun iter p => exact_phase sweep grads (Z.to_nat (maxiter + 1 - iter)) iter (zmats V R) p) (approx_phase step a0) rounds 0
          (mkPP W G (zmats V R) (nlit 10) x) with
  | Some (iter, p) => Some (negb (Z.eqb iter (maxiter + 1)), p)
  | None => None
  end.
End CP.

(** ** the two variants *)
(** one pairwise-perturbation sweep over all modes *)
Definition pp_step_all (solve : tensor N -> tensor N -> tensor N) (lambda ratio : N) (V : tensor N) (R : nat) (W0 : list (tensor N))
  (a : unit * pp_state (N:=N)) : unit * pp_state (N:=N) :=
  let p := snd a in
  let '(W, dW) := pp_sweep solve lambda ratio V W0 R (pW p, pdW p) in
  (tt, mkPP W (pp_grads solve lambda ratio V W0 R (pW p, pdW p)) dW (ppn p) (pio p)).
(** partial updates: only the [size] modes of largest priority; afterwards the priority of mode j is |dM_j| / |M_j|.
    Kept between the sweeps: the approximate MTTKRPs M, their corrections dM and the priorities *)
Definition pu_step_some (solve : tensor N -> tensor N -> tensor N) (lambda ratio : N) (V : tensor N) (R size : nat) (W0 : list (tensor N))
  (a : (list (tensor N) * list (tensor N) * list N) * pp_state (N:=N)) : (list (tensor N) * list (tensor N) * list N) * pp_state (N:=N) :=
  let '((M, dM, rel), p) := a in
  let s := pu_sweep solve lambda ratio V W0 R (firstn size (sort_indexes rel)) (mkPu (pW p) (pdW p) dM M (pG p)) in
  ((suM s, sudM s, map (fun j => norm2 (fac (sudM s) j) / norm2 (fac (suM s) j)) (seq 0 (order V))),
   mkPP (suW s) (suG s) (sudW s) (ppn p) (pio p)).

(** alsCP_PP and alsCP_PP_partupdate as algorithms *)
Definition pp_algorithm (solve : tensor N -> tensor N -> tensor N) (V : tensor N) (R : nat) (tol tol_init limit : N) (maxiter : Z) (lambda ratio : N)
  (resprint : Z) (bench : bool) (rounds : nat) (W G : list (tensor N)) (x : io (N:=N)) : option (bool * pp_state (N:=N)) :=
  driver V R tol tol_init limit maxiter resprint bench (exact_sweep solve lambda V R) (als_grads solve lambda V (zmats V R) R)
    (pp_step_all solve lambda ratio V R) tt rounds W G x.
Definition pu_algorithm (solve : tensor N -> tensor N -> tensor N) (V : tensor N) (R : nat) (tol tol_init limit : N) (maxiter : Z) (lambda ratio : N)
  (size : nat) (resprint : Z) (bench : bool) (rounds : nat) (W G : list (tensor N)) (x : io (N:=N)) : option (bool * pp_state (N:=N)) :=
  driver V R tol tol_init limit maxiter resprint bench (exact_sweep solve lambda V R) (als_grads solve lambda V (zmats V R) R)
    (pu_step_some solve lambda ratio V R size) (zmats V R, zmats V R, repeat n0 (order V)) rounds W G x.
End S.
