(** Specification of a run of CPD::als: which steps are checked, when it stops, what it writes *)
From Coq Require Import List ZArith QArith Qround Bool Arith.
From Verif Require Import Base Num Tensor Spec F64.
Import ListNotations.
Local Close Scope Q_scope.

(** the sweep counter after k steps, each worth q sweeps: a double, so q and every sum are rounded to binary64 *)
Definition sweeps_after (q : Q) (k : nat) : Q := Nat.iter k (fun s => rnd64 (s + rnd64 q)%Q) 0%Q.
(** before step k there is a check: every resprint steps, and from the point where maxsweep sweeps are done *)
Definition checked_at (q : Q) (maxsweep resprint : Z) (k : nat) : bool :=
  Z.eqb (Z.rem (Z.of_nat k) resprint) 0 || Qle_bool (inject_Z maxsweep) (sweeps_after q k).
(** the checked ones among the first n *)
Definition checks (q : Q) (maxsweep resprint : Z) (n : nat) : list nat := filter (checked_at q maxsweep resprint) (seq 0 n).

Section S.
Context {N : num} (clk : nat -> N) (t0 : nat).
Local Open Scope num_scope.
(** the clock is read once at the start (reading t0) and at most four times per check: at its beginning (4j+1), at its end (4j+2),
    for the reported time (4j+3) and for the limit (4j+4).  The start time is moved by the duration of every check. *)
Fixpoint corrected_start (j : nat) : N :=
  match j with
  | O => clk t0
  | S j => corrected_start j + (clk (t0 + 4 * j + 2) - clk (t0 + 4 * j + 1))
  end.
Definition reported_time (j : nat) : N := clk (t0 + 4 * j + 3) - corrected_start (j + 1).
Definition out_of_time (limit : N) (j : nat) : bool := nltb limit (clk (t0 + 4 * j + 4) - corrected_start (j + 1)).

(** The run does k steps.  Before step i there may be a check, which ends the run if the norm [gn i] is below tol
    or [late j] says that the time is up at this check, number j (j checks were done before).
    [stopped]: a check ended the run (before step k); otherwise it ended because more than maxsweep sweeps are done. *)
Definition stops_at (late : nat -> bool) (gn : nat -> N) (tol : N) (maxsweep resprint : Z) (q : Q) (i : nat) : bool :=
  checked_at q maxsweep resprint i && (nltb (gn i) tol || late (length (checks q maxsweep resprint i))).
Definition run_spec (late : nat -> bool) (gn : nat -> N) (tol : N) (maxsweep resprint : Z) (q : Q) (k : nat) (stopped : bool) : Prop :=
  (forall i, (i < k)%nat -> (Qfloor (sweeps_after q i) <= maxsweep)%Z /\ stops_at late gn tol maxsweep resprint q i = false) /\
  (if stopped then (Qfloor (sweeps_after q k) <= maxsweep)%Z /\ stops_at late gn tol maxsweep resprint q k = true
   else (maxsweep < Qfloor (sweeps_after q k))%Z).
(** [G i] are the gradients after i steps *)
Definition als_run (tol limit : N) (maxsweep resprint : Z) (q : Q) (G : nat -> list (tensor N)) : nat -> bool -> Prop :=
  run_spec (out_of_time limit) (fun i => grad_norm (G i)) tol maxsweep resprint q.
End S.
