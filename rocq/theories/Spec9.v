(** Specification of the phases of the pairwise-perturbation Tucker driver. *)
From Coq Require Import List ZArith Bool Arith.
From Verif Require Import Base Num Tensor Spec Spec4 Spec7 Spec8 MCP.
Import ListNotations.

Section S.
Context {N : num}.
Local Open Scope num_scope.
(** one zero matrix per mode, of the shape of the factor *)
Definition zfacs (V : tensor N) (ranks : list nat) : list (tensor N) :=
  map (fun m => zeros [nth m (lens V) 0%nat; nth m ranks 0%nat]) (seq 0 (order V)).
(** one sweep of the exact phase: state = factors and previous factors (the phase starts with previous factors zero) *)
Definition aligned_sweep (svd : tensor N -> nat -> tensor N * tensor N * tensor N) (V : tensor N) (ranks : list nat)
  (st : list (tensor N) * list (tensor N)) : list (tensor N) * list (tensor N) :=
  let W' := hooi_aligned_upto svd V ranks (snd st) (order V) (fst st) in (W', W').
(** one sweep of the approximate phase around the checkpoint W0: state = factors and their distances from W0 *)
Definition tpp_sweep (svd : tensor N -> nat -> tensor N * tensor N * tensor N) (V : tensor N) (ranks : list nat)
  (W0 : list (tensor N)) (st : list (tensor N) * list (tensor N)) : list (tensor N) * list (tensor N) :=
  tpp_upto svd V ranks W0 (order V) st.
(** the measured quantity: change of the norm of the core *)
Definition core_dist (V : tensor N) (W : list (tensor N)) (prev : tensor N) : N :=
  nabs (norm2 (tucker_core V W) - norm2 prev).
(** the factor that the external routine returns is never the zero matrix *)
Definition svd_nonzero (svd : tensor N -> nat -> tensor N * tensor N * tensor N) : Prop :=
  forall G n k, is_mat G n n -> (1 <= k <= n)%nat -> norm2 (lsv svd G k) <> n0.
(** one matrix per mode of the shapes of the factors *)
Definition tmats_ok (V : tensor N) (ranks : list nat) (dW : list (tensor N)) : Prop :=
  length dW = order V /\ forall m, (m < order V)%nat -> is_mat (fac dW m) (nth m (lens V) 0%nat) (nth m ranks 0%nat).
(** the report of a run that starts at clock reading number t0: one row per check; check number j is that of iteration i.
    Columns: length of mode 0, iteration, change of the core norm, tolerance, 0, residual, time.  In benchmark mode: the time only. *)
Definition tk_report_row (clk : nat -> N) (V : tensor N) (t0 : nat) (chk : nat -> bool) (core0 : tensor N) (Wf : nat -> list (tensor N)) (tol : N)
  (bench : bool) (j i : nat) : row (N:=N) :=
  if bench then RowDT (reported_time clk t0 j)
  else Row (nth 0 (lens V) 0%nat) (Z.of_nat i) (core_change chk core0 (fun k => tucker_core V (Wf k)) i) tol 0
           (tucker_resid V (Wf i)) (reported_time clk t0 j).
Definition tk_report (clk : nat -> N) (V : tensor N) (t0 : nat) (chk : nat -> bool) (core0 : tensor N) (Wf : nat -> list (tensor N)) (tol : N)
  (bench : bool) (n : nat) : list (row (N:=N)) :=
  map (fun j => tk_report_row clk V t0 chk core0 Wf tol bench j (nth j (checked_below chk n) 0%nat)) (seq 0 (length (checked_below chk n))).
(** alsTucker reads the clock once per check (and does not subtract the time of the checks) *)
Definition plain_out_of_time (clk : nat -> N) (t0 : nat) (limit : N) (j : nat) : bool := nltb limit (clk (t0 + 1 + j)%nat - clk t0).
End S.
