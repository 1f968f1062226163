(** Model of src/CP.cxx:110-187, CPD::als, for an arbitrary optimizer. *)
From Coq Require Import List ZArith QArith Qround Bool Arith Lia.
From Verif Require Import Base Num Tensor F64 MCommon MCP MOpt.
Import ListNotations.
Local Close Scope Q_scope.

(** char seq_V[100] of CPD, filled by every constructor (src/CP.cxx:13-16, 27-30, 42-45, 60-63) *)
Definition cpd_seqV (o : nat) : res (buf Z) :=
  b <- bset (newbuf 100) o 0%Z ;; for_ 0 o (fun j b => bset b j (chr j)) b.

Section M.
Context {N : num} (clk : nat -> N) (rank0 : bool).
Local Open Scope num_scope.
(** a line of Plot_File: lines 149-151 (not bench) and 159-160 (bench) *)
Inductive crow :=
| CRow (dim : nat) (sweeps : Q) (gradnorm tol diffV dtime : N)
| CBench (dtime : N).
(** the optimizer: its state, step() and its view of W, grad_W (they are the arrays of the CPD object) *)
Context {St : Type} (step : St -> res (Q * St)) (base : St -> opt_st N).

(** the locals and members changed by als: the optimizer with W and grad_W, gradnorm, clock and st_time
    (rows of [io] are not used here), Plot_File *)
Record cpd := mkCpd { c_st : St; c_gn : N; c_io : io (N := N); c_rows : list crow }.

(** lines 128-166: the check.  The console output is not modelled. *)
Definition cpd_check (V : tensor N) (seq_V : buf Z) (tol timelimit : N) (bench : bool) (iters : Z) (sweeps : Q) (c : cpd)
  : res (bool * cpd) :=
  let b := base (c_st c) in
  '(gradnorm, diffnorm_V, dtime, x) <- measure clk V (oW b) (oG b) seq_V (c_io c) ;;
  let out := if rank0 then
               if bench then (if Z.eqb iters 0 then [] else [CBench dtime])
               else [CRow (nth 0 (lens V) 0%nat) sweeps gradnorm tol diffnorm_V dtime]
             else [] in
  let '(stop, x) := stop_test clk gradnorm tol timelimit x in
  Ok (stop, mkCpd (c_st c) gradnorm x (c_rows c ++ out)).

(** lines 125-177: the loop.  sweeps is a double: a rational, rounded to binary64 by every addition.  step() returns a double too;
    the models of step give the fraction before that rounding.  LoopFuel: still running. *)
Fixpoint cpd_loop (fuel : nat) (V : tensor N) (seq_V : buf Z) (tol timelimit : N) (maxsweep resprint : Z) (bench : bool)
  (iters : Z) (sweeps : Q) (c : cpd) : res (Z * Q * cpd) :=
  if (Qfloor sweeps <=? maxsweep)%Z then
    match fuel with
    | O => Err LoopFuel
    | S fuel =>
      m <- zmod iters resprint ;;
      '(stop, c) <- (if Z.eqb m 0 || Qle_bool (inject_Z maxsweep) sweeps || Qeq_bool sweeps 0
                     then cpd_check V seq_V tol timelimit bench iters sweeps c else Ok (false, c)) ;;
      if stop : bool then Ok (iters, sweeps, c)
      else
        '(q, st) <- step (c_st c) ;;
        cpd_loop fuel V seq_V tol timelimit maxsweep resprint bench (iters + 1) (rnd64 (sweeps + rnd64 q))
                 (mkCpd st (c_gn c) (c_io c) (c_rows c))
    end
  else Ok (iters, sweeps, c).
(** lines 110-187 als *)
Definition cpd_als (fuel : nat) (V : tensor N) (tol timelimit : N) (maxsweep resprint : Z) (bench : bool)
  (st : St) (gn : N) (x : io (N := N)) : res (bool * cpd) :=
  seq_V <- cpd_seqV (order V) ;;
  let '(t, x) := wtime clk x in
  let x := set_st x t in
  '(_, sweeps, c) <- cpd_loop fuel V seq_V tol timelimit maxsweep resprint bench 0 0%Q (mkCpd st gn x []) ;;
  Ok (negb (Qeq_bool sweeps (inject_Z (maxsweep + 1))), c).
End M.
Arguments crow : clear implicits.
Arguments cpd : clear implicits.

(** ** the whole use of a CPD object, as in run.cxx:388-417: constructor, Init, als.
    [Simple], .. name the optimizer class; [k], [rs]: update_rank, randomsvd. *)
From Verif Require Import MOptLR.
Inductive cpd_method := TwoSubtree | MultiSweep | TwoSubtreeLR (k : nat) (rs : bool) | MultiSweepLR (k : nat) (rs : bool) | Simple.

Section Run.
Context {N : num} (LA : lapack N) (clk : nat -> N) (rank0 : bool).
(** src/decomposition.cxx:50-64 Init: the assertions (also 71-75 of cp_als_optimizer.cxx configure).  For the
    constructors with an integer size and rank.  Ownership of V and W: see MLife.v. *)
Definition cpd_assert (b : bool) : res unit := if b then Ok tt else Err AssertFail.
Definition cpd_init (ord size r : nat) (V : tensor N) (W : list (tensor N)) : res unit :=
  _ <- cpd_assert (Nat.eqb (order V) ord) ;;
  for_ 0 ord (fun i _ =>
    l <- lget (lens V) i ;;
    _ <- cpd_assert (Nat.eqb l size) ;;
    Wi <- lget W i ;;
    cpd_assert (Nat.eqb (ncol Wi) r)) tt.
Definition keep {St : Type} (base : St -> opt_st N) (r : res (bool * cpd N St))
  : res (bool * (list (tensor N) * list (tensor N)) * N * list (crow N)) :=
  '(ret, c) <- r ;; Ok (ret, (oW (base (c_st c)), oG (base (c_st c))), c_gn c, c_rows c).
(** CPD(ord, size, r, ..); Init(&V, W, lambda); als(..).  grad_W as filled by Init (random) is the argument [G];
    wf bounds the number of rounds of the loop of als.  The result: return value, W and grad_W, gradnorm, Plot_File. *)
Definition cpd_run (m : cpd_method) (wf : nat) (ord size r : nat) (V : tensor N) (W G : list (tensor N)) (lambda : N)
  (tol timelimit : N) (maxsweep resprint : Z) (bench : bool) (x : io (N := N))
  : res (bool * (list (tensor N) * list (tensor N)) * N * list (crow N)) :=
  let st := mkOpt W G (zeros [r; r]) in
  let als {St} step (base : St -> opt_st N) (s : St) :=
    keep base (cpd_als clk rank0 step base wf V tol timelimit maxsweep resprint bench s n0 x) in
  match m with
  | TwoSubtree =>
    s <- dt_new ord st ;; _ <- cpd_init ord size r V W ;; W0 <- lget W 0 ;; regul <- mk_regul (ncol W0) lambda ;;
    als (dt_step LA ord V regul) ds s
  | MultiSweep =>
    s <- ms_new ord st ;; _ <- cpd_init ord size r V W ;; W0 <- lget W 0 ;; regul <- mk_regul (ncol W0) lambda ;;
    als (ms_step LA ord V regul) mss s
  | TwoSubtreeLR k rs =>
    s <- dl_new ord st ;; _ <- cpd_init ord size r V W ;; W0 <- lget W 0 ;; regul <- mk_regul (ncol W0) lambda ;;
    als (dl_step LA ord k rs V regul) (fun s => ds (dlb s)) s
  | MultiSweepLR k rs =>
    s <- ml_new ord st ;; _ <- cpd_init ord size r V W ;; W0 <- lget W 0 ;; regul <- mk_regul (ncol W0) lambda ;;
    als (ml_step LA ord k rs V regul) (fun s => mss (mlb s)) s
  | Simple =>
    sq <- opt_seqV ord ;; _ <- cpd_init ord size r V W ;; W0 <- lget W 0 ;; regul <- mk_regul (ncol W0) lambda ;;
    als (simple_step LA V regul) fst (st, sq)
  end.
End Run.
