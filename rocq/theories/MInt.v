(** The counters of the drivers with 32-bit int arithmetic.  MCP.v, MTucker.v and MCPD.v let the variables
    iter, iters and maxiter be unbounded integers; here every addition on them is checked: a result that does not fit
    an int is undefined behaviour.  Everything else (tensors, clock, output) is the same.  The counters of the loops
    over modes and characters are bounded by the order of the tensor and are not repeated here. *)
From Coq Require Import List ZArith QArith Qround Bool Arith Lia.
From Verif Require Import Base Num Tensor F64 MCommon MCP MTucker MOpt MOptLR MCPD.
Import ListNotations.
Local Close Scope Q_scope.

(** int of the platforms of config/: 32 bits, two's complement; C++11 [expr]/4: overflow is undefined *)
Definition INT_MAX : Z := 2147483647.
Definition INT_MIN : Z := (-2147483648)%Z.
Definition is_int (z : Z) : bool := (INT_MIN <=? z)%Z && (z <=? INT_MAX)%Z.
Definition chk_int (z : Z) : res Z := if is_int z then Ok z else Err UB.
Definition int_add (a b : Z) : res Z := chk_int (a + b).
Definition int_sub (a b : Z) : res Z := chk_int (a - b).

(** for (; iter <= maxiter; iter++) { body }: als_CP.cxx:42, 164, 455, 655, 900; als_Tucker.cxx:133, 286, 519, 720.
    [fuel]: LoopFuel means "still running" *)
Fixpoint for_int {S : Type} (fuel : nat) (iter maxiter : Z) (body : Z -> S -> res (flow * S)) (s : S)
  : res (flow * Z * S) :=
  if (iter <=? maxiter)%Z then
    match fuel with
    | O => Err LoopFuel
    | Datatypes.S fuel' =>
      '(f, s) <- body iter s ;;
      match f with
      | Go => iter <- int_add iter 1 ;; for_int fuel' iter maxiter body s
      | _ => Ok (f, iter, s)
      end
    end
  else Ok (Go, iter, s).

(** if (iter == maxiter + 1) return false; else return true;
    als_CP.cxx:111, 316, 1133, 1203; als_Tucker.cxx:172, 420, 958 *)
Definition verdict (iter maxiter : Z) : res bool :=
  m <- int_add maxiter 1 ;; Ok (negb (Z.eqb iter m)).

Section CP.
Context {N : num} (LA : lapack N) (clk : nat -> N) (rank0 : bool).
Local Open Scope num_scope.

(** als_CP.cxx:20-115 *)
Definition alsCP_int (V : tensor N) (W grad_W F : list (tensor N)) (tol timelimit : N) (maxiter : Z) (x : io (N:=N))
  : res (bool * als_state) :=
  let '(t, x) := wtime clk x in
  let x := set_st x t in
  seq_V <- mk_seqV (order V) ;;
  W0 <- lget W 0 ;;
  '(_, iter, st) <- for_int (rounds 0 maxiter) 0 maxiter (alsCP_iter LA clk V F tol timelimit maxiter)
       (mkAls W grad_W (zeros [ncol W0; ncol W0]) seq_V n0 n0 x) ;;
  b <- verdict iter maxiter ;;
  Ok (b, st).
(** als_CP.cxx:126-320 *)
Definition alsCP_DT_int (fuel : nat) (V : tensor N) (W grad_W F : list (tensor N)) (tol timelimit : N) (maxiter : Z)
  (lambda : N) (resprint : Z) (bench : bool) (x : io (N:=N)) : res (bool * dt_state) :=
  W0 <- lget W 0 ;;
  regul <- mk_regul (ncol W0) lambda ;;
  let '(t, x) := wtime clk x in
  let x := set_st x t in
  seq_V <- mk_seqV (order V) ;;
  '(parent, sibling) <- Construct_Dimension_Tree fuel (sempty, sempty) 0 (order V - 1) ;;
  '(_, iter, st) <- for_int (rounds 0 maxiter) 0 maxiter
       (alsCP_DT_iter LA clk rank0 fuel parent sibling V F regul tol timelimit maxiter resprint bench)
       (mkDt W grad_W (zeros [ncol W0; ncol W0]) seq_V n0 x) ;;
  b <- verdict iter maxiter ;;
  Ok (b, st).
(** als_CP.cxx:421-619 *)
Definition alsCP_DT_sub_int (fuel : nat) (V : tensor N) (tol tol_init timelimit lambda : N) (maxiter resprint : Z)
  (iter : Z) (p : pp_state) : res (Z * pp_state) :=
  let o := order V in
  W0 <- lget (pW p) 0 ;;
  regul <- mk_regul (ncol W0) lambda ;;
  W_prev <- for_ 0 o (fun i acc => Wi <- lget (pW p) i ;; Ok (acc ++ [zeros [nrow Wi; ncol Wi]])) [] ;;
  seq_V <- mk_seqV o ;;
  '(parent, sibling) <- Construct_Dimension_Tree fuel (sempty, sempty) 0 (o - 1) ;;
  '(_, iter, s) <- for_int (rounds iter maxiter) iter maxiter
      (DT_sub_iter LA clk rank0 fuel parent sibling V tol tol_init timelimit lambda regul maxiter resprint)
      (mkSub p (zeros [ncol W0; ncol W0]) W_prev seq_V sempty n0) ;;
  Ok (iter, bst s).
(** the end of the pairwise-perturbation phases: if (bench == true) iter++, not reached by the return in the loop:
    als_CP.cxx:830-831, 1070-1071; als_Tucker.cxx:893-894 *)
Definition bench_incr (bench : bool) (f : flow) (iter : Z) : res Z :=
  match f with Return => Ok iter | _ => if bench then int_add iter 1 else Ok iter end.
(** als_CP.cxx:621-833; iter - init_iter: line 667 *)
Definition alsCP_PP_sub_int (same : bool) (V : tensor N) (tol tol_init timelimit lambda ratio_step : N)
  (maxiter resprint : Z) (bench : bool) (iter : Z) (p : pp_state) : res (Z * pp_state) :=
  let o := order V in
  W0 <- lget (pW p) 0 ;;
  regul <- mk_regul (ncol W0) lambda ;;
  sq <- mk_seqV o ;;
  '(f, iter', s) <- for_int (rounds iter maxiter) iter maxiter
      (fun it s => _ <- int_sub it iter ;;
         PP_sub_iter LA clk rank0 same V tol tol_init timelimit lambda ratio_step regul sq maxiter resprint bench iter it s)
      (mkSub p (zeros [ncol W0; ncol W0]) [] sq sempty n0) ;;
  iter' <- bench_incr bench f iter' ;;
  Ok (iter', bst s).
(** als_CP.cxx:846-1073 *)
Definition alsCP_PP_partupdate_sub_int (same : bool) (V : tensor N) (tol tol_init timelimit lambda ratio_step : N)
  (update_size : nat) (maxiter resprint : Z) (bench : bool) (iter : Z) (p : pp_state) : res (Z * pp_state) :=
  let o := order V in
  W0 <- lget (pW p) 0 ;;
  regul <- mk_regul (ncol W0) lambda ;;
  sq <- mk_seqV o ;;
  Ms <- mk_dW (pW p) o ;;
  '(f, iter', u) <- for_int (rounds iter maxiter) iter maxiter
      (fun it u => _ <- int_sub it iter ;;
         PU_sub_iter LA clk rank0 same V tol tol_init timelimit lambda ratio_step update_size regul sq maxiter resprint bench iter it u)
      (mkPUsub (mkSub p (zeros [ncol W0; ncol W0]) [] sq sempty n0) Ms Ms (repeat n0 o)) ;;
  iter' <- bench_incr bench f iter' ;;
  Ok (iter', bst (vb u)).
(** als_CP.cxx:1082-1137 *)
Definition alsCP_PP_int (wf fuel : nat) (same : bool) (V : tensor N) (W grad_W : list (tensor N))
  (tol tol_init timelimit : N) (maxiter : Z) (lambda ratio_step : N) (resprint : Z) (bench : bool) (x : io (N:=N))
  : res (bool * pp_state) :=
  let '(t, x) := wtime clk x in
  let x := set_st x t in
  dW <- mk_dW W (order V) ;;
  '(iter, p) <- pp_while wf
       (alsCP_DT_sub_int fuel V tol tol_init timelimit lambda maxiter resprint)
       (alsCP_PP_sub_int same V tol tol_init timelimit lambda ratio_step maxiter resprint bench)
       tol maxiter bench 0 (mkPP W grad_W dW (nlit 10) x) ;;
  b <- verdict iter maxiter ;;
  Ok (b, p).
(** als_CP.cxx:1146-1207 *)
Definition alsCP_PP_partupdate_int (wf fuel : nat) (same : bool) (V : tensor N) (W grad_W : list (tensor N))
  (tol tol_init timelimit : N) (maxiter : Z) (lambda ratio_step : N) (update_size : nat) (resprint : Z)
  (bench : bool) (x : io (N:=N)) : res (bool * pp_state) :=
  let '(t, x) := wtime clk x in
  let x := set_st x t in
  dW <- mk_dW W (order V) ;;
  '(iter, p) <- pp_while wf
       (alsCP_DT_sub_int fuel V tol tol_init timelimit lambda maxiter resprint)
       (alsCP_PP_partupdate_sub_int same V tol tol_init timelimit lambda ratio_step update_size maxiter resprint bench)
       tol maxiter bench 0 (mkPP W grad_W dW (nlit 10) x) ;;
  b <- verdict iter maxiter ;;
  Ok (b, p).
End CP.

Section Tucker.
Context {N : num} (LA : lapack N) (clk : nat -> N) (rank0 : bool).
Local Open Scope num_scope.
(** als_Tucker.cxx:113-176 *)
Definition alsTucker_int (V core : tensor N) (W : list (tensor N)) (tol timelimit : N) (maxiter : Z) (x : io (N:=N))
  : res (bool * tk_state) :=
  let '(t, x) := wtime clk x in
  let x := set_st x t in
  sq <- mk_seqV (order V) ;;
  '(_, iter, s) <- for_int (rounds 0 maxiter) 0 maxiter (alsTucker_iter LA clk V tol timelimit maxiter sq)
      (mkTk W core core [] n0 x) ;;
  b <- verdict iter maxiter ;;
  Ok (b, s).
(** als_Tucker.cxx:240-424 *)
Definition alsTucker_DT_int (fuel : nat) (V core : tensor N) (W : list (tensor N)) (tol timelimit : N) (maxiter resprint : Z)
  (bench : bool) (x : io (N:=N)) : res (bool * tk_state) :=
  let o := order V in
  let '(t, x) := wtime clk x in
  let x := set_st x t in
  sq <- mk_seqV o ;;
  seq_Y <- mk_seqV o ;;
  '(parent, sibling) <- Construct_Dimension_Tree fuel (sempty, sempty) 0 (o - 1) ;;
  Y_end <- mk_Yend V W ;;
  lens_Y <- ncols W o ;;
  '(_, iter, s) <- for_int (rounds 0 maxiter) 0 maxiter
      (Tucker_DT_iter LA clk rank0 fuel parent sibling V tol timelimit maxiter resprint bench sq)
      (mkTL (mkTk W core core [] (nlit (1000 # 1)) x) Y_end lens_Y seq_Y) ;;
  b <- verdict iter maxiter ;;
  Ok (b, lk s).
(** als_Tucker.cxx:476-672 *)
Definition alsTucker_DT_sub_int (fuel : nat) (V : tensor N) (tol tol_init timelimit : N) (maxiter resprint : Z)
  (iter : Z) (k : tk_state) : res (Z * tk_state) :=
  let o := order V in
  W_prev <- for_ 0 o (fun i acc => Wi <- lget (kW k) i ;; Ok (acc ++ [zeros [nrow Wi; ncol Wi]])) [] ;;
  sq <- mk_seqV o ;;
  seq_Y <- mk_seqV o ;;
  '(parent, sibling) <- Construct_Dimension_Tree fuel (sempty, sempty) 0 (o - 1) ;;
  Y_end <- mk_Yend V (kW k) ;;
  '(_, iter, s) <- for_int (rounds iter maxiter) iter maxiter
      (Tucker_sub_iter LA clk rank0 fuel parent sibling V tol tol_init timelimit maxiter resprint sq)
      (mkTS k Y_end seq_Y W_prev sempty n0) ;;
  Ok (iter, sk s).
(** als_Tucker.cxx:679-896 *)
Definition alsTucker_PP_sub_int (V : tensor N) (tol tol_init timelimit : N) (maxiter resprint : Z) (bench : bool)
  (iter : Z) (k : tk_state) : res (Z * tk_state) :=
  let o := order V in
  sq <- mk_seqV o ;;
  seq_Y <- mk_seqV o ;;
  Y_end <- mk_Yend V (kW k) ;;
  '(f, iter', s) <- for_int (rounds iter maxiter) iter maxiter
      (Tucker_PP_iter LA clk rank0 V tol tol_init timelimit maxiter resprint bench sq iter)
      (mkTS k Y_end seq_Y [] sempty n0) ;;
  iter' <- bench_incr bench f iter' ;;
  Ok (iter', sk s).
(** als_Tucker.cxx:906-962 *)
Definition alsTucker_PP_int (wf fuel : nat) (V core : tensor N) (W : list (tensor N)) (tol tol_init timelimit : N)
  (maxiter resprint : Z) (bench : bool) (x : io (N:=N)) : res (bool * tk_state) :=
  let '(t, x) := wtime clk x in
  let x := set_st x t in
  dW <- mk_dW W (order V) ;;
  '(iter, k) <- tk_while wf
       (fun ti => alsTucker_DT_sub_int fuel V tol ti timelimit maxiter resprint)
       (fun ti => alsTucker_PP_sub_int V tol ti timelimit maxiter resprint bench)
       tol maxiter bench tol_init 0 (mkTk W core core dW (nlit (10 # 1)) x) ;;
  b <- verdict iter maxiter ;;
  Ok (b, k).
End Tucker.

Section CPD.
Context {N : num} (clk : nat -> N) (rank0 : bool).
Local Open Scope num_scope.
Context {St : Type} (step : St -> res (Q * St)) (base : St -> opt_st N).
(** src/CP.cxx:125-177: int(sweeps) is undefined when the truncated value does not fit (C++11 [conv.fpint]/1);
    sweeps >= 0, so truncation is floor; iters += 1 *)
Fixpoint cpd_loop_int (fuel : nat) (V : tensor N) (seq_V : buf Z) (tol timelimit : N) (maxsweep resprint : Z) (bench : bool)
  (iters : Z) (sweeps : Q) (c : cpd N St) : res (Z * Q * cpd N St) :=
  n <- chk_int (Qfloor sweeps) ;;
  if (n <=? maxsweep)%Z then
    match fuel with
    | O => Err LoopFuel
    | S fuel =>
      m <- zmod iters resprint ;;
      '(stop, c) <- (if Z.eqb m 0 || Qle_bool (inject_Z maxsweep) sweeps || Qeq_bool sweeps 0
                     then cpd_check clk rank0 base V seq_V tol timelimit bench iters sweeps c else Ok (false, c)) ;;
      if stop : bool then Ok (iters, sweeps, c)
      else
        '(q, st) <- step (c_st c) ;;
        iters <- int_add iters 1 ;;
        cpd_loop_int fuel V seq_V tol timelimit maxsweep resprint bench iters (rnd64 (sweeps + rnd64 q))
                 (mkCpd st (c_gn c) (c_io c) (c_rows c))
    end
  else Ok (iters, sweeps, c).
(** src/CP.cxx:110-187; sweeps == maxsweep + 1: the addition is one of ints *)
Definition cpd_als_int (fuel : nat) (V : tensor N) (tol timelimit : N) (maxsweep resprint : Z) (bench : bool)
  (st : St) (gn : N) (x : io (N := N)) : res (bool * cpd N St) :=
  seq_V <- cpd_seqV (order V) ;;
  let '(t, x) := wtime clk x in
  let x := set_st x t in
  '(_, sweeps, c) <- cpd_loop_int fuel V seq_V tol timelimit maxsweep resprint bench 0 0%Q (mkCpd st gn x []) ;;
  m <- int_add maxsweep 1 ;;
  Ok (negb (Qeq_bool sweeps (inject_Z m)), c).
End CPD.

Section Run.
Context {N : num} (LA : lapack N) (clk : nat -> N) (rank0 : bool).
(** [cpd_run] of MCPD.v (run.cxx:388-417) with [cpd_als_int] for als *)
Definition cpd_run_int (m : cpd_method) (wf : nat) (ord size r : nat) (V : tensor N) (W G : list (tensor N)) (lambda : N)
  (tol timelimit : N) (maxsweep resprint : Z) (bench : bool) (x : io (N := N))
  : res (bool * (list (tensor N) * list (tensor N)) * N * list (crow N)) :=
  let st := mkOpt W G (zeros [r; r]) in
  let als {St} step (base : St -> opt_st N) (s : St) :=
    keep base (cpd_als_int clk rank0 step base wf V tol timelimit maxsweep resprint bench s n0 x) in
  match m with
  | TwoSubtree =>
    s <- dt_new ord st ;; _ <- cpd_init ord size r V W ;; W0 <- lget W 0 ;; regul <- mk_regul (ncol W0) lambda ;;
    als (dt_step LA ord V regul) ds s
  | MultiSweep =>
    s <- ms_new ord st ;; _ <- cpd_init ord size r V W ;; W0 <- lget W 0 ;; regul <- mk_regul (ncol W0) lambda ;;
    als (ms_step LA ord V regul) mss s
  | TwoSubtreeLR k rs =>
    s <- dl_new ord st ;; _ <- cpd_init ord size r V W ;; W0 <- lget W 0 ;; regul <- mk_regul (ncol W0) lambda ;;
    als (dl_step LA ord k rs V regul) (fun s => ds (dlb s)) s
  | MultiSweepLR k rs =>
    s <- ml_new ord st ;; _ <- cpd_init ord size r V W ;; W0 <- lget W 0 ;; regul <- mk_regul (ncol W0) lambda ;;
    als (ml_step LA ord k rs V regul) (fun s => mss (mlb s)) s
  | Simple =>
    sq <- opt_seqV ord ;; _ <- cpd_init ord size r V W ;; W0 <- lget W 0 ;; regul <- mk_regul (ncol W0) lambda ;;
    als (simple_step LA V regul) fst (st, sq)
  end.
End Run.
