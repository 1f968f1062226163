(** The program test_ALS with 32-bit iteration counters (MInt.v). *)
From Coq Require Import List ZArith QArith Bool Arith String Ascii.
From Verif Require Import Base Num Tensor MCommon MCP MTucker MGen MRun MMains MInt.
Import ListNotations.
Local Close Scope Q_scope.
Local Open Scope string_scope.

Section M.
Context {N : num} (LA : lapack N) (clk : nat -> N) (rank0 : bool) (env : environment (N := N)).
Local Open Scope num_scope.
Context (trunc : N -> nat).
(** test_ALS.cxx:218-403: [test_ALS_main] of MMains.v, with the drivers of MInt.v.  The conversion of V.order * update_percentage
    (at most the order, since the option is at most 1) and the sizes of the generated tensors are not checked *)
Definition test_ALS_main_int (fuel base tf wf : nat) (same : bool) (st : settings (N := N)) (x : io (N := N)) : res (als_result (N := N)) :=
  let R := Z.to_nat (s_rank st) in
  V <- run_tensor env fuel st ;;
  let Vnorm := norm2 V in
  let W := start_W env base R V in
  let grad_W := start_G env base R V in
  let F := start_F R V in
  let tol := s_tol st * Vnorm in
  if Ascii.eqb (char_at (s_model st) 0) "C" then
    if Z.eqb (s_pp st) 0 then
      '(ret, s) <- alsCP_DT_int LA clk rank0 tf V W grad_W F tol (s_timelimit st) (s_maxiter st) (s_lambda st) (s_resprint st) false x ;;
      Ok (CP_done ret (dtW s) (dtG s) (dtio s))
    else if Z.eqb (s_pp st) 1 then
      '(ret, p) <- alsCP_PP_int LA clk rank0 wf tf same V W grad_W tol (s_pp_res_tol st) (s_timelimit st) (s_maxiter st)
                     (s_lambda st) (s_magni st) (s_resprint st) false x ;;
      Ok (CP_done ret (pW p) (pG p) (pio p))
    else if Z.eqb (s_pp st) 2 then
      (* als_CP.cxx:898 int update_size = V.order * update_percentage *)
      let update_size := trunc (nlit (Z.of_nat (order V) # 1) * s_percentage st) in
      '(ret, p) <- alsCP_PP_partupdate_int LA clk rank0 wf tf same V W grad_W tol (s_pp_res_tol st) (s_timelimit st) (s_maxiter st)
                     (s_lambda st) (s_magni st) update_size (s_resprint st) false x ;;
      Ok (CP_done ret (pW p) (pG p) (pio p))
    else Ok Nothing
  else if Ascii.eqb (char_at (s_model st) 0) "T" then
    ranks <- tucker_ranks st V R ;;
    '(core, W) <- hosvd LA V W ranks ;;
    if Z.eqb (s_pp st) 0 then
      '(ret, k) <- alsTucker_DT_int LA clk rank0 tf V core W tol (s_timelimit st) (s_maxiter st) (s_resprint st) false x ;;
      Ok (Tucker_done (Some ret) (kcore k) (kW k) (kio k))
    else if Z.eqb (s_pp st) 1 then
      '(ret, k) <- alsTucker_PP_int LA clk rank0 wf tf V core W tol (s_pp_res_tol st) (s_timelimit st) (s_maxiter st) (s_resprint st) false x ;;
      Ok (Tucker_done (Some ret) (kcore k) (kW k) (kio k))
    else Ok (Tucker_done None core W x)
  else Ok Nothing.
End M.
