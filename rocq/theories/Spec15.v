(** Specification of the program test_ALS: which algorithm it runs on the tensor it has built *)
From Coq Require Import List ZArith QArith Bool Arith String Ascii.
From Verif Require Import Base Num Tensor Spec Spec2 Spec7 Spec8 Spec9 Spec12 Spec13 Spec14 MCP MTucker MGen MRun MMains.
Import ListNotations.
Local Close Scope Q_scope.
Local Open Scope string_scope.

Section S.
Context {N : num} (clk : nat -> N) (rank0 : bool).
(** solve: the least-squares solver of CP; svd: the singular value decomposition of Tucker; trunc: conversion of a double to int *)
Context (solve : tensor N -> tensor N -> tensor N) (svd : tensor N -> nat -> tensor N * tensor N * tensor N) (trunc : N -> nat).
Local Open Scope num_scope.

(** -model C...: -pp 0, 1, 2.  V: the tensor; W, G: the random start of the factors and gradients; the tolerance is relative to |V| *)
Definition cp_program (st : settings (N := N)) (rounds : nat) (V : tensor N) (W G : list (tensor N)) (x : io (N := N)) : option (als_result (N := N)) :=
  let R := Z.to_nat (s_rank st) in
  let tol := s_tol st * norm2 V in
  let done (r : option (bool * pp_state (N := N))) := match r with Some (ret, p) => Some (CP_done ret (pW p) (pG p) (pio p)) | None => None end in
  match s_pp st with
  | 0%Z => let '(ret, s) := dt_algorithm clk rank0 V tol (s_timelimit st) (s_maxiter st) (s_resprint st) false solve R (s_lambda st) (zmats V R) W G x in
           Some (CP_done ret (cpW s) (cpG s) (cpio s))
  | 1%Z => done (pp_algorithm clk rank0 solve V R tol (s_pp_res_tol st) (s_timelimit st) (s_maxiter st) (s_lambda st) (s_magni st) (s_resprint st) false rounds W G x)
  | _ => done (pu_algorithm clk rank0 solve V R tol (s_pp_res_tol st) (s_timelimit st) (s_maxiter st) (s_lambda st) (s_magni st)
                 (trunc (nlit (Z.of_nat (order V) # 1) * s_percentage st)) (s_resprint st) false rounds W G x)
  end.
(** -model T...: the random factors are not used: HOSVD factors and core, then -pp 0 or 1 *)
Definition tucker_program (st : settings (N := N)) (rounds : nat) (V : tensor N) (ranks : list nat) (x : io (N := N)) : option (als_result (N := N)) :=
  let tol := s_tol st * norm2 V in
  let W := map (fun i => lsv svd (unfold_gram V i) (nth i ranks 0%nat)) (seq 0 (order V)) in
  let core := tucker_core V W in
  match s_pp st with
  | 0%Z => let '(ret, k) := tdt_algorithm clk rank0 V tol (s_timelimit st) (s_maxiter st) (s_resprint st) false svd ranks core W x in
           Some (Tucker_done (Some ret) (kcore k) (kW k) (kio k))
  | 1%Z => match tk_algorithm clk rank0 svd V ranks tol (s_timelimit st) (s_maxiter st) (s_resprint st) false (s_pp_res_tol st) rounds core W x with
           | Some (ret, k) => Some (Tucker_done (Some ret) (kcore k) (kW k) (kio k))
           | None => None
           end
  | _ => Some (Tucker_done None core W x)
  end.
(** the ranks: fixed for the two data sets, otherwise -rank in every mode *)
Definition program_ranks (tensor : string) (o R : nat) : list nat :=
  if prefix "o1" tensor then [3; 10; 10; 70]%nat else if prefix "o2" tensor then [10; 100; 100; 5]%nat else repeat R o.
(** the tensor orders for which the drivers work *)
Definition cp_orders (pp : Z) (o : nat) : Prop := o = 4%nat \/ (6 <= o <= (if Z.eqb pp 0 then 19 else 9))%nat.
Definition tucker_orders (pp : Z) (o : nat) : Prop :=
  match pp with
  | 0%Z => o = 2 \/ o = 4 \/ 6 <= o <= 10
  | 1%Z => o = 4 \/ 6 <= o <= 9
  | _ => 1 <= o <= 18
  end%nat.
End S.
