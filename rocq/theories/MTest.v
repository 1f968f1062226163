(** Model of the program test: tests/test_decomposition.cxx *)
From Coq Require Import List ZArith QArith Bool Arith.
From Verif Require Import Base Num Tensor MCommon MCP MOpt MOptLR MCPD MRun.
Import ListNotations.
Local Close Scope Q_scope.

Section M.
Context {N : num} (LA : lapack N) (clk : nat -> N) (rank0 : bool) (env : environment (N := N)).

(** tests/test_decomposition.cxx:15-36 TEST_decomposition (its call in main is commented out): the constructor stores the order, the
    sizes and the ranks; then the two assertions, V and W, and Init (MCPD.v cpd_init: the assertions of Decomposition::Init).
    The printing (order, W[0], W[1]) and the storage (MLife.v) are not modelled. *)
Definition test_decomposition : res unit :=
  let order := 3 in let size := 5 in let rank := 2 in
  _ <- cpd_assert (Nat.eqb order 3) ;;
  _ <- cpd_assert (Nat.eqb rank 2) ;;
  let V := rng env 0 (cube 3 5) in
  let W := map (fun i => rng env (1 + i) [5; 2]) (seq 0 3) in
  cpd_init order size rank V W.

(** tests/test_decomposition.cxx:38-69 TEST_CPD: CPD<double, CPDTOptimizer<double>> decom(6, 13, 5), random V (13^6) and W (13 x 5),
    Init(V, W) with the default lambda = 0 (src/CP.h), which also fills grad_W at random, als(1e-5, 1000, 30, 100, Plot_File) with the
    default bench = false.  The return value of als is discarded by the program; it is kept here. *)
Definition test_CPD (wf : nat) (x : io (N := N)) : res (bool * (list (tensor N) * list (tensor N)) * N * list (crow N)) :=
  let order := 6 in let size := 13 in let rank := 5 in
  _ <- cpd_assert (Nat.eqb order 6) ;;
  _ <- cpd_assert (Nat.eqb rank 5) ;;
  let V := rng env 0 (cube 6 13) in
  let W := map (fun i => rng env (1 + i) [13; 5]) (seq 0 6) in
  let G := map (fun i => rng env (7 + i) [13; 5]) (seq 0 6) in
  cpd_run LA clk rank0 TwoSubtree wf order size rank V W G n0 (nlit (1 # 100000)) (nlit 1000) 30 100 false x.
(** tests/test_decomposition.cxx:75-90 main *)
Definition test_main := test_CPD.
End M.
