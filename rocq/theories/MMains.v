(** Models of the programs test_ALS (test_ALS.cxx) and pp_bench (pp_bench.cxx), after their option parsing (MRun.v). *)
From Coq Require Import List ZArith QArith Bool Arith String Ascii.
From Verif Require Import Base Num Tensor MCommon MCP MTucker MGen MRun.
Import ListNotations.
Local Close Scope Q_scope.
Local Open Scope string_scope.

Section M.
Context {N : num} (LA : lapack N) (clk : nat -> N) (rank0 : bool) (env : environment (N := N)).
Local Open Scope num_scope.
(** conversion of a double to int (C: truncation) *)
Context (trunc : N -> nat).

(** test_ALS.cxx:338-343, pp_bench.cxx:282-293: for each mode W[i] and then grad_W[i] is filled by the random generator;
    [base] says where the random stream stands after the tensor was generated *)
Definition start_W (base R : nat) (V : tensor N) : list (tensor N) :=
  map (fun i => rng env (base + 2 * i) [nth i (lens V) 0%nat; R]) (seq 0 (order V)).
Definition start_G (base R : nat) (V : tensor N) : list (tensor N) :=
  map (fun i => rng env (base + 2 * i + 1) [nth i (lens V) 0%nat; R]) (seq 0 (order V)).
(** test_ALS.cxx:344-349, pp_bench.cxx:294-299: F[i] = Matrix(V.lens[i], R); F[i]["ij"] = 0. *)
Definition start_F (R : nat) (V : tensor N) : list (tensor N) :=
  map (fun i => zeros [nth i (lens V) 0%nat; R]) (seq 0 (order V)).
(** test_ALS.cxx:372-393: int ranks[V.order] and its entries; an array of length 0 is undefined behaviour, as are
    the reads of entries that were not written *)
Definition tucker_ranks (st : settings (N := N)) (V : tensor N) (R : nat) : res (list nat) :=
  if Nat.eqb (order V) 0 then Err UB
  else
    let fixed l := for_ 0 4 (fun i b => x <- lget l i ;; bset b i x) (newbuf (order V)) in
    b <- (if Ascii.eqb (char_at (s_tensor st) 0) "o" then
            if second_is "1" (s_tensor st) then fixed [3; 10; 10; 70]%nat
            else if second_is "2" (s_tensor st) then fixed [10; 100; 100; 5]%nat
            else Ok (newbuf (order V))
          else for_ 0 (order V) (fun i b => bset b i R) (newbuf (order V))) ;;
    take (order V) b.

(** what is in memory when test_ALS is done; the program itself prints only the log *)
Inductive als_result :=
| CP_done (returned : bool) (W grad_W : list (tensor N)) (x : io (N := N))
| Tucker_done (returned : option bool) (core : tensor N) (W : list (tensor N)) (x : io (N := N))   (* None: only hosvd *)
| Nothing.

(** test_ALS.cxx:218-403.  wf bounds the while loops of the pairwise-perturbation drivers, same is their pointer comparison,
    fuel bounds the loop of Gen_collinearity, tf the recursion of the dimension tree.  Not modelled: printing of the settings,
    MPI_File_close (called on an unopened file only for tensors for which the run is undefined before), deallocation *)
Definition test_ALS_main (fuel base tf wf : nat) (same : bool) (st : settings (N := N)) (x : io (N := N)) : res als_result :=
  let R := Z.to_nat (s_rank st) in
  V <- run_tensor env fuel st ;;
  let Vnorm := norm2 V in
  let W := start_W base R V in
  let grad_W := start_G base R V in
  let F := start_F R V in
  let tol := s_tol st * Vnorm in
  if Ascii.eqb (char_at (s_model st) 0) "C" then
    if Z.eqb (s_pp st) 0 then
      '(ret, s) <- alsCP_DT LA clk rank0 tf V W grad_W F tol (s_timelimit st) (s_maxiter st) (s_lambda st) (s_resprint st) false x ;;
      Ok (CP_done ret (dtW s) (dtG s) (dtio s))
    else if Z.eqb (s_pp st) 1 then
      '(ret, p) <- alsCP_PP LA clk rank0 wf tf same V W grad_W tol (s_pp_res_tol st) (s_timelimit st) (s_maxiter st)
                     (s_lambda st) (s_magni st) (s_resprint st) false x ;;
      Ok (CP_done ret (pW p) (pG p) (pio p))
    else if Z.eqb (s_pp st) 2 then
      (* als_CP.cxx:898 int update_size = V.order * update_percentage *)
      let update_size := trunc (nlit (Z.of_nat (order V) # 1) * s_percentage st) in
      '(ret, p) <- alsCP_PP_partupdate LA clk rank0 wf tf same V W grad_W tol (s_pp_res_tol st) (s_timelimit st) (s_maxiter st)
                     (s_lambda st) (s_magni st) update_size (s_resprint st) false x ;;
      Ok (CP_done ret (pW p) (pG p) (pio p))
    else Ok Nothing
  else if Ascii.eqb (char_at (s_model st) 0) "T" then
    ranks <- tucker_ranks st V R ;;
    '(core, W) <- hosvd LA V W ranks ;;
    if Z.eqb (s_pp st) 0 then
      '(ret, k) <- alsTucker_DT LA clk rank0 tf V core W tol (s_timelimit st) (s_maxiter st) (s_resprint st) false x ;;
      Ok (Tucker_done (Some ret) (kcore k) (kW k) (kio k))
    else if Z.eqb (s_pp st) 1 then
      '(ret, k) <- alsTucker_PP LA clk rank0 wf tf V core W tol (s_pp_res_tol st) (s_timelimit st) (s_maxiter st) (s_resprint st) false x ;;
      Ok (Tucker_done (Some ret) (kcore k) (kW k) (kio k))
    else Ok (Tucker_done None core W x)
  else Ok Nothing.

(** pp_bench.cxx:198-274: the tensor; like test_ALS.cxx, except that 'o' leaves V default-constructed *)
Definition bench_tensor (fuel : nat) (st : settings (N := N)) : res (tensor N) :=
  if Ascii.eqb (char_at (s_tensor st) 0) "o" then Ok tnil else run_tensor env fuel st.
(** for (j < V.order) D[j]["ij"] = W[j]["ij"]; *)
Definition copy_all (o : nat) (D W : list (tensor N)) : res (list (tensor N)) :=
  for_ 0 o (fun j D => Dj <- lget D j ;; Wj <- lget W j ;; T <- assign false Dj sij [prodt [(Wj, sij)]] ;; lput D j T) D.
(** what the four kinds of repetitions leave: the log after the dimension-tree repetitions and at the end *)
Record bench_result := mkBench { b_dt : io (N := N); b_pp : io (N := N); b_W : list (tensor N); b_G : list (tensor N); b_core : tensor N }.
(** pp_bench.cxx:276-353.  The heading and the empty lines after each half are not modelled *)
Definition pp_bench_main (fuel base tf wf : nat) (same : bool) (st : settings (N := N)) (x : io (N := N)) : res (option bench_result) :=
  let R := Z.to_nat (s_rank st) in
  let dim := Z.to_nat (s_dim st) in
  let reps := Z.to_nat (s_maxiter st) in
  V <- bench_tensor fuel st ;;
  let o := order V in
  let tol := s_tol st * norm2 V in
  let W := start_W base R V in
  let grad_W := start_G base R V in
  let F := start_F R V in
  W_DT <- copy_all o (start_F R V) W ;;
  W_PP <- copy_all o (start_F R V) W ;;
  if Ascii.eqb (char_at (s_model st) 0) "C" then
    '(_, grad_W, x1) <- for_ 0 reps (fun _ s =>
        let '(W_DT, grad_W, x) := s in
        '(_, d) <- alsCP_DT LA clk rank0 tf V W_DT grad_W F tol (s_timelimit st) 1 (s_lambda st) (s_resprint st) true x ;;
        W_DT <- copy_all o (dtW d) W ;;
        Ok (W_DT, dtG d, dtio d)) (W_DT, grad_W, x) ;;
    '(_, grad_W, x2) <- for_ 0 reps (fun _ s =>
        let '(W_PP, grad_W, x) := s in
        '(_, p) <- alsCP_PP LA clk rank0 wf tf same V W_PP grad_W tol (s_pp_res_tol st) (s_timelimit st) 1
                     (s_lambda st) (s_magni st) (s_resprint st) true x ;;
        W_PP <- copy_all o (pW p) W ;;
        Ok (W_PP, pG p, pio p)) (W_PP, grad_W, x1) ;;
    Ok (Some (mkBench x1 x2 W grad_W tnil))
  else if Ascii.eqb (char_at (s_model st) 0) "T" then
    if Nat.eqb o 0 then Err UB                                       (* int ranks[0] *)
    else
      b <- for_ 0 o (fun i b => bset b i R) (newbuf o) ;;
      ls <- take dim b ;;                                            (* Tensor<>(dim, issparse, ranks, dw) *)
      '(_, core, x1) <- for_ 0 reps (fun _ s =>
          let '(W_DT, core, x) := s in
          W_DT <- copy_all o W_DT W ;;
          '(_, k) <- alsTucker_DT LA clk rank0 tf V core W_DT tol (s_timelimit st) 1 (s_resprint st) true x ;;
          Ok (kW k, kcore k, kio k)) (W_DT, zeros ls, x) ;;
      '(_, core, x2) <- for_ 0 reps (fun _ s =>
          let '(W_PP, core, x) := s in
          W_PP <- copy_all o W_PP W ;;
          '(_, k) <- alsTucker_PP LA clk rank0 wf tf V core W_PP tol (s_pp_res_tol st) (s_timelimit st) 1 (s_resprint st) true x ;;
          Ok (kW k, kcore k, kio k)) (W_PP, core, x1) ;;
      Ok (Some (mkBench x1 x2 W grad_W core))
  else Ok None.
End M.

(** the whole programs *)
Definition test_ALS {N : num} (atof : string -> N) LA clk rank0 env trunc fuel base tf wf same (argv : list string) x :=
  test_ALS_main LA clk rank0 env trunc fuel base tf wf same (test_ALS_settings atof argv) x.
Definition pp_bench {N : num} (atof : string -> N) LA clk rank0 env fuel base tf wf same (argv : list string) x :=
  pp_bench_main LA clk rank0 env fuel base tf wf same (pp_bench_settings atof argv) x.
