(** Model of als_Tucker.cxx: HOSVD, TTMc, plain / dimension-tree / pairwise-perturbation Tucker-ALS. *)
From Coq Require Import List ZArith QArith Bool Arith Lia.
From Verif Require Import Base Num Tensor MCommon MCP.
Import ListNotations.
Local Close Scope Q_scope.

Section M.
Context {N : num} (LA : lapack N) (clk : nat -> N) (rank0 : bool).
Local Open Scope num_scope.

(** ** als_Tucker.cxx:12-23 get_factor_matrices.  ranks[] and factor_matrices[] have T.order entries. *)
Definition get_factor_matrices (T : tensor N) (F : list (tensor N)) (ranks : list nat) : res (list (tensor N)) :=
  for_ 0 (order T) (fun i F =>
      MTM <- unroll_tensor_contraction T i ;;
      k <- lget ranks i ;;
      let '(U, _, _) := svd LA MTM k in
      lput F i U) F.

(** ** als_Tucker.cxx:25-64 get_core_tensor *)
Definition get_core_tensor (T : tensor N) (F : list (tensor N)) (ranks : list nat) : res (tensor N) :=
  let o := order T in
  '(cores, _) <- for_ 1 (o + 1) (fun i st =>                                   (* 28-38 *)
      let '(cores, ls) := st in
      k <- lget ranks (i - 1) ;;
      ls <- lput ls (i - 1) k ;;
      Ok (cores ++ [zeros ls], ls)) ([T], lens T) ;;
  '(arg, core_arg) <- for_ 0 o (fun i st =>                                    (* 40-49 *)
      let '(arg, core_arg) := st in
      c <- bget chars18 i ;;
      arg <- bset arg i c ;;
      core_arg <- bset core_arg i c ;;
      Ok (arg, core_arg)) (newbuf (o + 1), newbuf (o + 1)) ;;
  arg <- bset arg o 0%Z ;;
  core_arg <- bset core_arg o 0%Z ;;
  '(cores, _) <- for_ 0 o (fun i st =>                                         (* 53-62 *)
      let '(cores, core_arg) := st in
      core_arg <- bset core_arg i 97%Z ;;
      c <- bget arg i ;;
      Fi <- lget F i ;;
      transpose <- assign false (zeros [ncol Fi; nrow Fi]) sij [prodt [(Fi, sji)]] ;;
      prev <- lget cores i ;;
      C <- lget cores (i + 1) ;;
      C <- assign_b C core_arg [(transpose, lit [97%Z; c]); (prev, arg)] ;;
      cores <- lput cores (i + 1) C ;;
      core_arg <- bset core_arg i c ;;
      Ok (cores, core_arg)) (cores, core_arg) ;;
  lget cores o.

(** ** als_Tucker.cxx:66-70 hosvd *)
Definition hosvd (T : tensor N) (F : list (tensor N)) (ranks : list nat) : res (tensor N * list (tensor N)) :=
  F <- get_factor_matrices T F ranks ;;
  core <- get_core_tensor T F ranks ;;
  Ok (core, F).

(** ** als_Tucker.cxx:76-110 TTMc.  [i] = None is the argument -1. *)
Definition is_mode (i : option nat) (index : nat) : bool :=
  match i with Some j => Nat.eqb index j | None => false end.
Definition TTMc (Y V : tensor N) (W : list (tensor N)) (i : option nat) : res (tensor N) :=
  let o := order V in
  sq <- mk_seqV o ;;
  seq_mod <- mk_seqV o ;;
  '(Y, _, _, _) <- for_ 0 o (fun index st =>
      let '(Y, V_temp, lens_Y, sq) := st in
      if is_mode i index then Ok st
      else
        sq <- bset sq index ch_k ;;
        Wi <- lget W index ;;
        lens_Y <- lput lens_Y index (ncol Wi) ;;
        Y <- assign_b (zeros lens_Y) sq [(V_temp, seq_mod); (Wi, lit [chr index; ch_k])] ;;
        sq <- bset sq index (chr index) ;;
        Ok (Y, Y, lens_Y, sq)) (Y, V, lens V, sq) ;;
  Ok Y.

(** MTM = unroll_tensor_contraction(Y,i); MTM.svd(U,S,VT,core.lens[i]); if (norm_U < 0) U = -U:
    als_Tucker.cxx:155-161, 399-405, 624-630, 865-871 *)
Definition tk_svd (core Y : tensor N) (i : nat) : res (tensor N * tensor N) :=
  MTM <- unroll_tensor_contraction Y i ;;
  k <- lget (lens core) i ;;
  let '(U, Sg, _) := svd LA MTM k in
  U <- (if nltb (norm2 U) n0 then assign false U sij [mkTerm (- n1) [(U, sij)]] else Ok U) ;;
  Ok (U, Sg).

(** diffnorm < tol || MPI_Wtime() - st_time > timelimit: als_Tucker.cxx:143, 335, 561, 818 *)
Definition tk_stop := @stop_test N clk.

(** core_prev[seq] = core[seq]: als_Tucker.cxx:145, 337, 563, 821 *)
Definition copy_core (core_prev core : tensor N) (sq : buf Z) : res (tensor N) :=
  sP <- take (order core_prev) sq ;;
  sC <- take (order core) sq ;;
  assign false core_prev sP [prodt [(core, sC)]].

(** what the functions of this file keep between iterations *)
Record tk_state := mkTk { kW : list (tensor N); kcore : tensor N; kprev : tensor N;
                          kdW : list (tensor N); kdn : N; kio : io (N:=N) }.

(** ** als_Tucker.cxx:120-176 alsTucker *)
Definition alsTucker_mode (V core : tensor N) (i : nat) (W : list (tensor N)) : res (list (tensor N)) :=
  Y <- TTMc tnil V W (Some i) ;;
  '(U, _) <- tk_svd core Y i ;;
  lput W i U.
(** lines 135-146 *)
Definition alsTucker_check (V : tensor N) (tol timelimit : N) (sq : buf Z) (s : tk_state) : res (bool * tk_state) :=
  core <- TTMc (kcore s) V (kW s) None ;;
  let diffnorm := nabs (norm2 core - norm2 (kprev s)) in
  let '(stop, x) := tk_stop diffnorm tol timelimit (kio s) in
  if stop then Ok (true, mkTk (kW s) core (kprev s) (kdW s) diffnorm x)
  else
    prev <- copy_core (kprev s) core sq ;;
    Ok (false, mkTk (kW s) core prev (kdW s) diffnorm x).
(** lines 133-167 *)
Definition alsTucker_iter (V : tensor N) (tol timelimit : N) (maxiter : Z) (sq : buf Z) (iter : Z) (s : tk_state)
  : res (flow * tk_state) :=
  '(stop, s) <- (if (Z.eqb (Z.rem iter 100) 0 && negb (Z.eqb iter 0)) || Z.eqb iter maxiter
                 then alsTucker_check V tol timelimit sq s else Ok (false, s)) ;;
  if stop then Ok (Break, s)
  else
    W <- for_ 0 (order V) (alsTucker_mode V (kcore s)) (kW s) ;;
    Ok (Go, mkTk W (kcore s) (kprev s) (kdW s) (kdn s) (kio s)).
Definition alsTucker (V core : tensor N) (W : list (tensor N)) (tol timelimit : N) (maxiter : Z) (x : io (N:=N))
  : res (bool * tk_state) :=
  let '(t, x) := wtime clk x in
  let x := set_st x t in
  sq <- mk_seqV (order V) ;;
  '(_, iter, s) <- for_iter (rounds 0 maxiter) 0 (alsTucker_iter V tol timelimit maxiter sq)
      (mkTk W core core [] n0 x) ;;
  Ok (negb (Z.eqb iter (maxiter + 1)), s).

(** ** als_Tucker.cxx:178-230 ttmc_map_DT *)
Fixpoint ttmc_map_DT (fuel : nat) (mp : smap (tensor N)) (parent sibling : smap str)
  (V : tensor N) (W : list (tensor N)) (args : str) : res (smap (tensor N)) :=
  match fuel with
  | O => Err OutOfFuel
  | Datatypes.S fuel' =>
    match mp args with
    | Some _ => Ok mp                                                          (* 182-183 *)
    | None =>
      let o := order V in
      sq <- mk_seqV o ;;
      seq_Y <- mk_seqV o ;;
      '(mp, V_front) <- (if Nat.eqb (length args) (o / 2) || Nat.eqb (length args) (o / 2 + 1)
                         then Ok (mp, V)                                       (* 198-200 *)
                         else                                                  (* 201-207 *)
                           let par := sget parent args in
                           mp <- (match mp par with
                                  | Some _ => Ok mp
                                  | None => ttmc_map_DT fuel' mp parent sibling V W par
                                  end) ;;
                           Ok (mp, tget mp par)) ;;
      let sib := sget sibling args in
      '(V_front, _, _) <- for_ 0 (length sib) (fun j st =>                     (* 216-227 *)
          let '(V_front, lens_Y, seq_Y) := st in
          c <- str_at sib j ;;
          m <- ix c ;;
          Wm <- lget W m ;;
          lens_Y <- lput lens_Y m (ncol Wm) ;;
          seq_Y <- bset seq_Y m ch_star ;;
          V_temp <- assign_b (zeros lens_Y) seq_Y [(V_front, sq); (Wm, lit [c; ch_star])] ;;
          seq_Y <- bset seq_Y m c ;;
          Ok (V_temp, lens_Y, seq_Y)) (V_front, lens V_front, seq_Y) ;;
      Ok (sput mp args V_front)
    end
  end.

(** als_Tucker.cxx:356-394 (and 581-619): Y of mode i from the tree; seq_Y is restored *)
Definition dt_Y (fuel : nat) (parent sibling : smap str) (V : tensor N) (W : list (tensor N))
  (sq : buf Z) (Y : tensor N) (mp : smap (tensor N)) (seq_Y : buf Z) (i : nat)
  : res (smap (tensor N) * tensor N * buf Z) :=
  let args := [chr i] in
  let par := sget parent args in
  let sib := sget sibling args in
  mp <- (match mp par with
         | Some _ => Ok mp
         | None => ttmc_map_DT fuel mp parent sibling V W par
         end) ;;
  let P := tget mp par in
  if Nat.eqb (length sib) 1 then                                               (* 363-373 *)
    p0 <- str_at par 0 ;;
    p1 <- str_at par 1 ;;
    let a := if Z.eqb (chr i) p0 then p1 else p0 in
    m <- ix a ;;
    Wm <- lget W m ;;
    seq_Y <- bset seq_Y m ch_star ;;
    Y <- assign_b Y seq_Y [(P, sq); (Wm, lit [a; ch_star])] ;;
    seq_Y <- bset seq_Y m a ;;
    Ok (mp, Y, seq_Y)
  else                                                                         (* 374-394 *)
    p0 <- str_at par 0 ;;
    p1 <- str_at par 1 ;;
    p2 <- str_at par 2 ;;
    let '(a1, a2) := if Z.eqb p0 (chr i) then (p1, p2) else (p0, p1) in
    m1 <- ix a1 ;;
    W1 <- lget W m1 ;;
    m2 <- ix a2 ;;
    W2 <- lget W m2 ;;
    seq_Y <- bset seq_Y m1 ch_star ;;
    seq_Y <- bset seq_Y m2 ch_hat ;;
    Y <- assign_b Y seq_Y [(P, sq); (W1, lit [a1; ch_star]); (W2, lit [a2; ch_hat])] ;;
    seq_Y <- bset seq_Y m1 a1 ;;
    seq_Y <- bset seq_Y m2 a2 ;;
    Ok (mp, Y, seq_Y).

(** seq_Y_end = "ab..*", seq_W_end = "*z" with z the last letter: als_Tucker.cxx:258-270, 490-503, 691-705.
    (seq_Y_end has no terminator; CTF reads V.order characters.) *)
Definition mk_ends (o : nat) : res (buf Z * str) :=
  b <- fill_letters o (newbuf (o + 1)) ;;
  b <- (if Nat.eqb o 0 then Err UB else bset b (o - 1) ch_star) ;;
  Ok (b, [ch_star; chr (o - 1)]).
(** lens_Y[m] = W[m].ncol: als_Tucker.cxx:278-281, 510-513, 576-578, 712-715 *)
Definition ncols (W : list (tensor N)) (o : nat) : res (list nat) :=
  for_ 0 o (fun m ls => Wm <- lget W m ;; Ok (ls ++ [ncol Wm])) [].
(** Y_end: als_Tucker.cxx:282-283, 514-515, 716-717 *)
Definition mk_Yend (V : tensor N) (W : list (tensor N)) : res (tensor N) :=
  let o := order V in
  ls <- ncols W o ;;
  l <- lget (lens V) (o - 1) ;;
  ls <- lput ls (o - 1) l ;;
  Ok (zeros ls).
(** if (i == V.order - 1) Y_end[seq_Y] = Y[seq_Y]: als_Tucker.cxx:395-397, 620-622, 861-863 *)
Definition save_Yend (o i : nat) (Y_end Y : tensor N) (seq_Y : buf Z) : res (tensor N) :=
  if Nat.eqb (i + 1) o then assign_b Y_end seq_Y [(Y, seq_Y)] else Ok Y_end.
(** core[seq] = Y_end[seq_Y_end] * W[V.order-1][seq_W_end]: als_Tucker.cxx:408, 645, 891 *)
Definition end_core (o : nat) (sq : buf Z) (core Y_end : tensor N) (W : list (tensor N)) : res (tensor N) :=
  '(seq_Y_end, seq_W_end) <- mk_ends o ;;
  Wl <- lget W (o - 1) ;;
  assign_b core sq [(Y_end, seq_Y_end); (Wl, lit seq_W_end)].

(** als_Tucker.cxx:289-313 (and 522-546, 765-789): the measured part of a check *)
Definition tk_measure (V core core_prev : tensor N) (W : list (tensor N)) (x : io (N:=N))
  : res (tensor N * N * N * N * io (N:=N)) :=
  let o := order V in
  let '(t1, x) := check_begin clk x in
  core <- TTMc core V W None ;;
  let diffnorm := nabs (norm2 core - norm2 core_prev) in
  W_T <- for_ 0 o (fun i acc =>
      Wi <- lget W i ;;
      T <- assign false (zeros [ncol Wi; nrow Wi]) sij [prodt [(Wi, sji)]] ;;
      Ok (acc ++ [T])) [] ;;
  V_check <- TTMc (zeros (lens V)) core W_T None ;;
  sq <- mk_seqV o ;;
  sD <- take o sq ;;
  sC <- take (order V_check) sq ;;
  V_diff <- assign false (zeros (lens V)) sD [mkTerm n1 [(V_check, sC)]; mkTerm (- n1) [(V, sD)]] ;;
  let '(dtime, x) := check_end clk t1 x in
  Ok (core, diffnorm, norm2 V_diff, dtime, x).

(** ** als_Tucker.cxx:240-424 alsTucker_DT *)
(** lines 342-407: one mode.  State: W, table, Y_end, lens_Y, seq_Y *)
Definition tk_sweep : Type := list (tensor N) * smap (tensor N) * tensor N * list nat * buf Z.
Definition Tucker_DT_mode (fuel : nat) (parent sibling : smap str) (V core : tensor N) (sq : buf Z)
  (i : nat) (st : tk_sweep) : res tk_sweep :=
  let '(W, mp, Y_end, lens_Y, seq_Y) := st in
  l <- lget (lens V) i ;;
  lens_Y <- lput lens_Y i l ;;
  let Y := zeros lens_Y in
  Wi <- lget W i ;;
  lens_Y <- lput lens_Y i (ncol Wi) ;;
  '(mp, Y, seq_Y) <- dt_Y fuel parent sibling V W sq Y mp seq_Y i ;;
  Y_end <- save_Yend (order V) i Y_end Y seq_Y ;;
  '(U, _) <- tk_svd core Y i ;;
  W <- lput W i U ;;
  Ok (W, mp, Y_end, lens_Y, seq_Y).
(** lines 340-408: clear the table, all modes, the core *)
Definition Tucker_DT_sweep (fuel : nat) (parent sibling : smap str) (V core : tensor N) (sq : buf Z)
  (st : list (tensor N) * tensor N * list nat * buf Z)
  : res (tensor N * (list (tensor N) * tensor N * list nat * buf Z)) :=
  let '(W, Y_end, lens_Y, seq_Y) := st in
  '(W, _, Y_end, lens_Y, seq_Y) <- for_ 0 (order V) (Tucker_DT_mode fuel parent sibling V core sq)
      (W, sempty, Y_end, lens_Y, seq_Y) ;;
  core <- end_core (order V) sq core Y_end W ;;
  Ok (core, (W, Y_end, lens_Y, seq_Y)).
(** state of the loop: the tensors, and the local Y_end, lens_Y, seq_Y *)
Record tk_loop := mkTL { lk : tk_state; lyend : tensor N; llens : list nat; lseqY : buf Z }.
(** lines 288-338 *)
Definition Tucker_DT_check (V : tensor N) (tol timelimit : N) (bench : bool) (sq : buf Z) (iter : Z) (s : tk_state)
  : res (bool * tk_state) :=
  '(core, dn, dV, dtime, x) <- tk_measure V (kcore s) (kprev s) (kW s) (kio s) ;;
  let x := if bench then emit rank0 x (RowDT dtime)
           else emit rank0 x (Row (nth 0 (lens V) 0%nat) iter dn tol 0 dV dtime) in
  let '(stop, x) := tk_stop dn tol timelimit x in
  if stop then Ok (true, mkTk (kW s) core (kprev s) (kdW s) dn x)
  else
    prev <- copy_core (kprev s) core sq ;;
    Ok (false, mkTk (kW s) core prev (kdW s) dn x).
Definition tk_checks (iter maxiter resprint : Z) : res bool :=
  m <- zmod iter resprint ;;
  Ok ((Z.eqb m 0 && negb (Z.eqb iter 0)) || Z.eqb iter 1 || Z.eqb iter maxiter).
(** lines 286-412 *)
Definition Tucker_DT_iter (fuel : nat) (parent sibling : smap str) (V : tensor N) (tol timelimit : N)
  (maxiter resprint : Z) (bench : bool) (sq : buf Z) (iter : Z) (s : tk_loop) : res (flow * tk_loop) :=
  c <- tk_checks iter maxiter resprint ;;
  '(stop, k) <- (if c then Tucker_DT_check V tol timelimit bench sq iter (lk s) else Ok (false, lk s)) ;;
  if stop then Ok (Break, mkTL k (lyend s) (llens s) (lseqY s))
  else
    '(core, (W, Y_end, lens_Y, seq_Y)) <-
       Tucker_DT_sweep fuel parent sibling V (kcore k) sq (kW k, lyend s, llens s, lseqY s) ;;
    Ok (Go, mkTL (mkTk W core (kprev k) (kdW k) (kdn k) (kio k)) Y_end lens_Y seq_Y).
Definition alsTucker_DT (fuel : nat) (V core : tensor N) (W : list (tensor N)) (tol timelimit : N) (maxiter resprint : Z)
  (bench : bool) (x : io (N:=N)) : res (bool * tk_state) :=
  let o := order V in
  let '(t, x) := wtime clk x in
  let x := set_st x t in
  sq <- mk_seqV o ;;
  seq_Y <- mk_seqV o ;;
  '(parent, sibling) <- Construct_Dimension_Tree fuel (sempty, sempty) 0 (o - 1) ;;
  Y_end <- mk_Yend V W ;;
  lens_Y <- ncols W o ;;
  '(_, iter, s) <- for_iter (rounds 0 maxiter) 0
      (Tucker_DT_iter fuel parent sibling V tol timelimit maxiter resprint bench sq)
      (mkTL (mkTk W core core [] (nlit (1000 # 1)) x) Y_end lens_Y seq_Y) ;;
  Ok (negb (Z.eqb iter (maxiter + 1)), lk s).

(** ** als_Tucker.cxx:426-466 Build_ttmc_map.  char args2[sizeof(args)] has 8 cells (sizeof of a pointer). *)
Fixpoint Build_ttmc_map (fuel : nat) (V : tensor N) (W : list (tensor N)) (mp : smap (tensor N)) (args : str)
  : res (smap (tensor N)) :=
  match fuel with
  | O => Err OutOfFuel
  | Datatypes.S fuel' =>
    let o := order V in
    let level := length args in
    if Nat.eqb level 0 then Err UB     (* strlen(args)-1 wraps around *)
    else
    '(mp, M) <- (if Nat.eqb level 1 then Ok (mp, V)
                 else
                   b <- strncpy (newbuf 8) 0 (firstn (level - 1) args) ;;
                   b <- bset b (level - 1) 0%Z ;;
                   args2 <- cstr b ;;
                   mp <- (match mp args2 with
                          | Some _ => Ok mp
                          | None => Build_ttmc_map fuel' V W mp args2
                          end) ;;
                   Ok (mp, tget mp args2)) ;;
    seq1 <- mk_seqV o ;;
    seq2 <- mk_seqV o ;;
    c <- str_at args (level - 1) ;;
    m <- ix c ;;
    seq1 <- bset seq1 m ch_star ;;
    s1 <- cstr seq1 ;;
    ls <- for_ 0 (length s1) (fun ii b =>
        ch <- str_at s1 ii ;;
        if Z.eqb ch ch_star then Wi <- lget W ii ;; bset b ii (ncol Wi)
        else l <- lget (lens M) ii ;; bset b ii l) (newbuf o) ;;
    T <- new_tensor o ls ;;
    Wm <- lget W m ;;
    T <- assign_b T seq1 [(M, seq2); (Wm, lit [c; ch_star])] ;;
    Ok (sput mp args T)
  end.
(** als_Tucker.cxx:742-760: all operators, starting from an empty table *)
Definition build_ttmc_operators (V : tensor N) (W : list (tensor N)) (sq : buf Z) : res (smap (tensor N)) :=
  let o := order V in
  mp <- for_ 0 o (fun ii mp =>
      for_ (ii + 1) o (fun jj mp =>
        s <- seq_except2 o sq ii jj ;;
        Build_ttmc_map (o + 1) V W mp s) mp) sempty ;;
  for_ 0 o (fun ii mp =>
      s <- seq_except1 o sq ii ;;
      Build_ttmc_map (o + 1) V W mp s) mp.

(** ** sign alignment: als_Tucker.cxx:632-643 and 874-885 *)
Definition sign_align (Wi Sg P : tensor N) : res (tensor N) :=
  let z := zeros [ncol Wi; ncol Wi] in
  check <- assign false z sik [prodt [(Wi, sji); (P, sjk)]] ;;
  Sg <- assign false Sg [ch_i] [prodt [(check, [ch_i; ch_i])]] ;;
  let Sg := mkT (lens Sg) (map (fun b => if nltb n0 b then n1 else - n1) (data Sg)) in
  trans <- assign false z [ch_i; ch_i] [prodt [(Sg, [ch_i])]] ;;
  assign false Wi sij [prodt [(Wi, sik); (trans, skj)]].

(** ** als_Tucker.cxx:476-669 alsTucker_DT_sub *)
(** lines 568-644: one mode *)
Definition Tucker_sub_mode (fuel : nat) (parent sibling : smap str) (V core : tensor N) (W_prev : list (tensor N)) (sq : buf Z)
  (i : nat) (st : list (tensor N) * smap (tensor N) * tensor N * buf Z)
  : res (list (tensor N) * smap (tensor N) * tensor N * buf Z) :=
  let '(W, mp, Y_end, seq_Y) := st in
  lens_Y <- ncols W (order V) ;;
  l <- lget (lens V) i ;;
  lens_Y <- lput lens_Y i l ;;
  '(mp, Y, seq_Y) <- dt_Y fuel parent sibling V W sq (zeros lens_Y) mp seq_Y i ;;
  Y_end <- save_Yend (order V) i Y_end Y seq_Y ;;
  '(U, Sg) <- tk_svd core Y i ;;
  P <- lget W_prev i ;;
  Wi <- sign_align U Sg P ;;
  W <- lput W i Wi ;;
  Ok (W, mp, Y_end, seq_Y).
Definition Tucker_sub_sweep (fuel : nat) (parent sibling : smap str) (V core : tensor N) (W_prev : list (tensor N)) (sq : buf Z)
  (st : list (tensor N) * tensor N * buf Z) : res (tensor N * (list (tensor N) * tensor N * buf Z)) :=
  let '(W, Y_end, seq_Y) := st in
  '(W, _, Y_end, seq_Y) <- for_ 0 (order V) (Tucker_sub_mode fuel parent sibling V core W_prev sq) (W, sempty, Y_end, seq_Y) ;;
  core <- end_core (order V) sq core Y_end W ;;
  Ok (core, (W, Y_end, seq_Y)).
(** state of the loops of the two phases; [bprevW] is W_prev (first phase) or W_init (second phase) *)
Record tk_sub := mkTS { sk : tk_state; syend : tensor N; sseqY : buf Z; sprevW : list (tensor N);
                        smp : smap (tensor N); sfirst : N }.
Definition with_sk (s : tk_sub) (k : tk_state) : tk_sub :=
  mkTS k (syend s) (sseqY s) (sprevW s) (smp s) (sfirst s).
(** lines 519-663.  [dw_update] (lines 648-657) is the same loop as in als_CP.cxx:595-606. *)
Definition Tucker_sub_iter (fuel : nat) (parent sibling : smap str) (V : tensor N) (tol tol_init timelimit : N)
  (maxiter resprint : Z) (sq : buf Z) (iter : Z) (s : tk_sub) : res (flow * tk_sub) :=
  c <- tk_checks iter maxiter resprint ;;
  '(stop, k) <- (if c then Tucker_DT_check V tol timelimit false sq iter (sk s) else Ok (false, sk s)) ;;
  if stop then Ok (Break, with_sk s k)
  else
    '(core, (W, Y_end, seq_Y)) <-
       Tucker_sub_sweep fuel parent sibling V (kcore k) (sprevW s) sq (kW k, syend s, sseqY s) ;;
    '(dW, W_prev, cnt) <- dw_update (order V) tol_init W (kdW k) (sprevW s) ;;
    let s := mkTS (mkTk W core (kprev k) dW (kdn k) (kio k)) Y_end seq_Y W_prev (smp s) (sfirst s) in
    if Nat.eqb cnt (order V) then Ok (Return, s) else Ok (Go, s).
Definition alsTucker_DT_sub (fuel : nat) (V : tensor N) (tol tol_init timelimit : N) (maxiter resprint : Z)
  (iter : Z) (k : tk_state) : res (Z * tk_state) :=
  let o := order V in
  W_prev <- for_ 0 o (fun i acc => Wi <- lget (kW k) i ;; Ok (acc ++ [zeros [nrow Wi; ncol Wi]])) [] ;;
  sq <- mk_seqV o ;;
  seq_Y <- mk_seqV o ;;
  '(parent, sibling) <- Construct_Dimension_Tree fuel (sempty, sempty) 0 (o - 1) ;;
  Y_end <- mk_Yend V (kW k) ;;
  '(_, iter, s) <- for_iter (rounds iter maxiter) iter
      (Tucker_sub_iter fuel parent sibling V tol tol_init timelimit maxiter resprint sq)
      (mkTS k Y_end seq_Y W_prev sempty n0) ;;
  Ok (iter, sk s).

(** ** als_Tucker.cxx:679-896 alsTucker_PP_sub *)
(** lines 828-860: the perturbed TTMc of mode i *)
Definition pp_Y (V : tensor N) (mp : smap (tensor N)) (sq seq_Y : buf Z) (dW : list (tensor N)) (i : nat)
  : res (tensor N * buf Z) :=
  let o := order V in
  args_Y <- seq_except1 o sq i ;;
  let add args ii st :=
      let '(Y, seq_Y) := st in
      D <- lget dW ii ;;
      seq_Y <- bset seq_Y ii ch_star ;;
      let T := tget mp args in
      sY <- take (order Y) seq_Y ;;
      sT <- take (order T) sq ;;
      sD <- take (order D) (lit [chr ii; ch_star]) ;;
      Y <- assign true Y sY [prodt [(T, sT); (D, sD)]] ;;
      seq_Y <- bset seq_Y ii (chr ii) ;;
      Ok (Y, seq_Y) in
  st <- for_ 0 i (fun ii st => args <- seq_except2 o sq ii i ;; add args ii st) (tget mp args_Y, seq_Y) ;;
  for_ (i + 1) o (fun ii st => args <- seq_except2 o sq i ii ;; add args ii st) st.
(** lines 824-890: one mode *)
Definition Tucker_PP_mode (V core : tensor N) (mp : smap (tensor N)) (W_init : list (tensor N)) (sq : buf Z)
  (i : nat) (st : list (tensor N) * list (tensor N) * tensor N * buf Z)
  : res (list (tensor N) * list (tensor N) * tensor N * buf Z) :=
  let '(W, dW, Y_end, seq_Y) := st in
  '(Y, seq_Y) <- pp_Y V mp sq seq_Y dW i ;;
  Y_end <- save_Yend (order V) i Y_end Y seq_Y ;;
  '(U, Sg) <- tk_svd core Y i ;;
  P <- lget W_init i ;;
  Wi <- sign_align U Sg P ;;
  W <- lput W i Wi ;;
  Di <- lget dW i ;;
  Di <- assign false Di sij [mkTerm n1 [(Wi, sij)]; mkTerm (- n1) [(P, sij)]] ;;
  dW <- lput dW i Di ;;
  Ok (W, dW, Y_end, seq_Y).
Definition Tucker_PP_sweep (V core : tensor N) (mp : smap (tensor N)) (W_init : list (tensor N)) (sq : buf Z)
  (st : list (tensor N) * list (tensor N) * tensor N * buf Z)
  : res (tensor N * (list (tensor N) * list (tensor N) * tensor N * buf Z)) :=
  '(W, dW, Y_end, seq_Y) <- for_ 0 (order V) (Tucker_PP_mode V core mp W_init sq) st ;;
  core <- end_core (order V) sq core Y_end W ;;
  Ok (core, (W, dW, Y_end, seq_Y)).
(** lines 763-822.  In bench mode only rank 0 resets st_time (line 806) and keeps dtime_first. *)
Definition Tucker_PP_check (V : tensor N) (tol timelimit : N) (bench : bool) (maxiter : Z) (sq : buf Z) (iter : Z) (s : tk_sub)
  : res (bool * tk_sub) :=
  let k := sk s in
  '(core, dn, dV, dtime, x) <- tk_measure V (kcore k) (kprev k) (kW k) (kio k) ;;
  let '(x, df) :=
    if bench then
      if rank0 then
        if negb (Z.eqb iter maxiter) then let '(t, x) := wtime clk x in (set_st x t, dtime)
        else (emit rank0 x (RowPP (sfirst s + dtime) dtime), sfirst s + dtime)
      else (x, sfirst s)
    else (emit rank0 x (Row (nth 0 (lens V) 0%nat) iter dn tol 1 dV dtime), sfirst s) in
  let '(stop, x) := tk_stop dn tol timelimit x in
  let fin prev x := mkTS (mkTk (kW k) core prev (kdW k) dn x) (syend s) (sseqY s) (sprevW s) (smp s) df in
  if stop || Z.eqb iter maxiter then Ok (true, fin (kprev k) x)
  else
    prev <- copy_core (kprev k) core sq ;;
    Ok (false, fin prev x).
(** lines 720-892 *)
Definition Tucker_PP_iter (V : tensor N) (tol tol_init timelimit : N) (maxiter resprint : Z) (bench : bool) (sq : buf Z)
  (init_iter iter : Z) (s : tk_sub) : res (flow * tk_sub) :=
  let o := order V in
  cnt <- (if bench then Ok 0%nat else dw_count o tol_init (kW (sk s)) (kdW (sk s))) ;;
  if 0 <? cnt then Ok (Return, s)
  else
    s <- (if Z.eqb iter init_iter then
            let k := sk s in
            dW <- mk_dW (kW k) o ;;
            mp <- build_ttmc_operators V (kW k) sq ;;
            Ok (mkTS (mkTk (kW k) (kcore k) (kprev k) dW (kdn k) (kio k)) (syend s) (sseqY s) (kW k) mp (sfirst s))
          else Ok s) ;;
    c <- tk_checks iter maxiter resprint ;;
    '(stop, s) <- (if c || Z.eqb iter init_iter
                   then Tucker_PP_check V tol timelimit bench maxiter sq iter s else Ok (false, s)) ;;
    if stop then Ok (Break, s)
    else
      let k := sk s in
      '(core, (W, dW, Y_end, seq_Y)) <-
         Tucker_PP_sweep V (kcore k) (smp s) (sprevW s) sq (kW k, kdW k, syend s, sseqY s) ;;
      Ok (Go, mkTS (mkTk W core (kprev k) dW (kdn k) (kio k)) Y_end seq_Y (sprevW s) (smp s) (sfirst s)).
Definition alsTucker_PP_sub (V : tensor N) (tol tol_init timelimit : N) (maxiter resprint : Z) (bench : bool)
  (iter : Z) (k : tk_state) : res (Z * tk_state) :=
  let o := order V in
  sq <- mk_seqV o ;;
  seq_Y <- mk_seqV o ;;
  Y_end <- mk_Yend V (kW k) ;;
  '(f, iter', s) <- for_iter (rounds iter maxiter) iter
      (Tucker_PP_iter V tol tol_init timelimit maxiter resprint bench sq iter)
      (mkTS k Y_end seq_Y [] sempty n0) ;;
  let iter' := match f with Return => iter' | _ => if bench then (iter' + 1)%Z else iter' end in
  Ok (iter', sk s).

(** ** als_Tucker.cxx:906-962 alsTucker_PP; the while loop runs on fuel: LoopFuel means "still running" *)
Fixpoint tk_while (wf : nat) (dtsub sub : N -> Z -> tk_state -> res (Z * tk_state)) (tol : N) (maxiter : Z)
  (bench : bool) (tol_init : N) (iter : Z) (k : tk_state) : res (Z * tk_state) :=
  if nltb tol (kdn k) && (iter <=? maxiter)%Z then
    match wf with
    | O => Err LoopFuel
    | Datatypes.S wf' =>
      '(iter, k) <- (if bench then Ok (iter, k) else dtsub tol_init iter k) ;;
      '(iter, k) <- sub tol_init iter k ;;
      let tol_init := if nltb (nlit (5 # 1000)) tol_init then tol_init * nlit (9 # 10) else tol_init in
      tk_while wf' dtsub sub tol maxiter bench tol_init iter k
    end
  else Ok (iter, k).
Definition alsTucker_PP (wf fuel : nat) (V core : tensor N) (W : list (tensor N)) (tol tol_init timelimit : N)
  (maxiter resprint : Z) (bench : bool) (x : io (N:=N)) : res (bool * tk_state) :=
  let '(t, x) := wtime clk x in
  let x := set_st x t in
  dW <- mk_dW W (order V) ;;
  '(iter, k) <- tk_while wf
       (fun ti => alsTucker_DT_sub fuel V tol ti timelimit maxiter resprint)
       (fun ti => alsTucker_PP_sub V tol ti timelimit maxiter resprint bench)
       tol maxiter bench tol_init 0 (mkTk W core core dW (nlit (10 # 1)) x) ;;
  Ok (negb (Z.eqb iter (maxiter + 1)), k).
End M.
