(** Model of als_CP.cxx: plain ALS, dimension-tree ALS, pairwise perturbation. *)
From Coq Require Import List ZArith QArith Bool Arith Lia.
From Verif Require Import Base Num Tensor MCommon.
Import ListNotations.
Local Close Scope Q_scope.

(** ** loops with break and return: [for_iter n iter body s] is
    for (iter = iter; <n more rounds>; iter++) { body }; the loops of als_CP.cxx have
    n = maxiter + 1 - iter.  Simplification: iter is an unbounded integer. *)
Inductive flow := Go | Break | Return.
Fixpoint for_iter {S : Type} (n : nat) (iter : Z) (body : Z -> S -> res (flow * S)) (s : S)
  : res (flow * Z * S) :=
  match n with
  | O => Ok (Go, iter, s)
  | Datatypes.S n' =>
    '(f, s) <- body iter s ;;
    match f with
    | Go => for_iter n' (iter + 1)%Z body s
    | _ => Ok (f, iter, s)
    end
  end.
Definition rounds (iter maxiter : Z) : nat := Z.to_nat (maxiter + 1 - iter).

(** iter % resprint, C++ remainder; zero is undefined *)
Definition zmod (a b : Z) : res Z := if Z.eqb b 0 then Err UB else Ok (Z.rem a b).

(** m[k] for a map<string,Tensor<>>: a missing key default-constructs an order-0 tensor *)
Definition tget {N} (m : smap (tensor N)) (k : str) : tensor N :=
  match m k with Some T => T | None => tnil end.

Section M.
Context {N : num} (LA : lapack N).
Local Open Scope num_scope.

(** ** clock and output file.  MPI_Wtime() number n returns [clk n]; only rank 0 writes rows. *)
Context (clk : nat -> N) (rank0 : bool).
Inductive row :=
| Row (dim : nat) (iter : Z) (gradnorm tol : N) (pp : nat) (diffV dtime : N)
| RowDT (dtime : N)
| RowPP (first second : N).
Record io := mkIo { ck : nat; st_time : N; rows : list row }.
Definition wtime (x : io) : N * io := (clk (ck x), mkIo (S (ck x)) (st_time x) (rows x)).
Definition set_st (x : io) (t : N) : io := mkIo (ck x) t (rows x).
Definition emit (x : io) (r : row) : io :=
  if rank0 then mkIo (ck x) (st_time x) (rows x ++ [r]) else x.

(** seq_V = "abc..": als_CP.cxx:30-36, 145-151, 440-446, 645-651, 878-884 *)
Definition mk_seqV (o : nat) : res (buf Z) :=
  b <- bset (newbuf (o + 1)) o 0%Z ;; for_ 0 o (fun j b => bset b j (chr j)) b.

(** projnorm = sqrt(sum ||grad_W[i]||^2): als_CP.cxx:174-183 *)
Definition sumnorm (o : nat) (G : list (tensor N)) : res N :=
  p <- for_ 0 o (fun i p => g <- lget G i ;; Ok (p + norm2 g * norm2 g)) n0 ;; Ok (nsqrt p).

(** diff_V[seq_V] = V[seq_V] - V_build[seq_V]; diff_V.norm2(): als_CP.cxx:185-190 *)
Definition diffnorm (V : tensor N) (W : list (tensor N)) (seq_V : buf Z) : res N :=
  V_build <- build_V W (order V) ;;
  sV <- take (order V) seq_V ;;
  sB <- take (order V_build) seq_V ;;
  D <- assign false V sV [mkTerm n1 [(V, sV)]; mkTerm (- n1) [(V_build, sB)]] ;;
  Ok (norm2 D).

(** timing of a residual check: st_time += MPI_Wtime() - st_time1; dtime = MPI_Wtime() - st_time
    (als_CP.cxx:192-193, with st_time1 read at line 167) *)
Definition check_begin (x : io) : N * io := wtime x.
Definition check_end (t1 : N) (x : io) : N * io :=
  let '(t2, x) := wtime x in
  let x := set_st x (st_time x + (t2 - t1)) in
  let '(t3, x) := wtime x in
  (t3 - st_time x, x).
(** (projnorm < tol) || MPI_Wtime() - st_time > timelimit : als_CP.cxx:60, 215, 506, 740, 983 *)
Definition stop_test (projnorm tol timelimit : N) (x : io) : bool * io :=
  if nltb projnorm tol then (true, x)
  else let '(t, x) := wtime x in (nltb timelimit (t - st_time x), x).

(** als_CP.cxx:166-194 (and 458-491, 698-727): the measured part of a residual check *)
Definition measure (V : tensor N) (W G : list (tensor N)) (seq_V : buf Z) (x : io)
  : res (N * N * N * io) :=
  let '(t1, x) := check_begin x in
  projnorm <- sumnorm (order V) G ;;
  dn <- diffnorm V W seq_V ;;
  let '(dtime, x) := check_end t1 x in
  Ok (projnorm, dn, dtime, x).

(** ** als_CP.cxx:20-115 alsCP *)
Record als_state := mkAls { aW : list (tensor N); aG : list (tensor N); aS : tensor N;
                            aseq : buf Z; apn : N; afn : N; aio : io }.
(** lines 66-101: one mode *)
Definition alsCP_mode (V : tensor N) (F : list (tensor N)) (i : nat) (st : list (tensor N) * tensor N * buf Z)
  : res (list (tensor N) * tensor N * buf Z) :=
  let o := order V in
  let '(W, Sm, seq_V) := st in
  seq_V <- swap_char seq_V i (o - 1) ;;
  Wi <- lget W i ;;
  '(index, lens_H) <- make_index o seq_V (fun m => lget (lens V) m) (ncol Wi) ;;
  M <- KhatriRao_contract (zeros [nrow Wi; ncol Wi]) V W index lens_H ;;
  Sm <- gram_index Sm W o index ;;
  Fi <- lget F i ;;
  M <- assign true M sij [prodt [(Fi, sij)]] ;;
  Wi <- SVD_solve LA M Wi Sm ;;
  W <- lput W i Wi ;;
  seq_V <- swap_char seq_V i (o - 1) ;;
  Ok (W, Sm, seq_V).
Definition alsCP_sweep (V : tensor N) (F : list (tensor N)) (st : list (tensor N) * tensor N * buf Z) :=
  for_ 0 (order V) (alsCP_mode V F) st.
(** lines 44-62: the check *)
Definition alsCP_check (V : tensor N) (F : list (tensor N)) (tol timelimit : N) (st : als_state)
  : res (bool * als_state) :=
  let o := order V in
  G <- gradient_CP V (aW st) (aG st) ;;
  proj <- for_ 0 o (fun i acc =>
      Wi <- lget (aW st) i ;; g <- lget G i ;; f <- lget F i ;;
      p <- assign false (zeros [nrow Wi; ncol Wi]) sij [mkTerm n1 [(g, sij)]; mkTerm (- n1) [(f, sij)]] ;;
      Ok (acc ++ [p])) [] ;;
  projnorm <- sumnorm o proj ;;
  Fnorm <- for_ 0 o (fun i a => f <- lget F i ;; Ok (a + norm2 f)) n0 ;;
  let '(stop, x) := stop_test projnorm tol timelimit (aio st) in
  Ok (stop, mkAls (aW st) G (aS st) (aseq st) projnorm Fnorm x).
(** lines 42-105: one iteration *)
Definition alsCP_iter (V : tensor N) (F : list (tensor N)) (tol timelimit : N) (maxiter iter : Z)
  (st : als_state) : res (flow * als_state) :=
  '(stop, st) <- (if Z.eqb (Z.rem iter 100) 0 || Z.eqb iter maxiter
                  then alsCP_check V F tol timelimit st else Ok (false, st)) ;;
  if stop then Ok (Break, st)
  else
    '(W, Sm, sq) <- alsCP_sweep V F (aW st, aS st, aseq st) ;;
    W <- (if neqb (afn st) n0 then Normalize W (order V) else Ok W) ;;
    Ok (Go, mkAls W (aG st) Sm sq (apn st) (afn st) (aio st)).
Definition alsCP (V : tensor N) (W grad_W F : list (tensor N)) (tol timelimit : N) (maxiter : Z) (x : io)
  : res (bool * als_state) :=
  let '(t, x) := wtime x in
  let x := set_st x t in
  seq_V <- mk_seqV (order V) ;;
  W0 <- lget W 0 ;;
  '(_, iter, st) <- for_iter (rounds 0 maxiter) 0 (alsCP_iter V F tol timelimit maxiter)
       (mkAls W grad_W (zeros [ncol W0; ncol W0]) seq_V n0 n0 x) ;;
  Ok (negb (Z.eqb iter (maxiter + 1)), st).

(** ** dimension tree: als_CP.cxx:238-287 (and 524-573): the MTTKRP of mode i from the tree.
    Returns the map and the new contents of M. *)
Definition dt_M (fuel : nat) (parent sibling : smap str) (V : tensor N) (W : list (tensor N))
  (mp : smap (tensor N)) (i : nat) : res (smap (tensor N) * tensor N) :=
  let args := [chr i] in
  let par := sget parent args in
  let sib := sget sibling args in
  mp <- (match mp par with
         | Some _ => Ok mp
         | None => mttkrp_map_DT fuel mp parent sibling V W par
         end) ;;
  Wi <- lget W i ;;
  let M := zeros [nrow Wi; ncol Wi] in
  let P := tget mp par in
  if Nat.eqb (length sib) 1 then                                            (* 245-260 *)
    p0 <- str_at par 0 ;;
    p1 <- str_at par 1 ;;
    let a := if Z.eqb p0 (chr i) then p1 else p0 in
    wa <- ix a ;;
    Wa <- lget W wa ;;
    M <- assign_b M (lit [chr i; ch_star]) [(P, lit [p0; p1; ch_star]); (Wa, lit [a; ch_star])] ;;
    Ok (mp, M)
  else                                                                      (* 261-287 *)
    p0 <- str_at par 0 ;;
    p1 <- str_at par 1 ;;
    p2 <- str_at par 2 ;;
    let '(a1, a2) := if Z.eqb p0 (chr i) then (p1, p2) else (p0, p1) in
    w1 <- ix a1 ;;
    W1 <- lget W w1 ;;
    w2 <- ix a2 ;;
    W2 <- lget W w2 ;;
    M <- assign_b M (lit [chr i; ch_star])
           [(P, lit [p0; p1; p2; ch_star]); (W1, lit [a1; ch_star]); (W2, lit [a2; ch_star])] ;;
    Ok (mp, M).

(** regul["ii"] = 1.*lambda: als_CP.cxx:136-137, 424-425, 631-632, 864-865 *)
Definition mk_regul (R : nat) (lambda : N) : res (tensor N) :=
  assign false (zeros [R; R]) [ch_i; ch_i] [mkTerm lambda []].

(** als_CP.cxx:222-305: one mode of alsCP_DT *)
Definition sweep_state : Type := list (tensor N) * list (tensor N) * tensor N * smap (tensor N) * buf Z.
Definition alsCP_DT_mode (fuel : nat) (parent sibling : smap str) (V : tensor N) (F : list (tensor N))
  (regul : tensor N) (i : nat) (st : sweep_state) : res sweep_state :=
  let o := order V in
  let '(W, G, Sm, mp, seq_V) := st in
  seq_V <- swap_char seq_V i (o - 1) ;;
  Wi <- lget W i ;;
  '(index, lens_H) <- make_index o seq_V (fun m => lget (lens V) m) (ncol Wi) ;;
  '(mp, M) <- dt_M fuel parent sibling V W mp i ;;
  Sm <- gram_index Sm W o index ;;
  Sm <- assign true Sm sij [prodt [(regul, sij)]] ;;
  Fi <- lget F i ;;
  M <- assign true M sij [prodt [(Fi, sij)]] ;;
  g <- lget G i ;;
  g <- gradsubprob M Sm Wi g ;;
  G <- lput G i g ;;
  Wi <- SVD_solve LA M Wi Sm ;;
  W <- lput W i Wi ;;
  seq_V <- swap_char seq_V i (o - 1) ;;
  Ok (W, G, Sm, mp, seq_V).
(** lines 219-306: clear the table, all modes, Normalize *)
Definition alsCP_DT_sweep (fuel : nat) (parent sibling : smap str) (V : tensor N) (F : list (tensor N))
  (regul : tensor N) (W G : list (tensor N)) (Sm : tensor N) (seq_V : buf Z)
  : res (list (tensor N) * list (tensor N) * tensor N * buf Z) :=
  '(W, G, Sm, _, seq_V) <- for_ 0 (order V) (alsCP_DT_mode fuel parent sibling V F regul) (W, G, Sm, sempty, seq_V) ;;
  W <- Normalize W (order V) ;;
  Ok (W, G, Sm, seq_V).

(** als_CP.cxx:127-320 alsCP_DT *)
Record dt_state := mkDt { dtW : list (tensor N); dtG : list (tensor N); dtS : tensor N;
                          dtseq : buf Z; dtpn : N; dtio : io }.
(** lines 166-217 *)
Definition alsCP_DT_check (V : tensor N) (tol timelimit : N) (bench : bool) (iter : Z) (st : dt_state)
  : res (bool * dt_state) :=
  '(pn, dn, dtime, x) <- measure V (dtW st) (dtG st) (dtseq st) (dtio st) ;;
  let x := if bench then (if Z.eqb iter 0 then x else emit x (RowDT dtime))
           else emit x (Row (nth 0 (lens V) 0%nat) iter pn tol 0 dn dtime) in
  let '(stop, x) := stop_test pn tol timelimit x in
  Ok (stop, mkDt (dtW st) (dtG st) (dtS st) (dtseq st) pn x).
Definition alsCP_DT_iter (fuel : nat) (parent sibling : smap str) (V : tensor N) (F : list (tensor N))
  (regul : tensor N) (tol timelimit : N) (maxiter resprint : Z) (bench : bool) (iter : Z) (st : dt_state)
  : res (flow * dt_state) :=
  m <- zmod iter resprint ;;
  '(stop, st) <- (if Z.eqb m 0 || Z.eqb iter maxiter
                  then alsCP_DT_check V tol timelimit bench iter st else Ok (false, st)) ;;
  if stop then Ok (Break, st)
  else
    '(W, G, Sm, sq) <- alsCP_DT_sweep fuel parent sibling V F regul (dtW st) (dtG st) (dtS st) (dtseq st) ;;
    Ok (Go, mkDt W G Sm sq (dtpn st) (dtio st)).
Definition alsCP_DT (fuel : nat) (V : tensor N) (W grad_W F : list (tensor N)) (tol timelimit : N) (maxiter : Z)
  (lambda : N) (resprint : Z) (bench : bool) (x : io) : res (bool * dt_state) :=
  W0 <- lget W 0 ;;
  regul <- mk_regul (ncol W0) lambda ;;
  let '(t, x) := wtime x in
  let x := set_st x t in
  seq_V <- mk_seqV (order V) ;;
  '(parent, sibling) <- Construct_Dimension_Tree fuel (sempty, sempty) 0 (order V - 1) ;;
  '(_, iter, st) <- for_iter (rounds 0 maxiter) 0
       (alsCP_DT_iter fuel parent sibling V F regul tol timelimit maxiter resprint bench)
       (mkDt W grad_W (zeros [ncol W0; ncol W0]) seq_V n0 x) ;;
  Ok (negb (Z.eqb iter (maxiter + 1)), st).

(** ** pairwise-perturbation operators *)
(** als_CP.cxx:323-350 stringbuilder_mttkrp.  [same] is the value of the pointer comparison
    seq == "0" when the argument is the literal "0" (unspecified by C++; false for other arguments).
    Returns the C string written to seq_return, which must hold [cap] characters. *)
Definition stringbuilder_mttkrp (same : bool) (sq : str) (o cap : nat) : res str :=
  complete <- fill_letters o (newbuf (o + 1)) ;;
  complete <- bset complete o 0%Z ;;
  let is0 := str_eqb sq [48%Z] && same in
  if is0 then
    s <- cstr complete ;;
    if length s + 1 <=? cap then Ok s else Err UB
  else
    let l := length sq in
    if o + 1 <? l then Err UB else
    contract <- bset (newbuf (o + 2 - l)) (o + 1 - l) 0%Z ;;
    contract <- (if o <? l then Err UB else bset contract (o - l) ch_star) ;;
    '(contract, _, _) <- for_ 0 o (fun ii st =>
        let '(contract, jj, kk) := st in
        c <- bget complete ii ;;
        hit <- (if jj <? l then s <- str_at sq jj ;; Ok (Z.eqb c s) else Ok false) ;;
        if hit then Ok (contract, S jj, kk)
        else contract <- bset contract kk c ;; Ok (contract, jj, S kk)) (contract, 0, 0)%nat ;;
    s <- cstr contract ;;
    if length s + 1 <=? cap then Ok s else Err UB.

(** lens[] of the operator: als_CP.cxx:371-377 and 400-406 *)
Definition op_lens (V : tensor N) (K : nat) (s : str) : res (buf nat) :=
  for_ 0 (length s) (fun ii b =>
      c <- str_at s ii ;;
      if Z.eqb c ch_star then bset b ii K
      else m <- ix c ;; l <- lget (lens V) m ;; bset b ii l) (newbuf (length s)).

(** als_CP.cxx:352-410 Build_mttkrp_map.  char seq2[sizeof(seq)] has 8 cells (sizeof of a pointer). *)
Fixpoint Build_mttkrp_map (fuel : nat) (same : bool) (V : tensor N) (W : list (tensor N)) (mp : smap (tensor N))
  (sq : str) : res (smap (tensor N)) :=
  match fuel with
  | O => Err OutOfFuel
  | Datatypes.S fuel' =>
    let o := order V in
    let level := length sq in
    W0 <- lget W 0 ;;
    if Nat.eqb level 1 then
      seq1 <- stringbuilder_mttkrp same sq o (o + 1) ;;
      seq2 <- stringbuilder_mttkrp same [48%Z] o (o + 1) ;;
      c <- str_at sq 0 ;;
      lns <- op_lens V (ncol W0) seq1 ;;
      T <- new_tensor (length seq1) lns ;;
      wi <- ix c ;;
      Wi <- lget W wi ;;
      T <- assign_b T (lit seq1) [(V, lit seq2); (Wi, lit [c; ch_star])] ;;
      Ok (sput mp sq T)
    else if Nat.eqb level 0 then Err UB     (* strlen(seq)-1 wraps around *)
    else
      b <- strncpy (newbuf 8) 0 (firstn (level - 1) sq) ;;
      b <- bset b (level - 1) 0%Z ;;
      sq2 <- cstr b ;;
      mp <- (match mp sq2 with
             | Some _ => Ok mp
             | None => Build_mttkrp_map fuel' same V W mp sq2
             end) ;;
      seq1 <- stringbuilder_mttkrp same sq o (o + 1) ;;
      seq2 <- stringbuilder_mttkrp same sq2 o (o + 1) ;;
      c <- str_at sq (level - 1) ;;
      lns <- op_lens V (ncol W0) seq1 ;;
      T <- new_tensor (length seq1) lns ;;
      wi <- ix c ;;
      Wi <- lget W wi ;;
      T <- assign_b T (lit seq1) [(tget mp sq2, lit seq2); (Wi, lit [c; ch_star])] ;;
      Ok (sput mp sq T)
  end.

(** seq_tensor: the letters except ii and jj (ii < jj): als_CP.cxx:679-684, 768-772, 776-780 *)
Definition sub_buf (sq : buf Z) (off len : nat) : res str := take len (skipn off sq).
Definition seq_except2 (o : nat) (sq : buf Z) (ii jj : nat) : res str :=
  b <- (if o <? 2 then Err UB else bset (newbuf (o - 1)) (o - 2) 0%Z) ;;
  s1 <- sub_buf sq 0 ii ;;
  b <- strncpy b 0 s1 ;;
  s2 <- sub_buf sq (ii + 1) (jj - ii - 1) ;;
  b <- strncpy b ii s2 ;;
  s3 <- sub_buf sq (jj + 1) (o - jj - 1) ;;
  b <- strncpy b (jj - 1) s3 ;;
  cstr b.
(** the letters except ii: als_CP.cxx:688-692, 760-763 *)
Definition seq_except1 (o : nat) (sq : buf Z) (ii : nat) : res str :=
  b <- (if o <? 1 then Err UB else bset (newbuf o) (o - 1) 0%Z) ;;
  s1 <- sub_buf sq 0 ii ;;
  b <- strncpy b 0 s1 ;;
  s2 <- sub_buf sq (ii + 1) (o - ii - 1) ;;
  b <- strncpy b ii s2 ;;
  cstr b.

(** als_CP.cxx:675-694 (and 923-942): all operators, starting from an empty table *)
Definition build_operators (same : bool) (V : tensor N) (W : list (tensor N)) (sq : buf Z)
  : res (smap (tensor N)) :=
  let o := order V in
  mp <- for_ 0 o (fun ii mp =>
      for_ (ii + 1) o (fun jj mp =>
        s <- seq_except2 o sq ii jj ;;
        Build_mttkrp_map (o + 1) same V W mp s) mp) sempty ;;
  for_ 0 o (fun ii mp =>
      s <- seq_except1 o sq ii ;;
      Build_mttkrp_map (o + 1) same V W mp s) mp.

(** als_CP.cxx:757-781: the perturbed MTTKRP of mode i *)
Definition pp_M (V : tensor N) (mp : smap (tensor N)) (sq : buf Z) (dW : list (tensor N)) (r c i : nat) : res (tensor N) :=
  let o := order V in
  seq_M <- seq_except1 o sq i ;;
  M <- assign false (zeros [r; c]) sij [prodt [(tget mp seq_M, sij)]] ;;
  M <- for_ 0 i (fun ii M =>
      s <- seq_except2 o sq ii i ;;
      D <- lget dW ii ;;
      assign true M sjk [prodt [(tget mp s, [ch_i; ch_j; ch_k]); (D, sik)]]) M ;;
  for_ (i + 1) o (fun ii M =>
      s <- seq_except2 o sq i ii ;;
      D <- lget dW ii ;;
      assign true M sik [prodt [(tget mp s, [ch_i; ch_j; ch_k]); (D, sjk)]]) M.

(** if (lambda != 0) S["ij"] += regul["ij"]: als_CP.cxx:580-582, 787-789, 1029-1031 *)
Definition add_regul (lambda : N) (Sm regul : tensor N) : res (tensor N) :=
  if negb (neqb lambda n0) then assign true Sm sij [prodt [(regul, sij)]] else Ok Sm.

(** ** als_CP.cxx:418-612 alsCP_DT_sub *)
(** lines 510-592: one mode (no F, conditional regularisation) *)
Definition DT_sub_mode (fuel : nat) (parent sibling : smap str) (V : tensor N) (lambda : N)
  (regul : tensor N) (i : nat) (st : sweep_state) : res sweep_state :=
  let o := order V in
  let '(W, G, Sm, mp, seq_V) := st in
  seq_V <- swap_char seq_V i (o - 1) ;;
  Wi <- lget W i ;;
  '(index, lens_H) <- make_index o seq_V (fun m => lget (lens V) m) (ncol Wi) ;;
  '(mp, M) <- dt_M fuel parent sibling V W mp i ;;
  Sm <- gram_index Sm W o index ;;
  Sm <- add_regul lambda Sm regul ;;
  g <- lget G i ;;
  g <- gradsubprob M Sm Wi g ;;
  G <- lput G i g ;;
  Wi <- SVD_solve LA M Wi Sm ;;
  W <- lput W i Wi ;;
  seq_V <- swap_char seq_V i (o - 1) ;;
  Ok (W, G, Sm, mp, seq_V).
Definition DT_sub_sweep (fuel : nat) (parent sibling : smap str) (V : tensor N) (lambda : N)
  (regul : tensor N) (W G : list (tensor N)) (Sm : tensor N) (seq_V : buf Z)
  : res (list (tensor N) * list (tensor N) * tensor N * buf Z) :=
  '(W, G, Sm, _, seq_V) <- for_ 0 (order V) (DT_sub_mode fuel parent sibling V lambda regul) (W, G, Sm, sempty, seq_V) ;;
  W <- Normalize W (order V) ;;
  Ok (W, G, Sm, seq_V).
(** lines 595-606: dW = W - W_prev; W_prev = W; count the modes with |dW|/|W| < tol_init *)
Definition dw_update (o : nat) (tol_init : N) (W dW W_prev : list (tensor N))
  : res (list (tensor N) * list (tensor N) * nat) :=
  for_ 0 o (fun i st =>
      let '(dW, W_prev, cnt) := st in
      Wi <- lget W i ;; Pi <- lget W_prev i ;; Di <- lget dW i ;;
      Di <- assign false Di sij [mkTerm n1 [(Wi, sij)]; mkTerm (- n1) [(Pi, sij)]] ;;
      Pi <- assign false Pi sij [mkTerm n1 [(Wi, sij)]] ;;
      dW <- lput dW i Di ;;
      W_prev <- lput W_prev i Pi ;;
      let cnt := if nltb (nabs (norm2 Di / norm2 Wi)) tol_init then S cnt else cnt in
      Ok (dW, W_prev, cnt)) (dW, W_prev, 0%nat).

(** what survives a call of the *_sub functions: the reference parameters *)
Record pp_state := mkPP { pW : list (tensor N); pG : list (tensor N); pdW : list (tensor N);
                          ppn : N; pio : io }.
Record sub_state := mkSub { bst : pp_state; bS : tensor N; bprev : list (tensor N); bseq : buf Z;
                            bmp : smap (tensor N); bdf : N }.
Definition with_bst (s : sub_state) (p : pp_state) : sub_state :=
  mkSub p (bS s) (bprev s) (bseq s) (bmp s) (bdf s).

(** lines 457-508 *)
Definition DT_sub_check (V : tensor N) (tol timelimit : N) (iter : Z) (s : sub_state) : res (bool * sub_state) :=
  let p := bst s in
  '(pn, dn, dtime, x) <- measure V (pW p) (pG p) (bseq s) (pio p) ;;
  let x := emit x (Row (nth 0 (lens V) 0%nat) iter pn tol 0 dn dtime) in
  let '(stop, x) := stop_test pn tol timelimit x in
  Ok (stop, with_bst s (mkPP (pW p) (pG p) (pdW p) pn x)).
(** lines 455-610 *)
Definition DT_sub_iter (fuel : nat) (parent sibling : smap str) (V : tensor N) (tol tol_init timelimit lambda : N)
  (regul : tensor N) (maxiter resprint : Z) (iter : Z) (s : sub_state) : res (flow * sub_state) :=
  m <- zmod iter resprint ;;
  '(stop, s) <- (if Z.eqb m 0 || Z.eqb iter maxiter
                  then DT_sub_check V tol timelimit iter s else Ok (false, s)) ;;
  if stop then Ok (Break, s)
  else
    let p := bst s in
    '(W, G, Sm, sq) <- DT_sub_sweep fuel parent sibling V lambda regul (pW p) (pG p) (bS s) (bseq s) ;;
    '(dW, W_prev, cnt) <- dw_update (order V) tol_init W (pdW p) (bprev s) ;;
    let s := mkSub (mkPP W G dW (ppn p) (pio p)) Sm W_prev sq (bmp s) (bdf s) in
    if Nat.eqb cnt (order V) then Ok (Return, s) else Ok (Go, s).
Definition alsCP_DT_sub (fuel : nat) (V : tensor N) (tol tol_init timelimit lambda : N) (maxiter resprint : Z)
  (iter : Z) (p : pp_state) : res (Z * pp_state) :=
  let o := order V in
  W0 <- lget (pW p) 0 ;;
  regul <- mk_regul (ncol W0) lambda ;;
  W_prev <- for_ 0 o (fun i acc => Wi <- lget (pW p) i ;; Ok (acc ++ [zeros [nrow Wi; ncol Wi]])) [] ;;
  seq_V <- mk_seqV o ;;
  '(parent, sibling) <- Construct_Dimension_Tree fuel (sempty, sempty) 0 (o - 1) ;;
  '(_, iter, s) <- for_iter (rounds iter maxiter) iter
      (DT_sub_iter fuel parent sibling V tol tol_init timelimit lambda regul maxiter resprint)
      (mkSub p (zeros [ncol W0; ncol W0]) W_prev seq_V sempty n0) ;;
  Ok (iter, bst s).

(** ** als_CP.cxx:621-833 alsCP_PP_sub *)
(** lines 657-665: modes with |dW|/|W| > tol_init *)
Definition dw_count (o : nat) (tol_init : N) (W dW : list (tensor N)) : res nat :=
  for_ 0 o (fun i cnt =>
      Wi <- lget W i ;; Di <- lget dW i ;;
      Ok (if nltb tol_init (nabs (norm2 Di / norm2 Wi)) then S cnt else cnt)) 0%nat.
(** lines 671-674: W_init = W; dW = 0 *)
Definition zero_dW (o : nat) (dW : list (tensor N)) : res (list (tensor N)) :=
  for_ 0 o (fun j dW => D <- lget dW j ;; D <- assign false D sij [mkTerm n0 []] ;; lput dW j D) dW.
(** lines 743-807: one mode *)
Definition PP_mode (V : tensor N) (mp : smap (tensor N)) (W_init : list (tensor N)) (lambda ratio_step : N)
  (regul : tensor N) (sq : buf Z) (i : nat) (st : list (tensor N) * list (tensor N) * list (tensor N) * tensor N * buf Z)
  : res (list (tensor N) * list (tensor N) * list (tensor N) * tensor N * buf Z) :=
  let o := order V in
  let '(W, G, dW, Sm, seq_V) := st in
  seq_V <- swap_char seq_V i (o - 1) ;;
  Wi <- lget W i ;;
  '(index, lens_H) <- make_index o seq_V (fun m => lget (lens V) m) (ncol Wi) ;;
  M <- pp_M V mp sq dW (nrow Wi) (ncol Wi) i ;;
  Sm <- gram_index Sm W o index ;;
  Sm <- add_regul lambda Sm regul ;;
  g <- lget G i ;;
  g <- gradsubprob M Sm Wi g ;;
  G <- lput G i g ;;
  Wn <- lget W_init i ;;
  Di <- lget dW i ;;
  '(Wi, Di) <- SVD_solve_mod LA M Wi Wn Di Sm ratio_step ;;
  W <- lput W i Wi ;;
  dW <- lput dW i Di ;;
  seq_V <- swap_char seq_V i (o - 1) ;;
  Ok (W, G, dW, Sm, seq_V).
Definition PP_sweep (V : tensor N) (mp : smap (tensor N)) (W_init : list (tensor N)) (lambda ratio_step : N)
  (regul : tensor N) (sq : buf Z) (W G dW : list (tensor N)) (Sm : tensor N) (seq_V : buf Z) :=
  '(W, G, dW, Sm, seq_V) <- for_ 0 (order V) (PP_mode V mp W_init lambda ratio_step regul sq) (W, G, dW, Sm, seq_V) ;;
  W <- Normalize W (order V) ;;
  Ok (W, G, dW, Sm, seq_V).
(** lines 697-742.  In bench mode only rank 0 resets st_time (line 731). *)
Definition PP_check (V : tensor N) (tol timelimit : N) (bench : bool) (maxiter iter : Z) (s : sub_state)
  : res (bool * sub_state) :=
  let p := bst s in
  '(pn, dn, dtime, x) <- measure V (pW p) (pG p) (bseq s) (pio p) ;;
  let '(x, df) :=
    if bench then
      if rank0 then
        if negb (Z.eqb iter maxiter) then let '(t, x) := wtime x in (set_st x t, dtime)
        else (emit x (RowPP (bdf s + dtime) dtime), bdf s + dtime)
      else (x, bdf s)
    else (emit x (Row (nth 0 (lens V) 0%nat) iter pn tol 1 dn dtime), bdf s) in
  let '(stop, x) := stop_test pn tol timelimit x in
  Ok (stop, mkSub (mkPP (pW p) (pG p) (pdW p) pn x) (bS s) (bprev s) (bseq s) (bmp s) df).
(** lines 655-814; [bprev] holds W_init *)
Definition PP_sub_iter (same : bool) (V : tensor N) (tol tol_init timelimit lambda ratio_step : N)
  (regul : tensor N) (sq : buf Z) (maxiter resprint : Z) (bench : bool) (init_iter iter : Z) (s : sub_state)
  : res (flow * sub_state) :=
  let o := order V in
  cnt <- (if bench then Ok 0%nat else dw_count o tol_init (pW (bst s)) (pdW (bst s))) ;;
  let init := Z.eqb (Z.rem (iter - init_iter) 15) 0 || (0 <? cnt) in
  if init && ((0 <? cnt) || negb (Z.eqb iter init_iter)) then Ok (Return, s)
  else
    s <- (if init then
            let p := bst s in
            dW <- zero_dW o (pdW p) ;;
            mp <- build_operators same V (pW p) sq ;;
            Ok (mkSub (mkPP (pW p) (pG p) dW (ppn p) (pio p)) (bS s) (pW p) (bseq s) mp (bdf s))
          else Ok s) ;;
    m <- zmod iter resprint ;;
    '(stop, s) <- (if Z.eqb m 0 || Z.eqb iter maxiter || Z.eqb iter init_iter
                   then PP_check V tol timelimit bench maxiter iter s else Ok (false, s)) ;;
    if stop then Ok (Break, s)
    else
      let p := bst s in
      '(W, G, dW, Sm, sV) <- PP_sweep V (bmp s) (bprev s) lambda ratio_step regul sq
                                  (pW p) (pG p) (pdW p) (bS s) (bseq s) ;;
      Ok (Go, mkSub (mkPP W G dW (ppn p) (pio p)) Sm (bprev s) sV (bmp s) (bdf s)).
Definition alsCP_PP_sub (same : bool) (V : tensor N) (tol tol_init timelimit lambda ratio_step : N)
  (maxiter resprint : Z) (bench : bool) (iter : Z) (p : pp_state) : res (Z * pp_state) :=
  let o := order V in
  W0 <- lget (pW p) 0 ;;
  regul <- mk_regul (ncol W0) lambda ;;
  sq <- mk_seqV o ;;
  '(f, iter', s) <- for_iter (rounds iter maxiter) iter
      (PP_sub_iter same V tol tol_init timelimit lambda ratio_step regul sq maxiter resprint bench iter)
      (mkSub p (zeros [ncol W0; ncol W0]) [] sq sempty n0) ;;
  let iter' := match f with Return => iter' | _ => if bench then (iter' + 1)%Z else iter' end in
  Ok (iter', bst s).

(** ** als_CP.cxx:1082-1137 alsCP_PP and 1146-1207 alsCP_PP_partupdate share the driver loop;
    [sub] is the second phase.  The while loop runs on fuel: LoopFuel means "still running". *)
Fixpoint pp_while (wf : nat) (dtsub sub : Z -> pp_state -> res (Z * pp_state)) (tol : N) (maxiter : Z)
  (bench : bool) (iter : Z) (p : pp_state) : res (Z * pp_state) :=
  if nltb tol (ppn p) && (iter <=? maxiter)%Z then
    match wf with
    | O => Err LoopFuel
    | Datatypes.S wf' =>
      '(iter, p) <- (if bench then Ok (iter, p) else dtsub iter p) ;;
      '(iter, p) <- sub iter p ;;
      pp_while wf' dtsub sub tol maxiter bench iter p
    end
  else Ok (iter, p).
Definition mk_dW (W : list (tensor N)) (o : nat) : res (list (tensor N)) :=
  for_ 0 o (fun j acc => Wj <- lget W j ;;
      D <- assign false (zeros [nrow Wj; ncol Wj]) sij [mkTerm n0 []] ;; Ok (acc ++ [D])) [].
Definition alsCP_PP (wf fuel : nat) (same : bool) (V : tensor N) (W grad_W : list (tensor N))
  (tol tol_init timelimit : N) (maxiter : Z) (lambda ratio_step : N) (resprint : Z) (bench : bool) (x : io)
  : res (bool * pp_state) :=
  let '(t, x) := wtime x in
  let x := set_st x t in
  dW <- mk_dW W (order V) ;;
  '(iter, p) <- pp_while wf
       (alsCP_DT_sub fuel V tol tol_init timelimit lambda maxiter resprint)
       (alsCP_PP_sub same V tol tol_init timelimit lambda ratio_step maxiter resprint bench)
       tol maxiter bench 0 (mkPP W grad_W dW (nlit 10) x) ;;
  Ok (negb (Z.eqb iter (maxiter + 1)), p).

(** ** als_CP.cxx:835-843 sort_indexes.  std::sort of at most 16 elements is libstdc++'s insertion
    sort (__insertion_sort); larger inputs are not modelled (the length is the tensor order). *)
Section Sort.
Context (comp : nat -> nat -> bool).
(** __unguarded_linear_insert, walking left from the end of the sorted prefix [rl] (reversed) *)
Fixpoint linear_insert (val : nat) (rl : list nat) : list nat :=
  match rl with
  | [] => [val]
  | y :: rl' => if comp val y then y :: linear_insert val rl' else val :: rl
  end.
Definition insert_step (rl : list nat) (val : nat) : list nat :=
  match rev rl with
  | [] => [val]
  | f :: _ => if comp val f then rl ++ [val] (* move_backward: val becomes the first *)
              else linear_insert val rl
  end.
Definition insertion_sort (l : list nat) : list nat := rev (fold_left insert_step l []).
End Sort.
Definition sort_indexes (v : list N) : list nat :=
  insertion_sort (fun i1 i2 => nltb (nth i2 v n0) (nth i1 v n0)) (seq 0 (length v)).

(** ** als_CP.cxx:852-1073 alsCP_PP_partupdate_sub.
    update_size = int(V.order * update_percentage) is a parameter. *)
(** lines 1036-1055: propagate dW[i] to the other dM *)
Definition pu_propagate (V : tensor N) (mp : smap (tensor N)) (sq : buf Z) (dW : list (tensor N)) (i : nat)
  (dM : list (tensor N)) : res (list (tensor N)) :=
  let o := order V in
  Mi <- lget dM i ;;
  Mi <- assign false Mi sij [mkTerm n0 []] ;;
  dM <- lput dM i Mi ;;
  D <- lget dW i ;;
  dM <- for_ 0 i (fun ii dM =>
      s <- seq_except2 o sq ii i ;;
      m <- lget dM ii ;;
      m <- assign true m sik [prodt [(tget mp s, [ch_i; ch_j; ch_k]); (D, sjk)]] ;;
      lput dM ii m) dM ;;
  for_ (i + 1) o (fun ii dM =>
      s <- seq_except2 o sq i ii ;;
      m <- lget dM ii ;;
      m <- assign true m sjk [prodt [(tget mp s, [ch_i; ch_j; ch_k]); (D, sik)]] ;;
      lput dM ii m) dM.
Record pu_state := mkPU { uW : list (tensor N); uG : list (tensor N); udW : list (tensor N);
                          uM : list (tensor N); udM : list (tensor N); uS : tensor N; useq : buf Z }.
(** lines 994-1060: one selected mode *)
Definition PU_mode (V : tensor N) (mp : smap (tensor N)) (W_init : list (tensor N)) (lambda ratio_step : N)
  (regul : tensor N) (sq : buf Z) (i : nat) (st : pu_state) : res pu_state :=
  let o := order V in
  let W := uW st in
  seq_V <- swap_char (useq st) i (o - 1) ;;
  Wi <- lget W i ;;
  '(index, lens_H) <- make_index o seq_V (fun m => lget (lens V) m) (ncol Wi) ;;
  seq_M <- seq_except1 o sq i ;;
  Mi <- lget (uM st) i ;;
  dMi <- lget (udM st) i ;;
  Mi <- assign false Mi sij [mkTerm n1 [(tget mp seq_M, sij)]; mkTerm n1 [(dMi, sij)]] ;;
  M <- lput (uM st) i Mi ;;
  Sm <- gram_index (uS st) W o index ;;
  Sm <- add_regul lambda Sm regul ;;
  g <- lget (uG st) i ;;
  g <- gradsubprob Mi Sm Wi g ;;
  G <- lput (uG st) i g ;;
  Wn <- lget W_init i ;;
  Di <- lget (udW st) i ;;
  '(Wi, Di) <- SVD_solve_mod LA Mi Wi Wn Di Sm ratio_step ;;
  W <- lput W i Wi ;;
  dW <- lput (udW st) i Di ;;
  dM <- pu_propagate V mp sq dW i (udM st) ;;
  seq_V <- swap_char seq_V i (o - 1) ;;
  Ok (mkPU W G dW M dM Sm seq_V).
(** lines 985-1066: sort, update the first update_size modes, W_relative_perturbe, Normalize *)
Definition PU_sweep (V : tensor N) (mp : smap (tensor N)) (W_init : list (tensor N)) (lambda ratio_step : N)
  (regul : tensor N) (sq : buf Z) (update_size : nat) (rel : list N) (st : pu_state)
  : res (list N * pu_state) :=
  let o := order V in
  let sorted := sort_indexes rel in
  st <- for_ 0 update_size (fun k st =>
      i <- lget sorted k ;; PU_mode V mp W_init lambda ratio_step regul sq i st) st ;;
  rel <- for_ 0 o (fun i rel =>
      d <- lget (udM st) i ;; m <- lget (uM st) i ;; lput rel i (norm2 d / norm2 m)) rel ;;
  W <- Normalize (uW st) o ;;
  Ok (rel, mkPU W (uG st) (udW st) (uM st) (udM st) (uS st) (useq st)).
Record pusub := mkPUsub { vb : sub_state; vM : list (tensor N); vdM : list (tensor N); vrel : list N }.
Definition PU_sub_iter (same : bool) (V : tensor N) (tol tol_init timelimit lambda ratio_step : N)
  (update_size : nat)
  (regul : tensor N) (sq : buf Z) (maxiter resprint : Z) (bench : bool) (init_iter iter : Z) (u : pusub)
  : res (flow * pusub) :=
  let o := order V in
  let s := vb u in
  cnt <- (if bench then Ok 0%nat else dw_count o tol_init (pW (bst s)) (pdW (bst s))) ;;
  let init := Z.eqb (Z.rem (iter - init_iter) 15) 0 || (0 <? cnt) in
  if init && ((0 <? cnt) || negb (Z.eqb iter init_iter)) then Ok (Return, u)
  else
    s <- (if init then
            let p := bst s in
            dW <- zero_dW o (pdW p) ;;
            mp <- build_operators same V (pW p) sq ;;
            Ok (mkSub (mkPP (pW p) (pG p) dW (ppn p) (pio p)) (bS s) (pW p) (bseq s) mp (bdf s))
          else Ok s) ;;
    m <- zmod iter resprint ;;
    '(stop, s) <- (if Z.eqb m 0 || Z.eqb iter maxiter || Z.eqb iter init_iter
                   then PP_check V tol timelimit bench maxiter iter s else Ok (false, s)) ;;
    if stop then Ok (Break, mkPUsub s (vM u) (vdM u) (vrel u))
    else
      let p := bst s in
      '(rel, t) <- PU_sweep V (bmp s) (bprev s) lambda ratio_step regul sq update_size (vrel u)
                      (mkPU (pW p) (pG p) (pdW p) (vM u) (vdM u) (bS s) (bseq s)) ;;
      Ok (Go, mkPUsub (mkSub (mkPP (uW t) (uG t) (udW t) (ppn p) (pio p)) (uS t) (bprev s) (useq t) (bmp s) (bdf s))
                      (uM t) (udM t) rel).
Definition alsCP_PP_partupdate_sub (same : bool) (V : tensor N) (tol tol_init timelimit lambda ratio_step : N)
  (update_size : nat) (maxiter resprint : Z) (bench : bool) (iter : Z) (p : pp_state) : res (Z * pp_state) :=
  let o := order V in
  W0 <- lget (pW p) 0 ;;
  regul <- mk_regul (ncol W0) lambda ;;
  sq <- mk_seqV o ;;
  Ms <- mk_dW (pW p) o ;;
  '(f, iter', u) <- for_iter (rounds iter maxiter) iter
      (PU_sub_iter same V tol tol_init timelimit lambda ratio_step update_size regul sq maxiter resprint bench iter)
      (mkPUsub (mkSub p (zeros [ncol W0; ncol W0]) [] sq sempty n0) Ms Ms (repeat n0 o)) ;;
  let iter' := match f with Return => iter' | _ => if bench then (iter' + 1)%Z else iter' end in
  Ok (iter', bst (vb u)).
Definition alsCP_PP_partupdate (wf fuel : nat) (same : bool) (V : tensor N) (W grad_W : list (tensor N))
  (tol tol_init timelimit : N) (maxiter : Z) (lambda ratio_step : N) (update_size : nat) (resprint : Z)
  (bench : bool) (x : io) : res (bool * pp_state) :=
  let '(t, x) := wtime x in
  let x := set_st x t in
  dW <- mk_dW W (order V) ;;
  '(iter, p) <- pp_while wf
       (alsCP_DT_sub fuel V tol tol_init timelimit lambda maxiter resprint)
       (alsCP_PP_partupdate_sub same V tol tol_init timelimit lambda ratio_step update_size maxiter resprint bench)
       tol maxiter bench 0 (mkPP W grad_W dW (nlit 10) x) ;;
  Ok (negb (Z.eqb iter (maxiter + 1)), p).
End M.
