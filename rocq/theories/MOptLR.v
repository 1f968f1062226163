(** Model of the low-rank optimizers: src/optimizer/cp_dt_lr_optimizer.cxx, cp_msdt_lr_optimizer.cxx *)
From Coq Require Import List ZArith QArith Bool Arith Lia.
From Verif Require Import Base Num Tensor MCommon MCP MOpt.
Import ListNotations.
Local Close Scope Q_scope.

Section M.
Context {N : num} (LA : lapack N).
Local Open Scope num_scope.

(** the members U, s, VT and the number of randomised decompositions so far (the state of the random generator) *)
Record lowrank := mkLow { lU : tensor N; lS : tensor N; lVT : tensor N; lseed : nat }.
Definition low0 : lowrank := mkLow tnil tnil tnil 0.

(** one low-rank update of mode n: S, gradient, get_rankR_update_cholesky relative to [ref], then
    W[n] += U s VT ([acc] true: cp_dt_lr_optimizer.cxx:211-222, ref is W[n]) or
    W[n] = ref + U s VT (cp_msdt_lr_optimizer.cxx:173-187) *)
Definition lr_update (k : nat) (randomsvd acc : bool) (o : nat) (regul : tensor N) (M : tensor N) (n : nat)
  (ref : list (tensor N)) (st : opt_st N) (lo : lowrank) : res (opt_st N * lowrank) :=
  Sm <- update_S o regul (oW st) (oS st) n ;;
  g <- lget (oG st) n ;;
  Wn <- lget (oW st) n ;;
  g <- gradsubprob M Sm Wn g ;;
  G <- lput (oG st) n g ;;
  A <- lget ref n ;;
  '(U, s, VT) <- get_rankR_update_cholesky LA k M A Sm (if randomsvd then Some (lseed lo) else None) ;;
  X <- (if acc then assign true Wn sij [prodt [(U, sik); (s, [ch_k]); (VT, skj)]]
        else assign false Wn sij [mkTerm n1 [(A, sij)]; prodt [(U, sik); (s, [ch_k]); (VT, skj)]]) ;;
  W <- lput (oW st) n X ;;
  Ok (mkOpt W G Sm, mkLow U s VT (lseed lo + 1)).

(** ** CPDTLROptimizer.  [dl_count], [dl_flag]: count_subiteration, low_rank_decomp;
    [dl_c1], [dl_c2]: cached_tensor1/2 (None: NULL) *)
Record dl_st := mkDL { dlb : dt_st N; dl_count : nat; dl_flag : bool; dl_low : lowrank; dl_c1 : option (tensor N); dl_c2 : option (tensor N) }.
(** lines 8-31 (constructor).  [k] (update rank), randomsvd and num_subiteration = 5 do not change. *)
Definition dl_new (o : nat) (st : opt_st N) : res dl_st :=
  s <- dt_new o st ;; Ok (mkDL s 0 false low0 None None).
(** lines 128-161 update_cached_tensor, on the cached tensor of the current subtree *)
Definition dl_update_cached (V : tensor N) (seq_V : buf Z) (left_index : nat) (lo : lowrank) (c : option (tensor N))
  : res (tensor N * lowrank) :=
  s <- map_init_seq (order V) left_index ;;
  U <- assign false (lU lo) sij [prodt [(lU lo, sij); (lS lo, [ch_j])]] ;;
  c <- of_opt UB c ;;
  sV <- take (order V) seq_V ;;
  c <- assign true c s [prodt [(V, sV); (U, [chr left_index; ch_amp]); (lVT lo, [ch_amp; ch_star])]] ;;
  Ok (c, mkLow U (lS lo) (lVT lo) (lseed lo)).
(** lines 39-97 mttkrp_map_init: the tensor stored at the root of the tree, and the new low-rank data and caches *)
Definition dl_map_init (V : tensor N) (s : dl_st) (left_index : nat)
  : res (tensor N * (lowrank * option (tensor N) * option (tensor N))) :=
  let b := dlb s in
  let first := dfirst b in
  if dl_flag s && (1 <? dl_count s)%nat then
    sq <- map_init_seq (order V) left_index ;;
    ls <- node_lens V (oW (ds b)) (fun m => Ok m) sq ;;
    '(c, lo) <- dl_update_cached V (dseq b) left_index (dl_low s) (if first then dl_c1 s else dl_c2 s) ;;
    Ok (c, (lo, (if first then Some c else dl_c1 s), (if first then dl_c2 s else Some c)))
  else
    T <- fresh_top V (oW (ds b)) (dseq b) left_index ;;
    Ok (T, (dl_low s, (if first then Some T else dl_c1 s), (if first then dl_c2 s else Some T))).
(** lines 185-227: one position *)
Definition dl_mode (fuel k : nat) (randomsvd : bool) (V : tensor N) (regul : tensor N) (t : tree) (indexes : list nat)
  (first : bool) (count i : nat) (x : opt_st N * smap (tensor N) * (lowrank * bool))
  : res (opt_st N * smap (tensor N) * (lowrank * bool)) :=
  let '(st, mp, (lo, flag)) := x in
  '(mp, M) <- leaf_M fuel V (oW st) t indexes mp i ;;
  n <- lget indexes i ;;
  if ((first && Nat.eqb i (length indexes - 1)) || (negb first && Nat.eqb i 0)) && (1 <=? count)%nat then
    '(st, lo) <- lr_update k randomsvd true (order V) regul M n (oW st) st lo ;;
    Ok (st, mp, (lo, true))
  else
    st <- opt_update LA (order V) regul M n st ;;
    Ok (st, mp, (lo, flag)).
(** lines 163-250 step *)
Definition dl_step (fuel k : nat) (randomsvd : bool) (V : tensor N) (regul : tensor N) (s : dl_st) : res (Q * dl_st) :=
  let b := dlb s in
  let o := order V in
  let indexes := if dfirst b then dix1 b else dix2 b in
  let left_index := if dfirst b then dl1 b else dl2 b in
  '(T, (lo, c1, c2)) <- dl_map_init V s left_index ;;
  let mp := sput sempty (dtop b) T in
  let '(lo_, hi) := dt_range (dfirst b) (dspecial b) (length indexes) in
  '(st, mp, (lo, flag)) <- for_ lo_ hi (dl_mode fuel k randomsvd V regul (dtree b) indexes (dfirst b) (dl_count s)) (ds b, mp, (lo, dl_flag s)) ;;
  let count := if dfirst b then dl_count s else (dl_count s + 1)%nat in
  if Nat.eqb count 5 && negb (dfirst b) then
    let special := ((dspecial b + 1) mod (o - 1))%nat in
    let '(l1, l2) := if negb (Nat.eqb special 0) then (((dl1 b + o - 1) mod o)%nat, ((dl2 b + o - 1) mod o)%nat)
                     else ((o - 1)%nat, ((o - 1 + o - 1) mod o)%nat) in
    ix1 <- update_indexes o (dix1 b) l1 ;;
    ix2 <- update_indexes o (dix2 b) l2 ;;
    Ok ((1 # 2)%Q, mkDL (mkDT st (dtree b) (dtop b) (dseq b) (negb (dfirst b)) ix1 ix2 l1 l2 special) 0 false lo c1 c2)
  else
    Ok ((1 # 2)%Q, mkDL (mkDT st (dtree b) (dtop b) (dseq b) (negb (dfirst b)) (dix1 b) (dix2 b) (dl1 b) (dl2 b) (dspecial b)) count flag lo c1 c2).

(** ** CPMSDTLROptimizer: is_cached, cached_tensors, old_W *)
Record ml_st := mkML { mlb : ms_st N; ml_flag : bool; ml_low : lowrank; ml_is : list bool; ml_ct : list (tensor N); ml_old : list (tensor N) }.
(** lines 8-29 *)
Definition ml_new (o : nat) (st : opt_st N) : res ml_st :=
  s <- ms_new o st ;; Ok (mkML s false low0 (repeat false o) (repeat tnil o) (repeat tnil o)).
(** lines 117-157 update_cached_tensor: returns the new cached tensor and low-rank data.
    seq_temp has no terminator; the tensor library reads only order characters of it. *)
Definition ml_update_cached (k : nat) (V : tensor N) (seq_V : buf Z) (left_index : nat) (lo : lowrank) (c : tensor N)
  : res (tensor N * lowrank) :=
  s <- map_init_seq (order V) left_index ;;
  U <- assign false (lU lo) sij [prodt [(lU lo, sij); (lS lo, [ch_j])]] ;;
  sV0 <- cstr seq_V ;;
  tmp <- strncpy (newbuf (order V)) 0 sV0 ;;
  tmp <- bset tmp left_index ch_amp ;;
  ls <- lput (lens V) left_index k ;;
  sV <- take (order V) seq_V ;;
  st <- take (order V) tmp ;;
  temp <- assign false (zeros ls) st [prodt [(V, sV); (U, [chr left_index; ch_amp])]] ;;
  c <- assign false c s [mkTerm n1 [(c, s)]; mkTerm n1 [(lVT lo, [ch_amp; ch_star]); (temp, st)]] ;;
  Ok (c, mkLow U (lS lo) (lVT lo) (lseed lo)).
(** lines 38-85 mttkrp_map_init *)
Definition ml_map_init (k : nat) (V : tensor N) (s : ml_st) (left_index : nat) : res (tensor N * (lowrank * list bool * list (tensor N) * list (tensor N))) :=
  let b := mlb s in
  isc <- lget (ml_is s) left_index ;;
  if ml_flag s && isc then
    sq <- map_init_seq (order V) left_index ;;
    ls <- node_lens V (oW (mss b)) (fun m => Ok m) sq ;;
    c <- lget (ml_ct s) left_index ;;
    '(c, lo) <- ml_update_cached k V (mseq b) left_index (ml_low s) c ;;
    ct <- lput (ml_ct s) left_index c ;;
    Wl <- lget (oW (mss b)) left_index ;;
    old <- lput (ml_old s) left_index Wl ;;
    is <- lput (ml_is s) left_index true ;;
    Ok (c, (lo, is, ct, old))
  else
    T <- fresh_top V (oW (mss b)) (mseq b) left_index ;;
    ct <- lput (ml_ct s) left_index T ;;
    Wl <- lget (oW (mss b)) left_index ;;
    old <- lput (ml_old s) left_index Wl ;;
    is <- lput (ml_is s) left_index true ;;
    Ok (T, (ml_low s, is, ct, old)).
(** lines 170-191: one position *)
Definition ml_mode (fuel k : nat) (randomsvd : bool) (V : tensor N) (regul : tensor N) (t : tree) (indexes : list nat)
  (is : list bool) (old : list (tensor N)) (i : nat) (x : opt_st N * smap (tensor N) * (lowrank * bool))
  : res (opt_st N * smap (tensor N) * (lowrank * bool)) :=
  let '(st, mp, (lo, flag)) := x in
  '(mp, M) <- leaf_M fuel V (oW st) t indexes mp i ;;
  n <- lget indexes i ;;
  isn <- lget is n ;;
  if negb isn || negb (Nat.eqb i (length indexes - 1)) then
    st <- opt_update LA (order V) regul M n st ;;
    Ok (st, mp, (lo, flag))
  else
    '(st, lo) <- lr_update k randomsvd false (order V) regul M n old st lo ;;
    Ok (st, mp, (lo, true)).
(** lines 159-194 step *)
Definition ml_step (fuel k : nat) (randomsvd : bool) (V : tensor N) (regul : tensor N) (s : ml_st) : res (Q * ml_st) :=
  let b := mlb s in
  let o := order V in
  let left_index := ((mleft b + o - 1) mod o)%nat in
  indexes <- update_indexes o (mix b) left_index ;;
  '(T, (lo, is, ct, old)) <- ml_map_init k V s left_index ;;
  let mp := sput sempty (mtop b) T in
  '(st, mp, (lo, flag)) <- for_ 0 (length indexes) (ml_mode fuel k randomsvd V regul (mtree b) indexes is old) (mss b, mp, (lo, ml_flag s)) ;;
  Ok ((Z.of_nat o - 1 # Pos.of_nat o)%Q, mkML (mkMS st (mtree b) (mtop b) (mseq b) indexes left_index) flag lo is ct old).
End M.
Arguments lowrank : clear implicits.
Arguments dl_st : clear implicits.
Arguments ml_st : clear implicits.
