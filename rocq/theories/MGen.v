(** Models of the tensor generators and reshaping of common.cxx (225-642, 870-880). *)
From Coq Require Import List ZArith QArith Bool Arith Lia Permutation.
From Verif Require Import Base Num Tensor MCommon.
Import ListNotations.
Local Close Scope Q_scope.

Section M.
Context {N : num}.
Local Open Scope num_scope.

(** ** CTF sparse access
    T.write(n, inds, vals): the value of each pair is stored at its global (column-major) index.
    A pair whose index is outside the tensor aborts.  The pairs written by all processes are given as one list. *)
Fixpoint write (T : tensor N) (ps : list (nat * N)) : res (tensor N) :=
  match ps with
  | [] => Ok T
  | (g, v) :: ps =>
    if Nat.ltb g (length (data T)) then write (mkT (lens T) (lset (data T) g v)) ps else Err CtfError
  end.
(** T.read_local(&n, &inds, &vals) on every process: each element once, on the process that holds it *)
Definition all_pairs (T : tensor N) : list (nat * N) := combine (seq 0 (length (data T))) (data T).

(** common.cxx:870-880 fold_unfold(X, Y).  [ps]: the pairs read by the processes, process after process, in the
    order they hold them; CTF chooses the distribution, so [ps] is any list with [Permutation ps (all_pairs X)]. *)
Definition fold_unfold (ps : list (nat * N)) (Y : tensor N) : res (tensor N) := write Y ps.

(** common.cxx:272-289 unit_tensor(V, N, s): N is not used.  Ranks other than 0 write zeros to the same
    indices, which CTF adds; they are left out.  ii (int) and the int64 products are unbounded here. *)
Definition unit_tensor (V : tensor N) (s : nat) : res (tensor N) :=
  write V (flat_map (fun column => map (fun row =>
     ((column * s * s + row * s + (row + column * (s - 1)) mod s)%nat, n1)) (seq 0 s)) (seq 0 s)).

(** common.cxx:462-498 identitiy_tensor(N, s).  The tensor I of line 471 is only overwritten.  Simplification: no
    aliasing between I_temp and I_temp2 (both are values). *)
Definition ident_step (s : nat) (ident : tensor N) (i : nat) (I_temp2 : tensor N) : res (tensor N) :=
  lens_temp <- for_ 0 (2 * i + 2) (fun jj b => bset b jj s) (newbuf (2 * i + 2)) ;;
  I_temp <- new_tensor (2 * i + 2) lens_temp ;;
  seq_I2 <- bset (newbuf (2 * i + 1)) (2 * i) 0%Z ;;
  seq_I1 <- bset (newbuf (2 * i + 3)) (2 * i + 2) 0%Z ;;
  seq_I1 <- for_ 0 (2 * i + 2) (fun jj b => bset b jj (chr jj)) seq_I1 ;;
  seq_I2 <- for_ 2 (2 * i + 2) (fun jj b => bset b (jj - 2) (chr jj)) seq_I2 ;;
  assign_b I_temp seq_I1 [(I_temp2, seq_I2); (ident, lit [chr 0; chr 1])].
Definition identity_tensor (Nm s : nat) : res (tensor N) :=
  ident <- assign false (zeros [s; s]) [ch_i; ch_i] [mkTerm n1 []] ;;
  for_ 1 (Nm / 2) (ident_step s ident) ident.

(** common.cxx:579-597 the matrix D (s >= 1; for s = 0 the code calls malloc(-8)) *)
Definition lap_D (s : nat) : res (tensor N) :=
  D <- write (zeros [s; s]) (map (fun row => ((row * s + row + 1)%nat, - n1)) (seq 0 (s - 1))) ;;
  D <- assign true D sij [prodt [(D, sji)]] ;;
  assign false D [ch_i; ch_i] [mkTerm (n1 + n1) []].
(** V[bV] += Π T[b] *)
Definition add_b (C : tensor N) (bC : buf Z) (fs : list (tensor N * buf Z)) : res (tensor N) :=
  sC <- take (order C) bC ;;
  ps <- tixs fs ;;
  assign true C sC [prodt ps].
(** common.cxx:626-641 the loop over k in [2, d-1]; seq_D is shared by the iterations *)
Definition lap_step (d s : nat) (D : tensor N) (sq : buf Z) (k : nat) (st : tensor N * buf Z) : res (tensor N * buf Z) :=
  let '(V, seq_D) := st in
  I1 <- identity_tensor (2 * (k - 1)) s ;;
  I2 <- identity_tensor (2 * (d - k)) s ;;
  seq_I1 <- bset (newbuf (2 * (k - 1) + 1)) (2 * (k - 1)) 0%Z ;;
  seq_I2 <- bset (newbuf (2 * (d - k) + 1)) (2 * (d - k)) 0%Z ;;
  seq_I1 <- for_ 0 (2 * (k - 1)) (fun jj b => bset b jj (chr jj)) seq_I1 ;;
  seq_D <- for_ (2 * (k - 1)) (2 * k) (fun jj b => bset b (jj - 2 * (k - 1)) (chr jj)) seq_D ;;
  seq_I2 <- for_ (2 * k) (2 * d) (fun jj b => bset b (jj - 2 * k) (chr jj)) seq_I2 ;;
  V <- add_b V sq [(I1, seq_I1); (D, seq_D); (I2, seq_I2)] ;;
  Ok (V, seq_D).
(** common.cxx:599-641 = 523-568: V += sum over k of I (x) .. (x) D (x) .. (x) I, the same text in both generators *)
Definition lap_sum (D V : tensor N) (Nm s : nat) : res (tensor N) :=
  let d := (Nm / 2)%nat in
  sq <- bset (newbuf (Nm + 1)) Nm 0%Z ;;
  sq <- for_ 0 Nm (fun jj b => bset b jj (chr jj)) sq ;;
  I2 <- identity_tensor (Nm - 2) s ;;
  let seq_D := lit [chr 0; chr 1] in
  seq_I2 <- bset (newbuf (Nm - 1)) (Nm - 2) 0%Z ;;
  seq_I2 <- for_ 2 Nm (fun jj b => bset b (jj - 2) (chr jj)) seq_I2 ;;
  V <- add_b V sq [(D, seq_D); (I2, seq_I2)] ;;
  I1 <- identity_tensor (Nm - 2) s ;;
  seq_I1 <- bset (newbuf (Nm - 1)) (Nm - 2) 0%Z ;;
  seq_I1 <- for_ 0 (Nm - 2) (fun jj b => bset b jj (chr jj)) seq_I1 ;;
  seq_D <- for_ (Nm - 2) Nm (fun jj b => bset b (jj - (Nm - 2)) (chr jj)) seq_D ;;
  V <- add_b V sq [(I1, seq_I1); (D, seq_D)] ;;
  '(V, _) <- for_ 2 d (lap_step d s D sq) (V, seq_D) ;;
  Ok V.
(** common.cxx:575-642 laplacian_tensor(V, N, s, sparse_V): sparse_V is not used.  char seq_I2[N - 1]: N >= 2,
    otherwise an array of negative length or a write before its start. *)
Definition laplacian_tensor (V : tensor N) (Nm s : nat) : res (tensor N) :=
  if Nat.ltb Nm 2 then Err UB else
  D <- lap_D s ;;
  lap_sum D V Nm s.
(** common.cxx:504-521 the matrix D of random_laplacian_tensor: line 520 adds TWICE the transpose (s >= 1 as above) *)
Definition rand_lap_D (s : nat) : res (tensor N) :=
  D <- write (zeros [s; s]) (map (fun row => ((row * s + row + 1)%nat, - n1)) (seq 0 (s - 1))) ;;
  D <- assign true D sij [mkTerm (n1 + n1) [(D, sji)]] ;;
  assign false D [ch_i; ch_i] [mkTerm (n1 + n1) []].
(** common.cxx:500-569 random_laplacian_tensor(V, N, s, sparse_V): no random number is drawn; sparse_V is not used *)
Definition random_laplacian_tensor (V : tensor N) (Nm s : nat) : res (tensor N) :=
  if Nat.ltb Nm 2 then Err UB else
  D <- rand_lap_D s ;;
  lap_sum D V Nm s.

(** ** common.cxx:304-359 build_V_vec: the outer product of W[0..order-1] *)
Definition vec_step (W : list (tensor N)) (i : nat) (st : tensor N * buf Z) : res (tensor N * buf Z) :=
  let '(V, seq_W) := st in
  lens_V <- for_ 0 (i + 1) (fun j b => Wj <- lget W j ;; bset b j (nrow Wj)) (newbuf (i + 1)) ;;
  V_temp <- new_tensor (i + 1) lens_V ;;
  seq_temp <- bset (newbuf (i + 2)) (i + 1) 0%Z ;;
  seq_temp <- for_ 0 (i + 1) (fun j b => c <- bget chars18 j ;; bset b j c) seq_temp ;;
  sq <- bset (newbuf (i + 1)) i 0%Z ;;
  sq <- for_ 0 i (fun j b => c <- bget chars18 j ;; bset b j c) sq ;;
  c <- bget chars18 i ;;
  seq_W <- bset seq_W 0 c ;;
  Wi <- lget W i ;;
  V <- assign_b V_temp seq_temp [(V, sq); (Wi, seq_W)] ;;
  Ok (V, seq_W).
Definition build_V_vec (W : list (tensor N)) (ord : nat) : res (tensor N) :=
  V <- lget W 0 ;;
  '(V, seq_W) <- for_ 1 (ord - 1) (vec_step W) (V, lit [ch_i]) ;;
  lens_V <- for_ 0 ord (fun j b => Wj <- lget W j ;; bset b j (nrow Wj)) (newbuf ord) ;;
  V_temp <- new_tensor ord lens_V ;;
  (* lines 347-348 both terminate seq_temp; seq stays unterminated, but CTF reads only order(V) characters of it *)
  seq_temp <- bset (newbuf (ord + 1)) ord 0%Z ;;
  '(seq_temp, sq) <- for_ 0 ord (fun j st =>
      let '(a, b) := st in c <- bget chars18 j ;; a <- bset a j c ;; b <- bset b j c ;; Ok (a, b)) (seq_temp, newbuf (ord + 1)) ;;
  c <- bget chars18 (ord - 1) ;;
  seq_W <- bset seq_W 0 c ;;
  Wl <- lget W (ord - 1) ;;
  assign_b V_temp seq_temp [(V, sq); (Wl, seq_W)].

(** ** common.cxx:361-423 Gen_collinearity.  [rnd k n]: the k-th vector drawn by fill_random(0,1), of length n;
    the console output is left out.  vec[i][j] is [nth j (nth i vec)]. *)
Context (rnd : nat -> nat -> tensor N).
(** lines 384-394: col of vec[i][j] with vec[k][j], k < i, until one is out of range; returns k *)
Fixpoint first_bad (n k i j : nat) (vec : list (list (tensor N))) (col_min col_max : N) : res nat :=
  match n with
  | O => Ok k
  | S n =>
    vi <- lget vec i ;; vij <- lget vi j ;;
    vk <- lget vec k ;; vkj <- lget vk j ;;
    col <- collinearity vij vkj ;;
    if nltb col col_min || nltb col_max col then Ok k else first_bad n (S k) i j vec col_min col_max
  end.
(** lines 381-399: the while loop.  LoopFuel: still running.  [c]: how many vectors have been drawn *)
Fixpoint reselect (fuel i j n : nat) (col_min col_max : N) (c : nat) (vec : list (list (tensor N)))
  : res (nat * list (list (tensor N))) :=
  match fuel with
  | O => Err LoopFuel
  | S fuel =>
    k <- first_bad i 0 i j vec col_min col_max ;;
    if Nat.eqb k i then Ok (c, vec)
    else
      vi <- lget vec i ;;
      vi <- lput vi j (rnd c n) ;;
      vec <- lput vec i vi ;;
      reselect fuel i j n col_min col_max (S c) vec
  end.
(** lines 371-401 *)
Definition gen_vec (fuel : nat) (ls : list nat) (dim R : nat) (col_min col_max : N) : res (list (list (tensor N))) :=
  '(c, vec) <- for_ 0 R (fun i st => let '(c, vec) := st in
      '(c, vi) <- for_ 0 dim (fun j st => let '(c, vi) := st in
          n <- lget ls j ;; Ok (S c, vi ++ [rnd c n])) (c, []) ;;
      Ok (c, vec ++ [vi])) (0%nat, []) ;;
  '(c, vec) <- for_ 0 dim (fun j st =>
      for_ 1 R (fun i st => let '(c, vec) := st in
         n <- lget ls j ;;
         reselect fuel i j n col_min col_max c vec) st) (c, vec) ;;
  Ok vec.
Definition lambda_ (R i : nat) : N :=
  nlit (2 # 10) + nlit (6 # 10) / nlit (inject_Z (Z.of_nat R)) * nlit (inject_Z (Z.of_nat (i + 1))).
Definition Gen_collinearity (fuel : nat) (ls : list nat) (dim R : nat) (col_min col_max : N) : res (tensor N) :=
  arg <- bset (newbuf (dim + 1)) dim 0%Z ;;
  arg <- for_ 0 dim (fun i b => c <- bget chars18 i ;; bset b i c) arg ;;
  vec <- gen_vec fuel ls dim R col_min col_max ;;
  X <- new_tensor dim (map Some ls) ;;
  for_ 0 R (fun i X =>
    vi <- lget vec i ;;
    X_sub <- build_V_vec vi dim ;;
    pX <- tix X arg ;;
    pS <- tix X_sub arg ;;
    assign false X (snd pX) [mkTerm n1 [pX]; mkTerm (lambda_ R i) [pS]]) X.
End M.
