(** Model of common.cxx: index-string helpers, contractions, dimension tree, solvers. *)
From Coq Require Import List ZArith QArith Bool Arith Lia.
From Verif Require Import Base Num Tensor.
Import ListNotations.
Local Close Scope Q_scope.

(** std::string operator[]: position size() is '\0', beyond is undefined *)
Definition str_at (s : str) (i : nat) : res Z :=
  if i <? length s then lget s i else if Nat.eqb i (length s) then Ok 0%Z else Err UB.

(** common.cxx:1054-1058 char_string_copy *)
Definition char_string_copy (a : buf Z) (start_a : nat) (b : str) (start_b len : nat) : res (buf Z) :=
  for_ 0 len (fun i a => c <- str_at b (start_b + i) ;; bset a (start_a + i) c) a.

(** common.cxx:10-18 vec2str: the letters of the vector followed by '*' *)
Definition vec2str (vec : list nat) : res str :=
  let n := length vec in
  seq <- bset (newbuf (n + 2)) (n + 1) 0%Z ;;
  seq <- bset seq n ch_star ;;
  seq <- for_ 0 n (fun i b => v <- lget vec i ;; bset b i (chr v)) seq ;;
  cstr seq.

(** common.cxx:199-203 swap_char *)
Definition swap_char (seq : buf Z) (i j : nat) : res (buf Z) :=
  temp <- bget seq j ;;
  si <- bget seq i ;;
  seq <- bset seq j si ;;
  bset seq i temp.

(** the table  char chars[] = {'i',...,'z','\0'}  of common.cxx:138-139, 207-208 *)
Definition chars18 : buf Z := map (fun i => Some (105 + Z.of_nat i)%Z) (seq 0 18) ++ [Some 0%Z].
Definition lit (s : str) : buf Z := map Some s ++ [Some 0%Z].

Definition sij : str := [ch_i; ch_j].
Definition sji : str := [ch_j; ch_i].
Definition sik : str := [ch_i; ch_k].
Definition ski : str := [ch_k; ch_i].
Definition skj : str := [ch_k; ch_j].
Definition sjk : str := [ch_j; ch_k].

(** the loop  for (j..) seq[j] = 'a' + j  that initialises index strings everywhere *)
Definition fill_letters (n : nat) (b : buf Z) : res (buf Z) := for_ 0 n (fun j b => bset b j (chr j)) b.

Section M.
Context {N : num}.
Local Open Scope num_scope.

(** common.cxx:146-176 the body of the loop of build_V *)
Definition build_V_step (W : list (tensor N)) (K i : nat) (st : tensor N * buf Z) : res (tensor N * buf Z) :=
  let '(V, seq_W) := st in
  lens_V <- for_ 0 (i + 1) (fun j b => Wj <- lget W j ;; bset b j (nrow Wj)) (newbuf (i + 2)) ;;
  lens_V <- bset lens_V (i + 1) K ;;
  V_temp <- new_tensor (i + 2) lens_V ;;
  seq_temp <- bset (newbuf (i + 3)) (i + 2) 0%Z ;;
  seq_temp <- bset seq_temp (i + 1) ch_star ;;
  seq_temp <- for_ 0 (i + 1) (fun j b => c <- bget chars18 j ;; bset b j c) seq_temp ;;
  sq <- bset (newbuf (i + 2)) (i + 1) 0%Z ;;
  sq <- bset sq i ch_star ;;
  sq <- for_ 0 i (fun j b => c <- bget chars18 j ;; bset b j c) sq ;;
  c <- bget chars18 i ;;
  seq_W <- bset seq_W 0 c ;;
  Wi <- lget W i ;;
  V <- assign_b V_temp seq_temp [(V, sq); (Wi, seq_W)] ;;
  Ok (V, seq_W).
(** common.cxx:135-197 build_V.  (The Timer calls are not modelled.) *)
Definition build_V (W : list (tensor N)) (ord : nat) : res (tensor N) :=
  W0 <- lget W 0 ;;
  let seq_W := lit [ch_i; ch_star] in
  '(V, seq_W) <- for_ 1 (ord - 1) (build_V_step W (ncol W0)) (W0, seq_W) ;;
  lens_V <- for_ 0 ord (fun j b => Wj <- lget W j ;; bset b j (nrow Wj)) (newbuf ord) ;;
  V_temp <- new_tensor ord lens_V ;;
  seq_temp <- bset (newbuf (ord + 1)) ord 0%Z ;;
  let sq := newbuf (ord + 2) in
  '(seq_temp, sq) <- for_ 0 ord (fun j st =>
      let '(seq_temp, sq) := st in
      c <- bget chars18 j ;;
      seq_temp <- bset seq_temp j c ;;
      sq <- bset sq j c ;;
      Ok (seq_temp, sq)) (seq_temp, sq) ;;
  sq <- (if Nat.eqb ord 0 then Err UB else bset sq (ord - 1) ch_star) ;;
  c <- bget chars18 (ord - 1) ;;
  seq_W <- bset seq_W 0 c ;;
  Wl <- lget W (ord - 1) ;;
  assign_b V_temp seq_temp [(V, sq); (Wl, seq_W)].

(** common.cxx:205-223 unroll_tensor_contraction: MTM["^&"] = T[arg]*T[arg2] *)
Definition unroll_tensor_contraction (T : tensor N) (i : nat) : res (tensor N) :=
  let o := order T in
  '(arg, arg2) <- for_ 0 o (fun k st =>
      let '(arg, arg2) := st in
      c <- bget chars18 k ;;
      arg <- bset arg k c ;;
      arg2 <- bset arg2 k c ;;
      Ok (arg, arg2)) (newbuf (o + 1), newbuf (o + 1)) ;;
  arg <- bset arg o 0%Z ;;
  arg2 <- bset arg2 o 0%Z ;;
  li <- lget (lens T) i ;;
  arg <- bset arg i ch_hat ;;
  arg2 <- bset arg2 i ch_amp ;;
  assign_b (zeros [li; li]) (lit [ch_hat; ch_amp]) [(T, arg); (T, arg2)].

(** common.cxx:225-270 Construct_Dimension_Tree.  The C arrays args_parent, args, args2 are filled
    completely by the loops, so they are given directly as the letters start..end, start..middle,
    middle+1..end.  The two-element case (lines 230-245) is the general case with middle = start.
    Recursion on fuel; end - start + 1 suffices. *)
Definition range_str (a b : nat) : str := map chr (seq a (b + 1 - a)).
Fixpoint Construct_Dimension_Tree (fuel : nat) (ps : smap str * smap str) (start end_ : nat)
  : res (smap str * smap str) :=
  match fuel with
  | O => Err OutOfFuel
  | S fuel' =>
    if Nat.eqb end_ start then Ok ps
    else
      let '(parent, sibling) := ps in
      let args_parent := range_str start end_ in
      if Nat.eqb end_ (start + 1) then
        let args := [chr start] in
        let args2 := [chr end_] in
        let parent := sput parent args args_parent in
        let parent := sput parent args2 args_parent in
        let sibling := sput sibling args args2 in
        let sibling := sput sibling args2 args in
        Ok (parent, sibling)
      else
        let middle := Nat.div (start + end_) 2 in
        let args := range_str start middle in
        let args2 := range_str (middle + 1) end_ in
        let parent := sput parent args args_parent in
        let sibling := sput sibling args args2 in
        '(parent, sibling) <- Construct_Dimension_Tree fuel' (parent, sibling) start middle ;;
        let sibling := sput sibling args2 args in
        let parent := sput parent args2 args_parent in
        Construct_Dimension_Tree fuel' (parent, sibling) (middle + 1) end_
  end.

(** common.cxx:60-87 the loop body of the first branch of mttkrp_map_DT: contract mode index_start + j.
    State: V_front, seq, seq_f, seq_w. *)
Definition dt_top_step (V : tensor N) (W : list (tensor N)) (K : nat) (par sib : str) (index_start j : nat)
  (st : tensor N * buf Z * buf Z * buf Z) : res (tensor N * buf Z * buf Z * buf Z) :=
  let o := order V in
  let '(V_front, sq, seq_f, seq_w) := st in
  let of := order V_front in
  sq <- bset sq of 0%Z ;;
  sf <- cstr seq_f ;;
  sq <- strncpy sq 0 sf ;;
  cj <- str_at sib j ;;
  seq_w <- bset seq_w 0 cj ;;
  seq_f <- bset seq_f (of - 1) 0%Z ;;
  seq_f <- bset seq_f (of - 2) ch_star ;;
  seq_f <- char_string_copy seq_f 0 par 0 index_start ;;
  seq_f <- char_string_copy seq_f index_start par (index_start + j + 1) (o - index_start - j - 1) ;;
  lens_V <- for_ 0 index_start (fun m b => x <- lget (lens V) m ;; bset b m x) (newbuf (o - j)) ;;
  lens_V <- for_ (index_start + j + 1) o (fun m b => x <- lget (lens V) m ;; bset b (m - j - 1) x) lens_V ;;
  lens_V <- bset lens_V (o - j - 1) K ;;
  V_temp <- new_tensor (o - j) lens_V ;;
  Wi <- lget W (index_start + j) ;;
  V_front <- assign_b V_temp seq_f [(V_front, sq); (Wi, seq_w)] ;;
  Ok (V_front, sq, seq_f, seq_w).
(** common.cxx:30-87: a child of the root, contracted from V *)
Definition dt_top (V : tensor N) (W : list (tensor N)) (K : nat) (par sib : str) : res (tensor N) :=
  let o := order V in
  seq_w <- bset (newbuf 3) 2 0%Z ;;
  seq_w <- bset seq_w 1 ch_star ;;
  sq <- bset (newbuf (o + 1)) o 0%Z ;;
  sq <- char_string_copy sq 0 par 0 (length par) ;;
  seq_f <- bset (newbuf (o + 1)) o 0%Z ;;
  c0 <- str_at sib 0 ;;
  seq_w <- bset seq_w 0 c0 ;;
  index_start <- ix c0 ;;
  seq_f <- char_string_copy seq_f 0 par 0 index_start ;;
  seq_f <- char_string_copy seq_f index_start par (index_start + 1) (o - index_start - 1) ;;
  seq_f <- bset seq_f (o - 1) ch_star ;;
  lens_V <- for_ 0 index_start (fun m b => x <- lget (lens V) m ;; bset b m x) (newbuf o) ;;
  lens_V <- for_ (index_start + 1) o (fun m b => x <- lget (lens V) m ;; bset b (m - 1) x) lens_V ;;
  lens_V <- bset lens_V (o - 1) K ;;
  V_temp <- new_tensor o lens_V ;;
  Wi <- lget W index_start ;;
  V_front <- assign_b V_temp seq_f [(V, sq); (Wi, seq_w)] ;;
  '(V_front, _, _, _) <- for_ 1 (length sib) (dt_top_step V W K par sib index_start) (V_front, sq, seq_f, seq_w) ;;
  Ok V_front.

(** common.cxx:105-130 the loop body of the second part: contract mode sibling[j] out of the parent's tensor *)
Definition dt_low_step (V_parent : tensor N) (W : list (tensor N)) (K : nat) (par sib : str) (index_start j : nat)
  (st : tensor N * buf Z * buf Z * buf Z) : res (tensor N * buf Z * buf Z * buf Z) :=
  let opar := order V_parent in
  let '(V_front, sq, seq_f, seq_w) := st in
  let of := order V_front in
  sq <- bset sq of 0%Z ;;
  sf <- cstr seq_f ;;
  sq <- strncpy sq 0 sf ;;
  cj <- str_at sib j ;;
  seq_w <- bset seq_w 0 cj ;;
  seq_f <- bset seq_f (of - 1) 0%Z ;;
  seq_f <- bset seq_f (of - 2) ch_star ;;
  seq_f <- char_string_copy seq_f 0 par 0 index_start ;;
  seq_f <- char_string_copy seq_f index_start par (index_start + j + 1) (opar - index_start - j - 2) ;;
  lens_V <- for_ 0 index_start (fun m b => x <- lget (lens V_parent) m ;; bset b m x) (newbuf (opar - j - 1)) ;;
  lens_V <- for_ (index_start + j + 1) opar (fun m b => x <- lget (lens V_parent) m ;; bset b (m - j - 1) x) lens_V ;;
  lens_V <- bset lens_V (opar - j - 2) K ;;
  V_temp <- new_tensor (opar - j - 1) lens_V ;;
  wi <- ix cj ;;
  Wi <- lget W wi ;;
  V_front <- assign_b V_temp seq_f [(V_front, sq); (Wi, seq_w)] ;;
  Ok (V_front, sq, seq_f, seq_w).
(** common.cxx:92-131: a deeper node, contracted from its parent *)
Definition dt_low (V_parent : tensor N) (W : list (tensor N)) (K : nat) (par sib : str) : res (tensor N) :=
  let opar := order V_parent in
  seq_w <- bset (newbuf 3) 2 0%Z ;;
  seq_w <- bset seq_w 1 ch_star ;;
  s0 <- str_at sib 0 ;;
  p0 <- str_at par 0 ;;
  index_start <- (if Z.ltb (s0 - p0) 0 then Err UB else Ok (Z.to_nat (s0 - p0))) ;;
  seq_f <- bset (newbuf (opar + 1)) opar 0%Z ;;
  seq_f <- bset seq_f (opar - 1) ch_star ;;
  seq_f <- char_string_copy seq_f 0 par 0 (length par) ;;
  '(V_front, _, _, _) <- for_ 0 (length sib) (dt_low_step V_parent W K par sib index_start)
                            (V_parent, newbuf (opar + 1), seq_f, seq_w) ;;
  Ok V_front.

(** common.cxx:20-133 mttkrp_map_DT.  [mp] is mttkrp_map; recursion on fuel. *)
Fixpoint mttkrp_map_DT (fuel : nat) (mp : smap (tensor N)) (parent sibling : smap str)
  (V : tensor N) (W : list (tensor N)) (args : str) : res (smap (tensor N)) :=
  match fuel with
  | O => Err OutOfFuel
  | S fuel' =>
    W0 <- lget W 0 ;;
    let K := ncol W0 in
    match mp args with
    | Some _ => Ok mp                                                    (* 24-25 *)
    | None =>
      let o := order V in
      let par := sget parent args in
      let sib := sget sibling args in
      if Nat.eqb (length args) (o / 2) || Nat.eqb (length args) (o / 2 + 1) then  (* 29 *)
        T <- dt_top V W K par sib ;;
        Ok (sput mp args T)
      else
        mp <- (match mp par with                                         (* 89-91 *)
               | Some _ => Ok mp
               | None => mttkrp_map_DT fuel' mp parent sibling V W par
               end) ;;
        V_parent <- of_opt UB (mp par) ;;
        T <- dt_low V_parent W K par sib ;;
        Ok (sput mp args T)
    end
  end.

(** common.cxx:931-997 KhatriRao_contract.  Returns the new contents of M. *)
Definition KhatriRao_contract (M V : tensor N) (W : list (tensor N)) (index lens_H : buf nat)
  : res (tensor N) :=
  W0 <- lget W 0 ;;
  let K := ncol W0 in
  let o := order V in
  sq <- bset (newbuf (o + 1)) o 0%Z ;;
  seq_f <- bset (newbuf (o + 1)) o 0%Z ;;
  seq_w <- bset (newbuf 3) 2 0%Z ;;
  i0 <- bget index 0 ;;
  seq_w <- bset seq_w 0 (chr i0) ;;
  seq_w <- bset seq_w 1 ch_k ;;
  sq <- for_ 0 o (fun jj b => bset b jj (chr jj)) sq ;;
  seq_f <- for_ 1 o (fun jj b => c <- bget index jj ;; bset b (jj - 1) (chr c)) seq_f ;;
  seq_f <- (if Nat.eqb o 0 then Err UB else bset seq_f (o - 1) ch_k) ;;
  lens_V <- for_ 0 (o - 1) (fun m b => x <- bget lens_H m ;; bset b m x) (newbuf o) ;;
  lens_V <- bset lens_V (o - 1) K ;;
  V_temp <- new_tensor o lens_V ;;
  Wi <- lget W i0 ;;
  V_front <- assign_b V_temp seq_f [(V, sq); (Wi, seq_w)] ;;
  '(V_front, _) <- for_ 1 (o - 1) (fun j st =>                          (* 966-993 *)
      let '(V_front, seq_w) := st in
      let of := order V_front in
      sq <- bset (newbuf (of + 1)) of 0%Z ;;
      sq <- for_ j o (fun jj b => c <- bget index jj ;; bset b (jj - j) (chr c)) sq ;;
      sq <- bset sq (of - 1) ch_k ;;
      ij <- bget index j ;;
      seq_w <- bset seq_w 0 (chr ij) ;;
      seq_f <- bset (newbuf of) (of - 1) 0%Z ;;
      seq_f <- for_ (j + 1) o (fun jj b => c <- bget index jj ;; bset b (jj - j - 1) (chr c)) seq_f ;;
      seq_f <- bset seq_f (of - 2) ch_k ;;
      lens_V <- for_ j (o - 1) (fun m b => x <- bget lens_H m ;; bset b (m - j) x) (newbuf (o - j)) ;;
      lens_V <- bset lens_V (o - j - 1) K ;;
      V_temp <- new_tensor (o - j) lens_V ;;
      Wj <- lget W ij ;;
      V_front <- assign_b V_temp seq_f [(V_front, sq); (Wj, seq_w)] ;;
      Ok (V_front, seq_w)) (V_front, seq_w) ;;
  assign_b M (lit sij) [(V_front, lit sij)].

(** common.cxx:1002-1004 gradsubprob *)
Definition gradsubprob (M S W grad_W : tensor N) : res (tensor N) :=
  assign false grad_W sij [mkTerm (- n1) [(M, sij)]; mkTerm n1 [(W, sik); (S, skj)]].

(** the index/lens_H arrays of common.cxx:1027-1034, als_CP.cxx:75-82 (from V.lens) and
    cp_simple_optimizer.cxx:34-41 (from W[].nrow): [rows] gives the row count of a mode *)
Definition make_index (o : nat) (seq_V : buf Z) (rows : nat -> res nat) (ncol_i : nat)
  : res (buf nat * buf nat) :=
  '(index, lens_H) <- for_ 0 (o - 1) (fun j st =>
      let '(index, lens_H) := st in
      c <- bget seq_V j ;;
      ij <- ix c ;;
      index <- bset index j ij ;;
      l <- rows ij ;;
      lens_H <- bset lens_H j l ;;
      Ok (index, lens_H)) (newbuf o, newbuf o) ;;
  c <- bget seq_V (o - 1) ;;
  il <- ix c ;;
  index <- bset index (o - 1) il ;;
  lens_H <- bset lens_H (o - 1) ncol_i ;;
  Ok (index, lens_H).

(** the Hadamard product of Gram matrices over index[0..o-2]:
    common.cxx:1040-1043, als_CP.cxx:87-90 *)
Definition gram_index (Sm : tensor N) (W : list (tensor N)) (o : nat) (index : buf nat) : res (tensor N) :=
  i0 <- bget index 0 ;;
  W0 <- lget W i0 ;;
  Sm <- assign false Sm sij [prodt [(W0, ski); (W0, skj)]] ;;
  for_ 1 (o - 1) (fun ii Sm =>
      i <- bget index ii ;;
      Wi <- lget W i ;;
      assign false Sm sij [prodt [(Sm, sij); (Wi, ski); (Wi, skj)]]) Sm.

(** common.cxx:1009-1052 gradient_CP: returns the new grad_W array *)
Definition gradient_CP (V : tensor N) (W grad_W : list (tensor N)) : res (list (tensor N)) :=
  let o := order V in
  seq_V <- bset (newbuf (o + 1)) o 0%Z ;;
  seq_V <- for_ 0 o (fun j b => bset b j (chr j)) seq_V ;;
  W0 <- lget W 0 ;;
  let Sm := zeros [ncol W0; ncol W0] in
  '(grad_W, _, _) <- for_ 0 o (fun i st =>
      let '(grad_W, seq_V, Sm) := st in
      seq_V <- swap_char seq_V i (o - 1) ;;
      Wi <- lget W i ;;
      '(index, lens_H) <- make_index o seq_V (fun m => lget (lens V) m) (ncol Wi) ;;
      M <- KhatriRao_contract (zeros [nrow Wi; ncol Wi]) V W index lens_H ;;
      Sm <- gram_index Sm W o index ;;
      g <- lget grad_W i ;;
      g <- gradsubprob M Sm Wi g ;;
      grad_W <- lput grad_W i g ;;
      seq_V <- swap_char seq_V i (o - 1) ;;
      Ok (grad_W, seq_V, Sm)) (grad_W, seq_V, Sm) ;;
  Ok grad_W.

(** ** External linear algebra (CTF -> ScaLAPACK): an oracle *)
Record lapack := mkLapack {
  svd : tensor N -> nat -> tensor N * tensor N * tensor N;     (* A.svd(U,s,VT,rank) *)
  cholesky : tensor N -> tensor N;                               (* A.cholesky(L) *)
  solve_tri : tensor N -> tensor N -> bool -> bool -> bool -> tensor N; (* B.solve_tri(L,X,lower,left,transp) -> X *)
  qr_q : tensor N -> tensor N;                                   (* A.qr(Q,R) -> Q *)
  rnd : nat -> list nat -> tensor N;                             (* fill_random *)
}.
Context (LA : lapack).

(** Transform inv: d = 1./d   (common.cxx:719-720) *)
Definition inv_all (s : tensor N) : tensor N := mkT (lens s) (map (fun x => n1 / x) (data s)).

(** common.cxx:710-725 SVD_solve: returns the new W *)
Definition SVD_solve (M W S : tensor N) : res (tensor N) :=
  let '(U, s, VT) := svd LA S (ncol S) in
  let s := inv_all s in
  S_reverse <- assign false S sij [prodt [(VT, ski); (s, [ch_k]); (U, sjk)]] ;;
  assign false W sij [prodt [(M, sik); (S_reverse, skj)]].

(** common.cxx:727-737 cholesky_solve.  T = L; T["ik"] = L["ij"]*L["kj"] is overwritten by the first
    solve_tri, but its index checks can fail.  solve_tri replaces its output argument. *)
Definition cholesky_solve (M S : tensor N) : res (tensor N) :=
  let L := cholesky LA S in
  T0 <- assign false L sik [prodt [(L, sij); (L, skj)]] ;;
  let T := solve_tri LA M L true false true in
  Ok (solve_tri LA T L true false false).

(** common.cxx:739-758 SVD_solve_mod: returns (W, dW) *)
Definition SVD_solve_mod (M W W_init dW S : tensor N) (ratio_step : N) : res (tensor N * tensor N) :=
  W <- SVD_solve M W S ;;
  dW <- assign false dW sij [mkTerm ratio_step [(W, sij)]; mkTerm (nopp ratio_step) [(W_init, sij)]] ;;
  if negb (neqb ratio_step n1) then
    W <- assign false W sij [mkTerm n1 [(W_init, sij)]; mkTerm n1 [(dW, sij)]] ;;
    Ok (W, dW)
  else Ok (W, dW).

(** common.cxx:760-763 matrixDot *)
Definition matrixDot (A B : tensor N) : res (tensor N) :=
  assign false (zeros [nrow A; ncol B]) sij [prodt [(A, sik); (B, skj)]].

(** common.cxx:644-689 Normalize (the commented-out part is not modelled) *)
Definition Normalize (W : list (tensor N)) (n : nat) : res (list (tensor N)) :=
  norm <- for_ 0 n (fun i norm => Wi <- lget W i ;; Ok (norm * norm2 Wi)) n1 ;;
  let norm := nroot n norm in
  for_ 0 n (fun i W =>
      Wi <- lget W i ;;
      let norm_Wi := norm2 Wi in
      Wi' <- assign false Wi sij [mkTerm (norm / norm_Wi) [(Wi, sij)]] ;;
      lput W i Wi') W.

(** common.cxx:691-708 randomized_svd: returns (U, s, VT2) *)
Definition randomized_svd (A : tensor N) (seed r iter : nat) : res (tensor N * tensor N * tensor N) :=
  let n := ncol A in
  let X := rnd LA seed [n; r] in
  let Q := qr_q LA X in
  '(X, Q) <- for_ 0 iter (fun _ st =>
      let '(X, Q) := st in
      X <- assign false X [ch_j; ch_r] [prodt [(A, sij); (A, [ch_i; ch_l]); (Q, [ch_l; ch_r])]] ;;
      Ok (X, qr_q LA X)) (X, Q) ;;
  B <- assign false (zeros [nrow A; r]) sij [prodt [(A, sik); (Q, skj)]] ;;
  let '(U, s, VT) := svd LA B r in
  VT2 <- assign false (zeros [r; n]) sij [prodt [(VT, sik); (Q, sjk)]] ;;
  Ok (U, s, VT2).

(** common.cxx:768-786 get_rankR_update_cholesky: returns (xU, xS, xVT) *)
Definition get_rankR_update_cholesky (R : nat) (M A gamma : tensor N) (random : option nat)
  : res (tensor N * tensor N * tensor N) :=
  let L := cholesky LA gamma in
  rhs <- matrixDot A gamma ;;
  rhs <- assign false rhs sij [mkTerm n1 [(M, sij)]; mkTerm (- n1) [(rhs, sij)]] ;;
  let X := solve_tri LA rhs L true false true in
  '(xU, xS, xVT) <- (match random with
     | Some seed => randomized_svd X seed R 1
     | None => Ok (svd LA X R)
     end) ;;
  Ok (xU, xS, solve_tri LA xVT L true false false).

(** common.cxx:788-813 get_rankR_update_svd *)
Definition get_rankR_update_svd (R : nat) (M A gamma : tensor N) (random : option nat)
  : res (tensor N * tensor N * tensor N) :=
  rhs <- matrixDot A gamma ;;
  rhs <- assign false rhs sij [mkTerm n1 [(M, sij)]; mkTerm (- n1) [(rhs, sij)]] ;;
  let '(U, Sg, VT) := svd LA gamma (ncol gamma) in
  let Sg := mkT (lens Sg) (map (fun x => n1 / nsqrt x) (data Sg)) in
  X <- assign false (zeros [nrow rhs; ncol rhs]) sik [prodt [(Sg, [ch_k]); (rhs, sij); (U, sjk)]] ;;
  '(xU, xS, xVT) <- (match random with
     | Some seed => randomized_svd X seed R 1
     | None => Ok (svd LA X R)
     end) ;;
  xVT <- assign false xVT sik [prodt [(xVT, sij); (Sg, [ch_j]); (VT, sjk)]] ;;
  Ok (xU, xS, xVT).

(** common.cxx:889-920 KhatriRaoProduct: returns the new H_T *)
Definition KhatriRaoProduct (H_T : tensor N) (W : list (tensor N)) (index lens_H : buf nat) : res (tensor N) :=
  let oH := order H_T in
  K <- lget (lens H_T) (oH - 1) ;;
  i0 <- bget index 0 ;;
  H_front <- lget W i0 ;;
  for_ 1 (oH - 1) (fun j H_front =>
      let of := order H_front in
      sq <- bset (newbuf (of + 1)) of 0%Z ;;
      seq_f <- bset (newbuf (of + 2)) (of + 1) 0%Z ;;
      '(sq, seq_f) <- for_ 0 (of - 1) (fun jj st =>
          let '(sq, seq_f) := st in
          sq <- bset sq jj (chr jj) ;; seq_f <- bset seq_f jj (chr jj) ;; Ok (sq, seq_f)) (sq, seq_f) ;;
      sq <- bset sq (of - 1) ch_k ;;
      seq_f <- bset seq_f (of - 1) ch_j ;;
      seq_f <- bset seq_f of ch_k ;;
      lens_W <- for_ 0 (j + 1) (fun m b => x <- bget lens_H m ;; bset b m x) (newbuf (j + 2)) ;;
      lens_W <- bset lens_W (j + 1) K ;;
      H_temp <- new_tensor (j + 2) lens_W ;;
      ij <- bget index j ;;
      Wj <- lget W ij ;;
      assign_b H_temp seq_f [(H_front, sq); (Wj, lit sjk)]) H_front.

(** common.cxx:291-295 Gram_Schmidt: A -= (A.B / B.B) B *)
Definition dot1 (A B : tensor N) : res N :=
  t <- assign false (zeros []) [] [prodt [(A, [ch_i]); (B, [ch_i])]] ;; Ok (at_ t []).
Definition Gram_Schmidt (A B : tensor N) : res (tensor N) :=
  normA <- dot1 B B ;;
  prod <- dot1 A B ;;
  assign true A [ch_i] [mkTerm (- (prod / normA)) [(B, [ch_i])]].

(** common.cxx:297-302 collinearity *)
Definition collinearity (v1 v2 : tensor N) : res N :=
  ip <- dot1 v1 v2 ;;
  Ok (ip / (norm2 v1 * norm2 v2)).
End M.
Arguments lapack : clear implicits.
