(** Model of src/optimizer/*.cxx: the ALS optimizers used by CPD (src/CP.cxx). *)
From Coq Require Import List ZArith QArith Bool Arith Lia.
From Verif Require Import Base Num Tensor MCommon MCP.
Import ListNotations.
Local Close Scope Q_scope.

(** the member buffers  char seq_V[100]  of the optimizers: filled by the constructor
    (cp_simple_optimizer.cxx:11-15, cp_dt_optimizer.cxx:11-17, cp_msdt_optimizer.cxx:12-18) *)
Definition opt_seqV (o : nat) : res (buf Z) :=
  b <- bset (newbuf 100) o 0%Z ;; for_ 0 o (fun j b => bset b j (chr j)) b.
(** seq_tree_top: the letters of the first order-1 positions and '*' (cp_dt_optimizer.cxx:13-18) *)
Definition opt_tree_top (o : nat) : res str :=
  b <- bset (newbuf 100) o 0%Z ;;
  b <- for_ 0 o (fun j b => bset b j (chr j)) b ;;
  b <- bset b (o - 1) ch_star ;;
  cstr b.

(** ** the tree of positions (cp_dt_optimizer.cxx:66-123, cp_msdt_optimizer.cxx:51-108: same text).
    [tree] is the pair of maps (parent, contract_index). *)
Definition tree := (smap str * smap str)%type.
(** vector<int>(top.size()-1) filled with the first elements of top *)
Definition butlast (top : list nat) : list nat := firstn (length top - 1) top.
(** lines 103-123 Right_Subtree.  [fuel]: recursion depth, at most the length of the vector. *)
Fixpoint Right_Subtree (fuel : nat) (t : tree) (top : list nat) : res tree :=
  match fuel with
  | 0 => Err OutOfFuel
  | S fuel =>
    let child := butlast top in
    last <- lget top (length top - 1) ;;
    child <- lput child (length child - 1) last ;;
    mat <- lget top (length top - 2) ;;
    child_seq <- vec2str child ;;
    top_seq <- vec2str top ;;
    mat_seq <- vec2str [mat] ;;
    let t := (sput (fst t) child_seq top_seq, sput (snd t) child_seq mat_seq) in
    if 1 <? length child then Right_Subtree fuel t child else Ok t
  end.
(** lines 79-100 Construct_Subtree *)
Fixpoint Construct_Subtree (fuel : nat) (t : tree) (top : list nat) : res tree :=
  match fuel with
  | 0 => Err OutOfFuel
  | S fuel =>
    t <- Right_Subtree (length top) t top ;;
    let child := butlast top in
    mat <- lget top (length top - 1) ;;
    child_seq <- vec2str child ;;
    top_seq <- vec2str top ;;
    mat_seq <- vec2str [mat] ;;
    let t := (sput (fst t) child_seq top_seq, sput (snd t) child_seq mat_seq) in
    if 1 <? length child then Construct_Subtree fuel t child else Ok t
  end.
(** lines 67-76 Construct_Dimension_Tree *)
Definition opt_tree (o : nat) : res tree :=
  let top := seq 0 (o - 1) in Construct_Subtree (length top) (sempty, sempty) top.

(** cp_dt_optimizer.cxx:50-64, cp_msdt_optimizer.cxx:40-48 update_indexes *)
Definition update_indexes (o : nat) (indexes : list nat) (left_index : nat) : res (list nat) :=
  '(indexes, j) <- for_ (left_index + 1) o (fun i st => let '(ix, j) := st in ix <- lput ix j i ;; Ok (ix, j + 1)) (indexes, 0) ;;
  '(indexes, j) <- for_ 0 left_index (fun i st => let '(ix, j) := st in ix <- lput ix j i ;; Ok (ix, j + 1)) (indexes, j) ;;
  Ok indexes.

Section M.
Context {N : num} (LA : lapack N).
Local Open Scope num_scope.

(** the data every optimizer works on (cp_als_optimizer.h): W, grad_W, S.  V, order, rank and regul do not
    change after configure. *)
Record opt_st := mkOpt { oW : list (tensor N); oG : list (tensor N); oS : tensor N }.

(** cp_als_optimizer.cxx:20-38 update_S: returns the new S *)
Definition update_S (o : nat) (regul : tensor N) (W : list (tensor N)) (Sm : tensor N) (n : nat) : res (tensor N) :=
  '(index, j) <- for_ 0 n (fun i st => let '(ix, j) := st in ix <- lput ix j i ;; Ok (ix, (j + 1)%nat)) (repeat 0%nat (o - 1), 0%nat) ;;
  '(index, j) <- for_ (n + 1) o (fun i st => let '(ix, j) := st in ix <- lput ix j i ;; Ok (ix, (j + 1)%nat)) (index, j) ;;
  Sm <- gram_index Sm W o (map Some index) ;;
  assign true Sm sij [prodt [(regul, sij)]].

(** update_S, gradient, Cholesky solve for mode n with the given MTTKRP
    (cp_simple_optimizer.cxx:46-50, cp_dt_optimizer.cxx:225-231, cp_msdt_optimizer.cxx:200-205) *)
Definition opt_update (o : nat) (regul : tensor N) (M : tensor N) (n : nat) (st : opt_st) : res opt_st :=
  Sm <- update_S o regul (oW st) (oS st) n ;;
  g <- lget (oG st) n ;;
  Wn <- lget (oW st) n ;;
  g <- gradsubprob M Sm Wn g ;;
  G <- lput (oG st) n g ;;
  X <- cholesky_solve LA M Sm ;;
  W <- lput (oW st) n X ;;
  Ok (mkOpt W G Sm).

(** ** cp_simple_optimizer.cxx:22-55 CPSimpleOptimizer::step.  The fraction of a sweep is returned with the
    new state; seq_V is carried because swap_char modifies it. *)
Definition simple_mode (V : tensor N) (regul : tensor N) (i : nat) (s : opt_st * buf Z) : res (opt_st * buf Z) :=
  let o := order V in
  let '(st, seq_V) := s in
  seq_V <- swap_char seq_V i (o - 1) ;;
  Wi <- lget (oW st) i ;;
  '(index, lens_H) <- make_index o seq_V (fun m => Wm <- lget (oW st) m ;; Ok (nrow Wm)) (ncol Wi) ;;
  M <- KhatriRao_contract (zeros [nrow Wi; ncol Wi]) V (oW st) index lens_H ;;
  st <- opt_update o regul M i st ;;
  seq_V <- swap_char seq_V i (o - 1) ;;
  Ok (st, seq_V).
Definition simple_step (V : tensor N) (regul : tensor N) (s : opt_st * buf Z) : res (Q * (opt_st * buf Z)) :=
  s <- for_ 0 (order V) (simple_mode V regul) s ;; Ok (1%Q, s).

(** ** the first-level contraction: cp_dt_optimizer.cxx:126-160, cp_msdt_optimizer.cxx:110-144
    (and the same text in the low-rank optimizers).  Returns seq_map_init and the fresh tensor.
    Simplification: the member buffer seq_map_init is modelled as fresh in every call (it is overwritten
    up to its terminator before it is read). *)
Definition map_init_seq (o left_index : nat) : res str :=
  b <- bset (newbuf 100) o 0%Z ;;
  b <- bset b (o - 1) ch_star ;;
  '(b, j) <- for_ (left_index + 1) o (fun i st => let '(b, j) := st in b <- bset b j (chr i) ;; Ok (b, (j + 1)%nat)) (b, 0%nat) ;;
  '(b, j) <- for_ 0 left_index (fun i st => let '(b, j) := st in b <- bset b j (chr i) ;; Ok (b, (j + 1)%nat)) (b, j) ;;
  cstr b.
(** lens[ii] = '*' ? W[0].ncol : V.lens[f(c - 'a')] *)
Definition node_lens (V : tensor N) (W : list (tensor N)) (f : nat -> res nat) (s : str) : res (list nat) :=
  for_ 0 (length s) (fun ii ls =>
      c <- lget s ii ;;
      l <- (if Z.eqb c ch_star then W0 <- lget W 0 ;; Ok (ncol W0)
            else p <- ix c ;; m <- f p ;; lget (lens V) m) ;;
      Ok (ls ++ [l])) [].
Definition fresh_top (V : tensor N) (W : list (tensor N)) (seq_V : buf Z) (left_index : nat) : res (tensor N) :=
  s <- map_init_seq (order V) left_index ;;
  ls <- node_lens V W (fun m => Ok m) s ;;
  Wl <- lget W left_index ;;
  sV <- take (order V) seq_V ;;
  assign false (zeros ls) s [prodt [(V, sV); (Wl, [chr left_index; ch_star])]].

(** cp_dt_optimizer.cxx:162-185, cp_msdt_optimizer.cxx:146-171 (and the low-rank copies) mttkrp_map_DT *)
Fixpoint opt_map_DT (fuel : nat) (V : tensor N) (W : list (tensor N)) (t : tree) (indexes : list nat)
  (mp : smap (tensor N)) (index : str) : res (smap (tensor N)) :=
  match fuel with
  | 0%nat => Err OutOfFuel
  | S fuel =>
    let parent_index := sget (fst t) index in
    mp <- (match mp parent_index with
           | None => opt_map_DT fuel V W t indexes mp parent_index
           | Some _ => Ok mp end) ;;
    let mat_index := sget (snd t) index in
    c <- str_at mat_index 0 ;;
    W_index <- ix c ;;
    ls <- node_lens V W (fun p => lget indexes p) index ;;
    m <- lget indexes W_index ;;
    Wm <- lget W m ;;
    T <- assign false (zeros ls) index [prodt [(tget mp parent_index, parent_index); (Wm, mat_index)]] ;;
    Ok (sput mp index T)
  end.

(** the MTTKRP of position i: cp_dt_optimizer.cxx:215-223, cp_msdt_optimizer.cxx:190-198 *)
Definition leaf_M (fuel : nat) (V : tensor N) (W : list (tensor N)) (t : tree) (indexes : list nat) (mp : smap (tensor N)) (i : nat)
  : res (smap (tensor N) * tensor N) :=
  mat_seq <- vec2str [i] ;;
  mp <- (match mp mat_seq with None => opt_map_DT fuel V W t indexes mp mat_seq | Some _ => Ok mp end) ;;
  Ok (mp, tget mp mat_seq).

(** one position of a step *)
Definition tree_mode (fuel : nat) (V : tensor N) (regul : tensor N) (t : tree) (indexes : list nat) (i : nat)
  (s : opt_st * smap (tensor N)) : res (opt_st * smap (tensor N)) :=
  let '(st, mp) := s in
  '(mp, M) <- leaf_M fuel V (oW st) t indexes mp i ;;
  n <- lget indexes i ;;
  st <- opt_update (order V) regul M n st ;;
  Ok (st, mp).

(** ** cp_dt_optimizer.cxx:8-40 (constructor), 187-237 CPDTOptimizer::step *)
Record dt_st := mkDT { ds : opt_st; dtree : tree; dtop : str; dseq : buf Z;
                       dfirst : bool; dix1 : list nat; dix2 : list nat; dl1 : nat; dl2 : nat; dspecial : nat }.
Definition dt_new (o : nat) (st : opt_st) : res dt_st :=
  sq <- opt_seqV o ;;
  top <- opt_tree_top o ;;
  t <- opt_tree o ;;
  let indexes := seq 0 (o - 1) in
  let l1 := (o - 1)%nat in
  let l2 := ((l1 + o - 1) mod o)%nat in
  ix2 <- update_indexes o indexes l2 ;;
  Ok (mkDT st t top sq true indexes ix2 l1 l2 0).
(** the loop: [first] skips positions below special_index, the second subtree stops after it *)
Definition dt_range (first : bool) (special n : nat) : nat * nat :=
  if first then (special, n) else (0%nat, Nat.min (special + 1) n).
Definition dt_step (fuel : nat) (V : tensor N) (regul : tensor N) (s : dt_st) : res (Q * dt_st) :=
  let indexes := if dfirst s then dix1 s else dix2 s in
  let left_index := if dfirst s then dl1 s else dl2 s in
  T <- fresh_top V (oW (ds s)) (dseq s) left_index ;;
  let mp := sput sempty (dtop s) T in
  let '(lo, hi) := dt_range (dfirst s) (dspecial s) (length indexes) in
  '(st, mp) <- for_ lo hi (tree_mode fuel V regul (dtree s) indexes) (ds s, mp) ;;
  Ok ((1 # 2)%Q, mkDT st (dtree s) (dtop s) (dseq s) (negb (dfirst s)) (dix1 s) (dix2 s) (dl1 s) (dl2 s) (dspecial s)).

(** ** cp_msdt_optimizer.cxx:8-30 (constructor), 173-208 CPMSDTOptimizer::step *)
Record ms_st := mkMS { mss : opt_st; mtree : tree; mtop : str; mseq : buf Z; mix : list nat; mleft : nat }.
Definition ms_new (o : nat) (st : opt_st) : res ms_st :=
  sq <- opt_seqV o ;;
  top <- opt_tree_top o ;;
  t <- opt_tree o ;;
  Ok (mkMS st t top sq (seq 0 (o - 1)) o).
Definition ms_step (fuel : nat) (V : tensor N) (regul : tensor N) (s : ms_st) : res (Q * ms_st) :=
  let o := order V in
  let left_index := ((mleft s + o - 1) mod o)%nat in
  indexes <- update_indexes o (mix s) left_index ;;
  T <- fresh_top V (oW (mss s)) (mseq s) left_index ;;
  let mp := sput sempty (mtop s) T in
  '(st, mp) <- for_ 0 (length indexes) (tree_mode fuel V regul (mtree s) indexes) (mss s, mp) ;;
  Ok ((Z.of_nat o - 1 # Pos.of_nat o)%Q, mkMS st (mtree s) (mtop s) (mseq s) indexes left_index).
End M.
Arguments opt_st : clear implicits.
Arguments dt_st : clear implicits.
Arguments ms_st : clear implicits.
