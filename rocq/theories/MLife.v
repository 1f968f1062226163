(** Storage of a CPD object: src/decomposition.{h,cxx}, src/CP.{h,cxx} and the storage part of src/optimizer/*.
    Only allocation, release and pointer use are modelled here; what the functions compute is modelled in MCPD.v,
    MOpt.v and MOptLR.v. *)
From Coq Require Import List ZArith Lia Bool Arith.
From Verif Require Import Base.
Import ListNotations.

(** ** The store.  Blocks are numbered in the order of their allocation; a number is never used again (an
    implementation may reuse addresses after a delete, which only hides a double free, it does not make it valid). *)
Inductive block := One | Arr | Stk.   (* new T, new T[n], an object that is not on the heap *)
Record heap := mkHeap { live : nat -> option block; next : nat }.
Inductive ptr := Null | Uninit | At (i : nat).

(** new and new[] *)
Definition alloc (k : block) (h : heap) : ptr * heap :=
  (At (next h), mkHeap (fun i => if i =? next h then Some k else live h i) (S (next h))).
(** delete (k = One) and delete[] (k = Arr): a null pointer is ignored, anything but a live block of the right form is
    undefined *)
Definition block_eqb (a b : block) : bool :=
  match a, b with One, One | Arr, Arr | Stk, Stk => true | _, _ => false end.
Definition del (k : block) (p : ptr) (h : heap) : res heap :=
  match p with
  | Null => Ok h
  | Uninit => Err UB
  | At i => match live h i with
            | Some k' => if block_eqb k k' then Ok (mkHeap (fun j => if j =? i then None else live h j) (next h)) else Err UB
            | None => Err UB
            end
  end.
(** reading or writing through a pointer *)
Definition use (p : ptr) (h : heap) : res unit :=
  match p with At i => match live h i with Some _ => Ok tt | None => Err UB end | _ => Err UB end.
Definition nonnull (p : ptr) : res bool :=
  match p with Null => Ok false | At _ => Ok true | Uninit => Err UB end.
(** if (p != NULL) delete p; *)
Definition del_if (k : block) (p : ptr) (h : heap) : res heap :=
  b <- nonnull p ;; if b then del k p h else Ok h.

Inductive okind := KSimple | KDT | KMSDT | KDTLR | KMSDTLR.

(** the pointer members of an optimizer: cp_als_optimizer.h:23-29, cp_dt_lr_optimizer.h, cp_msdt_lr_optimizer.h *)
Record optr := mkOpt {
  o_kind : okind; o_order : nat; o_rank : nat;
  o_V : ptr; o_W : ptr; o_grad : ptr;
  o_c1 : ptr; o_c2 : ptr;                     (* cached_tensor1/2, CPDTLROptimizer *)
  o_is_cached : ptr; o_tensors : ptr; o_oldW : ptr  (* CPMSDTLROptimizer *) }.
(** a CPD object: decomposition.h:26-35, CP.h:13-17.  The members of the optimizer are kept beside the pointer to it;
    every access to them goes through [use (d_opt ..)]. *)
Record cpd := mkCpd {
  d_order : nat; d_sz : nat; d_rk : nat;
  d_V : ptr; d_W : ptr; d_size : ptr; d_rank : ptr; d_world : ptr;
  d_grad : ptr; d_opt : ptr; d_optr : optr }.

(** cp_als_optimizer.cxx:7-16 and the constructors of the derived classes: cp_simple_optimizer.cxx:8-17,
    cp_dt_optimizer.cxx:8-40, cp_msdt_optimizer.cxx:8-30 (allocate nothing), cp_dt_lr_optimizer.cxx:8-24 (null caches),
    cp_msdt_lr_optimizer.cxx:8-27 (three arrays) *)
Definition opt_ctor (k : okind) (order r : nat) (h : heap) : optr * heap :=
  match k with
  | KMSDTLR =>
      let '(a, h) := alloc Arr h in
      let '(b, h) := alloc Arr h in
      let '(c, h) := alloc Arr h in
      (mkOpt k order r Null Null Null Uninit Uninit a b c, h)
  | KDTLR => (mkOpt k order r Null Null Null Null Null Uninit Uninit Uninit, h)
  | _ => (mkOpt k order r Null Null Null Uninit Uninit Uninit Uninit Uninit, h)
  end.

(** decomposition.cxx:8-18 and CP.cxx:7-45: the constructors with one size and one rank; [world] is the address of the
    World object of the caller *)
Definition cpd_ctor (k : okind) (order s r : nat) (world : ptr) (h : heap) : cpd * heap :=
  let '(sz, h) := alloc Arr h in
  let '(rk, h) := alloc Arr h in
  let '(op, h) := alloc One h in                (* new Optimizer(..) *)
  let '(o, h) := opt_ctor k order r h in
  (mkCpd order s r Null Null sz rk world Null op o, h).

(** decomposition.cxx:20-32 (and CP.cxx:47-65): the constructor with arrays of sizes and ranks; the member [world] is not
    initialised when *world = dw is executed.  Nothing after that statement is modelled. *)
Definition cpd_ctor_arrays (k : okind) (order : nat) (sizes ranks : list nat) (world : ptr) (h : heap) : res (cpd * heap) :=
  _ <- use Uninit h ;;                          (* *world = dw; *)
  Ok (cpd_ctor k order (hd 0 sizes) (hd 0 ranks) world h).

(** the arguments of Init: the addresses, and what the assertions read through them *)
Record tensor_arg := mkTA { t_ptr : ptr; t_lens : list nat }.
Record mats_arg := mkMA { m_ptr : ptr; m_ncols : list nat }.

Definition check (b : bool) : res unit := if b then Ok tt else Err AssertFail.

(** decomposition.cxx:54-69 Decomposition::Init *)
Definition decomp_Init (d : cpd) (V : tensor_arg) (W : mats_arg) (h : heap) : res (cpd * heap) :=
  _ <- use (t_ptr V) h ;;
  _ <- check (length (t_lens V) =? d_order d) ;;
  _ <- for_ 0 (d_order d) (fun i _ =>
         l <- lget (t_lens V) i ;;
         _ <- use (d_size d) h ;;
         _ <- check (l =? d_sz d) ;;
         _ <- use (m_ptr W) h ;;
         n <- lget (m_ncols W) i ;;
         _ <- use (d_rank d) h ;;
         check (n =? d_rk d)) tt ;;
  h <- del_if One (d_V d) h ;;
  b <- nonnull (m_ptr W) ;;
  h <- (if b then del Arr (d_W d) h else Ok h) ;;
  Ok (mkCpd (d_order d) (d_sz d) (d_rk d) (t_ptr V) (m_ptr W) (d_size d) (d_rank d) (d_world d) (d_grad d) (d_opt d) (d_optr d), h).

(** cp_als_optimizer.cxx:41-65 CPOptimizer::configure *)
Definition configure (o : optr) (V : tensor_arg) (W : mats_arg) (grad : ptr) (h : heap) : res (optr * heap) :=
  _ <- use (t_ptr V) h ;;
  _ <- check (length (t_lens V) =? o_order o) ;;
  _ <- for_ 0 (o_order o) (fun i _ =>
         _ <- use (m_ptr W) h ;;
         n <- lget (m_ncols W) i ;;
         check (n =? o_rank o)) tt ;;
  h <- del_if One (o_V o) h ;;
  h <- del_if Arr (o_W o) h ;;
  h <- del_if Arr (o_grad o) h ;;
  _ <- use (m_ptr W) h ;;                       (* mat[0].ncol *)
  Ok (mkOpt (o_kind o) (o_order o) (o_rank o) (t_ptr V) (m_ptr W) grad (o_c1 o) (o_c2 o) (o_is_cached o) (o_tensors o) (o_oldW o), h).

(** CP.cxx:67-84 CPD::Init *)
Definition cpd_Init (d : cpd) (V : tensor_arg) (W : mats_arg) (h : heap) : res (cpd * heap) :=
  '(d, h) <- decomp_Init d V W h ;;
  h <- del_if Arr (d_grad d) h ;;
  let '(g, h) := alloc Arr h in
  _ <- use (d_size d) h ;;
  _ <- use (d_rank d) h ;;
  _ <- use (d_world d) h ;;
  _ <- use (d_opt d) h ;;
  '(o, h) <- configure (d_optr d) V W g h ;;
  Ok (mkCpd (d_order d) (d_sz d) (d_rk d) (d_V d) (d_W d) (d_size d) (d_rank d) (d_world d) g (d_opt d) o, h).

(** one optimizer step as far as storage goes.  Every step reads V and W and writes grad_W (the members of the optimizer),
    and the multi-sweep low-rank step uses its three arrays.  cp_dt_lr_optimizer.cxx:38-97: [first] is first_subtree and
    [lowrank] the test of line 77; the cached tensor of the subtree is allocated by the first step that is not low-rank
    and is read by every step. *)
Definition cpd_step (first lowrank : bool) (d : cpd) (h : heap) : res (cpd * heap) :=
  _ <- use (d_opt d) h ;;
  let o := d_optr d in
  _ <- use (o_V o) h ;; _ <- use (o_W o) h ;; _ <- use (o_grad o) h ;;
  match o_kind o with
  | KDTLR =>
      let c := if first then o_c1 o else o_c2 o in
      '(c, h) <- (if lowrank then Ok (c, h)
                  else b <- nonnull c ;; if b then Ok (c, h) else Ok (alloc One h)) ;;
      _ <- use c h ;;
      let o' := mkOpt (o_kind o) (o_order o) (o_rank o) (o_V o) (o_W o) (o_grad o)
                      (if first then c else o_c1 o) (if first then o_c2 o else c) (o_is_cached o) (o_tensors o) (o_oldW o) in
      Ok (mkCpd (d_order d) (d_sz d) (d_rk d) (d_V d) (d_W d) (d_size d) (d_rank d) (d_world d) (d_grad d) (d_opt d) o', h)
  | KMSDTLR => _ <- use (o_is_cached o) h ;; _ <- use (o_tensors o) h ;; _ <- use (o_oldW o) h ;; Ok (d, h)
  | _ => Ok (d, h)
  end.
Fixpoint cpd_steps (l : list (bool * bool)) (d : cpd) (h : heap) : res (cpd * heap) :=
  match l with
  | [] => Ok (d, h)
  | (first, lowrank) :: l => '(d, h) <- cpd_step first lowrank d h ;; cpd_steps l d h
  end.

(** the destructors of the optimizers: cp_als_optimizer.cxx:18, cp_simple_optimizer.cxx:19-21, cp_dt_optimizer.cxx:42-44,
    cp_msdt_optimizer.cxx:32-34 release nothing; cp_dt_lr_optimizer.cxx:32-36; cp_msdt_lr_optimizer.cxx:29-33 (old_W is
    not released) *)
Definition opt_dtor (o : optr) (h : heap) : res heap :=
  match o_kind o with
  | KDTLR => h <- del One (o_c1 o) h ;; del One (o_c2 o) h
  | KMSDTLR => h <- del Arr (o_is_cached o) h ;; del Arr (o_tensors o) h
  | _ => Ok h
  end.
(** CP.cxx:92-99 ~CPD, then decomposition.cxx:38-48 ~Decomposition (V is left alone: the delete is commented out) *)
Definition cpd_dtor (d : cpd) (h : heap) : res heap :=
  h <- del_if Arr (d_grad d) h ;;
  b <- nonnull (d_opt d) ;;
  h <- (if b then _ <- use (d_opt d) h ;; h <- opt_dtor (d_optr d) h ;; del One (d_opt d) h else Ok h) ;;
  _ <- nonnull (d_V d) ;;
  h <- del_if Arr (d_W d) h ;;
  h <- del Arr (d_size d) h ;;
  del Arr (d_rank d) h.

(** cp_dt_lr_optimizer.cxx:77, 202-235: how the storage of successive steps of CPDTLROptimizer is driven: first_subtree
    alternates, count_subiteration counts the second subtrees and is reset when it reaches 5, low_rank_decomp is set by a
    step that makes a low-rank update ([hit]: whether the loop of the step reaches the position of line 202; left open) *)
Fixpoint dl_schedule (first : bool) (count : nat) (flag : bool) (hits : list bool) : list (bool * bool) :=
  match hits with
  | [] => []
  | hit :: hits =>
      let flag' := flag || (hit && (1 <=? count)) in
      let count' := if first then count else count + 1 in
      (first, flag && (1 <? count)) ::
      (if (count' =? 5) && negb first then dl_schedule (negb first) 0 false hits
       else dl_schedule (negb first) count' flag' hits)
  end.
