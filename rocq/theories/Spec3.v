(** Specification of the optimizers of src/optimizer: sequences of exact least-squares updates *)
From Coq Require Import List ZArith Bool Arith.
From Verif Require Import Base Num Tensor Spec.
Import ListNotations.

Section S.
Context {N : num}.
Local Open Scope num_scope.
(** mode n is replaced by the solution of its normal equations with the exact MTTKRP and the Gram matrices of the
    factors as they stand; the gradient recorded for mode n is the one just before the replacement *)
Definition ls_update (solve : tensor N -> tensor N -> tensor N) (lambda : N) (V : tensor N) (R : nat)
  (st : list (tensor N) * list (tensor N)) (n : nat) : list (tensor N) * list (tensor N) :=
  let '(W, G) := st in
  let M := mttkrp V W n R in
  let S := als_lhs lambda W R n in
  (setf W n (solve M S), setf G n (msub (mmul (fac W n) S) M)).
(** the given modes, one after the other *)
Definition ls_modes (solve : tensor N -> tensor N -> tensor N) (lambda : N) (V : tensor N) (R : nat)
  (modes : list nat) (st : list (tensor N) * list (tensor N)) : list (tensor N) * list (tensor N) :=
  fold_left (ls_update solve lambda V R) modes st.
(** all modes except l, cyclically from the one after l: l+1, ..., o-1, 0, ..., l-1 *)
Definition after (o l : nat) : list nat := seq (l + 1) (o - 1 - l) ++ seq 0 l.
End S.
(** what the Cholesky factorisation and the triangular solves must return: matrices of the right shapes *)
Definition tri_shaped {N : num} (chol : tensor N -> tensor N) (solve_tri : tensor N -> tensor N -> bool -> bool -> bool -> tensor N) : Prop :=
  (forall S k, is_mat S k k -> is_mat (chol S) k k) /\
  (forall B L r k b1 b2 b3, is_mat B r k -> is_mat L k k -> is_mat (solve_tri B L b1 b2 b3) r k).
(** X L^T then L: the solver through S = L L^T *)
Definition chol_solve {N : num} (chol : tensor N -> tensor N) (solve_tri : tensor N -> tensor N -> bool -> bool -> bool -> tensor N)
  (M S : tensor N) : tensor N :=
  let L := chol S in solve_tri (solve_tri M L true false true) L true false false.
(** ** the order in which the optimizers visit the modes.
    Two-subtree tree: steps alternate between the modes 0..o-2 and the mode o-1. *)
Definition dt_half (o k : nat) : list nat := if Nat.even k then seq 0 (o - 1) else [o - 1].
Definition dt_schedule (o k : nat) : list nat := flat_map (dt_half o) (seq 0 k).
(** Multi-sweep tree: step k leaves out mode o-1-(k mod o) and visits the others, starting after it *)
Definition ms_schedule (o k : nat) : list nat := flat_map (fun j => after o (o - 1 - j mod o)) (seq 0 k).
(** ** low-rank updates.  Three kinds of actions on factors W, gradients G, reference factors ref:
    Full n: replace factor n by the solution of its normal equations;
    Snap n: remember factor n as the reference of mode n;
    LowRank n: replace factor n by its reference plus a low-rank increment computed from the exact MTTKRP, the
    reference and the system matrix, all at the factors as they stand.
    The increment may depend on the number of low-rank updates so far (random sketches). *)
Inductive action := Full (n : nat) | Snap (n : nat) | LowRank (n : nat).
Record lrst (N : num) := mkLR { rW : list (tensor N); rG : list (tensor N); rRef : list (tensor N); rCnt : nat }.
Arguments mkLR {N}. Arguments rW {N}. Arguments rG {N}. Arguments rRef {N}. Arguments rCnt {N}.
Definition lr_act {N : num} (solve : tensor N -> tensor N -> tensor N) (inc : nat -> tensor N -> tensor N -> tensor N -> tensor N)
  (lambda : N) (V : tensor N) (R : nat) (st : lrst N) (a : action) : lrst N :=
  let '(mkLR W G ref c) := st in
  match a with
  | Full n => mkLR (setf W n (solve (mttkrp V W n R) (als_lhs lambda W R n)))
                   (setf G n (msub (mmul (fac W n) (als_lhs lambda W R n)) (mttkrp V W n R))) ref c
  | Snap n => mkLR W G (setf ref n (fac W n)) c
  | LowRank n => mkLR (setf W n (madd (fac ref n) (inc c (mttkrp V W n R) (fac ref n) (als_lhs lambda W R n))))
                   (setf G n (msub (mmul (fac W n) (als_lhs lambda W R n)) (mttkrp V W n R))) ref (S c)
  end.
Definition lr_acts {N : num} (solve : tensor N -> tensor N -> tensor N) (inc : nat -> tensor N -> tensor N -> tensor N -> tensor N)
  (lambda : N) (V : tensor N) (R : nat) (l : list action) (st : lrst N) : lrst N := fold_left (lr_act solve inc lambda V R) l st.
(** the increment: the rank-k truncated decomposition U diag(s) VT of (M - A S) L^-T, with VT multiplied by L^-1,
    where S = L L^T; [trunc c X k] is the truncated decomposition routine *)
Definition lr_factors {N : num} (trunc : nat -> tensor N -> nat -> tensor N * tensor N * tensor N) (chol : tensor N -> tensor N)
  (solve_tri : tensor N -> tensor N -> bool -> bool -> bool -> tensor N) (k c : nat) (M A S : tensor N) : tensor N * tensor N * tensor N :=
  let L := chol S in
  let '(U, s, VT) := trunc c (solve_tri (msub M (mmul A S)) L true false true) k in
  (U, s, solve_tri VT L true false false).
Definition usv {N : num} (k : nat) (U s VT : tensor N) : tensor N := mmul (mmul U (mdiag k (fun i => at_ s [i]))) VT.
Definition lr_inc {N : num} (trunc : nat -> tensor N -> nat -> tensor N * tensor N * tensor N) (chol : tensor N -> tensor N)
  (solve_tri : tensor N -> tensor N -> bool -> bool -> bool -> tensor N) (k c : nat) (M A S : tensor N) : tensor N :=
  let '(U, s, VT) := lr_factors trunc chol solve_tri k c M A S in usv k U s VT.
(** what the decompositions must return: matrices of the right shapes (nothing about their values) *)
Definition low_shaped {N : num} (svd : tensor N -> nat -> tensor N * tensor N * tensor N) (qr_q : tensor N -> tensor N)
  (rnd : nat -> list nat -> tensor N) : Prop :=
  (forall X r c k, is_mat X r c -> k <= r -> k <= c ->
     let '(U, s, VT) := svd X k in is_mat U r k /\ lens s = [k] /\ wf s /\ is_mat VT k c) /\
  (forall X r c, is_mat X r c -> c <= r -> is_mat (qr_q X) r c) /\
  (forall seed r c, is_mat (rnd seed [r; c]) r c).
(** randomised truncated decomposition: one power iteration on a random sketch, then the decomposition of A Q *)
Definition rsvd {N : num} (svd : tensor N -> nat -> tensor N * tensor N * tensor N) (qr_q : tensor N -> tensor N)
  (rnd : nat -> list nat -> tensor N) (c : nat) (A : tensor N) (k : nat) : tensor N * tensor N * tensor N :=
  let Q0 := qr_q (rnd c [ncol A; k]) in
  let Q := qr_q (mmul (mmul (mtrans A) A) Q0) in
  let '(U, s, VT) := svd (mmul A Q) k in (U, s, mmul VT (mtrans Q)).
(** the decomposition used: plain or randomised *)
Definition trunc_of {N : num} (svd : tensor N -> nat -> tensor N * tensor N * tensor N) (qr_q : tensor N -> tensor N)
  (rnd : nat -> list nat -> tensor N) (randomised : bool) : nat -> tensor N -> nat -> tensor N * tensor N * tensor N :=
  if randomised then rsvd svd qr_q rnd else fun _ => svd.
(** ** schedules of the low-rank optimizers.
    Two-subtree: half step h; sp = (h / 10) mod (o-1) shifts the split, after five sweeps each; within the five
    sweeps all but the first use a low-rank update for the two modes o-2-sp and o-1-sp at the split. *)
Definition low_act (b : bool) (n : nat) : list action := if b then [Snap n; LowRank n] else [Full n].
Definition dl_half (o h : nat) : list action :=
  let sp := (h / 10) mod (o - 1) in
  let low := negb ((h / 2) mod 5 =? 0) in
  if Nat.even h then map Full (seq 0 (o - 2 - sp)) ++ low_act low (o - 2 - sp)
  else low_act low (o - 1 - sp) ++ map Full (seq (o - sp) sp).
Definition dl_schedule (o k : nat) : list action := flat_map (dl_half o) (seq 0 k).
(** Multi-sweep: step j leaves out mode o-1-(j mod o), which becomes its own reference; the last mode of the step
    is the one left out next, it gets a low-rank update once it has a reference (from step o-1 on) *)
Definition ml_step_acts (o j : nat) : list action :=
  let l := o - 1 - j mod o in
  Snap l :: map Full (firstn (o - 2) (after o l)) ++
  [let n := nth (o - 2) (after o l) 0 in if o <=? j + 1 then LowRank n else Full n].
Definition ml_schedule (o k : nat) : list action := flat_map (ml_step_acts o) (seq 0 k).
