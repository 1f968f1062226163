(** Tensors and the index-notation statements of CTF (Cyclops Tensor Framework).
    CTF is an external library of /repo (ctf.hpp); this file is the trusted statement of what its
    operations compute.  Simplification: the data is global (not distributed), and arithmetic is
    that of the abstract record [num], so the order of summation is irrelevant only under ring laws. *)
From Coq Require Import List ZArith Bool Arith Lia.
From Verif Require Import Base Num.
Import ListNotations.

Record tensor (N : num) : Type := mkT { lens : list nat; data : list N }.
Arguments mkT {N}. Arguments lens {N}. Arguments data {N}.

Definition order {N} (T : tensor N) : nat := length (lens T).

(** column-major linear index (CTF global index): the first index varies fastest *)
Fixpoint lin (ls idx : list nat) : nat :=
  match ls, idx with
  | n :: ls', i :: idx' => i + n * lin ls' idx'
  | _, _ => 0
  end.
Fixpoint all_idx (ls : list nat) : list (list nat) :=
  match ls with
  | [] => [[]]
  | n :: ls' => flat_map (fun t => map (fun i => i :: t) (seq 0 n)) (all_idx ls')
  end.
Definition size (ls : list nat) : nat := fold_right Nat.mul 1 ls.

Definition wf {N} (T : tensor N) : Prop := length (data T) = size (lens T).

Section T.
Context {N : num}.
Local Open Scope num_scope.

(** element access *)
Definition at_ (T : tensor N) (idx : list nat) : N := nth (lin (lens T) idx) (data T) n0.
Definition tabulate (ls : list nat) (f : list nat -> N) : tensor N := mkT ls (map f (all_idx ls)).
(** Tensor<>(order, lens, dw) is zero-initialised *)
Definition zeros (ls : list nat) : tensor N := tabulate ls (fun _ => n0).
(** default-constructed Tensor<> / Matrix<>: order 0 *)
Definition tnil : tensor N := mkT [] [].
Definition nrow (T : tensor N) : nat := nth 0 (lens T) 0%nat.
Definition ncol (T : tensor N) : nat := nth 1 (lens T) 0%nat.

(** ** finite sums and products *)
Definition bigsum {X} (l : list X) (f : X -> N) : N := fold_right (fun x a => f x + a) n0 l.
Definition bigprod {X} (l : list X) (f : X -> N) : N := fold_right (fun x a => f x * a) n1 l.

(** ** environments: the value of each index letter *)
Definition env := Z -> nat.
Definition upd (e : env) (c : Z) (i : nat) : env := fun x => if Z.eqb x c then i else e x.
Fixpoint assoc (c : Z) (l : list (Z * nat)) : nat :=
  match l with
  | [] => 0
  | (c', v) :: l' => if Z.eqb c c' then v else assoc c l'
  end.
(** sum over all values of the letters cs, letter c ranging over 0 .. d c - 1 *)
Fixpoint sumc (d : Z -> nat) (cs : list Z) (f : env -> N) (e : env) : N :=
  match cs with
  | [] => f e
  | c :: cs' => bigsum (seq 0 (d c)) (fun i => sumc d cs' f (upd e c i))
  end.

(** ** index-notation statements
    C[sC] = t1 + ... + tm   or   C[sC] += t1 + ... + tm
    where each ti is coef * T1[s1] * ... * Tp[sp] *)
Record term := mkTerm { coef : N; facs : list (tensor N * str) }.

Definition memc (c : Z) (l : str) : bool := existsb (Z.eqb c) l.
Definition dims (fs : list (tensor N * str)) : list (Z * nat) :=
  flat_map (fun p => combine (snd p) (lens (fst p))) fs.
Definition consistent (l : list (Z * nat)) : bool :=
  forallb (fun p => Nat.eqb (assoc (fst p) l) (snd p)) l.
Definition lengths_ok (fs : list (tensor N * str)) : bool :=
  forallb (fun p => Nat.eqb (length (snd p)) (order (fst p))) fs.
Definition term_ok (C : tensor N) (sC : str) (t : term) : bool :=
  lengths_ok (facs t) && consistent (dims ((C, sC) :: facs t)).
(** letters of the right-hand side that are not in sC are summed *)
Definition contracted (sC : str) (fs : list (tensor N * str)) : list Z :=
  nodup Z.eq_dec (filter (fun c => negb (memc c sC)) (flat_map snd fs)).
Definition term_val (sC : str) (t : term) (e : env) : N :=
  coef t * sumc (fun c => assoc c (dims (facs t))) (contracted sC (facs t))
                (fun e' => bigprod (facs t) (fun p => at_ (fst p) (map e' (snd p)))) e.
Definition terms_val (sC : str) (ts : list term) (e : env) : N :=
  match ts with
  | [] => n0
  | t :: ts' => fold_left (fun a t' => a + term_val sC t' e) ts' (term_val sC t e)
  end.
(** an element of C is addressed by sC iff its indices agree on repeated letters *)
Definition addressed (sC : str) (idx : list nat) : bool := consistent (combine sC idx).

Definition assign (acc : bool) (C : tensor N) (sC : str) (ts : list term) : res (tensor N) :=
  if Nat.eqb (length sC) (order C) && forallb (term_ok C sC) ts then
    Ok (tabulate (lens C) (fun idx =>
      if addressed sC idx then
        let e := fun c => assoc c (combine sC idx) in
        if acc then at_ C idx + terms_val sC ts e else terms_val sC ts e
      else at_ C idx))
  else Err CtfError.

(** T[buf]: CTF copies order(T) characters of the given C string *)
Definition tix (T : tensor N) (b : buf Z) : res (tensor N * str) :=
  s <- take (order T) b ;; Ok (T, s).

(** a product of tensors with unit coefficient *)
Definition prodt (fs : list (tensor N * str)) : term := mkTerm n1 fs.

(** C[bC] = Π T[b] for C buffers *)
Fixpoint tixs (fs : list (tensor N * buf Z)) : res (list (tensor N * str)) :=
  match fs with
  | [] => Ok []
  | (T, b) :: fs' => p <- tix T b ;; r <- tixs fs' ;; Ok (p :: r)
  end.
Definition assign_b (C : tensor N) (bC : buf Z) (fs : list (tensor N * buf Z)) : res (tensor N) :=
  sC <- take (order C) bC ;;
  ps <- tixs fs ;;
  assign false C sC [prodt ps].

(** T.norm2(): Frobenius norm *)
Definition norm2 (T : tensor N) : N := nsqrt (bigsum (data T) (fun x => x * x)).

(** V = Tensor<>(n, lens_V, dw) for a C array of lengths *)
Definition new_tensor (n : nat) (b : buf nat) : res (tensor N) :=
  ls <- take n b ;; Ok (zeros ls).
End T.
Arguments term : clear implicits.

(** integer tensors, for concrete witnesses *)
Definition zt (ls : list nat) (l : list Z) : tensor Znum := @mkT Znum ls l.
