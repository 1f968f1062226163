(** Specification of the program pp_bench: maxiter repetitions of one dimension-tree run and then of one pairwise-perturbation run *)
From Coq Require Import List ZArith QArith Bool Arith String Ascii.
From Verif Require Import Base Num Tensor Spec Spec2 Spec7 Spec8 Spec9 Spec12 Spec13 Spec14 MCP MTucker MGen MRun MMains.
Import ListNotations.
Local Close Scope Q_scope.

(** n repetitions; None: some repetition does not end *)
Fixpoint again {A : Type} (n : nat) (f : A -> option A) (a : A) : option A :=
  match n with O => Some a | S n => match f a with Some a => again n f a | None => None end end.

Section S.
Context {N : num} (clk : nat -> N) (rank0 : bool).
Local Open Scope num_scope.
Context (st : settings (N := N)) (rounds : nat) (V : tensor N) (W : list (tensor N)).
Let tol := s_tol st * norm2 V.
Let reps := Z.to_nat (s_maxiter st).

(** every repetition starts from the same factors W, and from the gradients, clock and log which the previous repetition left;
    it may do one iteration more than the first check *)
Definition cp_bench (solve : tensor N -> tensor N -> tensor N) (G : list (tensor N)) (x : io (N := N)) : option (io (N := N) * io (N := N) * list (tensor N)) :=
  let R := Z.to_nat (s_rank st) in
  let dt_rep '(G, x) := let '(_, s) := dt_algorithm clk rank0 V tol (s_timelimit st) 1 (s_resprint st) true solve R (s_lambda st) (zmats V R) W G x in Some (cpG s, cpio s) in
  let pp_rep '(G, x) := match pp_algorithm clk rank0 solve V R tol (s_pp_res_tol st) (s_timelimit st) 1 (s_lambda st) (s_magni st) (s_resprint st) true rounds W G x with
                        | Some (_, p) => Some (pG p, pio p) | None => None end in
  match again reps dt_rep (G, x) with
  | None => None
  | Some (G1, x1) => match again reps pp_rep (G1, x1) with None => None | Some (G2, x2) => Some (x1, x2, G2) end
  end.
(** Tucker: the core is passed on instead; at the beginning it is zero *)
Definition tucker_bench (svd : tensor N -> nat -> tensor N * tensor N * tensor N) (ranks : list nat) (x : io (N := N)) : option (io (N := N) * io (N := N) * tensor N) :=
  let dt_rep '(core, x) := let '(_, k) := tdt_algorithm clk rank0 V tol (s_timelimit st) 1 (s_resprint st) true svd ranks core W x in Some (kcore k, kio k) in
  let pp_rep '(core, x) := match tk_algorithm clk rank0 svd V ranks tol (s_timelimit st) 1 (s_resprint st) true (s_pp_res_tol st) rounds core W x with
                           | Some (_, k) => Some (kcore k, kio k) | None => None end in
  match again reps dt_rep (zeros ranks, x) with
  | None => None
  | Some (c1, x1) => match again reps pp_rep (c1, x1) with None => None | Some (c2, x2) => Some (x1, x2, c2) end
  end.
End S.
