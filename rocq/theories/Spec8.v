(** Specification of a run of the Tucker drivers: which iterations are checked, when the run stops, what it writes. *)
From Coq Require Import List ZArith Bool Arith.
From Verif Require Import Base Num Tensor Spec Spec4 Spec7.
Import ListNotations.

(** alsTucker_DT and the two phases of alsTucker_PP check iteration k if it is a positive multiple of resprint, if it is the
    first after the start, or if it is the last; alsTucker checks every 100 iterations and the last *)
Definition tk_checked (maxiter resprint : Z) (k : nat) : bool :=
  (Z.eqb (Z.rem (Z.of_nat k) resprint) 0 && negb (Nat.eqb k 0)) || Nat.eqb k 1 || Z.eqb (Z.of_nat k) maxiter.
Definition plain_checked (maxiter : Z) (k : nat) : bool :=
  (Z.eqb (Z.rem (Z.of_nat k) 100) 0 && negb (Nat.eqb k 0)) || Z.eqb (Z.of_nat k) maxiter.
(** the checked ones among the first n iterations *)
Definition checked_below (chk : nat -> bool) (n : nat) : list nat := filter chk (seq 0 n).

(** the value of f at the last checked iteration before k; a0 if there was none *)
Fixpoint last_checked {A : Type} (chk : nat -> bool) (a0 : A) (f : nat -> A) (k : nat) : A :=
  match k with O => a0 | S j => if chk j then f j else last_checked chk a0 f j end.

Section S.
Context {N : num}.
Local Open Scope num_scope.
(** the distance between V and the tensor represented by the factors and their core *)
Definition tucker_resid (V : tensor N) (W : list (tensor N)) : N :=
  norm2 (msub (tucker_full (tucker_core V W) W) V).
(** the change of the norm of the core since the last check: what the runs compare with the tolerance *)
Definition core_change (chk : nat -> bool) (core0 : tensor N) (coref : nat -> tensor N) (k : nat) : N :=
  nabs (norm2 (coref k) - norm2 (last_checked chk core0 coref k)).
(** a check of iteration i ends the run if the change is below tol, or the time is up at check number j *)
Definition tk_stops (late : nat -> bool) (chk : nat -> bool) (change : nat -> N) (tol : N) (i : nat) : bool :=
  chk i && (nltb (change i) tol || late (length (checked_below chk i))).
(** k iterations (sweeps) are done; [stopped]: a check ended the run *)
Definition tk_run_spec (late : nat -> bool) (chk : nat -> bool) (change : nat -> N) (tol : N) (maxiter : Z) (k : nat) (stopped : bool) : Prop :=
  (forall i, (i < k)%nat -> tk_stops late chk change tol i = false) /\
  (if stopped then (Z.of_nat k <= maxiter)%Z /\ tk_stops late chk change tol k = true
   else Z.of_nat k = (maxiter + 1)%Z).
End S.
