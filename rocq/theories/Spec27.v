(** Specification for the rounding-error theorems: the standard model of floating-point arithmetic.
    Every operation of the program is the exact operation on the reals followed by a rounding [rnd] that has
    relative error at most u (Higham, Accuracy and Stability of Numerical Algorithms, ch. 2: no overflow, no
    underflow).  Simplification: the sums of one CTF statement are rounded in the order of Tensor.v. *)
From Coq Require Import List ZArith QArith Reals Qreals.
From Verif Require Import Num NumR Tensor Spec.
Import ListNotations.
Local Open Scope R_scope.

(** rounded arithmetic: same carrier as Rnum *)
Definition Fl (rnd : R -> R) : num :=
  mkNum R 0 1 (fun x y => rnd (x + y)) (fun x y => rnd (x - y)) (fun x y => rnd (x * y)) Ropp
        (fun x y => rnd (x / y)) (fun x => rnd (sqrt x)) Rabs Rltb Reqb (fun n x => rnd (Rroot n x)) (fun q => rnd (Q2R q)).
(** rnd has relative error at most u *)
Definition rel_err (rnd : R -> R) (u : R) : Prop := 0 <= u /\ forall x, Rabs (rnd x - x) <= u * Rabs x.

(** the same numbers, as real numbers; and their absolute values *)
Definition reals {rnd} (T : tensor (Fl rnd)) : tensor Rnum := @mkT Rnum (lens T) (data T).
Definition absols {rnd} (T : tensor (Fl rnd)) : tensor Rnum := @mkT Rnum (lens T) (map Rabs (data T)).

(** (1+u)^k - 1: the accumulated relative error of k rounded operations *)
Definition gam (u : R) (k : nat) : R := (1 + u) ^ k - 1.

(** M, computed in rounded arithmetic, is the MTTKRP of mode n up to k roundings: entry by entry the error is at most
    (1+u)^k - 1 times the MTTKRP of the absolute values (so every entry has a small error relative to what it is
    the sum of; there is no better bound when the summands cancel) *)
Definition mttkrp_within {rnd} (u : R) (k : nat) (V : tensor (Fl rnd)) (W : list (tensor (Fl rnd))) (n rk : nat) (M : tensor (Fl rnd)) : Prop :=
  is_mat M (nth n (lens V) 0%nat) rk /\
  forall a r, (a < nth n (lens V) 0)%nat -> (r < rk)%nat ->
    Rabs (el M a r - @el Rnum (mttkrp (reals V) (map reals W) n rk) a r)
      <= gam u k * @el Rnum (mttkrp (absols V) (map absols W) n rk) a r.

(** the number of roundings of an MTTKRP of mode n: for each contracted mode its length and three more *)
Definition mode_roundings (ls : list nat) (n : nat) : nat :=
  fold_right Nat.add 0%nat (map (fun m => nth m ls 0 + 3)%nat (others n (length ls))).

(** rounding to nearest even with 53 significant bits (Flocq): what the program's doubles do when nothing overflows
    or underflows *)
From Flocq Require Import Core.
Definition round53 (x : R) : R := round radix2 (FLX_exp 53) ZnearestE x.
