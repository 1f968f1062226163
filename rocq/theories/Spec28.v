(** Specification for the rounding-error theorems, part 2: the logged residual norm and the gradient *)
From Coq Require Import List ZArith Reals.
From Verif Require Import Num NumR Tensor Spec Spec27.
Import ListNotations.
Local Open Scope R_scope.

(** the norm of |V| + [[ |W_0|, |W_1|, .. ]]: what the residual is a difference of *)
Definition mass_norm {rnd} (V : tensor (Fl rnd)) (W : list (tensor (Fl rnd))) (rk : nat) : R :=
  @norm2 Rnum (@tabulate Rnum (lens V) (fun x => Rabs (at_ V x) + @cp_at Rnum (map absols W) rk x)).

(** the gradient of mode n is W_n H_n - MTTKRP_n; what it is a difference of: |W_n| H_n(|W|) + MTTKRP_n(|V|, |W|) *)
Definition grad_mass {rnd} (V : tensor (Fl rnd)) (W : list (tensor (Fl rnd))) (rk n : nat) : tensor Rnum :=
  let A := map absols W in
  @tabulate Rnum [nth n (lens V) 0%nat; rk] (fun x =>
    @at_ Rnum (mmul (fac A n) (hgram A n rk)) x + @at_ Rnum (mttkrp (absols V) A n rk) x).
(** G is the gradient of mode n up to k roundings *)
Definition grad_within {rnd} (u : R) (k : nat) (V : tensor (Fl rnd)) (W : list (tensor (Fl rnd))) (n rk : nat) (G : tensor (Fl rnd)) : Prop :=
  is_mat G (nth n (lens V) 0%nat) rk /\
  forall a r, (a < nth n (lens V) 0)%nat -> (r < rk)%nat ->
    Rabs (el G a r - @el Rnum (grad_spec (reals V) (map reals W) rk n) a r) <= gam u k * @el Rnum (grad_mass V W rk n) a r.
(** roundings of a gradient of mode n: for each other mode its length and four more, the rank and five more *)
Definition grad_roundings (ls : list nat) (n rk : nat) : nat :=
  (fold_right Nat.add 0 (map (fun m => nth m ls 0 + 4) (others n (length ls))) + rk + 5)%nat.
