(** More specification: pairwise-perturbation sweeps and the driver's tests *)
From Coq Require Import List ZArith Bool Arith.
From Verif Require Import Base Num Tensor Spec.
Import ListNotations.

Section S.
Context {N : num}.
Local Open Scope num_scope.
(** one zero matrix per mode *)
Definition zmats (V : tensor N) (R : nat) : list (tensor N) :=
  map (fun m => zeros [nth m (lens V) 0%nat; R]) (seq 0 (order V)).
(** an exact ALS sweep followed by the rescaling of the factors *)
Definition exact_sweep (solve : tensor N -> tensor N -> tensor N) (lambda : N) (V : tensor N) (R : nat) (W : list (tensor N))
  : list (tensor N) := rescaled (als_sweep solve lambda V (zmats V R) R W).
(** a pairwise-perturbation sweep at checkpoint W0: all modes in order, then the factors (not the
    perturbations) are rescaled *)
Definition pp_sweep (solve : tensor N -> tensor N -> tensor N) (lambda ratio : N) (V : tensor N) (W0 : list (tensor N))
  (R : nat) (st : list (tensor N) * list (tensor N)) : list (tensor N) * list (tensor N) :=
  let '(W, dW) := pp_upto solve lambda ratio V W0 R (order V) st in (rescaled W, dW).
(** relative size of the last change of factor m *)
Definition rel_change (W dW : list (tensor N)) (m : nat) : N := nabs (norm2 (fac dW m) / norm2 (fac W m)).
End S.

(** ** pairwise perturbation with partial updates: besides the factors W and their perturbations dW, one accumulated
    correction dM_j per mode; M_j and G_j are the approximate MTTKRP and the gradient last computed for mode j *)
Section PU.
Context {N : num}.
Local Open Scope num_scope.
Record pu_st := mkPu { suW : list (tensor N); sudW : list (tensor N); sudM : list (tensor N);
                       suM : list (tensor N); suG : list (tensor N) }.
(** mode i is solved with the checkpoint MTTKRP plus dM_i; its new perturbation D is then propagated:
    dM_i becomes zero, every other dM_j grows by the checkpoint MTTKRP with factor i replaced by D *)
Definition pu_update (solve : tensor N -> tensor N -> tensor N) (lambda ratio : N) (V : tensor N) (W0 : list (tensor N))
  (R : nat) (st : pu_st) (i : nat) : pu_st :=
  let M := madd (mttkrp V W0 i R) (fac (sudM st) i) in
  let S := als_lhs lambda (suW st) R i in
  let D := mscal ratio (msub (solve M S) (fac W0 i)) in
  mkPu (setf (suW st) i (madd (fac W0 i) D)) (setf (sudW st) i D)
       (map (fun j => if Nat.eqb j i then zeros [nth i (lens V) 0%nat; R]
                      else madd (fac (sudM st) j) (mttkrp V (setf W0 i D) j R)) (seq 0 (order V)))
       (setf (suM st) i M) (setf (suG st) i (msub (mmul (fac (suW st) i) S) M)).
Definition pu_modes (solve : tensor N -> tensor N -> tensor N) (lambda ratio : N) (V : tensor N) (W0 : list (tensor N))
  (R : nat) (modes : list nat) (st : pu_st) : pu_st := fold_left (pu_update solve lambda ratio V W0 R) modes st.
(** a sweep over the given modes: then the factors are rescaled *)
Definition pu_sweep (solve : tensor N -> tensor N -> tensor N) (lambda ratio : N) (V : tensor N) (W0 : list (tensor N))
  (R : nat) (modes : list nat) (st : pu_st) : pu_st :=
  let st := pu_modes solve lambda ratio V W0 R modes st in
  mkPu (rescaled (suW st)) (sudW st) (sudM st) (suM st) (suG st).
End PU.
Arguments pu_st : clear implicits.
