(** Specification: tensors of doubles without finite entries *)
From Coq Require Import List ZArith Bool Arith SpecFloat.
From Verif Require Import Base Num NumF Tensor Spec MCommon.
Import ListNotations.

Section S.
Context (root : nat -> spec_float -> spec_float).
Let N := F64 root.
(** every entry is infinite or NaN *)
Definition lost (T : tensor N) : Prop := forall x, In x (data T) -> nonfinite x.
(** every entry is a zero (of either sign) *)
Definition all_zero (T : tensor N) : Prop := forall x, In x (data T) -> exists s, x = S754_zero s.
(** the decomposition of S reports a zero singular value *)
Definition reports_singular (svd : tensor N -> nat -> tensor N * tensor N * tensor N) (S : tensor N) (k : nat) : Prop :=
  let '(_, s, _) := svd S k in lens s = [k] /\ wf s /\ exists j b, (j < k)%nat /\ at_ s [j] = S754_zero b.
(** non-empty matrices *)
Definition proper (W : list (tensor N)) : Prop := forall T, In T W -> wf T /\ order T = 2 /\ forall n, In n (lens T) -> (0 < n)%nat.
(** the gradient norm a check measures: the root of the sum of the squared Frobenius norms *)
Definition measured (G : list (tensor N)) : N := nsqrt (fold_left (fun a g => nadd a (nmul (norm2 g) (norm2 g))) G n0).
End S.
Arguments proper {root}. Arguments measured {root}.
Arguments lost {root}. Arguments all_zero {root}. Arguments reports_singular {root}.
