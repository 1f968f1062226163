(** Specification for C76: what "the linear systems met in the first K steps are solved exactly" means for each optimizer of
    the CPD class, and the residual written in a row of its log *)
From Coq Require Import List ZArith Bool Arith.
From Verif Require Import Base Num Tensor Spec Spec3 Spec10 Spec11 MCommon MCPD PCPD.
Import ListNotations.

(** the modes updated by the first K steps of the three exact optimizers *)
Definition exact_schedule (m : cpd_method) (o K : nat) : list nat :=
  match m with
  | Simple => concat (repeat (seq 0 o) K)
  | TwoSubtree => dt_schedule o K
  | MultiSweep => ms_schedule o K
  | TwoSubtreeLR _ _ | MultiSweepLR _ _ => []
  end.
(** every Cholesky factorisation and triangular solve met in the first K steps is exact; for the two-subtree low-rank optimizer also the
    truncated decompositions are best approximations (acts_exact).  Nothing is claimed for the multi-sweep low-rank optimizer *)
Definition systems_exact {N : num} (m : cpd_method) (LA : lapack N) (lambda : N) (V : tensor N) (R : nat) (W G : list (tensor N)) (K : nat) : Prop :=
  match m with
  | Simple | TwoSubtree | MultiSweep => exact_along (cholesky LA) (solve_tri LA) lambda V R (exact_schedule m (order V) K) (W, G)
  | TwoSubtreeLR r rs => acts_exact (cholesky LA) (solve_tri LA) (trunc_of (svd LA) (qr_q LA) (rnd LA) rs) r lambda V R
      (dl_schedule (order V) K) (mkLR W G (repeat tnil (order V)) 0)
  | MultiSweepLR _ _ => False
  end.
Definition crow_residual {N : num} (r : crow N) : option N := match r with CRow _ _ _ _ e _ => Some e | _ => None end.
