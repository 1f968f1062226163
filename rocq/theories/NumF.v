(** The element type of the code, binary64, as an instance of [num]: IEEE 754 arithmetic of the standard library (SpecFloat),
    rounding to nearest even, with signed zeros, infinities and NaN.  pow(x, 1.0/n) is a parameter: IEEE 754 does not define it. *)
From Coq Require Import ZArith QArith Bool SpecFloat.
From Verif Require Import Num.
Local Close Scope Q_scope.

Definition f64_lit (q : Q) : spec_float :=
  SFdiv 53 1024 (binary_normalize 53 1024 (Qnum q) 0 false) (binary_normalize 53 1024 (Zpos (Qden q)) 0 false).
Definition F64 (root : nat -> spec_float -> spec_float) : num :=
  mkNum spec_float (S754_zero false) (SFone 53 1024) (SFadd 53 1024) (SFsub 53 1024) (SFmul 53 1024) SFopp (SFdiv 53 1024) (SFsqrt 53 1024) SFabs SFltb SFeqb root f64_lit.

(** infinite or not a number *)
Definition nonfinite (x : spec_float) : Prop := match x with S754_infinity _ | S754_nan => True | _ => False end.
(** +0, -0 or not a number *)
Definition zero_or_nan (x : spec_float) : Prop := match x with S754_zero _ | S754_nan => True | _ => False end.
(** what the theorems assume of pow(x, 1.0/n), n >= 1 (C11, F.10.4.4): pow(+-0, y) is a zero, pow(+-inf, y) is infinite, pow(NaN, y) is NaN for y > 0 *)
Definition pow_contract (root : nat -> spec_float -> spec_float) : Prop :=
  forall n x, 1 <= n -> (nonfinite x -> nonfinite (root n x)) /\ (zero_or_nan x -> zero_or_nan (root n x)).
