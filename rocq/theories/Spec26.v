(** Specification for C82: outcomes of a function whose ints are 32 bits wide. *)
From Verif Require Import Base.
(** [a] is the outcome with checked 32-bit arithmetic, [b] the one over the integers: the same, or undefined because of an overflow *)
Definition or_ub {A : Type} (a b : res A) : Prop := a = b \/ a = Err UB.
