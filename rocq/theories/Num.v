(** The element type of tensors: a record of operations without laws. *)
From Coq Require Import List ZArith QArith Ring_theory Bool Lia.
Import ListNotations.

Record num : Type := mkNum {
  car :> Type;
  n0 : car; n1 : car;
  nadd : car -> car -> car;
  nsub : car -> car -> car;
  nmul : car -> car -> car;
  nopp : car -> car;
  ndiv : car -> car -> car;
  nsqrt : car -> car;
  nabs : car -> car;
  nltb : car -> car -> bool;     (* the C++ comparison <  on double *)
  neqb : car -> car -> bool;     (* the C++ comparison == on double *)
  nroot : nat -> car -> car;     (* pow(x, 1.0/N) *)
  nlit : Q -> car;               (* a literal or a conversion from int *)
}.
Arguments n0 {n}. Arguments n1 {n}. Arguments nadd {n}. Arguments nsub {n}. Arguments nmul {n}.
Arguments nopp {n}. Arguments ndiv {n}. Arguments nsqrt {n}. Arguments nabs {n}.
Arguments nltb {n}. Arguments neqb {n}. Arguments nroot {n}. Arguments nlit {n}.

Declare Scope num_scope.
Delimit Scope num_scope with num.
Infix "+" := nadd : num_scope.
Infix "-" := nsub : num_scope.
Infix "*" := nmul : num_scope.
Infix "/" := ndiv : num_scope.
Notation "- x" := (nopp x) : num_scope.

(** Hypotheses used by the theorems *)
Definition ring_laws (N : num) : Prop :=
  ring_theory (@n0 N) n1 nadd nmul nsub nopp (@eq N).
(** the only law the control-flow theorems use: < is asymmetric (true of IEEE doubles with NaN) *)
Definition lt_asym (N : num) : Prop :=
  forall x y : N, nltb x y = true -> nltb y x = false.

(** x <= y, as the negation of the C++ comparison y < x *)
Definition nle {N : num} (x y : N) : Prop := nltb y x = false.
(** the order facts used for monotonicity: true of any ordered ring *)
Record ord_laws (N : num) : Prop := {
  le_refl : forall x : N, nle x x;
  le_trans : forall x y z : N, nle x y -> nle y z -> nle x z;
  le_sq : forall x : N, nle n0 (nmul x x);
  le_add : forall x y : N, nle n0 x -> nle n0 y -> nle n0 (nadd x y);
  le_add_r : forall x y : N, nle n0 y -> nle x (nadd x y);
}.
Arguments le_refl {N}. Arguments le_trans {N}. Arguments le_sq {N}. Arguments le_add {N}. Arguments le_add_r {N}.

(** integers, for executable witnesses *)
Definition Znum : num := mkNum Z 0%Z 1%Z Z.add Z.sub Z.mul Z.opp Z.div Z.sqrt Z.abs Z.ltb Z.eqb
  (fun _ x => x) (fun q => Z.div (Qnum q) (Zpos (Qden q))).
Lemma Znum_ring : ring_laws Znum.
Proof. exact InitialRing.Zth. Qed.

Lemma Znum_ord : ord_laws Znum.
Proof.
  assert (E : forall x y : Znum, nle x y <-> (x <= y)%Z).
  { intros. unfold nle. cbn. rewrite Z.ltb_ge. tauto. }
  split; intros; rewrite ?E in *; cbn in *; nia.
Qed.
