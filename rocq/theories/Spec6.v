(** Specification of the command line (independent of the model). *)
From Coq Require Import List ZArith QArith String Ascii.
From Verif Require Import Num.
Import ListNotations.
Local Open Scope string_scope.

(** v follows the first occurrence of the option o *)
Definition chosen (argv : list string) (o v : string) : Prop :=
  exists pre post, argv = (pre ++ o :: v :: post)%list /\ ~ In o pre.
(** x is the converted token if the option is given with an acceptable value, and the default otherwise *)
Definition setting {A} (argv : list string) (o : string) (conv : string -> A) (ok : A -> Prop) (dflt x : A) : Prop :=
  (forall v, chosen argv o v -> ok (conv v) -> x = conv v) /\
  (forall v, chosen argv o v -> ~ ok (conv v) -> x = dflt) /\
  ((forall v, ~ chosen argv o v) -> x = dflt).
(** acceptable values *)
Definition nonneg (x : Z) : Prop := (0 <= x)%Z.
Definition between (lo hi x : Z) : Prop := (lo <= x <= hi)%Z.
Definition at_least {N : num} (lo x : N) : Prop := nle lo x.
Definition in01 {N : num} (x : N) : Prop := nle (nlit 0) x /\ nle x (nlit 1).
Definition starts_CT (m : string) : Prop := String.get 0 m = Some "C"%char \/ String.get 0 m = Some "T"%char.
Definition anything {A} (x : A) : Prop := True.

(** ** what atoi makes of a token: blanks, a sign, digits, anything that does not start with a digit *)
Definition blank (c : ascii) : Prop := List.In c [" "; "009"; "010"; "011"; "012"; "013"]%char.
Definition is_digit (c : ascii) : Prop := List.In c ["0"; "1"; "2"; "3"; "4"; "5"; "6"; "7"; "8"; "9"]%char.
Definition signed (c : ascii) : Prop := c = "+"%char \/ c = "-"%char.
Definition starts_with (P : ascii -> Prop) (s : string) : Prop := exists c r, s = String c r /\ P c.
Fixpoint all_chars (P : ascii -> Prop) (s : string) : Prop := match s with EmptyString => True | String c r => P c /\ all_chars P r end.
(** the number written by a string of digits *)
Fixpoint value_from (acc : Z) (s : string) : Z :=
  match s with EmptyString => acc | String c r => value_from (10 * acc + (Z.of_nat (nat_of_ascii c) - 48)) r end.
Definition value (s : string) : Z := value_from 0 s.
(** y is what an int holds after the conversion of v: strtol saturates to 64 bits, and the low 32 bits are kept *)
Definition as_int (v y : Z) : Prop :=
  (- 2 ^ 31 <= y < 2 ^ 31)%Z /\ exists k, Z.max (- 2 ^ 63) (Z.min v (2 ^ 63 - 1)) = (y + k * 2 ^ 32)%Z.
