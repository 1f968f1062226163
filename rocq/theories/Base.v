(** Outcomes, loops, C character buffers.  This file is the small part of the semantics of C++
    that every function of the model uses.  It models no particular line of /repo. *)
From Coq Require Import List ZArith Lia Bool Arith.
Import ListNotations.

(** ** Outcomes *)
Inductive error : Type :=
| UB          (* undefined behaviour: out of bounds, uninitialised read, division by zero, double free *)
| CtfError    (* the tensor library aborts: wrong index string or mismatching lengths *)
| AssertFail  (* assert() / IASSERT fails *)
| OutOfFuel   (* the fuel of a recursive model function ran out *)
| LoopFuel.   (* the fuel of a while loop of a driver ran out: the loop is still running *)

Inductive res (A : Type) : Type :=
| Ok : A -> res A
| Err : error -> res A.
Arguments Ok {A}. Arguments Err {A}.

Definition bind {A B} (x : res A) (f : A -> res B) : res B :=
  match x with Ok a => f a | Err e => Err e end.

Notation "x <- a ;; b" := (bind a (fun x => b)) (at level 61, a at next level, right associativity).
Notation "' p <- a ;; b" := (bind a (fun p => b)) (at level 61, p pattern, a at next level, right associativity).

Definition of_opt {A} (e : error) (o : option A) : res A :=
  match o with Some a => Ok a | None => Err e end.

(** ** Counting loops: [for_ lo hi body s] is  for (int i = lo; i < hi; i++) s = body i s. *)
Fixpoint loop {S : Type} (n i : nat) (body : nat -> S -> res S) (s : S) : res S :=
  match n with
  | O => Ok s
  | Datatypes.S n' => s' <- body i s ;; loop n' (Datatypes.S i) body s'
  end.
Definition for_ {S} (lo hi : nat) (body : nat -> S -> res S) (s : S) : res S :=
  loop (hi - lo) lo body s.

(** ** C arrays: [option] because a local array starts uninitialised. *)
Notation buf A := (list (option A)).
Definition newbuf {A} (n : nat) : buf A := repeat None n.

Fixpoint lset {A} (l : list A) (i : nat) (a : A) : list A :=
  match l, i with
  | [], _ => []
  | _ :: l', O => a :: l'
  | x :: l', S i' => x :: lset l' i' a
  end.

Definition bset {A} (b : buf A) (i : nat) (a : A) : res (buf A) :=
  if i <? length b then Ok (lset b i (Some a)) else Err UB.
Definition bget {A} (b : buf A) (i : nat) : res A :=
  match nth_error b i with Some (Some a) => Ok a | _ => Err UB end.
(** arrays and vectors that are always initialised *)
Definition lget {A} (l : list A) (i : nat) : res A := of_opt UB (nth_error l i).
Definition lput {A} (l : list A) (i : nat) (a : A) : res (list A) :=
  if i <? length l then Ok (lset l i a) else Err UB.

(** [take n b]: the first n elements, all of them initialised. *)
Fixpoint take {A} (n : nat) (b : buf A) : res (list A) :=
  match n with
  | O => Ok []
  | S n' => match b with
            | Some a :: b' => r <- take n' b' ;; Ok (a :: r)
            | _ => Err UB
            end
  end.

(** ** Characters: signed 8-bit codes *)
Local Open Scope Z_scope.
Notation str := (list Z).
Definition to_char (z : Z) : Z := (z + 128) mod 256 - 128.
(** the C expression  'a' + i  stored in a char *)
Definition chr (i : nat) : Z := to_char (97 + Z.of_nat i).
(** the C expression  (int)(c - 'a')  used as an array index: negative is out of bounds *)
Definition ix (c : Z) : res nat :=
  if c - 97 <? 0 then Err UB else Ok (Z.to_nat (c - 97)).

Definition ch_star : Z := 42.  (* '*' *)
Definition ch_amp  : Z := 38.  (* '&' *)
Definition ch_hat  : Z := 94.  (* '^' *)
Definition ch_i : Z := 105.
Definition ch_j : Z := 106.
Definition ch_k : Z := 107.
Definition ch_l : Z := 108.
Definition ch_r : Z := 114.

(** reading a NUL-terminated C string from a buffer; running off the end or reading
    uninitialised memory is undefined *)
Fixpoint cstr (b : buf Z) : res str :=
  match b with
  | [] => Err UB
  | None :: _ => Err UB
  | Some c :: b' => if Z.eqb c 0 then Ok [] else r <- cstr b' ;; Ok (c :: r)
  end.

(** strncpy(dst, src, n) for n <= strlen(src): copies n characters, no terminator *)
Fixpoint strncpy (dst : buf Z) (off : nat) (src : str) : res (buf Z) :=
  match src with
  | [] => Ok dst
  | c :: src' => d <- bset dst off c ;; strncpy d (S off) src'
  end.

Fixpoint str_eqb (a b : str) : bool :=
  match a, b with
  | [], [] => true
  | x :: a', y :: b' => Z.eqb x y && str_eqb a' b'
  | _, _ => false
  end.

(** ** String maps: std::map<string,X> *)
Definition smap (A : Type) := str -> option A.
Definition sempty {A} : smap A := fun _ => None.
Definition sput {A} (m : smap A) (k : str) (a : A) : smap A :=
  fun k' => if str_eqb k' k then Some a else m k'.
(** m[k] for a map<string,string>: a missing key default-constructs the empty string *)
Definition sget (m : smap str) (k : str) : str :=
  match m k with Some s => s | None => [] end.
