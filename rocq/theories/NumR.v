(** The real numbers as an instance of [num].  Uses the axioms of the standard library Reals. *)
From Coq Require Import List ZArith QArith Reals Qreals Ring_theory RealField Lra Lia Bool.
From Verif Require Import Num.
Import ListNotations.
Local Open Scope R_scope.

Definition Rltb (x y : R) : bool := if Rlt_dec x y then true else false.
Definition Reqb (x y : R) : bool := if Req_EM_T x y then true else false.
(** pow(x, 1.0/n); pow(0, 1/n) = 0 *)
Definition Rroot (n : nat) (x : R) : R := if Rlt_dec 0 x then Rpower x (/ INR n) else 0.
Definition Rnum : num := mkNum R 0 1 Rplus Rminus Rmult Ropp Rdiv sqrt Rabs Rltb Reqb Rroot Q2R.

Lemma Rnum_ring : ring_laws Rnum.
Proof. exact RTheory. Qed.
Lemma Rltb_spec x y : reflect (x < y) (Rltb x y).
Proof. unfold Rltb. destruct (Rlt_dec x y); constructor; auto. Qed.
Lemma Reqb_spec x y : reflect (x = y) (Reqb x y).
Proof. unfold Reqb. destruct (Req_EM_T x y); constructor; auto. Qed.
Lemma Rnle (x y : R) : @nle Rnum x y <-> x <= y.
Proof. unfold nle. cbn. destruct (Rltb_spec y x); split; intros; try lra; discriminate. Qed.
Lemma Rnum_ord : ord_laws Rnum.
Proof.
  split; intros; rewrite ?Rnle in *; cbn in *; try lra.
  apply Rle_0_sqr.
Qed.
Lemma Rnum_asym : lt_asym Rnum.
Proof. intros x y. cbn. destruct (Rltb_spec x y), (Rltb_spec y x); auto; try discriminate; lra. Qed.
Lemma Rroot_pow n x : (0 < n)%nat -> 0 <= x -> Rroot n x ^ n = x.
Proof.
  intros Hn Hx. unfold Rroot. destruct (Rlt_dec 0 x) as [H|H].
  - rewrite <- Rpower_pow by apply exp_pos. rewrite Rpower_mult.
    replace (/ INR n * INR n) with 1; [apply Rpower_1; auto|]. field. apply not_0_INR. lia.
  - assert (x = 0) by lra. subst. apply pow_ne_zero. lia.
Qed.
Lemma Rroot_nonneg n x : 0 <= Rroot n x.
Proof. unfold Rroot. destruct (Rlt_dec 0 x); [|lra]. left. apply exp_pos. Qed.
