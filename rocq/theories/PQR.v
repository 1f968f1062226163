(** Over the reals every matrix with at least as many rows as columns factors as a matrix with orthonormal columns times a square matrix *)
From Coq Require Import List ZArith QArith Reals Lia Lra Bool Arith Psatz.
From Verif Require Import Base Num NumR Tensor PTensor PSum PKyFan.
Import ListNotations.
Local Close Scope Q_scope.
Local Open Scope R_scope.

Definition orth (n r : nat) (Q : nat -> nat -> R) : Prop :=
  forall i j, (i < r)%nat -> (j < r)%nat -> sm n (fun a => Q a i * Q a j) = dl i j.
Definition rsd (n r : nat) (Q : nat -> nat -> R) (p : nat -> R) (a : nat) : R :=
  p a - sm r (fun i => Q a i * sm n (fun b => Q b i * p b)).
Lemma rsd_orth n r Q p i : orth n r Q -> (i < r)%nat -> sm n (fun a => Q a i * rsd n r Q p a) = 0.
Proof.
  intros HQ Hi. unfold rsd. set (c := fun j => sm n (fun b => Q b j * p b)).
  rewrite (sm_ext n _ (fun a => Q a i * p a - sm r (fun j => (Q a i * Q a j) * c j))).
  2:{ intros a Ha. rewrite Rmult_minus_distr_l, <- sm_l. f_equal. apply sm_ext. intros; unfold c; ring. }
  rewrite sm_sub, sm_swap. rewrite (sm_ext r _ (fun j => dl i j * c j)).
  - rewrite sm_dl by auto. unfold c. ring.
  - intros j Hj. rewrite sm_r, HQ by auto. auto.
Qed.
(** the squared lengths of the residuals of the unit vectors sum to n - r *)
Lemma rsd_unit n r Q b : orth n r Q -> (b < n)%nat ->
  sm n (fun a => rsd n r Q (dl b) a * rsd n r Q (dl b) a) = 1 - sm r (fun i => Q b i * Q b i).
Proof.
  intros HQ Hb. assert (E : forall a, rsd n r Q (dl b) a = dl b a - sm r (fun i => Q a i * Q b i)).
  { intros a. unfold rsd. f_equal. apply sm_ext. intros i Hi. f_equal. rewrite (sm_ext n _ (fun a => dl b a * Q a i)) by (intros; ring).
    apply (sm_dl n b (fun a => Q a i)). auto. }
  transitivity (sm n (fun a => dl b a * rsd n r Q (dl b) a) - sm n (fun a => sm r (fun i => Q a i * Q b i) * rsd n r Q (dl b) a)).
  { rewrite <- sm_sub. apply sm_ext. intros a Ha. rewrite E at 1. ring. }
  rewrite sm_dl by auto. rewrite E. unfold dl at 1. rewrite Nat.eqb_refl.
  assert (Z : sm n (fun a => sm r (fun i => Q a i * Q b i) * rsd n r Q (dl b) a) = 0).
  { rewrite (sm_ext n _ (fun a => sm r (fun i => Q b i * (Q a i * rsd n r Q (dl b) a)))).
    2:{ intros a Ha. rewrite <- sm_r. apply sm_ext. intros; ring. }
    rewrite sm_swap. rewrite (sm_ext r _ (fun _ => 0)); [apply sm_zero|]. intros i Hi. rewrite sm_l, rsd_orth by auto. ring. }
  rewrite Z. ring.
Qed.
Lemma orth_trace n r Q : orth n r Q -> sm n (fun b => sm r (fun i => Q b i * Q b i)) = INR r.
Proof.
  intros HQ. rewrite sm_swap. rewrite (sm_ext r _ (fun _ => 1)).
  - rewrite sm_const. ring.
  - intros i Hi. rewrite HQ by auto. unfold dl. rewrite Nat.eqb_refl. auto.
Qed.
Lemma ex_unit n r Q : orth n r Q -> (r < n)%nat ->
  exists b, (b < n)%nat /\ 0 < sm n (fun a => rsd n r Q (dl b) a * rsd n r Q (dl b) a).
Proof.
  intros HQ Hr. set (f := fun b => sm n (fun a => rsd n r Q (dl b) a * rsd n r Q (dl b) a)).
  assert (P : forall b, (b < n)%nat -> 0 <= f b) by (intros b Hb; apply sm_nonneg; intros; apply Rle_0_sqr).
  assert (S : sm n f = INR n - INR r).
  { rewrite (sm_ext n f (fun b => 1 - sm r (fun i => Q b i * Q b i))) by (intros b Hb; apply rsd_unit; auto).
    rewrite sm_sub, sm_const, (orth_trace n r Q HQ). ring. }
  assert (Hp : 0 < sm n f) by (rewrite S; apply lt_INR in Hr; lra).
  change (exists b, (b < n)%nat /\ 0 < f b). clear S. clearbody f. clear Hr HQ. induction n; [rewrite sm_0 in Hp; lra|]. rewrite sm_S in Hp.
  destruct (Rlt_dec 0 (f n)) as [H|H]; [exists n; split; [lia|auto]|].
  destruct IHn as (b & Hb & H'); [intros; apply P; lia|apply Rnot_lt_le in H; lra|]. exists b. split; [lia|auto].
Qed.
Lemma normalise n r Q (w : nat -> R) : (forall i, (i < r)%nat -> sm n (fun a => Q a i * w a) = 0) -> 0 < sm n (fun a => w a * w a) ->
  exists q t, sm n (fun a => q a * q a) = 1 /\ (forall i, (i < r)%nat -> sm n (fun a => Q a i * q a) = 0) /\ forall a, w a = q a * t.
Proof.
  intros H Hp. set (t := sqrt (sm n (fun a => w a * w a))). assert (Ht : 0 < t) by (apply sqrt_lt_R0; auto).
  assert (Htt : t * t = sm n (fun a => w a * w a)) by (apply sqrt_sqrt; lra).
  exists (fun a => w a / t), t. split; [|split].
  - rewrite (sm_ext n _ (fun a => w a * w a * / (t * t))) by (intros; field; lra). rewrite sm_r, <- Htt. field. lra.
  - intros i Hi. rewrite (sm_ext n _ (fun a => Q a i * w a * / t)) by (intros; field; lra). rewrite sm_r, H by auto. ring.
  - intros a. field. lra.
Qed.
Lemma next n r Q p : orth n r Q -> (r < n)%nat ->
  exists q t, sm n (fun a => q a * q a) = 1 /\ (forall i, (i < r)%nat -> sm n (fun a => Q a i * q a) = 0) /\
    forall a, (a < n)%nat -> rsd n r Q p a = q a * t.
Proof.
  intros HQ Hr. set (w := rsd n r Q p). assert (P : 0 <= sm n (fun a => w a * w a)) by (apply sm_nonneg; intros; apply Rle_0_sqr).
  destruct (Rle_lt_dec (sm n (fun a => w a * w a)) 0) as [H|H].
  - destruct (ex_unit n r Q HQ Hr) as (b & Hb & Hu).
    destruct (normalise n r Q (rsd n r Q (dl b)) (fun i Hi => rsd_orth n r Q _ i HQ Hi) Hu) as (q & t & H1 & H2 & _).
    exists q, 0. split; [auto|]. split; [auto|]. intros a Ha. rewrite Rmult_0_r.
    pose proof (sm_zero_term n (fun a => w a * w a) (fun i _ => Rle_0_sqr (w i)) H a Ha) as E. cbv beta in E. apply Rmult_integral in E. tauto.
  - destruct (normalise n r Q w (fun i Hi => rsd_orth n r Q _ i HQ Hi) H) as (q & t & H1 & H2 & H3). exists q, t. auto.
Qed.
Theorem qr_exists n r (P : nat -> nat -> R) : (r <= n)%nat ->
  exists Q B, orth n r Q /\ forall a i, (a < n)%nat -> (i < r)%nat -> P a i = sm r (fun k => Q a k * B k i).
Proof.
  induction r as [|r IH]; intros Hr.
  - exists (fun _ _ => 0), (fun _ _ => 0). split; [intros i j Hi; lia|intros a i _ Hi; lia].
  - destruct IH as (Q & B & HQ & HB); [lia|]. destruct (next n r Q (fun a => P a r) HQ ltac:(lia)) as (q & t & H1 & H2 & H3).
    set (Q' := fun a i => if Nat.eqb i r then q a else Q a i).
    set (B' := fun k i => if Nat.eqb i r then (if Nat.eqb k r then t else sm n (fun b => Q b k * P b r)) else (if Nat.eqb k r then 0 else B k i)).
    assert (Q0 : forall a i, (i < r)%nat -> Q' a i = Q a i) by (intros a i Hi; unfold Q'; destruct (Nat.eqb_spec i r); [lia|auto]).
    assert (Q1 : forall a, Q' a r = q a) by (intros a; unfold Q'; rewrite Nat.eqb_refl; auto).
    exists Q', B'. split.
    + intros i j Hi Hj. assert (Ci : (i < r)%nat \/ i = r) by lia. assert (Cj : (j < r)%nat \/ j = r) by lia.
      destruct Ci as [Ci| ->], Cj as [Cj| ->].
      * rewrite (sm_ext n _ (fun a => Q a i * Q a j)) by (intros; rewrite !Q0 by auto; auto). apply HQ; auto.
      * rewrite (sm_ext n _ (fun a => Q a i * q a)) by (intros; rewrite (Q0 _ i) by auto; rewrite Q1; reflexivity). rewrite H2 by auto. unfold dl. destruct (Nat.eqb_spec i r); [lia|reflexivity].
      * rewrite (sm_ext n _ (fun a => Q a j * q a)) by (intros; rewrite (Q0 _ j) by auto; rewrite Q1; ring). rewrite H2 by auto. unfold dl. destruct (Nat.eqb_spec r j); [lia|auto].
      * rewrite (sm_ext n _ (fun a => q a * q a)) by (intros; rewrite !Q1; ring). rewrite H1. unfold dl. rewrite Nat.eqb_refl. auto.
    + intros a i Ha Hi. rewrite sm_S, Q1. assert (Ci : (i < r)%nat \/ i = r) by lia. destruct Ci as [Ci| ->].
      * rewrite (HB a i Ha Ci). assert (E : B' r i = 0) by (unfold B'; destruct (Nat.eqb_spec i r); [lia|]; rewrite Nat.eqb_refl; auto). rewrite E.
        rewrite Rmult_0_r, Rplus_0_r. apply sm_ext. intros k Hk. rewrite Q0 by auto. f_equal. unfold B'.
        destruct (Nat.eqb_spec i r); [lia|]. destruct (Nat.eqb_spec k r); [lia|auto].
      * assert (E : B' r r = t) by (unfold B'; rewrite !Nat.eqb_refl; auto). rewrite E, <- H3 by auto. unfold rsd.
        rewrite (sm_ext r (fun k => Q' a k * B' k r) (fun k => Q a k * sm n (fun b => Q b k * P b r))); [ring|].
        intros k Hk. rewrite Q0 by auto. f_equal. unfold B'. rewrite Nat.eqb_refl. destruct (Nat.eqb_spec k r); [lia|auto].
Qed.
