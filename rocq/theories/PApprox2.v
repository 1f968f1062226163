(** Over the reals: a pairwise-perturbation sweep as a sequence of inexact updates *)
From Coq Require Import List ZArith QArith Lia Bool Arith Reals Lra.
From Verif Require Import Base Num NumR Tensor Spec Spec2 Spec3 Spec10 Spec11 Spec12 Spec19 Spec20 MCommon MCP PBase PTensor PSum PMttkrp PMat PMatAlg PResid PGrad PRank PNormalize PALS PMono PMono2 PTuckMono
  PConv PConv2 PConv4 PErr PErr2 PPP PPPSweep PApprox.
Import ListNotations.
Local Close Scope Q_scope.
Local Open Scope R_scope.
Local Notation RL := Rnum_ring.
Local Notation bs := (bigsum (N:=Rnum)).
Local Notation bp := (bigprod (N:=Rnum)).

Section Sweep.
Context (LA : lapack Rnum) (Hsh : svd_shaped (svd LA)) (V : tensor Rnum) (rk : nat) (lambda t : R) (W0 W dW : list (tensor Rnum)).
Let o := order V.
Notation solve := (pinv_solve (svd LA) rk).
Notation U n := (pp_upto solve (lambda : Rnum) (t : Rnum) V W0 rk n (W, dW)).
Hypothesis Hl : 0 < lambda.
Hypothesis Ht : 0 <= t <= 1.
Hypothesis HW0 : factors_ok V W0 rk.
Hypothesis HW : factors_ok V W rk.
Hypothesis HD : mats_ok V dW rk.
Hypothesis Hcase : t = 1 \/ W = W0.
Hypothesis Hlen : forall n, (n < o)%nat -> (0 < nth n (lens V) 0)%nat.
Hypothesis Hv : forall n, (n < o)%nat -> svd_valid (svd LA) (als_lhs (lambda : Rnum) (fst (U n)) rk n) rk.
(** error of the MTTKRP that mode n is updated with, against the factors present then *)
Definition mode_error (n : nat) : R := norm2 (msub (mttkrp V (fst (U n)) n rk) (pp_mttkrp V W0 (snd (U n)) n rk)).
Lemma upto_keeps n : (n < o)%nat -> fac (fst (U n)) n = fac W n.
Proof.
  intros Hn. assert (G : forall k, (k <= n)%nat -> fac (fst (U k)) n = fac W n).
  { induction k as [|k IH]; intros Hk; [reflexivity|]. rewrite upto_S'. pose proof (upto_len V rk solve (lambda : Rnum) (t : Rnum) W0 k W dW) as [L1 _].
    specialize (IH ltac:(lia)). destruct (U k) as [Wk dk]. cbn [fst snd] in *. unfold pp_update. cbn [fst].
    assert (LW : length W = o) by apply HW. rewrite fac_setf by lia. destruct (Nat.eqb_spec n k); [lia|]. exact IH. }
  apply G. lia.
Qed.
Lemma pp_update_is n : (n < o)%nat ->
  let X := solve (pp_mttkrp V W0 (snd (U n)) n rk) (als_lhs (lambda : Rnum) (fst (U n)) rk n) in
  is_mat X (nth n (lens V) 0%nat) rk /\ mmul X (als_lhs (lambda : Rnum) (fst (U n)) rk n) = pp_mttkrp V W0 (snd (U n)) n rk /\
  fst (U (S n)) = setf (fst (U n)) n (madd (fac (fst (U n)) n) (mscal (t : Rnum) (msub X (fac (fst (U n)) n)))).
Proof.
  intros Hn X. destruct (pp_upto_ok RL V rk LA Hsh (lambda : Rnum) (t : Rnum) W0 W dW n HW0 HW HD ltac:(fold o; lia)) as [HU1 HU2].
  assert (Hs : svd_solvable (svd LA) (als_lhs (lambda : Rnum) (fst (U n)) rk n) rk) by (apply (valid_solvable _ V); auto).
  destruct (pinv_solves RL LA Hsh (pp_mttkrp V W0 (snd (U n)) n rk) (als_lhs (lambda : Rnum) (fst (U n)) rk n) (nth n (lens V) 0%nat) rk (pp_mttkrp_mat _ _ _ _ _) (lhs_mat _ _ _ _) Hs) as [HX EX].
  fold X in HX, EX. split; [exact HX|]. split; [exact EX|].
  rewrite (upto_keeps n Hn). rewrite upto_S'. unfold X in *. destruct (U n) as [Wn dn]. cbn [fst snd] in *. unfold pp_update, pp_step. cbn [fst]. f_equal.
  set (Y := pinv_solve (svd LA) rk (pp_mttkrp V W0 dn n rk) (als_lhs (lambda : Rnum) Wn rk n)) in *.
  destruct Hcase as [-> | ->]; [|reflexivity].
  assert (HA : is_mat (fac W n) (nth n (lens V) 0%nat) rk) by (apply HW; auto). assert (HA0 : is_mat (fac W0 n) (nth n (lens V) 0%nat) rk) by (apply HW0; auto).
  set (r := nth n (lens V) 0%nat) in *.
  apply (mat_ext _ _ r rk); [apply madd_mat; auto|apply madd_mat; auto|]. intros i j Hi Hj.
  rewrite !(el_madd _ _ r rk), !(el_mscal _ _ r rk), !(el_msub _ _ r rk) by (auto; apply msub_mat'; auto).
  generalize (el (fac W0 n) i j) (el (fac W n) i j) (el Y i j). intros a b y. change (a + 1 * (y - a) = b + 1 * (y - b)). ring.
Qed.
Theorem upto_objective n : (n <= o)%nat ->
  objective (lambda : Rnum) V (fst (U n)) rk <= objective (lambda : Rnum) V W rk + t * (bs (seq 0 n) (fun m => mode_error m * mode_error m) / lambda).
Proof.
  induction n as [|n IH]; intros Hn; [cbn [seq]; change (bs [] (fun m => mode_error m * mode_error m)) with 0; cbn [pp_upto seq fold_left fst]; unfold Rdiv; rewrite Rmult_0_l, Rmult_0_r; apply Req_le; symmetry; apply Rplus_0_r|].
  specialize (IH ltac:(lia)). destruct (pp_update_is n ltac:(lia)) as (HX & EX & EU).
  destruct (pp_upto_ok RL V rk LA Hsh (lambda : Rnum) (t : Rnum) W0 W dW n HW0 HW HD ltac:(fold o; lia)) as [HU1 HU2].
  destruct (inexact_update V (fst (U n)) rk n lambda HU1 ltac:(fold o; lia) Hl _ _ HX EX t _ Ht eq_refl) as [_ H].
  cbv beta in EU. rewrite EU. eapply Rle_trans; [exact H|]. rewrite seq_S, bs_app. cbn [plus]. 
  change (bs [n] (fun m => mode_error m * mode_error m)) with (mode_error n * mode_error n + 0). fold (mode_error n).
  set (a := objective (lambda : Rnum) V W rk) in *. set (b := objective (lambda : Rnum) V (fst (U n)) rk) in *. set (s := bs (seq 0 n) (fun m => mode_error m * mode_error m)) in *. set (e := mode_error n).
  change (car Rnum) with R in *. clearbody a b s e. apply Rle_trans with (a + t * (s / lambda) + t * (e * e / lambda)); [apply Rplus_le_compat_r; exact IH|]. apply Req_le. field. lra.
Qed.
Theorem sweep_objective : (1 <= o)%nat -> (forall m, (m < o)%nat -> norm2 (fac (fst (U o)) m) <> 0) ->
  objective (lambda : Rnum) V (fst (pp_sweep solve (lambda : Rnum) (t : Rnum) V W0 rk (W, dW))) rk
  <= objective (lambda : Rnum) V W rk + t * (bs (seq 0 o) (fun m => mode_error m * mode_error m) / lambda).
Proof.
  intros Ho Hnz. pose proof (upto_objective o ltac:(lia)) as H. destruct (pp_upto_ok RL V rk LA Hsh (lambda : Rnum) (t : Rnum) W0 W dW o HW0 HW HD ltac:(fold o; lia)) as [HU1 _].
  assert (E : fst (pp_sweep solve (lambda : Rnum) (t : Rnum) V W0 rk (W, dW)) = rescaled (fst (U o))).
  { unfold pp_sweep. fold o. destruct (U o). reflexivity. }
  rewrite E. eapply Rle_trans; [|exact H]. apply rescaled_objective; auto. lra.
Qed.
(** each new factor against the exact update from the same factors *)
Theorem update_close n : (n < o)%nat ->
  norm2 (msub (solve (pp_mttkrp V W0 (snd (U n)) n rk) (als_lhs (lambda : Rnum) (fst (U n)) rk n)) (solve (mttkrp V (fst (U n)) n rk) (als_lhs (lambda : Rnum) (fst (U n)) rk n)))
  <= mode_error n / lambda.
Proof.
  intros Hn. destruct (pp_update_is n Hn) as (HX & EX & _).
  destruct (pp_upto_ok RL V rk LA Hsh (lambda : Rnum) (t : Rnum) W0 W dW n HW0 HW HD ltac:(fold o; lia)) as [HU1 HU2].
  assert (Hs : svd_solvable (svd LA) (als_lhs (lambda : Rnum) (fst (U n)) rk n) rk) by (apply (valid_solvable _ V); auto).
  destruct (pinv_solves RL LA Hsh (mttkrp V (fst (U n)) n rk) (als_lhs (lambda : Rnum) (fst (U n)) rk n) (nth n (lens V) 0%nat) rk (mttkrp_mat _ _ _ _) (lhs_mat _ _ _ _) Hs) as [HX1 EX1].
  apply (inexact_close V (fst (U n)) rk n lambda HU1 Hn Hl _ _ (pp_mttkrp_mat _ _ _ _ _) HX EX _ HX1 EX1).
Qed.
End Sweep.
